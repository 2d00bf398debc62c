(** Lines and columns of a position in a text. *)
From stdpp Require Import base decidable numbers list.
From Coq Require Import NArith.
From Verif Require Import RustStr.

Local Open Scope N_scope.

(** Newlines in a text. *)
Definition newlines (s : list N) : nat := length (filter (fun c => c = 0x0A) s).
(** The width of a text without newlines: tabs count [tab], other characters one. *)
Definition width (tab : N) (s : rstr) : N := fold_right (fun c n => (if c =? 0x09 then tab else 1) + n) 0 s.
(** [s] is [before], the line, and [after]: the line has no newline, and a newline or the
    end of the text is on each side. *)
Definition is_line (s before line after : rstr) : Prop :=
  s = before ++ line ++ after /\ 0x0A ∉ line /\ (before = [] \/ last before = Some 0x0A) /\ (after = [] \/ head after = Some 0x0A).
(** The longest prefix of [s] of at most [o] bytes. *)
Definition longest_prefix (s p : rstr) (o : N) : Prop :=
  p `prefix_of` s /\ str_len p <= o /\ forall p', p' `prefix_of` s -> str_len p' <= o -> p' `prefix_of` p.
(** An underline at column [col] of length [len] below [line] (preceded in the text by
    [before]) covers exactly the characters of [line] that are in [m], where [p] is the text
    before [m]; an underline is never empty, and starts at [m] if [m] starts on this line. *)
Definition marks (tab : N) (p m before line : rstr) (col len : N) : Prop :=
  exists a sel b, line = a ++ sel ++ b /\ col = width tab a /\ len = N.max 1 (width tab sel) /\
    (forall x c y, line = x ++ c :: y -> (length p <= length (before ++ x) < length (p ++ m) <-> length a <= length x < length (a ++ sel))%nat) /\
    (length before <= length p <= length (before ++ line) -> before ++ a = p)%nat.
(** The line (from 0) of the last character of [m], or of its place if it is empty. *)
Definition last_line (p m : rstr) : nat := newlines (p ++ removelast m).
