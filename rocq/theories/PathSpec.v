(** What a normalised path is. *)
From stdpp Require Import base decidable numbers list.
From Coq Require Import NArith.
From Verif Require Import RustStr.

Local Open Scope N_scope.

Definition slash (c : N) : Prop := c = 0x2F \/ c = 0x5C.
(** [parts] are the pieces of [s] between slashes of either kind. *)
Inductive pieces : rstr -> list rstr -> Prop :=
| pieces_one p : (forall c, c ∈ p -> ~ slash c) -> pieces p [p]
| pieces_cons p c s parts : (forall c, c ∈ p -> ~ slash c) -> slash c -> pieces s parts -> pieces (p ++ c :: s) (p :: parts).
(** What the pieces name, from the root: [.] and empty pieces name the same place, [..] the
    place above, or the root itself at the root. *)
Definition resolve (parts : list rstr) : list rstr :=
  foldl (fun (at_ : list rstr) (part : rstr) =>
    if decide (part = [] \/ part = [0x2E]) then at_
    else if decide (part = [0x2E; 0x2E]) then removelast at_
    else at_ ++ [part]) [] parts.
(** A segment that can be in a normalised path. *)
Definition good_segment (p : rstr) : Prop := p <> [] /\ p <> [0x2E] /\ p <> [0x2E; 0x2E] /\ forall c, c ∈ p -> ~ slash c.
(** Segments with single slashes between. *)
Fixpoint joined (segs : list rstr) : rstr :=
  match segs with
  | [] => []
  | [p] => p
  | p :: segs => p ++ 0x2F :: joined segs
  end.
Definition letter (c : N) : Prop := 0x41 <= c <= 0x5A \/ 0x61 <= c <= 0x7A.
Definition lower (c d : N) : Prop := (0x41 <= c <= 0x5A /\ d = c + 32) \/ (0x61 <= c <= 0x7A /\ d = c).
Definition drive_like (s : rstr) : Prop := exists c r, letter c /\ s = c :: 0x3A :: r.
(** [raw] without the Windows prefixes [\\?\] and [//?/]. *)
Definition unextended (raw s : rstr) : Prop :=
  raw = [0x5C; 0x5C; 0x3F; 0x5C] ++ s \/ raw = [0x2F; 0x2F; 0x3F; 0x2F] ++ s \/
  (raw = s /\ ~ [0x5C; 0x5C; 0x3F; 0x5C] `prefix_of` raw /\ ~ [0x2F; 0x2F; 0x3F; 0x2F] `prefix_of` raw).
(** [raw] names the path with the given pieces below the given root. *)
Definition names (raw root : rstr) (parts : list rstr) : Prop :=
  exists s lead rest, unextended raw s /\ s = lead ++ rest /\ (forall c, c ∈ lead -> slash c) /\ (forall c r, rest = c :: r -> ~ slash c) /\
    ((exists c d rest', rest = c :: 0x3A :: rest' /\ lower c d /\ root = [d; 0x3A; 0x2F] /\ pieces rest' parts) \/
     (~ drive_like rest /\ root = [0x2F] /\ pieces rest parts)).
