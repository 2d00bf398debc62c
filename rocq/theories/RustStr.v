(** Rust strings as lists of Unicode scalar values, and the orderings the code uses. *)
From stdpp Require Import base decidable list numbers.
From Coq Require Import NArith.

Local Open Scope N_scope.

(** A Rust [str]: its [char]s. *)
Definition rstr := list N.
(** [char]: a Unicode scalar value. *)
Definition is_scalar (c : N) : bool := (c <? 0xD800) || ((0xE000 <=? c) && (c <=? 0x10FFFF)).
Definition valid_str (s : rstr) : Prop := Forall (fun c => is_scalar c = true) s.

(** [char::encode_utf16], [str::encode_utf16]. *)
Definition utf16_char (c : N) : list N :=
  if c <? 0x10000 then [c]
  else [0xD800 + (c - 0x10000) / 0x400; 0xDC00 + (c - 0x10000) mod 0x400].
Definition utf16 (s : rstr) : list N := concat (map utf16_char s).
(** [char::len_utf8], [str::len]. *)
Definition len_utf8 (c : N) : N := if c <? 0x80 then 1 else if c <? 0x800 then 2 else if c <? 0x10000 then 3 else 4.
Definition str_len (s : rstr) : N := fold_right (fun c n => len_utf8 c + n) 0 s.

(** Lexicographic comparison, shorter first. *)
Fixpoint lex_cmp (a b : list N) : comparison :=
  match a, b with
  | x :: a, y :: b => match x ?= y with Eq => lex_cmp a b | c => c end
  | [], _ :: _ => Lt
  | _ :: _, [] => Gt
  | [], [] => Eq
  end.

(** A stable sort ([slice::sort_by]): the only list that is sorted, a permutation of the
    input, and keeps equal elements in their order; here by insertion. *)
Fixpoint insert_by {A} (cmp : A -> A -> comparison) (x : A) (l : list A) : list A :=
  match l with
  | [] => [x]
  | y :: l => match cmp x y with Gt => y :: insert_by cmp x l | _ => x :: y :: l end
  end.
Definition sort_by {A} (cmp : A -> A -> comparison) (l : list A) : list A := fold_right (insert_by cmp) [] l.
