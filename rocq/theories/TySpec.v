(** What unions and intersections should be. *)
From Coq Require Import NArith ZArith.
From stdpp Require Import base decidable numbers list.
From Verif Require Import TyModel.

(** Values, as far as types tell them apart. *)
Inductive jsval :=
| JBool (b : bool) | JNum (n : Z) | JStr (s : list N) | JBig (z : Z) | JSym (i : N)
| JElse (i : N).

(** The values of a type.  Template literal types denote some set of strings,
    unique symbol types some symbols, and every other kind any set of values. *)
Section values.
Context (template : N -> list ty -> list N -> Prop) (unique : N -> Prop)
        (other : other_kind -> N -> list ty -> jsval -> Prop).
Fixpoint has (t : ty) (v : jsval) : Prop :=
  match t with
  | TAny | TUnknown => True
  | TNever => False
  | TBoolean => exists b, v = JBool b
  | TNumber => exists n, v = JNum n
  | TString => exists s, v = JStr s
  | TBigInt => exists z, v = JBig z
  | TSymbol => exists i, v = JSym i
  | TUniqueSymbol => exists i, v = JSym i /\ unique i
  | TBoolLit b => v = JBool b
  | TNumLit n => v = JNum n
  | TStrLit s => v = JStr s
  | TBigLit z => v = JBig z
  | TTemplate k args => exists s, v = JStr s /\ template k args s
  | TUnion ms => foldr (fun t P => has t v \/ P) False ms
  | TInter ms => foldr (fun t P => has t v /\ P) True ms
  | TOther d k args => other d k args v
  end.
End values.

(** The types a program can get from the store: primitives, literals, other kinds
    built from types of the store, unions and intersections. *)
Inductive made (type_id : ty -> N) : ty -> Prop :=
| M_any : made type_id TAny
| M_unknown : made type_id TUnknown
| M_never : made type_id TNever
| M_boolean : made type_id TBoolean
| M_number : made type_id TNumber
| M_string : made type_id TString
| M_bigint : made type_id TBigInt
| M_symbol : made type_id TSymbol
| M_unique : made type_id TUniqueSymbol
| M_bool b : made type_id (TBoolLit b)
| M_num n : made type_id (TNumLit n)
| M_str s : made type_id (TStrLit s)
| M_big z : made type_id (TBigLit z)
| M_template k args : Forall (made type_id) args -> made type_id (intern_template type_id k args)
| M_other d k args : Forall (made type_id) args ->
    made type_id (intern_other type_id d k args)
| M_union ms : Forall (made type_id) ms -> made type_id (union type_id ms)
| M_inter ms : Forall (made type_id) ms -> made type_id (intersection type_id ms).

(** The same members, in any order and with any repetition. *)
Definition same_members (l m : list ty) : Prop := forall t, t ∈ l <-> t ∈ m.

(** The members of a type as a union, and as an intersection. *)
Definition alternatives (t : ty) : list ty := match t with TUnion l => l | TNever => [] | _ => [t] end.
Definition conjuncts (t : ty) : list ty := match t with TInter l => l | TUnknown => [] | _ => [t] end.

(** Both Boolean literal types are among the alternatives. *)
Definition both_booleans (ms : list ty) : Prop :=
  TBoolLit true ∈ (ms ≫= alternatives) /\ TBoolLit false ∈ (ms ≫= alternatives).
