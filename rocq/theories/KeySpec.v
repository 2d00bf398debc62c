(** Specification vocabulary for property keys: canonical decimal numerals and
    the [[OwnPropertyKeys]] order. *)
From stdpp Require Import base decidable list numbers sorting.
From Coq Require Import NArith DecimalN.
From Verif Require Import VmBase HeapModel HeapObjModel HeapSpec.

Open Scope N_scope.

(** The UTF-16 code units of the canonical decimal numeral of [n], from the
    standard library's decimal conversion ([N.to_uint]: no leading zeros, zero is "0"). *)
Fixpoint uint_units (d : Decimal.uint) : js_string :=
  match d with
  | Decimal.Nil => []
  | Decimal.D0 d => 48 :: uint_units d
  | Decimal.D1 d => 49 :: uint_units d
  | Decimal.D2 d => 50 :: uint_units d
  | Decimal.D3 d => 51 :: uint_units d
  | Decimal.D4 d => 52 :: uint_units d
  | Decimal.D5 d => 53 :: uint_units d
  | Decimal.D6 d => 54 :: uint_units d
  | Decimal.D7 d => 55 :: uint_units d
  | Decimal.D8 d => 56 :: uint_units d
  | Decimal.D9 d => 57 :: uint_units d
  end.
Definition decimal_units (n : N) : js_string := uint_units (N.to_uint n).

(** Key [k] is the array index [n] (ECMA-262 6.1.7: canonical numeric string of an
    integer below 2^32 - 1). *)
Definition index_key (h : heap) (k : property_key) (n : N) : Prop :=
  exists s, k = PKString s /\ live_as h s (HString (decimal_units n)) /\ n < 2 ^ 32 - 1.
Definition string_key (k : property_key) : Prop := exists s, k = PKString s.
Definition symbol_key (k : property_key) : Prop := exists s, k = PKSymbol s.

(** [ks] is the [[OwnPropertyKeys]] list (ECMA-262 10.1.11.1) of a property table
    whose keys, in insertion order, are [table]. *)
Definition own_key_order (h : heap) (table ks : list property_key) : Prop :=
  exists (ixs : list (N * property_key)) (strs syms : list property_key),
    ks = map snd ixs ++ strs ++ syms
    /\ ks ≡ₚ table
    /\ Forall (fun p => index_key h (snd p) (fst p)) ixs
    /\ StronglySorted (fun a b => fst a <= fst b) ixs
    /\ strs `sublist_of` table /\ Forall (fun k => string_key k /\ forall n, ~ index_key h k n) strs
    /\ syms `sublist_of` table /\ Forall symbol_key syms.
