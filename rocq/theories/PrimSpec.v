(** What BigInt arithmetic, the equality operators, budgets and number keys
    should do, written without the model's helpers. *)
From Coq Require Import ZArith NArith Bool.
From stdpp Require Import base decidable numbers list.
From Verif Require Import VmBase PrimModel.

(* ------------------------------------------------------------------ *)
(** * BigInt *)

(** The integer a BigInt value stands for. *)
Definition int_of (x : js_bigint) : Z :=
  if bi_neg x then (- Z.of_N (bi_mag x))%Z else Z.of_N (bi_mag x).

(** The integer an expression denotes, in unbounded arithmetic. *)
Fixpoint meaning (e : bi_expr) : Z :=
  match e with
  | BLit n => Z.of_N n
  | BNeg e => - meaning e
  | BAdd e f => meaning e + meaning f
  | BMul e f => meaning e * meaning f
  | BInc e => meaning e + 1
  | BDec e => meaning e - 1
  end.

(** The integers the VM supports: magnitudes below 2^128. *)
Definition supported (z : Z) : Prop := (Z.abs z < 2 ^ 128)%Z.

(** Every value computed on the way is supported. *)
Fixpoint all_supported (e : bi_expr) : Prop :=
  supported (meaning e) /\
  match e with
  | BLit _ => True
  | BNeg e | BInc e | BDec e => all_supported e
  | BAdd e f | BMul e f => all_supported e /\ all_supported f
  end.

(** The number a string of decimal digits (code points 48-57) stands for. *)
Definition digits_value (l : list N) : N :=
  foldl (fun acc d => acc * 10 + (d - 48))%N 0%N l.

(** The canonical decimal spelling of an integer: optional minus, digits, no
    superfluous leading zero. *)
Definition canonical_digits (l : list N) : Prop :=
  l <> [] /\ Forall (fun d => 48 <= d <= 57)%N l /\
  (forall rest, l = 48%N :: rest -> rest = []).
Definition decimal_spelling (z : Z) (s : list N) : Prop :=
  exists ds, canonical_digits ds /\ Z.of_N (digits_value ds) = Z.abs z /\
  s = (if (z <? 0)%Z then 45%N :: ds else ds).

(* ------------------------------------------------------------------ *)
(** * ECMA-262 7.2.14 IsStrictlyEqual and 7.2.13 IsLooselyEqual *)

(** The mathematical value of a finite double that is an integer. *)
Definition f64_integer (n : f64) : option Z :=
  (fun m => if f64_neg n then - Z.of_N m else Z.of_N m)%Z <$> f64_int_mag n.

(** 6.1.6.1.13 Number::equal is [f64_eqb]; 6.1.6.2.13 BigInt::equal compares
    integers. *)
Inductive strictly : pval -> pval -> Prop :=
| S_undefined : strictly PUndefined PUndefined
| S_null : strictly PNull PNull
| S_bool b : strictly (PBool b) (PBool b)
| S_number x y : f64_eqb x y = true -> strictly (PNumber x) (PNumber y)
| S_bigint x y : int_of x = int_of y -> strictly (PBigInt x) (PBigInt y)
| S_string s : strictly (PString s) (PString s)
| S_symbol i : strictly (PSymbol i) (PSymbol i)
| S_object i : strictly (PObject i) (PObject i).

Inductive ty := TUndefined | TNull | TBool | TNumber | TBigInt | TString | TSymbol | TObject.
Definition type_of (v : pval) : ty :=
  match v with
  | PUndefined => TUndefined | PNull => TNull | PBool _ => TBool
  | PNumber _ => TNumber | PBigInt _ => TBigInt | PString _ => TString
  | PSymbol _ => TSymbol | PObject _ => TObject
  end.

Section loosely.
(** StringToNumber, StringToBigInt and the string an object converts to. *)
Context (string_number : list N -> f64) (string_bigint : list N -> option Z)
        (object_string : list N).

(** [loosely x y]: x == y is true, one rule per step of 7.2.13. *)
Inductive loosely : pval -> pval -> Prop :=
| L_same x y : type_of x = type_of y -> strictly x y -> loosely x y     (* 1 *)
| L_null_undefined : loosely PNull PUndefined                            (* 2 *)
| L_undefined_null : loosely PUndefined PNull                            (* 3 *)
| L_number_string n s :                                                  (* 5 *)
    loosely (PNumber n) (PNumber (string_number s)) -> loosely (PNumber n) (PString s)
| L_string_number n s :                                                  (* 6 *)
    loosely (PNumber (string_number s)) (PNumber n) -> loosely (PString s) (PNumber n)
| L_bigint_string b s z :                                                (* 7 *)
    string_bigint s = Some z -> int_of b = z -> loosely (PBigInt b) (PString s)
| L_string_bigint b s z :                                                (* 8 *)
    string_bigint s = Some z -> int_of b = z -> loosely (PString s) (PBigInt b)
| L_bool_left (b : bool) y :                                             (* 9 *)
    type_of y <> TBool ->
    loosely (PNumber (if b then f64_one else f64_zero)) y -> loosely (PBool b) y
| L_bool_right (b : bool) x :                                            (* 10 *)
    type_of x <> TBool ->
    loosely x (PNumber (if b then f64_one else f64_zero)) -> loosely x (PBool b)
| L_object_right x i :                                                   (* 11 *)
    type_of x ∈ [TString; TNumber; TBigInt; TSymbol] ->
    loosely x (PString object_string) -> loosely x (PObject i)
| L_object_left y i :                                                    (* 12 *)
    type_of y ∈ [TString; TNumber; TBigInt; TSymbol] ->
    loosely (PString object_string) y -> loosely (PObject i) y
| L_bigint_number b n :                                                  (* 13 *)
    f64_integer n = Some (int_of b) -> loosely (PBigInt b) (PNumber n)
| L_number_bigint b n :                                                  (* 13 *)
    f64_integer n = Some (int_of b) -> loosely (PNumber n) (PBigInt b).
End loosely.

(** A BigInt as the evaluator builds them: one representation per integer. *)
Definition bigint_value (x : js_bigint) : Prop := exists e, bi_eval e = Some x.
Definition proper (v : pval) : Prop :=
  match v with PBigInt x => bigint_value x | _ => True end.

(** The pairs on which 7.2.13 compares a BigInt with a value of another
    primitive type. *)
Definition mixes_bigint (x y : pval) : Prop :=
  (type_of x = TBigInt /\ type_of y ∈ [TNumber; TString; TBool]) \/
  (type_of y = TBigInt /\ type_of x ∈ [TNumber; TString; TBool]).

(* ------------------------------------------------------------------ *)
(** * Budgets *)

(** The results of the ticks made at the outermost level, in order. *)
Definition own_ticks (depth : nat) (out : list (nat * tick_result)) : list tick_result :=
  snd <$> filter (fun p => p.1 = depth) out.

(** The actions do not replace the outermost budget. *)
Definition keeps_budget (l : list act) : Prop :=
  Forall (fun a => match a with ASetBudget _ => False | _ => True end) l.

(** No interrupt is requested (cleared) anywhere in the actions. *)
Fixpoint no_interrupt (a : act) : Prop :=
  match a with
  | AInterrupt => False
  | AWithBudget _ body => Forall id (no_interrupt <$> body)
  | _ => True
  end.
Fixpoint no_reset (a : act) : Prop :=
  match a with
  | AResetInterrupt => False
  | AWithBudget _ body => Forall id (no_reset <$> body)
  | _ => True
  end.

(* ------------------------------------------------------------------ *)
(** * Doubles *)

(** A 64-bit pattern. *)
Definition is_f64 (x : f64) : Prop := (f64_bits x < 2 ^ 64)%N.
