(** * What constant evaluation must give

    The operators are [binary] and [unary] of FoldSpec.v (ECMA-262, 13); here
    is what else ECMA-262 says of them on the values constants stand for, and
    the functions and values of Math and Number (21.1, 21.3). *)
From Coq Require Import String Ascii ZArith NArith Bool List.
From stdpp Require Import base decidable numbers list.
From Verif Require Import VmBase RustStr PrimModel PrimSpec ConvModel ConvSpec FoldModel FoldSpec.
From Verif Require ILModel.
Local Open Scope N_scope.

Definition meaning (k : ILModel.const) : val :=
  match k with
  | ILModel.KBigInt z => VBig z
  | ILModel.KBool b => VBool b
  | ILModel.KNull => VNull
  | ILModel.KNum x => VNum x
  | ILModel.KStr s => VStr (utf16 s)
  | ILModel.KUndefined => VUndef
  end.
Definition proper (k : ILModel.const) : Prop :=
  match k with ILModel.KNum x => is_f64 x | ILModel.KStr s => valid_str s | _ => True end.

(** The operator an instruction stands for. *)
Definition bin_of (op : ILModel.binop) : option binop :=
  match op with
  | ILModel.OAdd => Some BAdd | ILModel.OSub => Some BSub | ILModel.OMul => Some BMul | ILModel.ODiv => Some BDiv
  | ILModel.OMod => Some BRem | ILModel.OExp => Some BPow
  | ILModel.OBitAnd => Some BAnd | ILModel.OBitOr => Some BOr | ILModel.OBitXor => Some BXor
  | ILModel.OShl => Some BShl | ILModel.OShr => Some BShr | ILModel.OUShr => Some BUshr
  | ILModel.OLt => Some BLt | ILModel.OLeq => Some BLe | ILModel.OGt => Some BGt | ILModel.OGeq => Some BGe
  | ILModel.OStrictEq => Some BSeq | ILModel.ONotStrictEq => Some BSne
  | ILModel.OLooseEq => Some BEq | ILModel.ONotLooseEq => Some BNe
  | ILModel.OGetProp | ILModel.ODummyBin => None
  end.
Definition un_of (op : ILModel.unop) : option unop :=
  match op with
  | ILModel.OBitNot => Some UBitNot | ILModel.ONeg => Some UNeg | ILModel.ONot => Some UNot
  | ILModel.OPlus => Some UPlus | ILModel.OTypeof => Some UTypeof | ILModel.OVoid => Some UVoid
  | ILModel.ODummyUn => None
  end.

(** 6.1.6.1.1 Number::unaryMinus, 6.1.6.1.6 Number::remainder, and 7.2.12 and
    7.2.13 for a BigInt and a String or Number: the string is read as a BigInt,
    the number is compared by its mathematical value. *)
Record compares {W} (h : host W) : Prop := Compares {
  cm_neg x : n_neg h x = f64_negate x;
  cm_rem_zero x y : f64_is_zero y = true -> n_rem h x y = f64_nan;
  cm_rem_infinity x y : f64_is_infinite x = true -> n_rem h x y = f64_nan;
  cm_equal z s n : valid_str s -> reads_bigint s n ->
    mixed_equal h (VBig z) (VStr (utf16 s)) = (z =? n)%Z /\ mixed_equal h (VStr (utf16 s)) (VBig z) = (z =? n)%Z;
  cm_unequal z s : valid_str s -> (forall n, ~ reads_bigint s n) ->
    mixed_equal h (VBig z) (VStr (utf16 s)) = false /\ mixed_equal h (VStr (utf16 s)) (VBig z) = false;
  cm_number z x :
    mixed_equal h (VBig z) (VNum x) = f64_is_finite x && (z * 2 ^ 1074 =? scaled x)%Z /\
    mixed_equal h (VNum x) (VBig z) = f64_is_finite x && (z * 2 ^ 1074 =? scaled x)%Z;
  cm_less z s n : valid_str s -> reads_bigint s n ->
    mixed_less h (VBig z) (VStr (utf16 s)) = Some (z <? n)%Z /\ mixed_less h (VStr (utf16 s)) (VBig z) = Some (n <? z)%Z;
  cm_unordered z s : valid_str s -> (forall n, ~ reads_bigint s n) ->
    mixed_less h (VBig z) (VStr (utf16 s)) = None /\ mixed_less h (VStr (utf16 s)) (VBig z) = None }.

(** Rounding gives a double, and leaves integers below 2^53 alone. *)
Definition rounds (nearest : N -> Z -> f64) : Prop :=
  (forall n e, is_f64 (nearest n e)) /\ (forall n, n < 2 ^ 53 -> nearest n 0%Z = f64_of_N n).

(** ** Where the evaluator is right *)

(** A number whose text is the same in ECMA-262 and in ryu: NaN, +0, and the
    finite numbers from 1e-5 to below 1e16 or below 1e-6 (in magnitude): [ds] times ten
    to the [e] is the number. *)
Definition plain_text (shortest : f64 -> rstr * Z) (x : f64) : Prop :=
  f64_is_nan x = true \/ f64_bits x = 0 \/
  f64_is_finite x = true /\ f64_is_zero x = false /\
  let '(ds, e) := shortest (F64 (f64_bits x mod 2 ^ 63)) in
  let k := (e + Z.of_nat (length ds))%Z in (-5 < k <= 16 \/ k <= -6)%Z.
(** Strings that the order of scalar values and that of code units put in the
    same order: no character above U+FFFF, or none from U+E000 to U+FFFF. *)
Definition plain_order (s t : rstr) : Prop :=
  Forall (fun c => c < 0x10000) (s ++ t) \/ Forall (fun c => ~ (0xE000 <= c < 0x10000)) (s ++ t).
(** Not blank, and no sign before `0b`, `0o` or `0x`. *)
Definition plain_integer (s : rstr) : Prop :=
  ~ Forall space s /\
  forall w c p r ds w', s = w ++ (c :: p ++ ds) ++ w' -> Forall space w -> Forall space w' ->
    c = 43 \/ c = 45 -> ~ radix_prefix p r.
Definition ordering (op : ILModel.binop) : bool :=
  match op with ILModel.OLt | ILModel.OLeq | ILModel.OGt | ILModel.OGeq => true | _ => false end.
Definition loose (op : ILModel.binop) : bool :=
  match op with ILModel.OLooseEq | ILModel.ONotLooseEq => true | _ => false end.
(** The pairs of operands for which the evaluator is right. *)
Definition plain_operands {W} (R : rust) (h : host W) (op : ILModel.binop) (a b : ILModel.const) : Prop :=
  match a, b with
  | ILModel.KNum x, ILModel.KStr _ | ILModel.KStr _, ILModel.KNum x =>
      op = ILModel.OAdd -> plain_text (r_shortest R) x
  | ILModel.KStr s, ILModel.KStr t => ordering op = true -> plain_order s t
  | ILModel.KBigInt _, ILModel.KStr s | ILModel.KStr s, ILModel.KBigInt _ =>
      ordering op = true \/ loose op = true -> plain_integer s
  | ILModel.KBigInt z, ILModel.KNum _ | ILModel.KNum _, ILModel.KBigInt z
  | ILModel.KBigInt z, ILModel.KBool _ | ILModel.KBool _, ILModel.KBigInt z =>
      loose op = true -> (- 2 ^ 53 < z < 2 ^ 53)%Z
  | _, _ => True
  end /\
  (op = ILModel.OExp -> forall x y, n_exp h x y = r_powf R x y).

(** ** Math and Number *)

(** 21.3.2.1, 21.3.2.10, 21.3.2.16, 21.3.2.28 and 21.3.2.35: infinities, zeros and NaN stay
    (without their sign under abs); else the result has the sign of the
    argument, as a zero too, and the integer is the one given. *)
Definition integral (x y : f64) (n : Z) : Prop :=
  f64_is_finite y = true /\ scaled y = (n * 2 ^ 1074)%Z /\ f64_neg y = f64_neg x.
Definition math_call (f : string) (x y : f64) : Prop :=
  if bool_decide (f = "Math.abs"%string) then
    f64_neg y = false /\ f64_exp y = f64_exp x /\ f64_frac y = f64_frac x
  else if negb (f64_is_finite x) || f64_is_zero x then y = x
  else if bool_decide (f = "Math.floor"%string) then integral x y (scaled x / 2 ^ 1074)
  else if bool_decide (f = "Math.ceil"%string) then integral x y (- ((- scaled x) / 2 ^ 1074))
  else if bool_decide (f = "Math.trunc"%string) then integral x y (Z.quot (scaled x) (2 ^ 1074))
  (* the closest integer, the greater one of two *)
  else if bool_decide (f = "Math.round"%string) then integral x y ((2 * scaled x + 2 ^ 1074) / 2 ^ 1075)
  else False.
Definition half_way (x : f64) : Prop := f64_is_finite x = true /\ (scaled x mod 2 ^ 1074 = 2 ^ 1073)%Z.

(** 19.1, 21.1.2 and 21.3.1; E and PI are the doubles nearest to the decimals
    given there (half a unit in the last place is 2^-52). *)
Definition about (x : f64) (n : Z) (digits : Z) : Prop :=
  f64_is_finite x = true /\
  (Z.abs (scaled x * 10 ^ digits - n * 2 ^ 1074) <= 2 ^ (1074 - 52) * 10 ^ digits)%Z.
Definition exactly (x : f64) (n e : Z) : Prop := f64_is_finite x = true /\ scaled x = (n * 2 ^ (1074 + e))%Z.
Definition constant (path : string) (x : f64) : Prop :=
  if bool_decide (path = "Math.E"%string) then about x 27182818284590452354 19
  else if bool_decide (path = "Math.PI"%string) then about x 31415926535897932 16
  else if bool_decide (path = "NaN"%string) || bool_decide (path = "Number.NaN"%string) then f64_is_nan x = true
  else if bool_decide (path = "Number.EPSILON"%string) then exactly x 1 (-52)
  else if bool_decide (path = "Number.MAX_SAFE_INTEGER"%string) then exactly x (2 ^ 53 - 1) 0
  else if bool_decide (path = "Number.MIN_SAFE_INTEGER"%string) then exactly x (- (2 ^ 53 - 1)) 0
  else if bool_decide (path = "Number.NEGATIVE_INFINITY"%string) then f64_is_finite x = false /\ f64_is_nan x = false /\ f64_neg x = true
  else if bool_decide (path = "Number.POSITIVE_INFINITY"%string) then f64_is_finite x = false /\ f64_is_nan x = false /\ f64_neg x = false
  else False.
