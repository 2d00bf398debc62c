(** * What conversions between strings and numbers must give

    ECMA-262 7.1.4.1 (StringToNumber), 7.1.14 (StringToBigInt), 6.1.6.1.20
    (Number::toString) and 7.1.6-7.1.7 (ToInt32, ToUint32), written without
    the model's helpers. *)
From Coq Require Import String Ascii.
From stdpp Require Import base decidable numbers list.
From Verif Require Import VmBase RustStr.
Local Open Scope N_scope.

Definition text (s : string) : rstr := map N_of_ascii (list_ascii_of_string s).

(** ** StringToNumber *)

(** 12.2 WhiteSpace and 12.3 LineTerminator. *)
Definition space (c : N) : Prop :=
  c = 0x09 \/ c = 0x0B \/ c = 0x0C \/ c = 0xFEFF \/                              (* TAB VT FF ZWNBSP *)
  c = 0x20 \/ c = 0xA0 \/ c = 0x1680 \/ (0x2000 <= c <= 0x200A) \/ c = 0x202F \/
  c = 0x205F \/ c = 0x3000 \/                                                    (* category Zs *)
  c = 0x0A \/ c = 0x0D \/ c = 0x2028 \/ c = 0x2029.                              (* LF CR LS PS *)

(** A digit of a radix up to 16, and its value. *)
Definition digit (radix c d : N) : Prop :=
  d < radix /\
  ((48 <= c <= 57 /\ d = c - 48) \/ (97 <= c <= 102 /\ d = c - 87) \/ (65 <= c <= 70 /\ d = c - 55)).

(** A sequence of digits, and the number it stands for. *)
Inductive numeral (radix : N) : rstr -> N -> Prop :=
| numeral_one c d : digit radix c d -> numeral radix [c] d
| numeral_more s n c d : numeral radix s n -> digit radix c d -> numeral radix (s ++ [c]) (n * radix + d).

(** 9.3.1 ExponentPart, or nothing. *)
Inductive exponent : rstr -> Z -> Prop :=
| exponent_none : exponent [] 0
| exponent_plain e ds n : e = 101 \/ e = 69 -> numeral 10 ds n -> exponent (e :: ds) (Z.of_N n)
| exponent_plus e ds n : e = 101 \/ e = 69 -> numeral 10 ds n -> exponent (e :: 43 :: ds) (Z.of_N n)
| exponent_minus e ds n : e = 101 \/ e = 69 -> numeral 10 ds n -> exponent (e :: 45 :: ds) (- Z.of_N n).

Section number.
(** RoundMVResult: the double for m times ten to the e. *)
Context (nearest : N -> Z -> f64) (infinity : f64) (negated : f64 -> f64).

(** StrUnsignedDecimalLiteral with its value: with f digits after the point,
    the value is (i * 10^f + fraction) * 10^(e - f). *)
Inductive unsigned_decimal : rstr -> f64 -> Prop :=
| ud_infinity : unsigned_decimal (text "Infinity") infinity
| ud_integer i n x e :
    numeral 10 i n -> exponent x e -> unsigned_decimal (i ++ x) (nearest n e)
| ud_point i n x e :
    numeral 10 i n -> exponent x e -> unsigned_decimal (i ++ [46] ++ x) (nearest n e)
| ud_both i n f m x e :
    numeral 10 i n -> numeral 10 f m -> exponent x e ->
    unsigned_decimal (i ++ [46] ++ f ++ x)
      (nearest (n * 10 ^ N.of_nat (length f) + m) (e - Z.of_nat (length f)))
| ud_fraction f m x e :
    numeral 10 f m -> exponent x e ->
    unsigned_decimal ([46] ++ f ++ x) (nearest m (e - Z.of_nat (length f))).

(** The prefixes of NonDecimalIntegerLiteral. *)
Inductive radix_prefix : rstr -> N -> Prop :=
| prefix_binary c : c = 98 \/ c = 66 -> radix_prefix [48; c] 2
| prefix_octal c : c = 111 \/ c = 79 -> radix_prefix [48; c] 8
| prefix_hex c : c = 120 \/ c = 88 -> radix_prefix [48; c] 16.

(** StrNumericLiteral. *)
Inductive numeric_literal : rstr -> f64 -> Prop :=
| nl_plain s v : unsigned_decimal s v -> numeric_literal s v
| nl_plus s v : unsigned_decimal s v -> numeric_literal (43 :: s) v
| nl_minus s v : unsigned_decimal s v -> numeric_literal (45 :: s) (negated v)
| nl_radix p r s n : radix_prefix p r -> numeral r s n -> numeric_literal (p ++ s) (nearest n 0).

(** StringNumericLiteral: white space, then perhaps a literal with white
    space behind it. *)
Inductive reads (zero : f64) : rstr -> f64 -> Prop :=
| reads_nothing w : Forall space w -> reads zero w zero
| reads_literal w s v w' :
    Forall space w -> Forall space w' -> numeric_literal s v -> reads zero (w ++ s ++ w') v.
End number.

(** What IEEE 754 arithmetic gives on integers that fit into 53 bits: they
    are doubles, and products and sums of them are exact. *)
Definition exact_on_small_integers (nearest : N -> Z -> f64) (mul add : f64 -> f64 -> f64) : Prop :=
  (forall n r d, 0 < r -> n * r + d < 2 ^ 53 ->
     add (mul (f64_of_N n) (f64_of_N r)) (f64_of_N d) = f64_of_N (n * r + d)) /\
  (forall n, n < 2 ^ 53 -> nearest n 0%Z = f64_of_N n).

(** ** StringToBigInt: as above, with decimal integers only *)
Inductive reads_bigint : rstr -> Z -> Prop :=
| rb_nothing w : Forall space w -> reads_bigint w 0
| rb_plain w s n w' :
    Forall space w -> Forall space w' -> numeral 10 s n -> reads_bigint (w ++ s ++ w') (Z.of_N n)
| rb_plus w s n w' :
    Forall space w -> Forall space w' -> numeral 10 s n -> reads_bigint (w ++ (43 :: s) ++ w') (Z.of_N n)
| rb_minus w s n w' :
    Forall space w -> Forall space w' -> numeral 10 s n -> reads_bigint (w ++ (45 :: s) ++ w') (- Z.of_N n)
| rb_radix w p r s n w' :
    Forall space w -> Forall space w' -> radix_prefix p r -> numeral r s n ->
    reads_bigint (w ++ (p ++ s) ++ w') (Z.of_N n).

(** ** Number::toString *)

(** The decimal digits of a positive integer, without zeros in front. *)
Definition spells_integer (z : Z) (s : rstr) : Prop :=
  exists n, numeral 10 s n /\ Z.of_N n = z /\ (hd 48 s <> 48 \/ s = [48]).

(** 6.1.6.1.20, steps 6-12, for a positive number: [ds] are the k digits of
    s and [n] is the n of step 5, so that the number is s * 10^(n - k). *)
Inductive spelled (ds : rstr) (n : Z) : rstr -> Prop :=
| spelled_integer :
    (Z.of_nat (length ds) <= n <= 21)%Z ->
    spelled ds n (ds ++ repeat 48 (Z.to_nat n - length ds))
| spelled_point :
    (0 < n <= 21)%Z -> (n < Z.of_nat (length ds))%Z ->
    spelled ds n (take (Z.to_nat n) ds ++ [46] ++ drop (Z.to_nat n) ds)
| spelled_fraction :
    (-6 < n <= 0)%Z -> spelled ds n ([48; 46] ++ repeat 48 (Z.to_nat (- n)) ++ ds)
| spelled_one d e :
    (21 < n \/ n <= -6)%Z -> ds = [d] -> spells_integer (Z.abs (n - 1)) e ->
    spelled ds n ([d; 101; if (n <? 0)%Z then 45 else 43] ++ e)
| spelled_many d ds' e :
    (21 < n \/ n <= -6)%Z -> ds = d :: ds' -> ds' <> [] -> spells_integer (Z.abs (n - 1)) e ->
    spelled ds n ([d; 46] ++ ds' ++ [101; if (n <? 0)%Z then 45 else 43] ++ e).

(** The digits of a number: k is as small as possible, so the last digit is
    not zero; doubles have exponents between -400 and 400. *)
Definition decimal_digits (ds : rstr) (exponent : Z) : Prop :=
  ds <> [] /\ Forall (fun c => 48 <= c <= 57) ds /\ hd 48 ds <> 48 /\ List.last ds 48 <> 48 /\
  (-400 <= exponent <= 400)%Z /\ (length ds <= 17)%nat.

(** Number::toString of a double, given the digits and the exponent of
    every finite positive one. *)
Inductive to_string (shortest : f64 -> rstr * Z) : f64 -> rstr -> Prop :=
| ts_nan x : f64_is_nan x = true -> to_string shortest x (text "NaN")
| ts_zero x : f64_is_zero x = true -> to_string shortest x (text "0")
| ts_infinity x :
    f64_bits x = 2047 * 2 ^ 52 -> to_string shortest x (text "Infinity")
| ts_negative_infinity x :
    f64_bits x = 2 ^ 63 + 2047 * 2 ^ 52 -> to_string shortest x (text "-Infinity")
| ts_positive x ds e s :
    0 < f64_bits x < 2047 * 2 ^ 52 -> shortest x = (ds, e) ->
    spelled ds (e + Z.of_nat (length ds)) s -> to_string shortest x s
| ts_negative x y ds e s :
    0 < f64_bits x < 2047 * 2 ^ 52 -> f64_bits y = 2 ^ 63 + f64_bits x -> shortest x = (ds, e) ->
    spelled ds (e + Z.of_nat (length ds)) s -> to_string shortest y (45 :: s).

(** ** ToUint32 and ToInt32 *)

(** truncate of the mathematical value of a finite double. *)
Definition truncated (x : f64) (z : Z) : Prop :=
  let value := (if f64_neg x then - Z.of_N (f64_mant x) else Z.of_N (f64_mant x))%Z in
  if (f64_pow x <? 0)%Z
  then exists r, (value = z * 2 ^ (- f64_pow x) + r /\ Z.abs r < 2 ^ (- f64_pow x) /\ 0 <= value * r /\ 0 <= value * z)%Z
  else (z = value * 2 ^ f64_pow x)%Z.

Definition uint32_of (x : f64) (u : Z) : Prop :=
  (0 <= u < 2 ^ 32)%Z /\
  if f64_is_finite x
  then exists z, truncated x z /\ (u mod 2 ^ 32 = z mod 2 ^ 32)%Z
  else u = 0%Z.
Definition int32_of (x : f64) (i : Z) : Prop :=
  (- 2 ^ 31 <= i < 2 ^ 31)%Z /\
  if f64_is_finite x
  then exists z, truncated x z /\ (i mod 2 ^ 32 = z mod 2 ^ 32)%Z
  else i = 0%Z.
