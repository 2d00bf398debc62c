(** * Conversions between strings and numbers: theorems (C75, C76) *)
From Coq Require Import String Ascii.
From stdpp Require Import base decidable numbers list.
From Verif Require Import VmBase RustStr PrimModel ConvModel ConvSpec ConvProofs ConvTextProofs ConvWitness.
Local Open Scope N_scope.

(** ** C75: strings are read as numbers as StringToNumber and StringToBigInt say *)

(** The minifier and the optimizer: a string that is a StringNumericLiteral
    gets its value. *)
Theorem folded_strings_are_read nearest s v :
  reads nearest f64_infinity f64_negate f64_zero s v -> coerce_str_to_num nearest s = v.
Proof. apply coerce_reads. Qed.
Print Assumptions folded_strings_are_read.
(** " -12.5e3\n" is 12.5e3 negated, and "0b101" is 5. *)
Example folded_strings_are_read_example :
  reads exact_nearest f64_infinity f64_negate f64_zero (txt " -12.5e3" ++ [10]) (f64_negate (exact_nearest 125 2)) /\
  coerce_str_to_num exact_nearest (txt "0b101") = f64_of_N 5.
Proof.
  split; [|done].
  change (txt " -12.5e3" ++ [10]) with ([32] ++ (45 :: ([49; 50] ++ [46] ++ [53] ++ [101; 51])) ++ [10]).
  apply reads_literal; [by repeat constructor; unfold space; lia..|]. apply nl_minus.
  apply (ud_both exact_nearest f64_infinity [49; 50] 12 [53] 5 [101; 51] 3).
  - apply numeral10. done.
  - apply numeral10. done.
  - apply (exponent_plain 101 [51] 3); [by left|]. apply numeral10. done.
Qed.

(** Every other string is NaN. *)
Theorem folded_strings_are_rejected nearest s :
  (forall v, ~ reads nearest f64_infinity f64_negate f64_zero s v) -> coerce_str_to_num nearest s = f64_nan.
Proof. apply coerce_rejects. Qed.
Print Assumptions folded_strings_are_rejected.
Example folded_strings_are_rejected_example :
  map (coerce_str_to_num exact_nearest) [txt "1_0"; txt "-0x10"; txt "inf"; txt "1e"; txt "."; txt "NaN"; txt "1 2"; txt "0x"]
  = repeat f64_nan 8.
Proof. done. Qed.

(** The VM reads the same strings, if integers with a prefix are below 2^53.
    Missing: longer ones ([vm_long_integers_refuted]). *)
Theorem vm_strings_are_read_partial nearest mul add s v :
  exact_on_small_integers nearest mul add ->
  reads nearest f64_infinity f64_negate f64_zero s v ->
  (forall w p r ds n w', s = w ++ (p ++ ds) ++ w' -> Forall space w -> Forall space w' ->
     radix_prefix p r -> numeral r ds n -> n < 2 ^ 53) ->
  string_to_number nearest mul add s = v.
Proof. apply vm_reads. Qed.
Print Assumptions vm_strings_are_read_partial.
Example vm_strings_are_read_example :
  exact_on_small_integers exact_nearest exact_mul exact_add /\
  string_to_number exact_nearest exact_mul exact_add (txt " 0xFf ") = f64_of_N 255 /\
  string_to_number exact_nearest exact_mul exact_add (txt "+Infinity") = f64_infinity.
Proof. split; [apply exact_is_exact|done]. Qed.

Theorem vm_strings_are_rejected nearest mul add s :
  (forall v, ~ reads nearest f64_infinity f64_negate f64_zero s v) ->
  f64_is_nan (string_to_number nearest mul add s) = true.
Proof. apply vm_rejects. Qed.
Print Assumptions vm_strings_are_rejected.
Example vm_strings_are_rejected_example :
  forallb (fun s => f64_is_nan (string_to_number exact_nearest exact_mul exact_add s))
    [txt "1_0"; txt "-0x10"; txt "INF"; txt "1e"; txt "."; txt "-nan"; txt "0b12"; txt "0x"; txt "- 1"] = true.
Proof. done. Qed.

(** With IEEE arithmetic, "0x200000000000011" is not the nearest double: the
    digits are added one by one and rounded twice. *)
Theorem vm_long_integers_refuted : exists s v,
  reads ieee_nearest f64_infinity f64_negate f64_zero s v /\ string_to_number ieee_nearest ieee_mul ieee_add s <> v.
Proof.
  exists (txt "0x200000000000011"), (ieee_nearest 0x200000000000011 0). split; [|vm_compute; discriminate].
  change (txt "0x200000000000011") with ([] ++ ([48; 120] ++ txt "200000000000011") ++ []).
  apply reads_literal; [constructor..|]. apply nl_radix with (r := 16); [constructor; by left|]. apply parse_int_spec; [lia|]. done.
Qed.
Print Assumptions vm_long_integers_refuted.
(** On shorter ones IEEE arithmetic agrees. *)
Example vm_long_integers_example :
  string_to_number ieee_nearest ieee_mul ieee_add (txt "0x20000000000011") = ieee_nearest 0x20000000000011 0.
Proof. vm_compute. done. Qed.

(** StringToBigInt in the optimizer.  Missing: blank strings and signs before
    a prefix. *)
Theorem bigint_strings_partial s z :
  ~ Forall space s ->
  (forall w c p r ds w', s = w ++ (c :: p ++ ds) ++ w' -> Forall space w -> Forall space w' ->
     c = 43 \/ c = 45 -> ~ radix_prefix p r) ->
  parse_bigint s = Some z <-> reads_bigint s z.
Proof. apply bigint_correct. Qed.
Print Assumptions bigint_strings_partial.
Example bigint_strings_example :
  map parse_bigint [txt " -12 "; txt "0x10"; txt "1e3"; txt "1n"; txt "+7"] = [Some (-12)%Z; Some 16%Z; None; None; Some 7%Z].
Proof. done. Qed.

(** The empty string is 0n, but is not taken for an integer; and "-0x10" is
    no integer, but taken for -16n. *)
Theorem bigint_strings_refuted :
  (exists s z, reads_bigint s z /\ parse_bigint s = None) /\
  (exists s z, parse_bigint s = Some z /\ forall z', ~ reads_bigint s z').
Proof.
  split.
  - exists [], 0%Z. split; [constructor; constructor|done].
  - exists (txt "-0x10"), (-16)%Z. split; [done|]. intros z' H.
    by apply signed_radix_not_bigint in H.
Qed.
Print Assumptions bigint_strings_refuted.

(** ** C76: numbers are spelled and cut to 32 bits as ECMA-262 says *)

(** The minifier's text of a number is Number::toString, whatever the
    shortest digits are. *)
Theorem folded_numbers_are_spelled shortest x :
  f64_bits x < 2 ^ 64 ->
  (forall y ds e, 0 < f64_bits y < 2047 * 2 ^ 52 -> shortest y = (ds, e) -> decimal_digits ds e) ->
  to_string shortest x (js_number_to_string shortest x).
Proof. apply minifier_spells. Qed.
Print Assumptions folded_numbers_are_spelled.
Example folded_numbers_are_spelled_example :
  (forall y ds e, 0 < f64_bits y < 2047 * 2 ^ 52 -> few_digits y = (ds, e) -> decimal_digits ds e) /\
  js_number_to_string few_digits (F64 0xbff8000000000000) = txt "-1.5" /\
  js_number_to_string few_digits (F64 0x444b1ae4d6e2ef50) = txt "1e+21" /\
  js_number_to_string few_digits (f64_negate f64_infinity) = txt "-Infinity" /\
  js_number_to_string (fun _ => ([49], 20%Z)) (F64 1) = txt "100000000000000000000" /\
  js_number_to_string (fun _ => ([49; 50], (-8)%Z)) (F64 1) = txt "1.2e-7" /\
  js_number_to_string (fun _ => ([49; 50], (-7)%Z)) (F64 1) = txt "0.0000012".
Proof. split; [intros y ds e _; apply few_digits_fit|done]. Qed.

Theorem vm_numbers_are_spelled shortest x :
  f64_bits x < 2 ^ 64 ->
  (forall y ds e, 0 < f64_bits y < 2047 * 2 ^ 52 -> shortest y = (ds, e) -> decimal_digits ds e) ->
  to_string shortest x (number_to_string shortest x).
Proof. apply vm_spells. Qed.
Print Assumptions vm_numbers_are_spelled.
Example vm_numbers_are_spelled_example :
  number_to_string few_digits (F64 0x444b1ae4d6e2ef50) = txt "1e+21" /\
  number_to_string (fun _ => ([49; 50; 51], (-1)%Z)) (F64 1) = txt "12.3".
Proof. done. Qed.

(** The text of a number literal, which the optimizer uses for ToString when
    it adds a number to a string, is not Number::toString. *)
Theorem literal_text_is_no_spelling_refuted :
  (forall y ds e, 0 < f64_bits y < 2047 * 2 ^ 52 -> few_digits y = (ds, e) -> decimal_digits ds e) /\
  exists x y z, ~ to_string few_digits x (jsnumber_display few_digits x) /\
                ~ to_string few_digits y (jsnumber_display few_digits y) /\
                ~ to_string few_digits z (jsnumber_display few_digits z).
Proof.
  split; [intros y ds e _; apply few_digits_fit|].
  exists (F64 0x444b1ae4d6e2ef50), f64_infinity, (f64_negate f64_zero).
  split_and!; intros H; [by apply spelling_1e21 in H|by apply spelling_infinity in H|by apply spelling_zero in H].
Qed.
Print Assumptions literal_text_is_no_spelling_refuted.

(** ToUint32 and ToInt32. *)
Theorem folded_uint32 x : uint32_of x (js_to_uint32 x).
Proof. apply uint32_correct. Qed.
Print Assumptions folded_uint32.
Theorem folded_int32 x : int32_of x (js_to_int32 x).
Proof. apply int32_correct. Qed.
Print Assumptions folded_int32.
(** -1.5, 2^31 and 2^32 + 1. *)
Example folded_int32_example :
  js_to_uint32 (F64 0xbff8000000000000) = (2 ^ 32 - 1)%Z /\ js_to_int32 (F64 0xbff8000000000000) = (-1)%Z /\
  js_to_int32 (f64_of_N (2 ^ 31)) = (- 2 ^ 31)%Z /\ js_to_uint32 (f64_of_N (2 ^ 32 + 1)) = 1%Z.
Proof. done. Qed.
