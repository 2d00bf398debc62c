(** Instances for the theorems about conversions. *)
From Coq Require Import String Ascii.
From Coq Require Import Floats.SpecFloat.
From stdpp Require Import base decidable numbers list.
From Verif Require Import VmBase RustStr PrimModel ObjDefineProofs ConvModel ConvSpec ConvProofs.
Local Open Scope N_scope.

(** IEEE 754 binary64 arithmetic, from the standard library's executable
    specification of floats. *)
Definition to_spec (x : f64) : spec_float :=
  if f64_is_nan x then S754_nan
  else if f64_is_infinite x then S754_infinity (f64_neg x)
  else match f64_mant x with
       | 0 => S754_zero (f64_neg x)
       | Npos m => S754_finite (f64_neg x) m (f64_pow x)
       end.
Definition of_spec (x : spec_float) : f64 :=
  let signed := fun (s : bool) b => F64 (if s then b + 2 ^ 63 else b) in
  match x with
  | S754_nan => f64_nan
  | S754_infinity s => signed s (2047 * 2 ^ 52)
  | S754_zero s => signed s 0
  | S754_finite s m e =>
      if Npos m <? 2 ^ 52 then signed s (Npos m)
      else signed s (Z.to_N (e + 1075) * 2 ^ 52 + (Npos m - 2 ^ 52))
  end.
Definition ieee_mul (a b : f64) : f64 := of_spec (SFmul 53 1024 (to_spec a) (to_spec b)).
Definition ieee_add (a b : f64) : f64 := of_spec (SFadd 53 1024 (to_spec a) (to_spec b)).
(** The double nearest to an integer; other decimals are not needed here. *)
Definition ieee_nearest (m : N) (e : Z) : f64 := of_spec (binary_normalize 53 1024 (Z.of_N m * 10 ^ e) 0 false).

(** Arithmetic that is exact on small integers. *)
Definition integer_value (x : f64) : N := match f64_int_mag x with Some n => n | None => 0 end.
Definition exact_mul (a b : f64) : f64 := f64_of_N (integer_value a * integer_value b).
Definition exact_add (a b : f64) : f64 := f64_of_N (integer_value a + integer_value b).
Definition exact_nearest (m : N) (e : Z) : f64 := f64_of_N (m * 10 ^ Z.to_N e).

Lemma exact_is_exact : exact_on_small_integers exact_nearest exact_mul exact_add.
Proof.
  split.
  - intros n r d R B. unfold exact_mul, exact_add, integer_value.
    assert (n < 2 ^ 53 \/ n = 0) as Bn by nia.
    assert (n <= n * r) as L by nia.
    destruct (N.eq_dec n 0) as [->|N0].
    + change (f64_int_mag (f64_of_N 0)) with (Some 0). rewrite !N.mul_0_l in *. change (f64_int_mag (f64_of_N 0)) with (Some 0).
      destruct (f64_of_N_ok d) as (_&_&_&->); [lia|]. done.
    + assert (r <= n * r) by nia.
      destruct (f64_of_N_ok n) as (_&_&_&->); [lia|]. destruct (f64_of_N_ok r) as (_&_&_&->); [lia|].
      destruct (f64_of_N_ok (n * r)) as (_&_&_&->); [lia|]. destruct (f64_of_N_ok d) as (_&_&_&->); [lia|]. done.
  - intros n B. unfold exact_nearest. change (10 ^ Z.to_N 0) with 1. by rewrite N.mul_1_r.
Qed.

(** The digits of 1.5 and of 1e21; the number 1 stands for the others. *)
Definition few_digits (x : f64) : rstr * Z :=
  if f64_bits x =? 0x3ff8000000000000 then ([49; 53], (-1)%Z)
  else if f64_bits x =? 0x444b1ae4d6e2ef50 then ([49], 21%Z)
  else ([49], 0%Z).

Lemma few_digits_fit y ds e : few_digits y = (ds, e) -> decimal_digits ds e.
Proof.
  unfold few_digits. repeat case_match; intros [= <- <-]; (split_and!; [done|repeat (constructor; [lia|]); constructor|done|done|lia|lia|cbn; lia]).
Qed.

(** What the spelling of 1e21, Infinity and -0 looks like. *)
Lemma spelling_1e21 s : to_string few_digits (F64 0x444b1ae4d6e2ef50) s -> nth 2 s 0 = 43.
Proof.
  intros H. remember (F64 0x444b1ae4d6e2ef50) as x eqn:X.
  destruct H as [x H|x H|x H|x H|x ds e s H E Sp|x y ds e s H E' E Sp]; subst; try done.
  - change (few_digits _) with ([49], 21%Z) in E. injection E as <- <-.
    inversion Sp as [Q|Q Q'|Q|d e Q Q' Q''|d ds e Q Q' Q'']; subst; cbn [length] in *; try lia.
    + done.
    + by injection Q' as <- <-.
  - cbn [f64_bits] in E'. lia.
Qed.
Lemma spelling_infinity s : to_string few_digits f64_infinity s -> s = txt "Infinity".
Proof.
  intros H. remember f64_infinity as x eqn:X.
  destruct H as [x H|x H|x H|x H|x ds e s H E Sp|x y ds e s H E' E Sp]; subst; try done.
  - cbn in H. lia.
  - cbn in E'. lia.
Qed.
Lemma spelling_zero s : to_string few_digits (f64_negate f64_zero) s -> s = txt "0".
Proof.
  intros H. remember (f64_negate f64_zero) as x eqn:X.
  destruct H as [x H|x H|x H|x H|x ds e s H E Sp|x y ds e s H E' E Sp]; subst; try done.
  - cbn in H. lia.
  - cbn in E'. lia.
Qed.

Lemma signed_radix_not_bigint z : ~ reads_bigint (txt "-0x10") z.
Proof.
  change (txt "-0x10") with [45; 48; 120; 49; 48]. intros H.
  assert (forall w t w', [45; 48; 120; 49; 48] = w ++ t ++ w' -> Forall space w -> Forall space w' -> t = [45; 48; 120; 49; 48]) as K.
  { intros w t w' E W W'.
    assert (Forall (fun c => ~ space c) [45; 48; 120; 49; 48]) as F by (repeat (constructor; [unfold space; lia|]); constructor).
    rewrite E in F. apply Forall_app in F as [F1 [F2 F3]%Forall_app].
    destruct w as [|c w]; [|inversion W; inversion F1; done]. destruct w' as [|c w']; [|inversion W'; inversion F3; done].
    cbn in E. by rewrite app_nil_r in E. }
  remember [45; 48; 120; 49; 48] as s eqn:S.
  destruct H as [w0 Hw|w0 s0 n w0' Hw Hw' N|w0 s0 n w0' Hw Hw' N|w0 s0 n w0' Hw Hw' N|w0 p r s0 n w0' Hw Hw' RP N].
  - subst. inversion Hw as [|? ? Q]. unfold space in Q. lia.
  - rewrite (K _ _ _ eq_refl Hw Hw'), S in N. by apply numeral10 in N as (_&?&_).
  - specialize (K _ _ _ eq_refl Hw Hw'). by rewrite S in K.
  - specialize (K _ _ _ eq_refl Hw Hw'). rewrite S in K. injection K as ->. by apply numeral10 in N as (_&?&_).
  - specialize (K _ _ _ eq_refl Hw Hw'). rewrite S in K. by destruct RP.
Qed.
