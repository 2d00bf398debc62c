(** * Constant folding: numbers and their texts *)
From Coq Require Import String Ascii ZArith NArith Bool List Lia.
From stdpp Require Import base decidable numbers list.
From Verif Require Import VmBase RustStr PrimModel PrimSpec PrimProofs ConvModel ConvSpec ConvProofs ConvTextProofs FoldModel FoldSpec.
Local Open Scope N_scope.

(** ** The order of doubles *)
Definition mag (e f : Z) : Z := (if e =? 0 then f else (2 ^ 52 + f) * 2 ^ (e - 1))%Z.
Lemma mag_pos e f : (0 <= e -> 0 <= f -> 0 <= mag e f)%Z.
Proof. intros. unfold mag. destruct (Z.eqb_spec e 0); [done|]. apply Z.mul_nonneg_nonneg; [lia|]. apply Z.pow_nonneg. lia. Qed.
Lemma mag_lt e f e' f' :
  (0 <= e -> 0 <= f < 2 ^ 52 -> 0 <= e' -> 0 <= f' < 2 ^ 52 ->
   e * 2 ^ 52 + f < e' * 2 ^ 52 + f' -> mag e f < mag e' f')%Z.
Proof.
  intros He Hf He' Hf' L. assert (e < e' \/ e = e' /\ f < f')%Z as [E|[-> E]].
  { change (2 ^ 52)%Z with 4503599627370496%Z in *. lia. }
  - unfold mag. destruct (Z.eqb_spec e' 0) as [|N']; [lia|].
    assert (2 ^ (e' - 1) * 2 ^ 52 <= (2 ^ 52 + f') * 2 ^ (e' - 1))%Z as U.
    { rewrite (Z.mul_comm (2 ^ 52 + f')). apply Z.mul_le_mono_nonneg_l; [apply Z.pow_nonneg; lia|lia]. }
    destruct (Z.eqb_spec e 0) as [->|N].
    + assert (1 <= 2 ^ (e' - 1))%Z by (change 1%Z with (2 ^ 0)%Z; apply Z.pow_le_mono_r; lia).
      change (2 ^ 52)%Z with 4503599627370496%Z in *. nia.
    + assert (2 * 2 ^ (e - 1) <= 2 ^ (e' - 1))%Z as P.
      { replace (2 * 2 ^ (e - 1))%Z with (2 ^ e)%Z; [apply Z.pow_le_mono_r; lia|].
        rewrite <- Z.pow_succ_r by lia. f_equal. lia. }
      assert (0 < 2 ^ (e - 1))%Z by (apply Z.pow_pos_nonneg; lia).
      change (2 ^ 52)%Z with 4503599627370496%Z in *. nia.
  - unfold mag. destruct (Z.eqb_spec e' 0); [done|].
    apply Z.mul_lt_mono_pos_r; [apply Z.pow_pos_nonneg; lia|lia].
Qed.

Lemma scaled_mag x : scaled x =
  (let m := mag (Z.of_N (f64_exp x)) (Z.of_N (f64_frac x)) in if f64_neg x then - m else m)%Z.
Proof.
  unfold scaled, mag, f64_mant, f64_pow. destruct (N.eqb_spec (f64_exp x) 0) as [->|N].
  - cbn. by rewrite Z.mul_1_r.
  - destruct (Z.eqb_spec (Z.of_N (f64_exp x)) 0); [lia|].
    rewrite N2Z.inj_add, N2Z.inj_pow. change (Z.of_N 2) with 2%Z. change (Z.of_N 52) with 52%Z.
    replace (Z.of_N (f64_exp x) - 1075 + 1074)%Z with (Z.of_N (f64_exp x) - 1)%Z by lia. done.
Qed.
Lemma key_fields x : f64_key x =
  (let m := Z.of_N (f64_exp x) * 2 ^ 52 + Z.of_N (f64_frac x) in if f64_neg x then - m else m)%Z.
Proof.
  unfold f64_key. assert (f64_bits x mod 2 ^ 63 = f64_frac x + 2 ^ 52 * f64_exp x) as ->.
  { change (2 ^ 63) with (2 ^ 52 * 2 ^ 11). rewrite N.mod_mul_r by done. done. }
  rewrite N2Z.inj_add, N2Z.inj_mul, N2Z.inj_pow. change (Z.of_N 2) with 2%Z. change (Z.of_N 52) with 52%Z.
  cbn zeta. rewrite Z.add_comm, (Z.mul_comm (2 ^ 52)). done.
Qed.
Lemma fields_range x :
  (0 <= Z.of_N (f64_exp x) <= 2047 /\ 0 <= Z.of_N (f64_frac x) < 2 ^ 52)%Z.
Proof.
  assert (f64_exp x < 2 ^ 11) by (apply N.mod_lt; done).
  assert (f64_frac x < 2 ^ 52) by (apply N.mod_lt; done).
  change (2 ^ 11) with 2048 in *. change (2 ^ 52) with 4503599627370496 in *. change (2 ^ 52)%Z with 4503599627370496%Z. lia.
Qed.

Lemma number_less_key x y :
  number_less x y = (if f64_is_nan x || f64_is_nan y then None else Some (f64_key x <? f64_key y)%Z).
Proof.
  unfold number_less. destruct (f64_is_nan x || f64_is_nan y) eqn:NN; [done|]. f_equal.
  apply orb_false_iff in NN as [Nx Ny]. rewrite !scaled_mag, !key_fields.
  destruct (fields_range x) as [Ex Fx], (fields_range y) as [Ey Fy].
  unfold f64_is_nan, f64_is_finite in *.
  assert (f64_exp x = 2047 -> f64_frac x = 0) as Ix.
  { intros Q. rewrite Q in Nx. cbn in Nx. apply negb_false_iff, N.eqb_eq in Nx. done. }
  assert (f64_exp y = 2047 -> f64_frac y = 0) as Iy.
  { intros Q. rewrite Q in Ny. cbn in Ny. apply negb_false_iff, N.eqb_eq in Ny. done. }
  clear Nx Ny. cbn zeta.
  destruct (N.eqb_spec (f64_exp x) 2047) as [Qx|Qx]; cbn [negb andb orb].
  - rewrite Qx, (Ix Qx). clear Ix. destruct (N.eqb_spec (f64_exp y) 2047) as [Qy|Qy]; cbn [negb andb orb].
    + rewrite Qy, (Iy Qy). destruct (f64_neg x), (f64_neg y); done.
    + assert (Z.of_N (f64_exp y) <= 2046)%Z by lia. change (2 ^ 52)%Z with 4503599627370496%Z in *.
      destruct (f64_neg x), (f64_neg y); cbn [andb]; symmetry; first [apply Z.ltb_lt|apply Z.ltb_ge]; lia.
  - destruct (N.eqb_spec (f64_exp y) 2047) as [Qy|Qy]; cbn [negb andb orb].
    + rewrite Qy, (Iy Qy). assert (Z.of_N (f64_exp x) <= 2046)%Z by lia. change (2 ^ 52)%Z with 4503599627370496%Z in *.
      destruct (f64_neg x), (f64_neg y); cbn [negb]; symmetry; first [apply Z.ltb_lt|apply Z.ltb_ge]; lia.
    + clear Ix Iy.
      pose proof (mag_pos (Z.of_N (f64_exp x)) (Z.of_N (f64_frac x)) ltac:(lia) ltac:(lia)) as Px.
      pose proof (mag_pos (Z.of_N (f64_exp y)) (Z.of_N (f64_frac y)) ltac:(lia) ltac:(lia)) as Py.
      pose proof (mag_lt (Z.of_N (f64_exp x)) (Z.of_N (f64_frac x)) (Z.of_N (f64_exp y)) (Z.of_N (f64_frac y))
        ltac:(lia) ltac:(lia) ltac:(lia) ltac:(lia)) as L1.
      pose proof (mag_lt (Z.of_N (f64_exp y)) (Z.of_N (f64_frac y)) (Z.of_N (f64_exp x)) (Z.of_N (f64_frac x))
        ltac:(lia) ltac:(lia) ltac:(lia) ltac:(lia)) as L2.
      assert (Z.of_N (f64_exp x) * 2 ^ 52 + Z.of_N (f64_frac x) = Z.of_N (f64_exp y) * 2 ^ 52 + Z.of_N (f64_frac y) ->
        mag (Z.of_N (f64_exp x)) (Z.of_N (f64_frac x)) = mag (Z.of_N (f64_exp y)) (Z.of_N (f64_frac y)))%Z as L3.
      { intros E. assert (Z.of_N (f64_exp x) = Z.of_N (f64_exp y) /\ Z.of_N (f64_frac x) = Z.of_N (f64_frac y)) as [-> ->]; [|done].
        change (2 ^ 52)%Z with 4503599627370496%Z in *. lia. }
      (* zero *)
      assert (mag (Z.of_N (f64_exp x)) (Z.of_N (f64_frac x)) = 0 -> Z.of_N (f64_exp x) * 2 ^ 52 + Z.of_N (f64_frac x) = 0)%Z as Zx.
      { pose proof (mag_lt 0 0 (Z.of_N (f64_exp x)) (Z.of_N (f64_frac x)) ltac:(lia) ltac:(lia) ltac:(lia) ltac:(lia)) as L.
        change (mag 0 0) with 0%Z in L. change (2 ^ 52)%Z with 4503599627370496%Z in *. lia. }
      assert (mag (Z.of_N (f64_exp y)) (Z.of_N (f64_frac y)) = 0 -> Z.of_N (f64_exp y) * 2 ^ 52 + Z.of_N (f64_frac y) = 0)%Z as Zy.
      { pose proof (mag_lt 0 0 (Z.of_N (f64_exp y)) (Z.of_N (f64_frac y)) ltac:(lia) ltac:(lia) ltac:(lia) ltac:(lia)) as L.
        change (mag 0 0) with 0%Z in L. change (2 ^ 52)%Z with 4503599627370496%Z in *. lia. }
      assert (Z.of_N (f64_exp x) * 2 ^ 52 + Z.of_N (f64_frac x) = 0 -> mag (Z.of_N (f64_exp x)) (Z.of_N (f64_frac x)) = 0)%Z as Zx'.
      { intros E. assert (Z.of_N (f64_exp x) = 0 /\ Z.of_N (f64_frac x) = 0)%Z as [-> ->]; [|done].
        change (2 ^ 52)%Z with 4503599627370496%Z in *. lia. }
      assert (Z.of_N (f64_exp y) * 2 ^ 52 + Z.of_N (f64_frac y) = 0 -> mag (Z.of_N (f64_exp y)) (Z.of_N (f64_frac y)) = 0)%Z as Zy'.
      { intros E. assert (Z.of_N (f64_exp y) = 0 /\ Z.of_N (f64_frac y) = 0)%Z as [-> ->]; [|done].
        change (2 ^ 52)%Z with 4503599627370496%Z in *. lia. }
      assert (0 <= Z.of_N (f64_exp x) * 2 ^ 52 + Z.of_N (f64_frac x))%Z as Kx by (change (2 ^ 52)%Z with 4503599627370496%Z; lia).
      assert (0 <= Z.of_N (f64_exp y) * 2 ^ 52 + Z.of_N (f64_frac y))%Z as Ky by (change (2 ^ 52)%Z with 4503599627370496%Z; lia).
      revert L1 L2 L3 Px Py Zx Zy Zx' Zy' Kx Ky.
      generalize (mag (Z.of_N (f64_exp x)) (Z.of_N (f64_frac x))) (mag (Z.of_N (f64_exp y)) (Z.of_N (f64_frac y)))
        (Z.of_N (f64_exp x) * 2 ^ 52 + Z.of_N (f64_frac x))%Z (Z.of_N (f64_exp y) * 2 ^ 52 + Z.of_N (f64_frac y))%Z.
      clear. intros a b c d. intros.
      destruct (f64_neg x), (f64_neg y); apply eq_true_iff_eq; rewrite !Z.ltb_lt; lia.
Qed.

Lemma ltb_less x y : f64_ltb x y = bool_decide (number_less x y = Some true).
Proof.
  rewrite number_less_key. unfold f64_ltb. destruct (f64_is_nan x), (f64_is_nan y); cbn [negb andb orb]; try by rewrite bool_decide_eq_false_2.
  destruct (f64_key x <? f64_key y)%Z; [by rewrite bool_decide_eq_true_2|by rewrite bool_decide_eq_false_2].
Qed.
Lemma leb_less x y : f64_leb x y = bool_decide (number_less y x = Some false).
Proof.
  rewrite number_less_key. unfold f64_leb. destruct (f64_is_nan x), (f64_is_nan y); cbn [negb andb orb]; try by rewrite bool_decide_eq_false_2.
  rewrite Z.leb_antisym. destruct (f64_key y <? f64_key x)%Z; [by rewrite bool_decide_eq_false_2|by rewrite bool_decide_eq_true_2].
Qed.

(** ** Decimal texts are unique *)
Lemma number_snoc l c : number_of (l ++ [c]) = number_of l * 10 + (c - 48).
Proof. rewrite number_of_app. change (number_of [c]) with (0 * 10 + (c - 48)). cbn [length]. change (10 ^ N.of_nat 1) with 10. lia. Qed.
Lemma number_bound l : digits l -> number_of l < 10 ^ N.of_nat (length l).
Proof.
  induction l as [|c l IH] using rev_ind; [done|]. intros D. apply Forall_app in D as [D1 D2].
  apply Forall_cons in D2 as [D2 _]. rewrite number_snoc, app_length. cbn [length].
  replace (N.of_nat (length l + 1)) with (N.succ (N.of_nat (length l))) by lia. rewrite N.pow_succ_r'.
  specialize (IH D1). lia.
Qed.
Lemma same_length_number a b : digits a -> digits b -> length a = length b -> number_of a = number_of b -> a = b.
Proof.
  revert b. induction a as [|c a IH] using rev_ind; intros b Da Db L E.
  - by destruct b.
  - destruct b as [|d b _] using rev_ind; [rewrite app_length in L; cbn in L; lia|].
    rewrite !app_length in L. cbn [length] in L. rewrite !number_snoc in E.
    apply Forall_app in Da as [Da1 Da2], Db as [Db1 Db2].
    apply Forall_cons in Da2 as [Da2 _], Db2 as [Db2 _].
    assert (number_of a = number_of b /\ c = d) as [E1 ->] by lia.
    by rewrite (IH b Da1 Db1 ltac:(lia) E1).
Qed.
Lemma number_low c l : 48 <= c <= 57 -> c <> 48 -> 10 ^ N.of_nat (length l) <= number_of (c :: l).
Proof.
  intros. change (c :: l) with ([c] ++ l). rewrite number_of_app. change (number_of [c]) with (0 * 10 + (c - 48)). nia.
Qed.
Lemma canonical_unique a b :
  digits a -> digits b -> a <> [] -> b <> [] -> (hd 48 a <> 48 \/ a = [48]) -> (hd 48 b <> 48 \/ b = [48]) ->
  number_of a = number_of b -> a = b.
Proof.
  intros Da Db Na Nb Ha Hb E.
  assert (forall l, digits l -> l <> [] -> hd 48 l <> 48 ->
    10 ^ (N.of_nat (length l) - 1) <= number_of l < 10 ^ N.of_nat (length l)) as B.
  { intros l Dl Nl Hl. split; [|by apply number_bound]. destruct l as [|c l]; [done|].
    apply Forall_cons in Dl as [Dc Dl]. replace (N.of_nat (length (c :: l)) - 1) with (N.of_nat (length l)) by (cbn [length]; lia).
    by apply number_low. }
  assert (forall l, digits l -> l <> [] -> hd 48 l <> 48 -> 0 < number_of l) as P.
  { intros l Dl Nl Hl. destruct (B l Dl Nl Hl) as [L _].
    assert (0 < 10 ^ (N.of_nat (length l) - 1)) by (apply N.neq_0_lt_0, N.pow_nonzero; done). lia. }
  destruct Ha as [Ha| ->], Hb as [Hb| ->]; [| | |done].
  - destruct (B a Da Na Ha) as [La Ua], (B b Db Nb Hb) as [Lb Ub].
    apply same_length_number; [done..| |done]. destruct (lt_eq_lt_dec (length a) (length b)) as [[C|C]|C]; [|done|]; exfalso.
    + assert (10 ^ N.of_nat (length a) <= 10 ^ (N.of_nat (length b) - 1)) by (apply N.pow_le_mono_r; lia). lia.
    + assert (10 ^ N.of_nat (length b) <= 10 ^ (N.of_nat (length a) - 1)) by (apply N.pow_le_mono_r; lia). lia.
  - specialize (P a Da Na Ha). change (number_of [48]) with 0 in E. lia.
  - specialize (P b Db Nb Hb). change (number_of [48]) with 0 in E. lia.
Qed.

Lemma spells_unique z a b : spells_integer z a -> spells_integer z b -> a = b.
Proof.
  intros (n&(Na&Da&->)%numeral10&En&Ha) (m&(Nb&Db&->)%numeral10&Em&Hb).
  apply digits_forallb in Da, Db. apply canonical_unique; try done. lia.
Qed.
Lemma digits_value_number l : digits_value l = number_of l.
Proof. unfold digits_value, number_of. generalize 0. induction l as [|c l IH]; intros n; [done|]. cbn. apply IH. Qed.
Lemma decimal_spelling_unique z a b : decimal_spelling z a -> decimal_spelling z b -> a = b.
Proof.
  intros (x&(Nx&Dx&Cx)&Ex&->) (y&(Ny&Dy&Cy)&Ey&->). rewrite digits_value_number in *.
  assert (x = y) as ->; [|done]. apply canonical_unique; try done.
  - destruct x as [|c x]; [done|]. cbn. destruct (decide (c = 48)) as [->|]; [right|by left]. by rewrite (Cx x eq_refl).
  - destruct y as [|c y]; [done|]. cbn. destruct (decide (c = 48)) as [->|]; [right|by left]. by rewrite (Cy y eq_refl).
  - lia.
Qed.

Lemma spelled_unique ds n a b : ds <> [] -> spelled ds n a -> spelled ds n b -> a = b.
Proof.
  intros Nd A B. assert (0 < length ds)%nat by (destruct ds; [done|cbn; lia]).
  destruct A as [H1|H1 H2|H1|d e H1 -> S1|d ds' e H1 -> H2 S1], B as [G1|G1 G2|G1|d2 e2 G1 G0 S2|d2 ds2 e2 G1 G0 G2 S2];
    try done; try (exfalso; lia).
  - injection G0 as <-. by rewrite (spells_unique _ _ _ S1 S2).
  - injection G0 as -> <-. done.
  - injection G0 as -> ->. done.
  - injection G0 as <- <-. by rewrite (spells_unique _ _ _ S1 S2).
Qed.

Lemma to_string_unique shortest x a b :
  (forall y ds e, 0 < f64_bits y < 2047 * 2 ^ 52 -> shortest y = (ds, e) -> decimal_digits ds e) ->
  to_string shortest x a -> to_string shortest x b -> a = b.
Proof.
  intros D A B.
  assert (forall y, 0 < f64_bits y < 2047 * 2 ^ 52 -> f64_is_nan y = false /\ f64_is_zero y = false) as P.
  { intros [y] [Y1 Y2]. cbn [f64_bits] in *.
    assert (y < 2 ^ 63) as Y3 by (eapply N.lt_trans; [exact Y2|done]).
    destruct (fields_bits y Y3) as (E&_). destruct (fields_range (F64 y)) as [Re Rf].
    unfold f64_is_nan, f64_is_zero.
    remember (f64_exp (F64 y)) as e. remember (f64_frac (F64 y)) as f. clear Heqe Heqf.
    change (2 ^ 52) with 4503599627370496 in *. change (2047 * 4503599627370496) with 9218868437227405312 in *.
    change (2 ^ 52)%Z with 4503599627370496%Z in *.
    destruct (N.eqb_spec e 2047), (N.eqb_spec f 0), (N.eqb_spec e 0); cbn; split; try done; exfalso; lia. }
  assert (forall x y, 0 < f64_bits x < 2047 * 2 ^ 52 -> f64_bits y = 2 ^ 63 + f64_bits x -> f64_is_nan y = false /\ f64_is_zero y = false) as Q.
  { intros [x'] [y] Hx E. cbn [f64_bits] in *. subst y. rewrite N.add_comm. destruct (P (F64 x') Hx) as [P1 P2].
    unfold f64_is_nan, f64_is_zero in *. destruct (sign_bit_fields x') as [-> ->]. done. }
  assert (forall y, f64_bits y = 2047 * 2 ^ 52 -> f64_is_nan y = false /\ f64_is_zero y = false) as I1.
  { intros [y] E. cbn in E. subst y. done. }
  assert (forall y, f64_bits y = 2 ^ 63 + 2047 * 2 ^ 52 -> f64_is_nan y = false /\ f64_is_zero y = false) as I2.
  { intros [y] E. cbn in E. subst y. done. }
  assert (forall y, f64_is_nan y = true -> f64_is_zero y = true -> False) as NZ.
  { intros y. unfold f64_is_nan, f64_is_zero. destruct (N.eqb_spec (f64_exp y) 2047) as [->|]; done. }
  change (2047 * 2 ^ 52) with 9218868437227405312 in *. change (2 ^ 63) with 9223372036854775808 in *.
  destruct A as [x A|x A|x A|x A|x ds e s A A1 A2|x y ds e s A A0 A1 A2];
  inversion B as [x' B1|x' B1|x' B1|x' B1|x' ds' e' s' B0 B1 B2|x' y' ds' e' s' B0 B3 B1 B2]; subst;
    change (2047 * 2 ^ 52) with 9218868437227405312 in *; change (2 ^ 63) with 9223372036854775808 in *; try done;
    try solve [exfalso; repeat match goal with
      | H : f64_bits ?y = 9218868437227405312 |- _ => destruct (I1 _ H); clear I1
      | H : f64_bits ?y = 9223372036854775808 + 9218868437227405312 |- _ => destruct (I2 _ H); clear I2
      end; first [lia | congruence | by eapply NZ
        | (destruct (P _ A); congruence) | (destruct (P _ B0); congruence)
        | (destruct (Q _ _ A A0); congruence) | (destruct (Q _ _ B0 B3); congruence) ]].
  - rewrite A1 in B1. injection B1 as <- <-. eapply spelled_unique; [|exact A2|exact B2]. by destruct (D x ds e A A1).
  - assert (x' = x) as -> by (destruct x, x'; cbn in *; f_equal; lia).
    rewrite A1 in B1. injection B1 as <- <-. f_equal. eapply spelled_unique; [|exact A2|exact B2]. by destruct (D x ds e A A1).
Qed.

(** ** 32-bit integers are unique *)
Lemma truncated_unique x a b : truncated x a -> truncated x b -> a = b.
Proof.
  unfold truncated. cbv zeta. destruct (f64_pow x <? 0)%Z eqn:E; [|congruence].
  apply Z.ltb_lt in E. assert (0 < 2 ^ (- f64_pow x))%Z as P by (apply Z.pow_pos_nonneg; lia).
  generalize (if f64_neg x then - Z.of_N (f64_mant x) else Z.of_N (f64_mant x))%Z as v.
  revert P. generalize (2 ^ (- f64_pow x))%Z as d. clear.
  intros d P v (r&E1&B1&S1&T1) (s&E2&B2&S2&T2).
  destruct (Z.lt_trichotomy v 0) as [C|[C|C]].
  - assert (r <= 0)%Z by nia. assert (s <= 0)%Z by nia. nia.
  - subst v. assert (a = 0)%Z by nia. assert (b = 0)%Z by nia. lia.
  - assert (0 <= r)%Z by nia. assert (0 <= s)%Z by nia. nia.
Qed.
Lemma uint32_unique x a b : uint32_of x a -> uint32_of x b -> a = b.
Proof.
  intros [Ra A] [Rb B]. destruct (f64_is_finite x); [|congruence].
  destruct A as (z&T&A), B as (z'&T'&B). rewrite (truncated_unique _ _ _ T' T) in B.
  rewrite (Z.mod_small a) in A by done. rewrite (Z.mod_small b) in B by done. congruence.
Qed.
Lemma int32_unique x a b : int32_of x a -> int32_of x b -> a = b.
Proof.
  intros [Ra A] [Rb B]. destruct (f64_is_finite x); [|congruence].
  destruct A as (z&T&A), B as (z'&T'&B). rewrite (truncated_unique _ _ _ T' T) in B. rewrite <- A in B.
  assert (2 ^ 32 <> 0)%Z as N by done.
  pose proof (Z.div_mod a _ N) as D1. pose proof (Z.div_mod b _ N) as D2. rewrite B in D2.
  change (2 ^ 31)%Z with 2147483648%Z in *. change (2 ^ 32)%Z with 4294967296%Z in *. lia.
Qed.
