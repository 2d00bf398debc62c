(** Rounding to integers, and the values of Math and Number. *)
From Coq Require Import String Ascii ZArith NArith Bool List Lia.
From stdpp Require Import base decidable numbers list.
From Verif Require Import VmBase RustStr PrimModel PrimSpec ObjDefineProofs ConvModel ConvSpec ConvProofs ConvTextProofs.
From Verif Require Import FoldModel FoldSpec FoldNumProofs FoldProofs EvalSpec EvalNumProofs.
From Verif Require EvalModel.
Local Open Scope N_scope.

Lemma zero_cases x : is_f64 x -> f64_is_zero x = true -> x = F64 0 \/ x = F64 (2 ^ 63).
Proof.
  unfold is_f64. intros V [A%N.eqb_eq B%N.eqb_eq]%andb_true_iff.
  pose proof (bits_neg x V) as Ng. destruct x as [b]. cbn [f64_bits] in *.
  destruct (N.leb_spec (2 ^ 63) b) as [L|L].
  - assert (b - 2 ^ 63 < 2 ^ 63) as Bb by (change (2 ^ 64) with (2 ^ 63 + 2 ^ 63) in V; lia).
    destruct (sign_bit_fields (b - 2 ^ 63)) as [E1 E2]. replace (b - 2 ^ 63 + 2 ^ 63) with b in * by lia.
    destruct (fields_bits _ Bb) as (Q&_&_). rewrite <- E1, <- E2, A, B in Q. right. f_equal. lia.
  - destruct (fields_bits _ L) as (Q&_&_). rewrite A, B in Q. left. f_equal. lia.
Qed.
Lemma mant_bound x : f64_mant x < 2 ^ 53.
Proof.
  unfold f64_mant. assert (f64_frac x < 2 ^ 52) by (apply N.mod_lt; done). change (2 ^ 53) with (2 ^ 52 + 2 ^ 52).
  destruct (f64_exp x =? 0); lia.
Qed.
Lemma pow_low x : (-1074 <= f64_pow x)%Z.
Proof. unfold f64_pow. destruct (N.eqb_spec (f64_exp x) 0); lia. Qed.

(** A number that is no integer is n and rest / unit. *)
Lemma whole_mag_some x n rest unit : EvalModel.whole_mag x = Some (n, rest, unit) ->
  exists u, (0 < u)%Z /\ 0 < unit /\ rest < unit /\ n < 2 ^ 52 /\ (2 ^ 1074 = Z.of_N unit * u)%Z /\ (exists v, unit = 2 * v) /\
    scaled x = (let s := (Z.of_N n * Z.of_N unit + Z.of_N rest) * u in if f64_neg x then - s else s)%Z.
Proof.
  unfold EvalModel.whole_mag. destruct (f64_is_finite x); [|done]. cbn [negb]. pose proof (pow_low x) as Pl. pose proof (mant_bound x) as Mb.
  destruct (f64_pow x) as [|p|p] eqn:P; try done. remember (2 ^ N.pos p) as P2 eqn:EP. intros [= <- <- <-]. subst P2.
  assert (0 < 2 ^ N.pos p) as U by (apply N.neq_0_lt_0, N.pow_nonzero; done).
  exists (2 ^ (1074 - Zpos p))%Z. split; [apply Z.pow_pos_nonneg; lia|]. split; [done|]. split; [apply N.mod_lt; lia|].
  split. { apply N.div_lt_upper_bound; [lia|]. eapply N.lt_le_trans; [exact Mb|]. change (2 ^ 53) with (2 ^ 1 * 2 ^ 52).
    apply N.mul_le_mono_r. apply (N.pow_le_mono_r 2 1 (N.pos p)); lia. }
  split. { rewrite N2Z.inj_pow, <- Z.pow_add_r by lia. f_equal. lia. }
  split. { exists (2 ^ (N.pos p - 1)). rewrite <- N.pow_succ_r'. f_equal. lia. }
  unfold scaled. rewrite P. cbv zeta.
  assert (Z.of_N (f64_mant x / 2 ^ N.pos p) * Z.of_N (2 ^ N.pos p) + Z.of_N (f64_mant x mod 2 ^ N.pos p) = Z.of_N (f64_mant x))%Z as ->.
  { rewrite <- N2Z.inj_mul, <- N2Z.inj_add. f_equal. rewrite N.mul_comm. symmetry. apply N.div_mod'. }
  replace (Zneg p + 1074)%Z with (1074 - Zpos p)%Z by lia. done.
Qed.
Lemma whole_mag_none x : EvalModel.whole_mag x = None -> f64_is_finite x = true -> exists z, scaled x = (z * 2 ^ 1074)%Z.
Proof.
  unfold EvalModel.whole_mag. intros H F. rewrite F in H. cbn [negb] in H. unfold scaled.
  destruct (f64_pow x) as [|p|p]; [|clear H|done].
  - eexists (if f64_neg x then - Z.of_N (f64_mant x) else Z.of_N (f64_mant x))%Z. change (0 + 1074)%Z with 1074%Z. destruct (f64_neg x); [|done].
    by rewrite Z.mul_opp_l.
  - eexists (if f64_neg x then - (Z.of_N (f64_mant x) * 2 ^ Zpos p) else Z.of_N (f64_mant x) * 2 ^ Zpos p)%Z.
    rewrite Z.pow_add_r by lia. rewrite Z.mul_assoc. destruct (f64_neg x); [|done]. by rewrite Z.mul_opp_l.
Qed.

Lemma round_zero up x : (forall neg unit, up neg 0 unit = false \/ unit = 0) -> is_f64 x -> f64_is_zero x = true -> EvalModel.round_with up x = x.
Proof.
  intros U V [->| ->]%zero_cases; [| |done..]; unfold EvalModel.round_with, EvalModel.whole_mag;
    change (f64_pow (F64 0)) with (Zneg 1074); change (f64_pow (F64 (2 ^ 63))) with (Zneg 1074);
    change (f64_mant (F64 0)) with 0; change (f64_mant (F64 (2 ^ 63))) with 0;
    change (f64_neg (F64 0)) with false; change (f64_neg (F64 (2 ^ 63))) with true;
    change (negb (f64_is_finite (F64 0))) with false; change (negb (f64_is_finite (F64 (2 ^ 63)))) with false; cbv iota.
  - rewrite N.mod_0_l by done. destruct (U false (2 ^ 1074)) as [->|]; [|done]. by rewrite N.div_0_l.
  - rewrite N.mod_0_l by done. destruct (U true (2 ^ 1074)) as [->|]; [|done]. by rewrite N.div_0_l.
Qed.
(** What the rounding of a finite number is. *)
Lemma round_integral (up : bool -> N -> N -> bool) x (g : Z -> Z) : is_f64 x -> f64_is_finite x = true ->
  (forall z, g (z * 2 ^ 1074) = z)%Z ->
  (forall n rest unit u, EvalModel.whole_mag x = Some (n, rest, unit) -> (0 < u)%Z -> 0 < unit -> rest < unit -> (2 ^ 1074 = Z.of_N unit * u)%Z ->
     (exists v, unit = 2 * v) ->
     let s := ((Z.of_N n * Z.of_N unit + Z.of_N rest) * u)%Z in
     let m := Z.of_N (if up (f64_neg x) rest unit then n + 1 else n) in
     g (if f64_neg x then - s else s)%Z = (if f64_neg x then - m else m)%Z) ->
  integral x (EvalModel.round_with up x) (g (scaled x)).
Proof.
  intros V F G H. unfold EvalModel.round_with. destruct (EvalModel.whole_mag x) as [[[n rest] unit]|] eqn:W.
  - destruct (whole_mag_some _ _ _ _ W) as (u&U&Up&Rb&Nb&E&Ev&S). specialize (H n rest unit u eq_refl U Up Rb E Ev). cbv zeta in H, S.
    rewrite S, H. set (m := if up (f64_neg x) rest unit then n + 1 else n) in *.
    assert (m < 2 ^ 53) as Mb.
    { unfold m. change (2 ^ 53) with 9007199254740992. change (2 ^ 52) with 4503599627370496 in Nb. destruct (up _ _ _); lia. }
    clearbody m. destruct (scaled_of_N m Mb) as [S1 S2], (of_N_f64 m Mb) as [S3 S4]. unfold integral.
    destruct (f64_neg x).
    + destruct (negate_scaled _ S3) as [-> ->]. destruct (negate_fields _ S3) as (_&->&_). rewrite S1, S2, S4. split; [done|]. split; [lia|done].
    + rewrite S1, S2, S4. done.
  - destruct (whole_mag_none x W F) as [z E]. rewrite E, G. done.
Qed.

Lemma div_pos n r d : (0 < d -> 0 <= r < d -> (n * d + r) / d = n)%Z.
Proof. intros. symmetry. apply (Z.div_unique_pos _ d n r); lia. Qed.

Lemma floor_ok x : is_f64 x -> f64_is_finite x = true -> integral x (EvalModel.rust_floor x) (scaled x / 2 ^ 1074).
Proof.
  intros V F. apply (round_integral _ x (fun s => s / 2 ^ 1074)%Z V F).
  - intros z. by apply Z.div_mul.
  - intros n rest unit u W U Up Rb E _. cbv zeta. rewrite E.
    destruct (f64_neg x); cbn [andb].
    + rewrite <- Z.mul_opp_l, Z.div_mul_cancel_r by lia. symmetry.
      destruct (N.eqb_spec rest 0) as [->|N0]; cbn [negb].
      * apply (Z.div_unique_pos _ _ _ 0); lia.
      * apply (Z.div_unique_pos _ _ _ (Z.of_N unit - Z.of_N rest)); lia.
    + rewrite Z.div_mul_cancel_r by lia. apply div_pos; lia.
Qed.
Lemma ceil_ok x : is_f64 x -> f64_is_finite x = true -> integral x (EvalModel.rust_ceil x) (- ((- scaled x) / 2 ^ 1074)).
Proof.
  intros V F. apply (round_integral _ x (fun s => - ((- s) / 2 ^ 1074))%Z V F).
  - intros z. rewrite <- Z.mul_opp_l, Z.div_mul by done. lia.
  - intros n rest unit u W U Up Rb E _. cbv zeta. rewrite E.
    destruct (f64_neg x); cbn [andb negb].
    + rewrite Z.opp_involutive, Z.div_mul_cancel_r by lia. f_equal. apply div_pos; lia.
    + rewrite <- Z.mul_opp_l, Z.div_mul_cancel_r by lia.
      destruct (N.eqb_spec rest 0) as [->|N0]; cbn [negb].
      * assert (- (Z.of_N n * Z.of_N unit + Z.of_N 0) / Z.of_N unit = - Z.of_N n)%Z as ->; [|lia]. symmetry. apply (Z.div_unique_pos _ _ _ 0); lia.
      * assert (- (Z.of_N n * Z.of_N unit + Z.of_N rest) / Z.of_N unit = - Z.of_N (n + 1))%Z as ->; [|lia].
        symmetry. apply (Z.div_unique_pos _ _ _ (Z.of_N unit - Z.of_N rest)); lia.
Qed.
Lemma trunc_ok x : is_f64 x -> f64_is_finite x = true -> integral x (EvalModel.rust_trunc x) (Z.quot (scaled x) (2 ^ 1074)).
Proof.
  intros V F. apply (round_integral _ x (fun s => Z.quot s (2 ^ 1074))%Z V F).
  - intros z. by apply Z.quot_mul.
  - intros n rest unit u W U Up Rb E _. cbv zeta. rewrite E.
    assert (Z.quot ((Z.of_N n * Z.of_N unit + Z.of_N rest) * u) (Z.of_N unit * u) = Z.of_N n)%Z as Q.
    { rewrite Z.quot_div_nonneg by nia. rewrite Z.div_mul_cancel_r by lia. apply div_pos; lia. }
    destruct (f64_neg x); [|done]. rewrite Z.quot_opp_l by nia. by rewrite Q.
Qed.
Lemma round_ok x : is_f64 x -> f64_is_finite x = true -> (f64_neg x = true -> ~ half_way x) ->
  integral x (EvalModel.rust_round x) ((2 * scaled x + 2 ^ 1074) / 2 ^ 1075).
Proof.
  intros V F Hw. apply (round_integral _ x (fun s => (2 * s + 2 ^ 1074) / 2 ^ 1075)%Z V F).
  - intros z. change (2 ^ 1075)%Z with (2 * 2 ^ 1074)%Z. assert (0 < 2 ^ 1074)%Z as Pp by done. remember (2 ^ 1074)%Z as B. clear - Pp.
    symmetry. apply (Z.div_unique_pos _ _ _ B); lia.
  - intros n rest unit u W U Up Rb E [v Ev]. cbv zeta.
    assert (2 ^ 1075 = (2 * Z.of_N unit) * u)%Z as -> by (change (2 ^ 1075)%Z with (2 * 2 ^ 1074)%Z; rewrite E; lia).
    destruct (whole_mag_some _ _ _ _ W) as (u'&U'&_&_&_&E'&_&S). assert (u' = u) as -> by nia. cbv zeta in S.
    unfold half_way in Hw. destruct (f64_neg x).
    + assert (2 * rest <> unit) as Nh.
      { intros Q. apply Hw; [done|]. split; [done|]. rewrite S, E. change (2 ^ 1073)%Z with (2 ^ 1074 / 2)%Z. rewrite E.
        replace (Z.of_N unit * u)%Z with (Z.of_N rest * u * 2)%Z by lia. rewrite Z.div_mul by done.
        symmetry. apply (Z.mod_unique_pos _ _ (- Z.of_N n - 1)); nia. }
      rewrite E. replace (2 * - ((Z.of_N n * Z.of_N unit + Z.of_N rest) * u) + Z.of_N unit * u)%Z
        with ((- 2 * (Z.of_N n * Z.of_N unit + Z.of_N rest) + Z.of_N unit) * u)%Z by lia.
      rewrite Z.div_mul_cancel_r by lia. symmetry.
      destruct (N.leb_spec unit (2 * rest)).
      * apply (Z.div_unique_pos _ _ _ (3 * Z.of_N unit - 2 * Z.of_N rest)); lia.
      * apply (Z.div_unique_pos _ _ _ (Z.of_N unit - 2 * Z.of_N rest)); lia.
    + rewrite E. replace (2 * ((Z.of_N n * Z.of_N unit + Z.of_N rest) * u) + Z.of_N unit * u)%Z
        with ((2 * (Z.of_N n * Z.of_N unit + Z.of_N rest) + Z.of_N unit) * u)%Z by lia.
      rewrite Z.div_mul_cancel_r by lia. symmetry.
      destruct (N.leb_spec unit (2 * rest)).
      * apply (Z.div_unique_pos _ _ _ (2 * Z.of_N rest - Z.of_N unit)); lia.
      * apply (Z.div_unique_pos _ _ _ (2 * Z.of_N rest + Z.of_N unit)); lia.
Qed.
Lemma abs_ok x : is_f64 x -> f64_neg (f64_abs x) = false /\ f64_exp (f64_abs x) = f64_exp x /\ f64_frac (f64_abs x) = f64_frac x.
Proof.
  intros V. unfold f64_abs. destruct (f64_neg x) eqn:N; [|done]. destruct (negate_fields x V) as (_&A&B&C).
  unfold f64_negate in A, B, C. rewrite N in A, B, C. done.
Qed.

Lemma txt_inj s t : txt s = txt t -> s = t.
Proof.
  unfold txt. revert t. induction s as [|a s IH]; intros [|b t]; try done. cbn. intros [= E1 E2].
  rewrite <- (ascii_N_embedding a), <- (ascii_N_embedding b), E1. f_equal. by apply IH.
Qed.
Definition math_names : list string := ["Math.abs"; "Math.ceil"; "Math.floor"; "Math.round"; "Math.trunc"]%string.
Lemma math_ok libm R f x v : f ∈ math_names -> is_f64 x ->
  (f = "Math.round"%string -> f64_neg x = true -> ~ half_way x) ->
  EvalModel.eval_call R libm (txt f) [ILModel.KNum x] = Some v -> exists y, v = ILModel.KNum y /\ math_call f x y.
Proof.
  intros Hf V Hw.
  assert (forall up, (forall neg unit, up neg 0 unit = false \/ unit = 0) -> negb (f64_is_finite x) || f64_is_zero x = true -> EvalModel.round_with up x = x) as Z.
  { intros up U [N|N]%orb_true_iff; [|by apply round_zero]. unfold EvalModel.round_with, EvalModel.whole_mag. by rewrite N. }
  assert (forall s t : string, bool_decide (txt s = txt t) = bool_decide (s = t)) as T.
  { intros s t. apply bool_decide_ext. split; [apply txt_inj|congruence]. }
  unfold EvalModel.eval_call. rewrite !T. unfold math_call.
  repeat (apply elem_of_cons in Hf as [->|Hf]); [| | | | |by apply elem_of_nil in Hf];
    repeat (rewrite bool_decide_eq_true_2 by done || rewrite bool_decide_eq_false_2 by done);
    intros [= <-]; (eexists; split; [reflexivity|]).
  - by apply abs_ok.
  - destruct (negb (f64_is_finite x) || f64_is_zero x) eqn:Q; [apply Z; [|done]|].
    + intros neg unit. left. by rewrite andb_false_r.
    + apply orb_false_iff in Q as [Q%negb_false_iff _]. by apply ceil_ok.
  - destruct (negb (f64_is_finite x) || f64_is_zero x) eqn:Q; [apply Z; [|done]|].
    + intros neg unit. left. by rewrite andb_false_r.
    + apply orb_false_iff in Q as [Q%negb_false_iff _]. by apply floor_ok.
  - destruct (negb (f64_is_finite x) || f64_is_zero x) eqn:Q; [apply Z; [|done]|].
    + intros neg unit. destruct (N.eq_dec unit 0); [by right|]. left. apply N.leb_gt. lia.
    + apply orb_false_iff in Q as [Q%negb_false_iff _]. apply round_ok; auto.
  - destruct (negb (f64_is_finite x) || f64_is_zero x) eqn:Q; [apply Z; [|done]|].
    + intros neg unit. by left.
    + apply orb_false_iff in Q as [Q%negb_false_iff _]. by apply trunc_ok.
Qed.

Lemma val_ok path v : EvalModel.eval_val (txt path) = Some v -> exists x, v = ILModel.KNum x /\ is_f64 x /\ constant path x.
Proof.
  assert (forall s t : string, bool_decide (txt s = txt t) = bool_decide (s = t)) as T.
  { intros s t. apply bool_decide_ext. split; [apply txt_inj|congruence]. }
  unfold EvalModel.eval_val. rewrite !T. unfold constant.
  repeat (match goal with |- context [bool_decide (path = ?s)] => destruct (decide (path = s)) as [->|?];
    [repeat (rewrite bool_decide_eq_true_2 by done || rewrite bool_decide_eq_false_2 by done); cbv iota; cbn [orb];
     intros [= <-]; (eexists; split; [reflexivity|]); split; [done|]; cbn [orb];
     repeat split; try (apply (Zle_bool_imp_le _ _)); vm_compute; reflexivity
    |rewrite !(bool_decide_eq_false_2 (path = s)) by done] end).
  done.
Qed.
