(** Proofs about the spelling of numbers. *)
From Coq Require Import String Ascii.
From stdpp Require Import base decidable numbers list.
From Verif Require Import VmBase RustStr PrimModel PrimSpec PrimProofs ConvModel ConvSpec ConvProofs.
Local Open Scope N_scope.

Definition digits (ds : rstr) : Prop := Forall (fun c => 48 <= c <= 57) ds.

Lemma digits_forallb ds : digits ds <-> forallb is_digit ds = true.
Proof.
  unfold digits. rewrite forallb_forall, Forall_forall. split.
  - intros H c C%elem_of_list_In. apply is_digit_range, H, C.
  - intros H c C%elem_of_list_In. apply is_digit_range, H, C.
Qed.

Lemma decimal_number n :
  decimal_of_N n <> [] /\ digits (decimal_of_N n) /\ number_of (decimal_of_N n) = n /\
  (forall rest, decimal_of_N n = 48 :: rest -> rest = []).
Proof.
  destruct (decimal_of_N_spec n) as [(A&B&C) V]. split_and!; try done.
  rewrite <-V at 2. unfold number_of, digits_value. clear. generalize 0. induction (decimal_of_N n) as [|c l IH]; intros a; cbn; [done|]. apply IH.
Qed.

Lemma decimal_spells n : spells_integer (Z.of_N n) (decimal_of_N n).
Proof.
  destruct (decimal_number n) as (A&B&C&D). exists n. split_and!; [|done|].
  - apply numeral10. split_and!; [done|by apply digits_forallb|done].
  - destruct (decimal_of_N n) as [|c l]; [done|]. cbn. destruct (N.eq_dec c 48) as [->|]; [|by left]. right. by rewrite (D l).
Qed.

Lemma parse_int_text z : (- 2 ^ 31 <= z < 2 ^ 31)%Z -> parse_i32_or_zero (int_text z) = z.
Proof.
  intros Hz. unfold int_text. destruct (Z.ltb_spec z 0) as [L|L].
  - destruct (decimal_number (Z.to_N (- z))) as (A&B&C&_). unfold parse_i32_or_zero.
    apply digits_forallb in B. rewrite C, B, bool_decide_eq_false_2 by done. cbn [negb andb].
    rewrite Z2N.id by lia. replace (- - z)%Z with z by lia.
    rewrite (proj2 (Z.leb_le _ _)), (proj2 (Z.ltb_lt _ _)) by lia. done.
  - destruct (decimal_number (Z.to_N z)) as (A&B&C&_). unfold parse_i32_or_zero.
    assert (hd 0 (decimal_of_N (Z.to_N z)) <> 43 /\ hd 0 (decimal_of_N (Z.to_N z)) <> 45) as [S1 S2].
    { destruct (decimal_of_N (Z.to_N z)) as [|c l]; [done|]. inversion B as [|? ? H]; subst. cbn [hd]. clear -H. lia. }
    rewrite sign_match by done.
    apply digits_forallb in B. rewrite C, B, bool_decide_eq_false_2 by done. cbn [negb andb].
    rewrite Z2N.id by lia.
    rewrite (proj2 (Z.leb_le _ _)), (proj2 (Z.ltb_lt _ _)) by lia. done.
Qed.

Lemma split_once_none c s : Forall (fun d => d <> c) s -> split_once c s = None.
Proof. induction 1 as [|d s D S IH]; cbn; [done|]. apply N.eqb_neq in D. rewrite N.eqb_sym, D, IH. done. Qed.
Lemma split_once_some c a b : Forall (fun d => d <> c) a -> split_once c (a ++ c :: b) = Some (a, b).
Proof. induction 1 as [|d s D S IH]; cbn; [by rewrite N.eqb_refl|]. apply N.eqb_neq in D. rewrite N.eqb_sym, D, IH. done. Qed.

Lemma digits_not c ds : digits ds -> c < 48 \/ 57 < c -> Forall (fun d => d <> c) ds.
Proof. intros H C. eapply Forall_impl; [exact H|]. cbn. intros. lia. Qed.

Lemma trim_zeros n ds : hd 48 ds <> 48 -> trim_start (N.eqb 48) (zeros n ++ ds) = ds.
Proof.
  intros H. induction n as [|n IH]; [|exact IH]. destruct ds as [|c ds]; [done|]. cbn [hd] in H.
  change (zeros 0 ++ c :: ds) with (c :: ds). cbn [trim_start]. destruct (N.eqb_spec 48 c); [congruence|done].
Qed.

Lemma strip_keep s : (forall r, rev s <> 48 :: 46 :: r) -> strip_point_zero s = s.
Proof.
  intros H. unfold strip_point_zero. destruct (rev s) as [|[|p] [|[|q] r]]; try done.
  all: repeat (destruct p as [p|p|]; try done).
  repeat (destruct q as [q|q|]; try done). exfalso. by eapply H.
Qed.

Lemma strip_drop s : strip_point_zero (s ++ [46; 48]) = s.
Proof. unfold strip_point_zero. rewrite rev_app_distr. cbn. apply rev_involutive. Qed.

Lemma last_rev (ds : rstr) c r : rev ds = c :: r -> List.last ds 48 = c.
Proof. intros H. apply (f_equal (@rev _)) in H. rewrite rev_involutive in H. cbn in H. rewrite H. apply last_last. Qed.

Lemma strip_last a ds : ds <> [] -> List.last ds 48 <> 48 -> strip_point_zero (a ++ ds) = a ++ ds.
Proof.
  intros N L. apply strip_keep. intros r. rewrite rev_app_distr. destruct (rev ds) as [|c l] eqn:R.
  - apply (f_equal (@rev _)) in R. rewrite rev_involutive in R. done.
  - apply last_rev in R. cbn. intros [= -> _]. done.
Qed.

Lemma strip_int_text a c z : c <> 46 -> strip_point_zero (a ++ c :: int_text z) = a ++ c :: int_text z.
Proof.
  intros C. apply strip_keep. intros r.
  assert (Forall (fun d => d <> 46) (c :: int_text z)) as F.
  { constructor; [done|]. unfold int_text. destruct (z <? 0)%Z; [constructor; [done|]|]; apply digits_not; try lia; apply decimal_number. }
  rewrite rev_app_distr.
  assert (exists x y l, rev (c :: int_text z) = x :: y :: l) as (x&y&l&R).
  { cbn. assert (int_text z <> []) as N.
    { unfold int_text. destruct (z <? 0)%Z; [done|]. apply decimal_number. }
    destruct (rev (int_text z)) as [|x l] eqn:R.
    - apply (f_equal (@rev _)) in R. rewrite rev_involutive in R. done.
    - destruct l as [|y l]; cbn; by eexists _, _, _. }
  rewrite R. cbn. intros [= -> -> _]. apply Forall_rev in F. rewrite R in F. inversion F as [|? ? _ F']; subst. inversion F'; subst. done.
Qed.

(** The digits and the exponent the code reads off ryu's text. *)
Lemma parse_format shortest x ds k :
  shortest x = (ds, k) -> decimal_digits ds k ->
  parse_ryu_to_decimal (strip_point_zero (format_finite shortest x)) = (ds, k) \/
  (0 <= k /\ k + Z.of_nat (length ds) <= 16 /\
   parse_ryu_to_decimal (strip_point_zero (format_finite shortest x)) = (ds ++ zeros (Z.to_nat k), 0))%Z.
Proof.
  intros E (N&D&H&L&B&Len). unfold format_finite. rewrite E. cbv zeta.
  set (kk := (Z.of_nat (length ds) + k)%Z).
  assert (forall a b : bool, andb a b = true -> a = true /\ b = true) as An by (intros [] []; done).
  destruct ((0 <=? k) && (kk <=? 16))%Z eqn:C1.
  { apply An in C1 as [C1%Z.leb_le C1'%Z.leb_le]. right. split; [done|]. split; [lia|].
    rewrite app_assoc, strip_drop. unfold parse_ryu_to_decimal.
    assert (digits (ds ++ zeros (Z.to_nat k))) as D'.
    { apply Forall_app. split; [done|]. apply Forall_forall. intros c C%elem_of_list_In%repeat_spec. lia. }
    rewrite !split_once_none by (apply digits_not; [done|lia]).
    rewrite <-(app_nil_l (ds ++ _)) at 1. change ([] ++ (ds ++ zeros (Z.to_nat k))) with (zeros 0 ++ (ds ++ zeros (Z.to_nat k))).
    rewrite trim_zeros; [done|]. by destruct ds. }
  left.
  assert (trim_start (N.eqb 48) ds = ds) as TS by (by apply (trim_zeros 0)).
  destruct ((0 <? kk) && (kk <=? 16))%Z eqn:C2.
  { apply An in C2 as [C2%Z.ltb_lt C2'%Z.leb_le].
    assert (k < 0)%Z as Kn. { destruct (Z.ltb_spec k 0); [done|]. apply andb_false_iff in C1. rewrite !Z.leb_gt in C1. lia. }
    assert (drop (Z.to_nat kk) ds <> []) as Dn.
    { intros Q. apply (f_equal length) in Q. rewrite drop_length in Q. cbn in Q. lia. }
    assert (List.last (drop (Z.to_nat kk) ds) 48 <> 48) as Ln.
    { assert (List.last (take (Z.to_nat kk) ds ++ drop (Z.to_nat kk) ds) 48 <> 48) as L' by (by rewrite take_drop).
      destruct (exists_last Dn) as (l&c&Q). rewrite Q in *. rewrite app_assoc, last_last in L'. by rewrite last_last. }
    rewrite app_assoc. rewrite strip_last by done. rewrite <-app_assoc. cbn [app].
    assert (digits (take (Z.to_nat kk) ds)) as D1 by (by apply Forall_take).
    assert (digits (drop (Z.to_nat kk) ds)) as D2 by (by apply Forall_drop).
    unfold parse_ryu_to_decimal.
    rewrite (split_once_none 101).
    2: { apply Forall_app. split; [apply digits_not; [done|lia]|]. constructor; [done|]. apply digits_not; [done|lia]. }
    rewrite split_once_some by (apply digits_not; [done|lia]).
    rewrite take_drop, TS, drop_length. f_equal. lia. }
  assert (kk <= 0 \/ 16 < kk)%Z as C12.
  { apply andb_false_iff in C2. rewrite Z.ltb_ge, Z.leb_gt in C2. lia. }
  destruct ((-5 <? kk) && (kk <=? 0))%Z eqn:C3.
  { apply An in C3 as [C3%Z.ltb_lt C3'%Z.leb_le].
    rewrite app_assoc. rewrite strip_last by done. rewrite <-app_assoc. cbn [app].
    assert (digits (zeros (Z.to_nat (- kk)) ++ ds)) as D'.
    { apply Forall_app. split; [|done]. apply Forall_forall. intros c C%elem_of_list_In%repeat_spec. lia. }
    unfold parse_ryu_to_decimal. rewrite (split_once_none 101).
    2: { repeat (constructor; [done|]). apply digits_not; [done|lia]. }
    change (48 :: 46 :: zeros (Z.to_nat (- kk)) ++ ds) with ([48] ++ 46 :: zeros (Z.to_nat (- kk)) ++ ds).
    rewrite split_once_some by (repeat constructor; done).
    change ([48] ++ zeros (Z.to_nat (- kk)) ++ ds) with (zeros (S (Z.to_nat (- kk))) ++ ds).
    rewrite trim_zeros by done. rewrite app_length. unfold zeros at 1. rewrite repeat_length. f_equal. lia. }
  destruct ds as [|d ds]; [done|]. destruct ds as [|d' ds].
  - change ([d; 101] ++ int_text (kk - 1)) with ([d] ++ 101 :: int_text (kk - 1)). rewrite strip_int_text by done.
    unfold parse_ryu_to_decimal. inversion D as [|? ? D1 _]; subst.
    rewrite split_once_some by (constructor; [lia|constructor]). rewrite parse_int_text by (cbn [length] in *; lia).
    rewrite (split_once_none 46) by (constructor; [lia|constructor]). rewrite TS. f_equal. cbn [length] in *. lia.
  - inversion D as [|? ? D1 D2]; subst.
    change ([d; 46] ++ (d' :: ds) ++ [101] ++ int_text (kk - 1)) with ((d :: 46 :: d' :: ds) ++ 101 :: int_text (kk - 1)).
    rewrite strip_int_text by done. unfold parse_ryu_to_decimal.
    rewrite split_once_some by (repeat (constructor; [lia|]); apply digits_not; [done|lia]).
    rewrite parse_int_text by (cbn [length] in *; lia).
    change (d :: 46 :: d' :: ds) with ([d] ++ 46 :: d' :: ds).
    rewrite split_once_some by (constructor; [lia|constructor]). change ([d] ++ d' :: ds) with (d :: d' :: ds). rewrite TS.
    f_equal. cbn [length] in *. lia.
Qed.

Lemma layout_spelled ds k :
  decimal_digits ds k -> spelled ds (k + Z.of_nat (length ds)) (layout ds k).
Proof.
  intros (N&D&H&L&B&Len). unfold layout. cbv zeta. set (n := (k + Z.of_nat (length ds))%Z).
  assert (0 < length ds)%nat as L0 by (destruct ds; [done|cbn; lia]).
  destruct ((0 <? n) && (n <=? 21))%Z eqn:C1.
  { apply andb_true_iff in C1 as [C1%Z.ltb_lt C1'%Z.leb_le]. destruct (Nat.leb_spec (length ds) (Z.to_nat n)) as [Q|Q].
    - apply spelled_integer. lia.
    - apply spelled_point; lia. }
  apply andb_false_iff in C1. rewrite Z.ltb_ge, Z.leb_gt in C1.
  destruct ((n <=? 0) && (-6 <? n))%Z eqn:C2.
  { apply andb_true_iff in C2 as [C2%Z.leb_le C2'%Z.ltb_lt]. apply spelled_fraction. lia. }
  apply andb_false_iff in C2. rewrite Z.ltb_ge, Z.leb_gt in C2.
  assert (21 < n \/ n <= -6)%Z as C by lia. clear C1 C2.
  assert ((if (0 <=? n - 1)%Z then 43 :: int_text (n - 1) else 45 :: int_text (- (n - 1))) =
     [if (n <? 0)%Z then 45 else 43] ++ decimal_of_N (Z.to_N (Z.abs (n - 1)))) as ->.
  { unfold int_text. destruct (Z.leb_spec 0 (n - 1)), (Z.ltb_spec n 0); try lia.
    - destruct (Z.ltb_spec (n - 1) 0); [lia|]. rewrite Z.abs_eq by lia. done.
    - destruct (Z.ltb_spec (- (n - 1)) 0); [lia|]. rewrite Z.abs_neq by lia. done. }
  assert (spells_integer (Z.abs (n - 1)) (decimal_of_N (Z.to_N (Z.abs (n - 1))))) as Sp.
  { rewrite <-(Z2N.id (Z.abs (n - 1))) at 1 by lia. apply decimal_spells. }
  destruct ds as [|d [|d' ds]]; [done|..].
  - cbn [take length Nat.ltb Nat.leb app]. by eapply spelled_one.
  - change ((1 <? length (d :: d' :: ds))%nat) with true. cbn [take drop].
    change ([d] ++ (46 :: d' :: ds) ++ [101] ++ [if (n <? 0)%Z then 45 else 43] ++ decimal_of_N (Z.to_N (Z.abs (n - 1))))
      with ([d; 46] ++ (d' :: ds) ++ [101; if (n <? 0)%Z then 45 else 43] ++ decimal_of_N (Z.to_N (Z.abs (n - 1)))).
    by eapply spelled_many.
Qed.

Lemma finite_spelled shortest x ds k s e :
  shortest x = (ds, k) -> decimal_digits ds k ->
  parse_ryu_to_decimal (strip_point_zero (format_finite shortest x)) = (s, e) ->
  spelled ds (k + Z.of_nat (length ds)) (layout s e).
Proof.
  intros E D P. destruct (parse_format _ _ _ _ E D) as [Q|(K&B&Q)]; rewrite P in Q; injection Q as -> ->.
  - by apply layout_spelled.
  - pose proof D as (N&_). assert (0 < length ds)%nat as L0 by (destruct ds; [done|cbn; lia]).
    unfold layout. cbv zeta. unfold zeros. rewrite app_length, !repeat_length.
    rewrite (proj2 (Z.ltb_lt _ _)), (proj2 (Z.leb_le _ _)) by lia. cbn [andb].
    destruct (Nat.leb_spec (length ds + Z.to_nat k) (Z.to_nat (0 + Z.of_nat (length ds + Z.to_nat k)))) as [Q|Q]; [|lia].
    replace (Z.to_nat (0 + Z.of_nat (length ds + Z.to_nat k)) - (length ds + Z.to_nat k))%nat with 0%nat by lia.
    cbn [repeat]. rewrite app_nil_r.
    replace (Z.to_nat k) with (Z.to_nat (k + Z.of_nat (length ds)) - length ds)%nat by lia.
    apply spelled_integer. lia.
Qed.

(** ** Doubles by their bits *)

Lemma bits_split b :
  b = (b / 2 ^ 52) * 2 ^ 52 + b mod 2 ^ 52 /\ b mod 2 ^ 52 < 2 ^ 52 /\
  b / 2 ^ 52 = (b / 2 ^ 52 / 2 ^ 11) * 2 ^ 11 + (b / 2 ^ 52) mod 2 ^ 11 /\ (b / 2 ^ 52) mod 2 ^ 11 < 2 ^ 11.
Proof.
  split_and!.
  - rewrite (N.mul_comm (b / 2 ^ 52)). by apply N.div_mod.
  - by apply N.mod_upper_bound.
  - rewrite (N.mul_comm (b / 2 ^ 52 / 2 ^ 11)). by apply N.div_mod.
  - by apply N.mod_upper_bound.
Qed.

Lemma bits_neg x : f64_bits x < 2 ^ 64 -> f64_neg x = (2 ^ 63 <=? f64_bits x).
Proof.
  intros B. unfold f64_neg. destruct (N.leb_spec (2 ^ 63) (f64_bits x)) as [L|L].
  - rewrite N.testbit_eqb. rewrite <-(N.div_unique (f64_bits x) (2 ^ 63) 1 (f64_bits x - 2 ^ 63)); [done|lia|lia].
  - rewrite N.testbit_eqb. by rewrite N.div_small.
Qed.

Lemma div_add_high b : (b + 2 ^ 63) / 2 ^ 52 = b / 2 ^ 52 + 2 ^ 11.
Proof. change (2 ^ 63) with (2 ^ 11 * 2 ^ 52). by rewrite N.div_add. Qed.

Lemma sign_bit_fields b : f64_exp (F64 (b + 2 ^ 63)) = f64_exp (F64 b) /\ f64_frac (F64 (b + 2 ^ 63)) = f64_frac (F64 b).
Proof.
  unfold f64_exp, f64_frac. cbn [f64_bits]. rewrite div_add_high. split.
  - change (2 ^ 11) with (1 * 2 ^ 11) at 1. by rewrite N.mod_add.
  - change (2 ^ 63) with (2 ^ 11 * 2 ^ 52). by rewrite N.mod_add.
Qed.

Lemma fields_bits b : b < 2 ^ 63 -> b = f64_exp (F64 b) * 2 ^ 52 + f64_frac (F64 b) /\
  f64_exp (F64 b) < 2 ^ 11 /\ f64_frac (F64 b) < 2 ^ 52.
Proof.
  intros B. unfold f64_exp, f64_frac. cbn [f64_bits]. destruct (bits_split b) as (A1&A2&A3&A4).
  assert (b / 2 ^ 52 < 2 ^ 11) as L by (apply N.div_lt_upper_bound; [done|exact B]).
  rewrite (N.mod_small (b / 2 ^ 52)) by done. split_and!; done.
Qed.

Theorem spell_correct shortest text x :
  f64_bits x < 2 ^ 64 ->
  (forall y, 0 < f64_bits y < 2047 * 2 ^ 52 -> text y = strip_point_zero (format_finite shortest y)) ->
  (forall y ds e, 0 < f64_bits y < 2047 * 2 ^ 52 -> shortest y = (ds, e) -> decimal_digits ds e) ->
  to_string shortest x (spell_with text x).
Proof.
  intros B T D. unfold spell_with.
  destruct (f64_is_nan x) eqn:Nn; [by apply ts_nan|]. destruct (f64_is_zero x) eqn:Z; [by apply ts_zero|].
  assert (exists b, b < 2 ^ 63 /\ f64_exp x = f64_exp (F64 b) /\ f64_frac x = f64_frac (F64 b) /\
     ((f64_neg x = false /\ x = F64 b) \/ (f64_neg x = true /\ x = F64 (b + 2 ^ 63)))) as (b&Bb&Ee&Ef&C).
  { rewrite (bits_neg x B). destruct (N.leb_spec (2 ^ 63) (f64_bits x)) as [L|L].
    - exists (f64_bits x - 2 ^ 63). destruct (sign_bit_fields (f64_bits x - 2 ^ 63)) as [S1 S2].
      rewrite <-S1, <-S2. replace (f64_bits x - 2 ^ 63 + 2 ^ 63) with (f64_bits x) by lia. destruct x as [b]. split_and!; [cbn [f64_bits] in *; lia|done..|by right].
    - exists (f64_bits x). destruct x as [b]. split_and!; [done..|by left]. }
  destruct (fields_bits b Bb) as (Fb&Fe&Ff).
  destruct (f64_is_infinite x) eqn:I.
  { unfold f64_is_infinite in I. apply andb_true_iff in I as [I1%N.eqb_eq I2%N.eqb_eq].
    rewrite Ee in I1. rewrite Ef in I2. rewrite I1, I2 in Fb.
    destruct C as [[-> ->]|[-> ->]]; [apply ts_infinity|apply ts_negative_infinity]; cbn [f64_bits]; lia. }
  assert (0 < b < 2047 * 2 ^ 52) as Rb.
  { unfold f64_is_nan, f64_is_zero, f64_is_infinite in Nn, Z, I. rewrite Ee, Ef in Nn, Z, I.
    destruct (N.eqb_spec (f64_exp (F64 b)) 2047) as [Q|Q].
    { cbn [andb] in Nn, I. rewrite I in Nn. done. }
    split.
    - destruct (N.eqb_spec (f64_exp (F64 b)) 0) as [Q0|Q0]; [|lia]. cbn [andb] in Z. apply N.eqb_neq in Z. lia.
    - assert (f64_exp (F64 b) < 2047) as Q' by (change (2 ^ 11) with 2048 in Fe; lia). clear -Fb Ff Q'.
      rewrite Fb. apply (N.lt_le_trans _ (f64_exp (F64 b) * 2 ^ 52 + 2 ^ 52)); [lia|].
      replace (f64_exp (F64 b) * 2 ^ 52 + 2 ^ 52) with ((f64_exp (F64 b) + 1) * 2 ^ 52) by lia. apply N.mul_le_mono_r. lia. }
  assert (f64_abs x = F64 b) as ->.
  { unfold f64_abs. destruct C as [[-> ->]|[-> ->]]; [done|]. cbn [f64_bits]. f_equal. lia. }
  rewrite T by done. destruct (parse_ryu_to_decimal _) as [s e] eqn:P.
  destruct (shortest (F64 b)) as [ds k] eqn:E. pose proof (D (F64 b) _ _ Rb E) as Dd.
  pose proof (finite_spelled _ _ _ _ _ _ E Dd P) as Sp.
  destruct C as [[-> ->]|[-> ->]]; cbn [app].
  - by eapply ts_positive.
  - eapply (ts_negative _ (F64 b)); [done| |done|done]. cbn [f64_bits]. lia.
Qed.

Theorem vm_spells shortest x :
  f64_bits x < 2 ^ 64 ->
  (forall y ds e, 0 < f64_bits y < 2047 * 2 ^ 52 -> shortest y = (ds, e) -> decimal_digits ds e) ->
  to_string shortest x (number_to_string shortest x).
Proof. intros B D. by apply spell_correct. Qed.

Theorem minifier_spells shortest x :
  f64_bits x < 2 ^ 64 ->
  (forall y ds e, 0 < f64_bits y < 2047 * 2 ^ 52 -> shortest y = (ds, e) -> decimal_digits ds e) ->
  to_string shortest x (js_number_to_string shortest x).
Proof.
  intros B D. apply spell_correct; [done| |done]. intros y Y. unfold jsnumber_display.
  assert (f64_bits y < 2 ^ 63) as L by (etrans; [apply Y|done]).
  destruct y as [b]. cbn [f64_bits] in *. destruct (fields_bits b L) as (Fb&Fe&Ff).
  assert (f64_exp (F64 b) <> 2047) as X.
  { intros Q. rewrite Q in Fb. lia. }
  unfold f64_is_infinite, f64_is_nan, f64_is_zero. apply N.eqb_neq in X. rewrite X. cbn [andb].
  assert (f64_neg (F64 b) = false) as Ng.
  { rewrite bits_neg by (cbn; etrans; [exact L|done]). cbn [f64_bits]. by apply N.leb_gt. }
  unfold f64_abs. rewrite Ng.
  destruct ((f64_exp (F64 b) =? 0) && (f64_frac (F64 b) =? 0)) eqn:Z; [|done].
  apply andb_true_iff in Z as [Z1%N.eqb_eq Z2%N.eqb_eq]. rewrite Z1, Z2 in Fb. lia.
Qed.

(** ** 32-bit integers *)

Lemma trunc_truncated x : truncated x (f64_trunc x).
Proof.
  unfold truncated, f64_trunc. cbv zeta. destruct (Z.ltb_spec (f64_pow x) 0) as [L|L].
  - destruct (f64_pow x) as [|p|p]; [lia|lia|]. change (- Zneg p)%Z with (Zpos p).
    assert (Z.of_N (2 ^ Npos p) = 2 ^ Zpos p)%Z as E by (by rewrite N2Z.inj_pow).
    pose proof (N.div_mod (f64_mant x) (2 ^ Npos p) ltac:(apply N.pow_nonzero; lia)) as Dm.
    pose proof (N.mod_upper_bound (f64_mant x) (2 ^ Npos p) ltac:(apply N.pow_nonzero; lia)) as Mb.
    set (q := f64_mant x / 2 ^ Npos p) in *. set (r := f64_mant x mod 2 ^ Npos p) in *.
    set (P := 2 ^ Npos p) in *. rewrite <-E. clearbody q r P. clear E L. rewrite Dm.
    destruct (f64_neg x).
    + exists (- Z.of_N r)%Z. split_and!; [lia|lia|nia|nia].
    + exists (Z.of_N r). split_and!; [lia|lia|nia|nia].
  - destruct (f64_pow x) as [|p|p]; [|..].
    + rewrite Z.pow_0_r, Z.mul_1_r. done.
    + assert (Z.of_N (2 ^ Npos p) = 2 ^ Zpos p)%Z as E by (by rewrite N2Z.inj_pow). rewrite <-E.
      destruct (f64_neg x); rewrite N2Z.inj_mul; lia.
    + lia.
Qed.

Lemma rem_euclid z m : (0 < m)%Z -> (if Z.rem z m <? 0 then Z.rem z m + m else Z.rem z m)%Z = (z mod m)%Z.
Proof.
  intros M. pose proof (Z.quot_rem' z m) as Q. pose proof (Z.rem_bound_abs z m ltac:(lia)) as B.
  set (q := Z.quot z m) in *. set (r := Z.rem z m) in *. clearbody q r. destruct (Z.ltb_spec r 0).
  - apply (Z.mod_unique z m (q - 1)); lia.
  - apply (Z.mod_unique z m q); lia.
Qed.

Lemma zero_trunc x : f64_is_zero x = true -> f64_trunc x = 0%Z.
Proof.
  unfold f64_is_zero. intros [A%N.eqb_eq B%N.eqb_eq]%andb_true_iff. unfold f64_trunc, f64_mant, f64_pow.
  rewrite A, B. cbn [N.eqb]. rewrite N.div_0_l by done. by destruct (f64_neg x).
Qed.

Theorem uint32_correct x : uint32_of x (js_to_uint32 x).
Proof.
  unfold uint32_of, js_to_uint32. cbv zeta. destruct (f64_is_finite x); cbn [negb orb]; [|done].
  destruct (f64_is_zero x) eqn:Z.
  - split; [done|]. exists (f64_trunc x). split; [apply trunc_truncated|]. by rewrite zero_trunc.
  - rewrite rem_euclid by done. split; [by apply Z.mod_pos_bound|]. exists (f64_trunc x). split; [apply trunc_truncated|].
    by apply Z.mod_mod.
Qed.

Theorem int32_correct x : int32_of x (js_to_int32 x).
Proof.
  destruct (uint32_correct x) as [B H]. unfold int32_of, js_to_int32. cbv zeta. set (u := js_to_uint32 x) in *. clearbody u.
  destruct (Z.ltb_spec u (2 ^ 31)) as [L|L]; (split; [lia|]).
  - done.
  - destruct (f64_is_finite x); [|subst; lia]. destruct H as (z&T&M). exists z. split; [done|]. rewrite <-M.
    replace (u - 2 ^ 32)%Z with (u + (-1) * 2 ^ 32)%Z by lia. by rewrite Z.mod_add.
Qed.
