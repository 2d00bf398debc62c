(** Numbers and texts for the theorems about constant evaluation. *)
From Coq Require Import String Ascii ZArith NArith Bool List Lia.
From stdpp Require Import base decidable numbers list.
From Verif Require Import VmBase RustStr RustStrProofs PrimModel PrimSpec ObjDefineProofs ConvModel ConvSpec ConvProofs ConvTextProofs.
From Verif Require Import FoldModel FoldSpec FoldNumProofs FoldProofs EvalSpec.
Local Open Scope N_scope.

(** ** ryu's text where it is that of ECMA-262 *)

Lemma last_app_r (a b : rstr) d : b <> [] -> List.last (a ++ b) d = List.last b d.
Proof. intros N. destruct (exists_last N) as (l&x&->). by rewrite app_assoc, !last_last. Qed.
Lemma format_plain shortest y ds k p :
  shortest y = (ds, k) -> decimal_digits ds k ->
  (-5 < k + Z.of_nat (length ds) <= 16 \/ k + Z.of_nat (length ds) <= -6)%Z ->
  exists s, strip_point_zero (p ++ format_finite shortest y) = p ++ s /\ spelled ds (k + Z.of_nat (length ds)) s.
Proof.
  intros E (N&D&H&L&B&Len) K. unfold format_finite. rewrite E. cbv zeta.
  replace (Z.of_nat (length ds) + k)%Z with (k + Z.of_nat (length ds))%Z by lia.
  assert (0 < length ds)%nat as LP by (destruct ds; [done|cbn; lia]).
  set (n := (k + Z.of_nat (length ds))%Z) in *.
  destruct (Z.leb_spec 0 k) as [K0|K0]; cbn [andb].
  - destruct (Z.leb_spec n 16) as [K1|K1]; cbn [andb]; [|lia].
    exists (ds ++ zeros (Z.to_nat k)). split.
    + rewrite (app_assoc ds), (app_assoc p). apply strip_drop.
    + replace (Z.to_nat k) with (Z.to_nat n - length ds)%nat by lia. apply spelled_integer. lia.
  - destruct (Z.ltb_spec 0 n) as [K1|K1]; cbn [andb].
    + destruct (Z.leb_spec n 16) as [K2|K2]; [|lia].
      eexists. split; [|apply spelled_point; lia].
      rewrite !app_assoc. apply strip_last.
      * intros Q. apply (f_equal length) in Q. rewrite drop_length in Q. cbn in Q. lia.
      * rewrite <- (take_drop (Z.to_nat n) ds) in L. rewrite last_app_r in L; [done|].
        intros Q. apply (f_equal length) in Q. rewrite drop_length in Q. cbn in Q. lia.
    + destruct (Z.ltb_spec (-5) n) as [K2|K2]; cbn [andb].
      * destruct (Z.leb_spec n 0); [|lia]. eexists. split; [|apply spelled_fraction; lia].
        unfold zeros. rewrite !app_assoc. by apply strip_last.
      * assert (n <= -6)%Z as K3 by lia.
        assert (int_text (n - 1) = 45 :: decimal_of_N (Z.to_N (- (n - 1)))) as I.
        { unfold int_text. destruct (Z.ltb_spec (n - 1) 0); [done|lia]. }
        assert (spells_integer (Z.abs (n - 1)) (decimal_of_N (Z.to_N (- (n - 1))))) as S.
        { replace (Z.abs (n - 1)) with (Z.of_N (Z.to_N (- (n - 1)))) by lia. apply decimal_spells. }
        assert ((n <? 0)%Z = true) as Ng by lia.
        clearbody n. clear E D H L LP K K0 B Len. destruct ds as [|d [|d' ds]]; [done| |].
        -- exists ([d; 101] ++ int_text (n - 1)). split.
           ++ change ([d; 101] ++ int_text (n - 1)) with ([d] ++ 101 :: int_text (n - 1)). rewrite app_assoc. by apply strip_int_text.
           ++ rewrite I. pose proof (spelled_one [d] n d _ ltac:(lia) eq_refl S) as Q. by rewrite Ng in Q.
        -- exists ([d; 46] ++ (d' :: ds) ++ [101] ++ int_text (n - 1)). split.
           ++ change ([101] ++ int_text (n - 1)) with (101 :: int_text (n - 1)).
              rewrite !app_assoc. by apply strip_int_text.
           ++ rewrite I. pose proof (spelled_many (d :: d' :: ds) n d (d' :: ds) _ ltac:(lia) eq_refl ltac:(done) S) as Q.
              by rewrite Ng in Q.
Qed.

Lemma display_text shortest x :
  is_f64 x ->
  (forall y ds e, 0 < f64_bits y < 2047 * 2 ^ 52 -> shortest y = (ds, e) -> decimal_digits ds e) ->
  plain_text shortest x -> to_string shortest x (jsnumber_display shortest x).
Proof.
  intros V D. unfold is_f64 in V. intros [Nx|[Z|(F&Nz&P)]].
  - unfold jsnumber_display. unfold f64_is_nan in Nx. apply andb_true_iff in Nx as [Na Nb].
    unfold f64_is_infinite. rewrite Na. apply negb_true_iff in Nb as Nb'. rewrite Nb'. cbn [andb].
    assert (f64_is_nan x = true) as -> by (unfold f64_is_nan; by rewrite Na, Nb). apply ts_nan.
    unfold f64_is_nan. by rewrite Na, Nb.
  - destruct x as [b]. cbn in Z. subst b. apply ts_zero. done.
  - unfold jsnumber_display. unfold f64_is_finite in F. apply negb_true_iff in F as F'.
    unfold f64_is_infinite, f64_is_nan. rewrite F'. cbn [andb]. rewrite Nz.
    set (b := f64_bits x mod 2 ^ 63) in *.
    assert (b < 2 ^ 63) as Bb by (apply N.mod_lt; done).
    assert (f64_neg x = (2 ^ 63 <=? f64_bits x)) as Ng by (by apply bits_neg).
    assert (f64_bits x = if f64_neg x then b + 2 ^ 63 else b) as Ex.
    { rewrite Ng. unfold b. destruct (N.leb_spec (2 ^ 63) (f64_bits x)) as [L|L]; [|symmetry; by apply N.mod_small].
      rewrite <- (N.mod_unique (f64_bits x) (2 ^ 63) 1 (f64_bits x - 2 ^ 63)); [lia| |lia].
      change (2 ^ 64) with (2 ^ 63 + 2 ^ 63) in V. lia. }
    assert (f64_abs x = F64 b) as Ea.
    { unfold f64_abs. destruct (f64_neg x); [f_equal; lia|]. destruct x as [xb]. cbn [f64_bits] in Ex. by rewrite Ex. }
    assert (f64_exp (F64 b) = f64_exp x /\ f64_frac (F64 b) = f64_frac x) as [Xe Xf].
    { destruct x as [xb]. cbn [f64_bits] in Ex. rewrite Ex. destruct (f64_neg (F64 xb)); [|done].
      destruct (sign_bit_fields b) as [-> ->]. done. }
    destruct (fields_bits b Bb) as (Fb&Fe&Ff). rewrite Xe, Xf in *.
    assert (0 < b < 2047 * 2 ^ 52) as Range.
    { apply N.eqb_neq in F'. unfold f64_is_zero in Nz.
      destruct (N.eqb_spec (f64_exp x) 0) as [Q|Q]; [destruct (N.eqb_spec (f64_frac x) 0) as [Q'|Q']; [done|]|].
      - rewrite Q in Fb. change (2 ^ 52) with 4503599627370496 in *. lia.
      - change (2 ^ 11) with 2048 in *. change (2 ^ 52) with 4503599627370496 in *. lia. }
    clearbody b. rewrite Ea. destruct (shortest (F64 b)) as [ds e] eqn:S.
    pose proof (D (F64 b) ds e Range S) as Dd.
    destruct (f64_neg x).
    + destruct (format_plain shortest (F64 b) ds e [45] S Dd P) as (s&E1&E2). cbn [app] in E1. rewrite E1.
      eapply (ts_negative _ (F64 b)); [done| |exact S|done]. cbn [f64_bits]. lia.
    + destruct (format_plain shortest (F64 b) ds e [] S Dd P) as (s&E1&E2). cbn [app] in E1. rewrite E1.
      assert (x = F64 b) as -> by (destruct x as [xb]; cbn [f64_bits] in Ex; by rewrite Ex).
      by eapply ts_positive.
Qed.

(** ** The order of strings *)

Lemma lex_app_same a b c : lex_cmp (a ++ b) (a ++ c) = lex_cmp b c.
Proof. induction a as [|x a IH]; [done|]. cbn. by rewrite N.compare_refl. Qed.
Lemma lex_utf16 s t : valid_str s -> valid_str t -> plain_order s t -> lex_cmp (utf16 s) (utf16 t) = lex_cmp s t.
Proof.
  intros Vs Vt P. revert t Vt P. induction Vs as [|c s Hc Vs IH]; intros [|d t] Vt P; try done.
  - apply Forall_cons in Vt as [Hd Vt]. rewrite utf16_cons. cbn [lex_cmp].
    destruct (utf16_char_cases d Hd) as [(_&_&X)|(_&_&X)]; by rewrite X.
  - rewrite utf16_cons. cbn [lex_cmp]. destruct (utf16_char_cases c Hc) as [(_&_&X)|(_&_&X)]; by rewrite X.
  - apply Forall_cons in Vt as [Hd Vt]. rewrite !utf16_cons. cbn [lex_cmp].
    assert (plain_order s t) as P'.
    { destruct P as [P|P]; [left|right]; apply Forall_app in P as [P1 P2]; apply Forall_app;
        apply Forall_cons in P1 as [? ?], P2 as [? ?]; done. }
    destruct (N.compare_spec c d) as [->|L|L].
    + rewrite lex_app_same. by apply IH.
    + assert (exists x, lex_cmp (utf16_char c ++ utf16 s) (utf16_char d ++ utf16 t) = x /\ x = Lt) as (x&->&->); [|done].
      eexists. split; [reflexivity|].
      destruct (utf16_char_cases c Hc) as [(A1&A2&A3)|(A1&A2&A3)], (utf16_char_cases d Hd) as [(B1&B2&B3)|(B1&B2&B3)]; rewrite A3, B3; cbn [app lex_cmp].
      * destruct (N.compare_spec c d); [lia|done|lia].
      * assert (c < 0xD800) as C.
        { destruct P as [P|P]; apply Forall_app in P as [P1 P2].
          - apply Forall_cons in P2 as [? _]. lia.
          - apply Forall_cons in P1 as [? _]. lia. }
        pose proof (N.le_0_l ((d - 0x10000) / 0x400)). generalize dependent ((d - 0x10000) / 0x400). intros q Q.
        destruct (N.compare_spec c (0xD800 + q)); [lia|done|lia].
      * lia.
      * pose proof (N.div_mod' (c - 0x10000) 0x400) as Dc. pose proof (N.div_mod' (d - 0x10000) 0x400) as Dd.
        pose proof (N.mod_lt (c - 0x10000) 0x400 ltac:(done)) as Mc. pose proof (N.mod_lt (d - 0x10000) 0x400 ltac:(done)) as Md.
        generalize dependent ((c - 0x10000) / 0x400). generalize dependent ((d - 0x10000) / 0x400).
        generalize dependent ((c - 0x10000) mod 0x400). generalize dependent ((d - 0x10000) mod 0x400). intros m Md' m' Mc' q A3 Dd q' B3 Dc.
        destruct (N.compare_spec (0xD800 + q') (0xD800 + q)) as [E|E|E]; [|done|lia].
        destruct (N.compare_spec (0xDC00 + m') (0xDC00 + m)) as [E'|E'|E']; [lia|done|lia].
    + assert (exists x, lex_cmp (utf16_char c ++ utf16 s) (utf16_char d ++ utf16 t) = x /\ x = Gt) as (x&->&->); [|done].
      eexists. split; [reflexivity|].
      destruct (utf16_char_cases c Hc) as [(A1&A2&A3)|(A1&A2&A3)], (utf16_char_cases d Hd) as [(B1&B2&B3)|(B1&B2&B3)]; rewrite A3, B3; cbn [app lex_cmp].
      * destruct (N.compare_spec c d); [lia|lia|done].
      * lia.
      * assert (d < 0xD800) as C.
        { destruct P as [P|P]; apply Forall_app in P as [P1 P2].
          - apply Forall_cons in P1 as [? _]. lia.
          - apply Forall_cons in P2 as [? _]. lia. }
        pose proof (N.le_0_l ((c - 0x10000) / 0x400)). generalize dependent ((c - 0x10000) / 0x400). intros q Q.
        destruct (N.compare_spec (0xD800 + q) d); [lia|lia|done].
      * pose proof (N.div_mod' (c - 0x10000) 0x400) as Dc. pose proof (N.div_mod' (d - 0x10000) 0x400) as Dd.
        pose proof (N.mod_lt (c - 0x10000) 0x400 ltac:(done)) as Mc. pose proof (N.mod_lt (d - 0x10000) 0x400 ltac:(done)) as Md.
        generalize dependent ((c - 0x10000) / 0x400). generalize dependent ((d - 0x10000) / 0x400).
        generalize dependent ((c - 0x10000) mod 0x400). generalize dependent ((d - 0x10000) mod 0x400). intros m Md' m' Mc' q A3 Dd q' B3 Dc.
        destruct (N.compare_spec (0xD800 + q') (0xD800 + q)) as [E|E|E]; [|lia|done].
        destruct (N.compare_spec (0xDC00 + m') (0xDC00 + m)) as [E'|E'|E']; [lia|lia|done].
Qed.

(** ** Doubles that are integers *)

Lemma of_N_f64 n : n < 2 ^ 53 -> is_f64 (f64_of_N n) /\ f64_neg (f64_of_N n) = false.
Proof.
  intros L. pose proof (of_N_small n L) as K. assert (is_f64 (f64_of_N n)) as V by (unfold is_f64; etrans; [exact K|done]).
  split; [done|]. rewrite bits_neg by exact V. by apply N.leb_gt.
Qed.
Lemma negate_fields x : is_f64 x ->
  is_f64 (f64_negate x) /\ f64_neg (f64_negate x) = negb (f64_neg x) /\ f64_exp (f64_negate x) = f64_exp x /\ f64_frac (f64_negate x) = f64_frac x.
Proof.
  unfold is_f64. intros V. unfold f64_negate. rewrite (bits_neg x V). destruct x as [b]. cbn [f64_bits] in *.
  destruct (N.leb_spec (2 ^ 63) b) as [L|L]; cbn [negb f64_bits].
  - assert (b - 2 ^ 63 < 2 ^ 63) as B by (change (2 ^ 64) with (2 ^ 63 + 2 ^ 63) in V; lia).
    split; [lia|]. split; [rewrite bits_neg by (cbn [f64_bits]; lia); by apply N.leb_gt|].
    destruct (sign_bit_fields (b - 2 ^ 63)) as [E1 E2]. replace (b - 2 ^ 63 + 2 ^ 63) with b in * by lia. done.
  - assert (b + 2 ^ 63 < 2 ^ 64) as B by (change (2 ^ 64) with (2 ^ 63 + 2 ^ 63); lia).
    split; [done|]. split; [rewrite bits_neg by done; cbn [f64_bits]; apply N.leb_le; lia|].
    destruct (sign_bit_fields b) as [E1 E2]. done.
Qed.
Lemma negate_scaled x : is_f64 x -> scaled (f64_negate x) = (- scaled x)%Z /\ f64_is_finite (f64_negate x) = f64_is_finite x.
Proof.
  intros V. destruct (negate_fields x V) as (_&Ng&Ex&Fr). unfold scaled, f64_mant, f64_pow, f64_is_finite.
  rewrite Ng, Ex, Fr. split; [|done]. destruct (f64_neg x); cbn [negb]; lia.
Qed.
Lemma scaled_of_N n : n < 2 ^ 53 -> scaled (f64_of_N n) = (Z.of_N n * 2 ^ 1074)%Z /\ f64_is_finite (f64_of_N n) = true.
Proof.
  intros L. destruct (of_N_f64 n L) as [_ Ng]. destruct (f64_of_N_ok n L) as (_&Fi&_). split; [|done].
  destruct (N.eq_dec n 0) as [->|N0]; [done|].
  destruct (f64_of_N_fields n ltac:(lia) L) as (E&F&Lg&B). unfold scaled, f64_mant, f64_pow. rewrite Ng, E, F.
  destruct (N.eqb_spec (1023 + N.log2 n) 0); [lia|].
  set (e := N.log2 n) in *. replace (2 ^ 52 + (n * 2 ^ (52 - e) - 2 ^ 52)) with (n * 2 ^ (52 - e)) by lia.
  rewrite N2Z.inj_mul, N2Z.inj_pow, <- Z.mul_assoc, <- Z.pow_add_r by lia. do 2 f_equal. lia.
Qed.
Lemma scaled_key x y : f64_is_finite x = true -> f64_is_finite y = true -> (scaled x =? scaled y)%Z = (f64_key x =? f64_key y)%Z.
Proof.
  intros Fx Fy. assert (forall x, f64_is_finite x = true -> f64_is_nan x = false) as Nn.
  { intros z. apply nan_not_finite. }
  assert (forall x y, f64_is_finite x = true -> f64_is_finite y = true -> (scaled x <? scaled y)%Z = (f64_key x <? f64_key y)%Z) as K.
  { intros a b Fa Fb. pose proof (number_less_key a b) as Q. unfold number_less in Q. rewrite !Nn, Fa, Fb in Q by done.
    cbn [orb] in Q. congruence. }
  pose proof (K x y Fx Fy). pose proof (K y x Fy Fx). lia.
Qed.
Lemma eqb_key x y : is_f64 x -> is_f64 y -> f64_is_nan x = false -> f64_is_nan y = false -> f64_eqb x y = (f64_key x =? f64_key y)%Z.
Proof.
  unfold is_f64. intros Vx Vy Nx Ny. unfold f64_eqb. rewrite Nx, Ny. cbn [orb].
  assert (forall x, f64_bits x < 2 ^ 64 -> exists m, m < 2 ^ 63 /\ f64_bits x = (if f64_neg x then m + 2 ^ 63 else m) /\
    f64_key x = (if f64_neg x then - Z.of_N m else Z.of_N m)%Z /\ (f64_is_zero x = true <-> m = 0)) as K.
  { clear. intros x V. exists (f64_bits x mod 2 ^ 63). split; [by apply N.mod_lt|].
    assert (f64_bits x = if f64_neg x then f64_bits x mod 2 ^ 63 + 2 ^ 63 else f64_bits x mod 2 ^ 63) as E.
    { rewrite (bits_neg x V). destruct (N.leb_spec (2 ^ 63) (f64_bits x)) as [L|L]; [|symmetry; by apply N.mod_small].
      rewrite <- (N.mod_unique (f64_bits x) (2 ^ 63) 1 (f64_bits x - 2 ^ 63)); [lia| |lia].
      change (2 ^ 64) with (2 ^ 63 + 2 ^ 63) in V. lia. }
    split; [done|]. split; [done|]. pose proof (key_fields x) as Kf. unfold f64_key in Kf. destruct (fields_range x) as [R1 R2].
    unfold f64_is_zero. rewrite andb_true_iff, !N.eqb_eq.
    change (2 ^ 52)%Z with 4503599627370496%Z in *.
    assert (Z.of_N (f64_bits x mod 2 ^ 63) = Z.of_N (f64_exp x) * 4503599627370496 + Z.of_N (f64_frac x))%Z as Q by (destruct (f64_neg x); lia).
    remember (f64_bits x mod 2 ^ 63) as m. clear - Q. lia. }
  destruct (K x Vx) as (m&M1&M2&->&M4), (K y Vy) as (n&N1&N2&->&N4). rewrite M2, N2. clear K M2 N2 Vx Vy.
  destruct (f64_is_zero x); [destruct (f64_is_zero y)|].
  - assert (m = 0) as -> by (by apply M4). assert (n = 0) as -> by (by apply N4). cbn. by destruct (f64_neg x), (f64_neg y).
  - assert (n <> 0) by (intros Q; by apply N4 in Q). assert (m = 0) as -> by (by apply M4). cbn [andb].
    clear N4. destruct (f64_neg x), (f64_neg y); lia.
  - assert (m <> 0) by (intros Q; by apply M4 in Q). cbn [andb]. clear M4 N4.
    destruct (f64_neg x), (f64_neg y); lia.
Qed.
Lemma eqb_scaled x y : is_f64 x -> is_f64 y -> f64_is_finite x = true -> f64_is_finite y = true -> f64_eqb x y = (scaled x =? scaled y)%Z.
Proof. intros. rewrite scaled_key by done. apply eqb_key; try done; by apply nan_not_finite. Qed.
