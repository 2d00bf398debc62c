(** Proofs about constant evaluation. *)
From Coq Require Import String Ascii ZArith NArith Bool List Lia.
From stdpp Require Import base decidable numbers list.
From Verif Require Import VmBase RustStr RustStrProofs PrimModel PrimSpec ObjDefineProofs ConvModel ConvSpec ConvProofs ConvTextProofs.
From Verif Require Import FoldModel FoldSpec FoldNumProofs FoldProofs EvalSpec EvalNumProofs.
From Verif Require ILModel EvalModel.
Local Open Scope N_scope.

Import ILModel (const, KBigInt, KBool, KNull, KNum, KStr, KUndefined).
Import EvalModel (answer, Folded, Declined, Panics).

Section eval.
Context {W : Type} (R : rust) (h : host W) (A : agrees R h) (C : compares h) (X : rounds (r_nearest R)).

Lemma str_num_ok s : valid_str s -> number_of_string h (utf16 s) = EvalModel.str_num R s.
Proof. apply (string_number_ok R h A). Qed.
Lemma str_num_f64 s : is_f64 (EvalModel.str_num R s).
Proof.
  unfold EvalModel.str_num.
  destruct (reads_or_not (r_nearest R) s) as [[v H]|H]; [rewrite (coerce_reads _ _ _ H)|by rewrite (coerce_rejects _ _ H)].
  assert (forall u w, unsigned_decimal (r_nearest R) f64_infinity u w -> is_f64 w) as U by (intros u w K; destruct K; first [done|apply X]).
  destruct H as [w0 W0|w0 s0 v0 w1 W0 W1 K]; [done|].
  destruct K as [? ? K|? ? K|? ? K|? ? ? ? ? K]; [by apply (U _ _ K)|by apply (U _ _ K)| |apply X]. apply negate_fields, (U _ _ K).
Qed.
Lemma coerce_num v x : proper v -> EvalModel.coerce_to_num R v = Some x -> numeric h (meaning v) = inl x.
Proof. destruct v as [z|[]| |y|s|]; cbn; intros V [= <-]; try done. by rewrite str_num_ok. Qed.
Lemma coerce_none v : EvalModel.coerce_to_num R v = None <-> exists z, v = KBigInt z.
Proof. destruct v as [z|[]| |y|s|]; cbn; split; try done; try (by intros [? ?]). by exists z. Qed.
Lemma primitive_meaning v : primitive (meaning v) = true. Proof. by destruct v. Qed.
Lemma binary_of op a b v : op <> BSeq -> op <> BSne -> on_primitives h op (meaning a) (meaning b) = Some v -> binary h op (meaning a) (meaning b) = ret v.
Proof. intros N1 N2 E. unfold binary. rewrite !primitive_meaning, E. by destruct op. Qed.

(** Arithmetic on two numbers. *)
Definition numeric_op (op : binop) : bool :=
  match op with BSub | BMul | BDiv | BRem | BPow | BAnd | BOr | BXor | BShl | BShr | BUshr => true | _ => false end.
Lemma arithmetic_of op a b x y z : numeric_op op = true -> proper a -> proper b ->
  EvalModel.coerce_to_num R a = Some x -> EvalModel.coerce_to_num R b = Some y ->
  (op = BPow -> forall x y, n_exp h x y = r_powf R x y) -> num_op R op x y = Some z ->
  binary h op (meaning a) (meaning b) = ret (VNum z) /\ is_f64 z.
Proof.
  intros O Va Vb Ea Eb P E. split; [|by apply (ag_double R h A op x y)].
  apply binary_of; [by intros ->|by intros ->|].
  assert (on_numbers h op x y = Some z) as Q.
  { apply (num_op_sem R h A); [|done]. destruct op; try (by left); right; intros; symmetry; by apply P. }
  destruct op; try done; cbn [on_primitives]; unfold arithmetic; rewrite (coerce_num _ _ Va Ea), (coerce_num _ _ Vb Eb), Q; done.
Qed.
Lemma arith_of op f a b v : numeric_op op = true -> proper a -> proper b ->
  (op = BPow -> forall x y, n_exp h x y = r_powf R x y) ->
  (forall x y, num_op R op x y = Some (f x y)) ->
  EvalModel.arith R f a b = Folded v -> exists z, v = KNum z /\ binary h op (meaning a) (meaning b) = ret (VNum z) /\ is_f64 z.
Proof.
  intros O Va Vb P F. unfold EvalModel.arith.
  destruct a as [z|l| |l|l|], b as [z'|r| |r|r|]; try done; intros [= <-]; (eexists; split; [reflexivity|]);
    eapply arithmetic_of; try done; apply F.
Qed.
Lemma js_mod_rem x y : EvalModel.js_mod R x y = r_rem R x y.
Proof.
  unfold EvalModel.js_mod. destruct (f64_is_zero y) eqn:Z; [by rewrite <- (cm_rem_zero h C x y Z), (ag_rem R h A)|].
  destruct (f64_is_infinite x) eqn:I; [by rewrite <- (cm_rem_infinity h C x y I), (ag_rem R h A)|]. done.
Qed.
Lemma int32_num v i : EvalModel.coerce_to_int32 R v = Some i <-> exists x, EvalModel.coerce_to_num R v = Some x /\ i = js_to_int32 x.
Proof.
  unfold EvalModel.coerce_to_int32, EvalModel.coerce_to_uint32, js_to_int32. destruct (EvalModel.coerce_to_num R v) as [x|].
  - split; [intros [= <-]; eauto|]. by intros (?&[= <-]&->).
  - split; [done|]. by intros (?&?&?).
Qed.
Lemma uint32_num v i : EvalModel.coerce_to_uint32 R v = Some i <-> exists x, EvalModel.coerce_to_num R v = Some x /\ i = js_to_uint32 x.
Proof.
  unfold EvalModel.coerce_to_uint32. destruct (EvalModel.coerce_to_num R v) as [x|].
  - split; [intros [= <-]; eauto|]. by intros (?&[= <-]&->).
  - split; [done|]. by intros (?&?&?).
Qed.
Lemma bitwise_some f x y v : EvalModel.bitwise f x y = Folded v -> exists i j, x = Some i /\ y = Some j /\ v = KNum (f64_of_int (f i j)).
Proof. unfold EvalModel.bitwise. destruct x, y; try done. intros [= <-]. eauto. Qed.

(** ** Texts *)
Lemma text_num x : is_f64 x -> plain_text (r_shortest R) x ->
  string_of_number h x = utf16 (jsnumber_display (r_shortest R) x) /\ valid_str (jsnumber_display (r_shortest R) x).
Proof.
  intros V P. pose proof (display_text _ x V (ag_digits R h A) P) as D. pose proof (ag_number R h A x V) as N.
  rewrite (to_string_unique _ _ _ _ (ag_digits R h A) N D).
  destruct (utf16_low _ (to_string_low R h A _ _ D)) as [-> ?]. done.
Qed.
Lemma utf16_app s t : utf16 (s ++ t) = utf16 s ++ utf16 t.
Proof. unfold utf16. by rewrite map_app, concat_app. Qed.

(** ** BigInts and strings *)
Lemma bigint_read s : plain_integer s -> (exists z, parse_bigint s = Some z /\ reads_bigint s z) \/ (parse_bigint s = None /\ forall z, ~ reads_bigint s z).
Proof.
  intros [P1 P2]. pose proof (fun z => bigint_correct s z P1 P2) as Q.
  destruct (parse_bigint s) as [z|] eqn:E; [left|right].
  - exists z. split; [done|]. by apply Q.
  - split; [done|]. intros z Hz. by apply Q in Hz.
Qed.
Lemma bigint_num z : (- 2 ^ 53 < z < 2 ^ 53)%Z ->
  is_f64 (EvalModel.coerce_bigint_to_num R z) /\ f64_is_finite (EvalModel.coerce_bigint_to_num R z) = true /\
  scaled (EvalModel.coerce_bigint_to_num R z) = (z * 2 ^ 1074)%Z.
Proof.
  intros B. unfold EvalModel.coerce_bigint_to_num. change (2 ^ 53)%Z with 9007199254740992%Z in B. destruct (Z.ltb_spec z 0).
  - assert (Z.to_N (- z) < 2 ^ 53) as L by (change (2 ^ 53) with 9007199254740992; lia). rewrite (proj2 X) by done.
    destruct (of_N_f64 _ L) as [V _], (scaled_of_N _ L) as [S F]. destruct (negate_fields _ V) as (V'&_). destruct (negate_scaled _ V) as [-> ->].
    split; [done|]. split; [done|]. rewrite S. lia.
  - assert (Z.to_N z < 2 ^ 53) as L by (change (2 ^ 53) with 9007199254740992; lia). rewrite (proj2 X) by done.
    destruct (of_N_f64 _ L) as [V _], (scaled_of_N _ L) as [S F]. split; [done|]. split; [done|]. rewrite S. lia.
Qed.
Lemma mixed_num z x : is_f64 x -> (- 2 ^ 53 < z < 2 ^ 53)%Z ->
  f64_is_finite x && f64_eqb (EvalModel.coerce_bigint_to_num R z) x = f64_is_finite x && (z * 2 ^ 1074 =? scaled x)%Z /\
  f64_is_finite x && f64_eqb x (EvalModel.coerce_bigint_to_num R z) = f64_is_finite x && (z * 2 ^ 1074 =? scaled x)%Z.
Proof.
  intros V B. destruct (bigint_num z B) as (V'&F'&S'). destruct (f64_is_finite x) eqn:F; [|done]. cbn [andb].
  rewrite !eqb_scaled, S' by done. split; [done|apply Z.eqb_sym].
Qed.

(** ** Equality *)
Lemma strict_of a b : proper a -> proper b -> strictly_equal (meaning a) (meaning b) = EvalModel.js_strict_eq a b.
Proof.
  destruct a as [a|a| |a|a|], b as [b|b| |b|b|]; cbn [meaning strictly_equal proper]; intros Va Vb;
    unfold EvalModel.js_strict_eq; cbn [EvalModel.is_nan EvalModel.const_eq];
    try (by apply bool_decide_eq_false_2); try (by apply bool_decide_eq_true_2).
  all: try (destruct (f64_is_nan _); by apply bool_decide_eq_false_2).
  - destruct (Z.eqb_spec a b) as [->|]; [by apply bool_decide_eq_true_2|]. apply bool_decide_eq_false_2. congruence.
  - by destruct a, b.
  - unfold jsnum_eqb, f64_eqb. by destruct (f64_is_nan a), (f64_is_nan b).
  - apply bool_decide_ext. split; [|congruence]. intros [= E]. by apply utf16_inj.
Qed.
Definition loose_plain (a b : const) : Prop :=
  match a, b with
  | KBigInt _, KStr s | KStr s, KBigInt _ => plain_integer s
  | KBigInt z, KNum _ | KNum _, KBigInt z | KBigInt z, KBool _ | KBool _, KBigInt z => (- 2 ^ 53 < z < 2 ^ 53)%Z
  | _, _ => True
  end.
Lemma one_zero_f64 (b : bool) : is_f64 (if b then f64_one else f64_zero). Proof. by destruct b. Qed.
Lemma loose_of a b : proper a -> proper b -> loose_plain a b -> loosely_equal h (meaning a) (meaning b) = EvalModel.js_loose_eq R a b.
Proof.
  intros Va Vb P. pose proof (strict_of a b Va Vb) as S.
  destruct (EvalModel.same_kind a b) eqn:K.
  { unfold EvalModel.js_loose_eq. rewrite K. rewrite <- S. by destruct a as [a|a| |a|a|], b as [b|b| |b|b|]; try done; destruct a, b. }
  destruct a as [a|a| |a|a|], b as [b|b| |b|b|]; try done; cbn [loose_plain] in P; cbn [proper] in Va, Vb;
    unfold EvalModel.js_loose_eq; cbn [EvalModel.same_kind]; unfold EvalModel.loose_rest; cbn [EvalModel.same_kind EvalModel.bool_num];
    cbn [meaning loosely_equal bool_as_number strictly_equal];
    try (by apply bool_decide_eq_false_2); try done.
  - destruct (cm_number h C a (if b then f64_one else f64_zero)) as [-> _]. symmetry. by apply mixed_num; [apply one_zero_f64|].
  - destruct (cm_number h C a b) as [-> _]. symmetry. by apply mixed_num.
  - destruct (bigint_read b P) as [(z&->&Q)|(->&Q)]; [by destruct (cm_equal h C a b z Vb Q) as [-> _]|by destruct (cm_unequal h C a b Vb Q) as [-> _]].
  - destruct (cm_number h C b (if a then f64_one else f64_zero)) as [_ ->]. symmetry. by apply mixed_num; [apply one_zero_f64|].
  - unfold EvalModel.js_strict_eq, EvalModel.is_nan, EvalModel.const_eq, jsnum_eqb, f64_eqb. by destruct a; destruct (f64_is_nan b).
  - by rewrite str_num_ok.
  - destruct (cm_number h C b a) as [_ ->]. symmetry. by apply mixed_num.
  - unfold EvalModel.js_strict_eq, EvalModel.is_nan, EvalModel.const_eq, jsnum_eqb, f64_eqb. by destruct b; destruct (f64_is_nan a).
  - by rewrite str_num_ok.
  - destruct (bigint_read a P) as [(z&->&Q)|(->&Q)].
    + destruct (cm_equal h C b a z Va Q) as [_ ->]. apply Z.eqb_sym.
    + by destruct (cm_unequal h C b a Va Q) as [_ ->].
  - by rewrite str_num_ok.
  - by rewrite str_num_ok.
Qed.

(** ** Order *)
Definition order_plain (a b : const) : Prop :=
  match a, b with
  | KBigInt _, KStr s | KStr s, KBigInt _ => plain_integer s
  | KStr s, KStr t => plain_order s t
  | _, _ => True
  end.
Definition lt_of (r : option comparison) : option bool := option_map (fun c => match c with Lt => true | _ => false end) r.
Definition gt_of (r : option comparison) : option bool := option_map (fun c => match c with Gt => true | _ => false end) r.
Lemma less_numbers a b x y : proper a -> proper b -> EvalModel.coerce_to_num R a = Some x -> EvalModel.coerce_to_num R b = Some y ->
  (forall s t, a = KStr s -> b = KStr t -> False) -> less h (meaning a) (meaning b) = number_less x y.
Proof.
  intros Va Vb Ea Eb N. unfold less. rewrite (coerce_num a x Va Ea), (coerce_num b y Vb Eb).
  destruct a, b; try done. by destruct (N s s0).
Qed.
Lemma cmp_of a b r : proper a -> proper b -> order_plain a b -> EvalModel.js_cmp R a b = Some r ->
  less h (meaning a) (meaning b) = lt_of r /\ less h (meaning b) (meaning a) = gt_of r.
Proof.
  intros Va Vb P.
  assert (forall x y, (x <? y)%Z = match Z.compare x y with Lt => true | _ => false end) as Zl by (intros x y; destruct (Z.compare_spec x y); lia).
  assert (forall x y, (y <? x)%Z = match Z.compare x y with Gt => true | _ => false end) as Zg by (intros x y; destruct (Z.compare_spec x y); lia).
  assert ((forall s t, a = KStr s -> b = KStr t -> False) ->
    match EvalModel.coerce_to_num R a, EvalModel.coerce_to_num R b with Some x, Some y => Some (f64_partial_cmp x y) | _, _ => None end = Some r ->
    less h (meaning a) (meaning b) = lt_of r /\ less h (meaning b) (meaning a) = gt_of r) as G.
  { intros N. destruct (EvalModel.coerce_to_num R a) as [x|] eqn:Ea; [|done]. destruct (EvalModel.coerce_to_num R b) as [y|] eqn:Eb; [|done].
    intros [= <-]. rewrite (less_numbers a b x y), (less_numbers b a y x) by (eauto; done). rewrite !number_less_key. unfold f64_partial_cmp.
    rewrite (orb_comm (f64_is_nan y)). destruct (f64_is_nan x || f64_is_nan y); [done|]. cbn [lt_of gt_of option_map]. by rewrite Zl, Zg. }
  destruct a as [a|a| |a|a|], b as [b|b| |b|b|]; unfold EvalModel.js_cmp; try (by apply G).
  - intros [= <-]. cbn. by rewrite Zl, Zg.
  - intros [= <-]. cbn [meaning less numeric]. cbn in P.
    destruct (bigint_read b P) as [(z&->&Q)|(->&Q)].
    + destruct (cm_less h C a b z Vb Q) as [-> ->]. cbn. by rewrite Zl, Zg.
    + destruct (cm_unordered h C a b Vb Q) as [-> ->]. done.
  - intros [= <-]. cbn [meaning less numeric]. cbn in P.
    destruct (bigint_read a P) as [(z&->&Q)|(->&Q)].
    + destruct (cm_less h C b a z Va Q) as [-> ->]. cbn. by rewrite Zl, Zg.
    + destruct (cm_unordered h C b a Va Q) as [-> ->]. done.
  - intros [= <-]. cbn [meaning less lt_of gt_of option_map order_plain] in *. rewrite (lex_cmp_antisym (utf16 a) (utf16 b)).
    rewrite lex_utf16 by done. by destruct (lex_cmp a b).
Qed.
Lemma order_panics p a b : EvalModel.order R p a b = Panics <->
  exists z v, ((a = KBigInt z /\ b = v) \/ (a = v /\ b = KBigInt z)) /\
    match v with KBigInt _ | KStr _ => False | _ => True end.
Proof.
  unfold EvalModel.order. split.
  - destruct (EvalModel.js_cmp R a b) as [[c|]|] eqn:E; try done. intros _.
    destruct a as [a|[]| |a|a|], b as [b|[]| |b|b|]; try done; (eexists _, _; split; [by left|done]) || (eexists _, _; split; [by right|done]).
  - intros (z&v&[[-> ->]|[-> ->]]&K); by destruct v as [a|[]| |a|a|].
Qed.

(** ** The theorems *)
Lemma operands_order op a b : ordering op = true -> plain_operands R h op a b -> order_plain a b.
Proof. intros O [P _]. destruct a, b; try done; cbn in *; auto. Qed.
Lemma operands_loose op a b : loose op = true -> plain_operands R h op a b -> loose_plain a b.
Proof. intros O [P _]. destruct a, b; try done; cbn in *; auto. Qed.

Lemma eval_bin_ok op a b v : proper a -> proper b -> plain_operands R h op a b -> EvalModel.eval_bin R op a b = Folded v ->
  proper v /\ exists o, bin_of op = Some o /\ binary h o (meaning a) (meaning b) = ret (meaning v).
Proof.
  intros Va Vb P.
  assert (forall o f, bin_of op = Some o -> numeric_op o = true -> (o = BPow -> op = ILModel.OExp) -> (forall x y, num_op R o x y = Some (f x y)) ->
    EvalModel.arith R f a b = Folded v -> proper v /\ exists o, bin_of op = Some o /\ binary h o (meaning a) (meaning b) = ret (meaning v)) as Ar.
  { intros o f Eo No Po F E. destruct (arith_of o f a b v No Va Vb) as (z&->&B&Fz); eauto.
    - intros Q. by apply P, Po. }
  assert (forall o f, bin_of op = Some o -> numeric_op o = true -> o <> BPow ->
    (forall x y, num_op R o x y = Some (f64_of_int (f (js_to_int32 x) (js_to_int32 y)))) ->
    EvalModel.bitwise f (EvalModel.coerce_to_int32 R a) (EvalModel.coerce_to_int32 R b) = Folded v ->
    proper v /\ exists o, bin_of op = Some o /\ binary h o (meaning a) (meaning b) = ret (meaning v)) as Bi.
  { intros o f Eo No Po F (i&j&(x&Ex&->)%int32_num&(y&Ey&->)%int32_num&->)%bitwise_some.
    destruct (arithmetic_of o a b x y _ No Va Vb Ex Ey ltac:(done) (F x y)) as [B Fz]. split; [done|]. eauto. }
  assert (forall o p, bin_of op = Some o -> ordering op = true ->
    (forall r, EvalModel.js_cmp R a b = Some r -> less h (meaning a) (meaning b) = lt_of r -> less h (meaning b) (meaning a) = gt_of r ->
      binary h o (meaning a) (meaning b) = ret (VBool (match r with Some c => p c | None => false end))) ->
    EvalModel.order R p a b = Folded v -> proper v /\ exists o, bin_of op = Some o /\ binary h o (meaning a) (meaning b) = ret (meaning v)) as Or.
  { intros o p Eo Oo F. unfold EvalModel.order. destruct (EvalModel.js_cmp R a b) as [r|] eqn:E; [|done].
    destruct (cmp_of a b r Va Vb (operands_order _ _ _ Oo P) E) as [L1 L2]. specialize (F r eq_refl L1 L2).
    destruct r as [c|]; intros [= <-]; (split; [done|]); eauto. }
  destruct op; cbn [EvalModel.eval_bin]; try done.
  - destruct a as [a|a| |a|a|], b as [b|b| |b|b|]; try done; intros [= <-]; cbn [proper] in *.
    + split; [by apply (ag_double R h A BAdd a b)|]. eexists; split; [done|]. apply (binary_of BAdd (KNum a) (KNum b)); [done..|].
      cbn [on_primitives meaning is_string orb]. unfold arithmetic. cbn. by rewrite (ag_add R h A).
    + destruct P as [P _]. destruct (text_num a Va (P eq_refl)) as [T1 T2]. split; [by apply Forall_app|].
      eexists; split; [done|]. apply (binary_of BAdd (KNum a) (KStr b)); [done..|]. cbn. by rewrite T1, utf16_app.
    + destruct P as [P _]. destruct (text_num b Vb (P eq_refl)) as [T1 T2]. split; [by apply Forall_app|].
      eexists; split; [done|]. apply (binary_of BAdd (KStr a) (KNum b)); [done..|]. cbn. by rewrite T1, utf16_app.
    + split; [by apply Forall_app|]. eexists; split; [done|]. apply (binary_of BAdd (KStr a) (KStr b)); [done..|]. cbn. by rewrite utf16_app.
  - by apply (Bi BAnd).
  - by apply (Bi BOr).
  - by apply (Bi BXor).
  - by apply (Ar BDiv).
  - by apply (Ar BPow).
  - apply (Or BGe); [done..|]. intros r E L1 L2. apply binary_of; [done..|]. cbn [on_primitives]. rewrite L1. do 2 f_equal. by destruct r as [[]|].
  - apply (Or BGt); [done..|]. intros r E L1 L2. apply binary_of; [done..|]. cbn [on_primitives]. rewrite L2. do 2 f_equal. by destruct r as [[]|].
  - apply (Or BLe); [done..|]. intros r E L1 L2. apply binary_of; [done..|]. cbn [on_primitives]. rewrite L2. do 2 f_equal. by destruct r as [[]|].
  - intros [= <-]. split; [done|]. eexists; split; [done|]. apply binary_of; [done..|]. cbn [on_primitives]. by rewrite (loose_of a b Va Vb (operands_loose ILModel.OLooseEq a b eq_refl P)).
  - apply (Or BLt); [done..|]. intros r E L1 L2. apply binary_of; [done..|]. cbn [on_primitives]. rewrite L1. do 2 f_equal. by destruct r as [[]|].
  - apply (Ar BRem); try done. intros x y. by rewrite js_mod_rem.
  - by apply (Ar BMul).
  - intros [= <-]. split; [done|]. eexists; split; [done|]. apply binary_of; [done..|]. cbn [on_primitives]. by rewrite (loose_of a b Va Vb (operands_loose ILModel.ONotLooseEq a b eq_refl P)).
  - intros [= <-]. split; [done|]. eexists; split; [done|]. cbn [binary]. by rewrite strict_of.
  - unfold EvalModel.shift. intros (i&j&Hi&Hj&->)%bitwise_some. apply int32_num in Hi as (x&Ex&->). apply uint32_num in Hj as (y&Ey&->).
    destruct (arithmetic_of BShl a b x y _ eq_refl Va Vb Ex Ey ltac:(done) eq_refl) as [B Fz]. split; [exact Fz|]. eexists; split; [reflexivity|exact B].
  - unfold EvalModel.shift. intros (i&j&Hi&Hj&->)%bitwise_some. apply int32_num in Hi as (x&Ex&->). apply uint32_num in Hj as (y&Ey&->).
    destruct (arithmetic_of BShr a b x y _ eq_refl Va Vb Ex Ey ltac:(done) eq_refl) as [B Fz]. split; [exact Fz|]. eexists; split; [reflexivity|exact B].
  - unfold EvalModel.shift. intros (i&j&Hi&Hj&->)%bitwise_some. apply uint32_num in Hi as (x&Ex&->). apply uint32_num in Hj as (y&Ey&->).
    destruct (arithmetic_of BUshr a b x y _ eq_refl Va Vb Ex Ey ltac:(done) eq_refl) as [B Fz]. split; [exact Fz|]. eexists; split; [reflexivity|exact B].
  - intros [= <-]. split; [done|]. eexists; split; [done|]. cbn [binary]. by rewrite strict_of.
  - by apply (Ar BSub).
Qed.

Lemma eval_un_ok op a v : proper a -> (op = ILModel.ONot -> forall z, a <> KBigInt z) -> EvalModel.eval_un R op a = Folded v ->
  proper v /\ exists o, un_of op = Some o /\ unary h o (meaning a) = ret (meaning v).
Proof.
  intros Va P. destruct op; cbn [EvalModel.eval_un]; try done.
  - destruct (EvalModel.coerce_to_int32 R a) as [i|] eqn:E; [|done]. apply int32_num in E as (x&Ex&->). intros [= <-].
    pose proof (int32_range x) as Rg.
    assert (- 2 ^ 33 < Z.lnot (js_to_int32 x) < 2 ^ 33)%Z as B.
    { unfold Z.lnot. change (2 ^ 31)%Z with 2147483648%Z in *. change (2 ^ 33)%Z with 8589934592%Z. lia. }
    split.
    + cbn [proper]. assert (num_op R BXor x (F64 0xBFF0000000000000) = Some (f64_of_int (Z.lnot (js_to_int32 x)))) as Q.
      { cbn [num_op]. change (js_to_int32 (F64 0xBFF0000000000000)) with (-1)%Z. by rewrite Z.lxor_m1_r. }
      by apply (ag_double R h A _ _ _ _ Q).
    + eexists; split; [done|]. cbn [unary]. rewrite primitive_meaning, (coerce_num a x Va Ex). cbn [meaning].
      rewrite (int32_unique x (int32 h x) (js_to_int32 x)); [by rewrite of_int|apply (ag_int32 R h A)|apply int32_correct].
  - destruct a as [a|a| |a|a|]; try done. intros [= <-]. split; [by apply negate_fields|]. eexists; split; [done|]. cbn. by rewrite (cm_neg h C).
  - intros [= <-]. split; [done|]. eexists; split; [done|]. cbn [unary meaning]. unfold ret.
    assert (truthy (meaning a) = EvalModel.coerce_to_bool a) as ->; [|done].
    destruct a as [a|a| |a|a|]; cbn; try done.
    + by destruct (P eq_refl a).
    + by destruct (f64_is_nan a), (f64_is_zero a).
    + f_equal. apply bool_decide_ext, utf16_nil.
  - destruct (EvalModel.coerce_to_num R a) as [x|] eqn:E; [|by destruct a]. intros Q. assert (v = KNum x) as -> by (destruct a as [?|?| |?|?|]; cbn in Q; congruence).
    split.
    + destruct a as [a|[]| |a|a|]; try done; injection E as <-; try done. apply str_num_f64.
    + eexists; split; [done|]. cbn [unary]. by rewrite primitive_meaning, (coerce_num a x Va E).
  - intros [= <-]. split; [by destruct a; repeat constructor|]. eexists; split; [done|]. by destruct a.
  - intros [= <-]. split; [done|]. eexists; split; [done|]. done.
Qed.
End eval.

Lemma bin_panics R op a b : EvalModel.eval_bin R op a b = Panics <->
  ordering op = true /\
  exists z v, ((a = KBigInt z /\ b = v) \/ (a = v /\ b = KBigInt z)) /\
    match v with KBigInt _ | KStr _ => False | _ => True end.
Proof.
  assert (forall f x y, EvalModel.bitwise f x y <> Panics) as Bi by (intros f [] []; done).
  assert (forall f, EvalModel.arith R f a b <> Panics) as Ar by (intros f; by destruct a, b).
  destruct op; cbn [EvalModel.eval_bin ordering]; try (rewrite order_panics; split; [by split|by intros [_ ?]]).
  all: split; [intros Q; exfalso|by intros [? _]].
  all: first [exact (Ar _ Q)|exact (Bi _ _ _ Q)|unfold EvalModel.shift in Q; exact (Bi _ _ _ Q)|discriminate Q|destruct a, b; discriminate Q].
Qed.
Lemma un_panics R op a : EvalModel.eval_un R op a <> Panics.
Proof. destruct op; cbn [EvalModel.eval_un]; try done; [by destruct (EvalModel.coerce_to_int32 R a)|by destruct a as [?|?| |?|?|]|by destruct a as [?|[]| |?|?|]]. Qed.
