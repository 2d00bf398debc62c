(** * Constant folding keeps what expressions do: proofs *)
From Coq Require Import String Ascii ZArith NArith Bool List Lia.
From stdpp Require Import base decidable numbers list.
From Verif Require Import VmBase RustStr RustStrProofs PrimModel PrimSpec PrimProofs ConvModel ConvSpec ConvProofs ConvTextProofs.
From Verif Require Import FoldModel FoldSpec FoldNumProofs.
Local Open Scope N_scope.

Scheme expr_mut := Induction for expr Sort Prop
  with items_mut := Induction for items Sort Prop.
Combined Scheme expr_items_ind from expr_mut, items_mut.

Definition meq {W A} (m n : comp W A) : Prop := forall w, m w = n w.
Infix "≈" := meq (at level 70).
Lemma meq_refl {W A} (m : comp W A) : m ≈ m. Proof. done. Qed.
Lemma meq_sym {W A} (m n : comp W A) : m ≈ n -> n ≈ m. Proof. intros H w. by rewrite H. Qed.
Lemma meq_trans {W A} (m n o : comp W A) : m ≈ n -> n ≈ o -> m ≈ o.
Proof. intros H K w. by rewrite H, K. Qed.
Lemma bind_ext {W A B} (m n : comp W A) (k l : A -> comp W B) :
  m ≈ n -> (forall a, k a ≈ l a) -> bind m k ≈ bind n l.
Proof. intros H K w. unfold bind. rewrite H. destruct (n w) as [[a|v] w']; [apply K|done]. Qed.
Lemma bind_l {W A B} (m n : comp W A) (k : A -> comp W B) : m ≈ n -> bind m k ≈ bind n k.
Proof. intros. by apply bind_ext. Qed.
Lemma bind_r {W A B} (m : comp W A) (k l : A -> comp W B) : (forall a, k a ≈ l a) -> bind m k ≈ bind m l.
Proof. intros. by apply bind_ext. Qed.
Lemma bind_ret_l {W A B} (a : A) (k : A -> comp W B) : bind (ret a) k ≈ k a.
Proof. done. Qed.
Lemma bind_ret_r {W A} (m : comp W A) : bind m ret ≈ m.
Proof. intros w. unfold bind, ret. by destruct (m w) as [[a|v] w']. Qed.
Lemma bind_assoc {W A B C} (m : comp W A) (k : A -> comp W B) (l : B -> comp W C) :
  bind (bind m k) l ≈ bind m (fun a => bind (k a) l).
Proof. intros w. unfold bind. by destruct (m w) as [[a|v] w']. Qed.
Ltac mt := eapply meq_trans.

Section links.
Context {W : Type} (h : host W).
Lemma eval_plain e m : eval_link h e ≈ plain m -> eval h e ≈ m.
Proof.
  intros H. unfold eval. mt; [by apply bind_l, H|]. unfold plain. mt; [apply bind_assoc|].
  mt; [|apply bind_ret_r]. by apply bind_r.
Qed.
Lemma plain_ext (m n : comp W val) : m ≈ n -> plain m ≈ plain n.
Proof. intros. by apply bind_l. Qed.

Lemma link_member opt o m : eval_link h (EMember opt o m) =
  bind (eval_link h o) (fun l => match l with
    | None => ret None
    | Some (v, _, _) => if opt && nullish v then ret None
                        else bind (get_prop h v (str m)) (fun p => ret (Some (p, v, None)))
    end).
Proof. reflexivity. Qed.
Lemma link_index opt o k : eval_link h (EIndex opt o k) =
  bind (eval_link h o) (fun l => match l with
    | None => ret None
    | Some (v, _, _) => if opt && nullish v then ret None
                        else bind (eval h k) (fun k => bind (get_prop h v k) (fun p => ret (Some (p, v, None))))
    end).
Proof. reflexivity. Qed.
Lemma link_call opt f args : eval_link h (ECall opt f args) =
  bind (eval_link h f) (fun l => match l with
    | None => ret None
    | Some (v, this, name) => if opt && nullish v then ret None
        else bind (eval_args h args) (fun args => bind (call h v this name args) (fun r => ret (Some (r, VUndef, None))))
    end).
Proof. reflexivity. Qed.
Lemma link_tagged f parts : eval_link h (ETagged f parts) =
  bind (eval_link h f) (fun l => match l with
    | None => ret None
    | Some (v, this, name) => plain (bind (eval_args h parts) (fun args => call_tag h v this name (texts parts) args))
    end).
Proof. reflexivity. Qed.
Lemma chain_some e : in_chain e = false -> forall w l w', eval_link h e w = (Ret l, w') -> l <> None.
Proof.
  assert (forall (m : comp W val) w l w', plain m w = (Ret l, w') -> l <> None) as P.
  { intros m w l w'. unfold plain, bind, ret. destruct (m w) as [[a|v] w1]; [|done]. by intros [= <- _]. }
  assert (forall (m : comp W val) (f : val -> val * val * option rstr) w l w',
    bind m (fun v => ret (Some (f v))) w = (Ret l, w') -> l <> None) as P'.
  { intros m f w l w'. unfold bind, ret. destruct (m w) as [[a|v] w1]; [|done]. by intros [= <- _]. }
  assert (forall A (m : comp W A) (k : A -> comp W link) w l w', bind m k w = (Ret l, w') ->
    exists a w1, m w = (Ret a, w1) /\ k a w1 = (Ret l, w')) as I.
  { intros A m k w l w'. unfold bind. destruct (m w) as [[a|v] w1]; [|done]. eauto. }
  induction e; intros H w l' w' E; try (by eapply P, E); cbn [in_chain] in H.
  - by apply (P' (get_id h x) (fun v => (v, VUndef, Some x)) w l' w').
  - apply orb_false_iff in H as [-> H]. rewrite link_member in E. apply I in E as (l&w1&E1&E).
    destruct l as [[[v t] n]|]; [|by destruct (IHe H _ _ _ E1)]. cbn [andb] in E.
    by apply (P' _ (fun p => (p, v, None)) _ _ _ E).
  - apply orb_false_iff in H as [-> H]. rewrite link_index in E. apply I in E as (l&w1&E1&E).
    destruct l as [[[v t] n]|]; [|by destruct (IHe1 H _ _ _ E1)]. cbn [andb] in E. apply I in E as (k&w2&E2&E).
    by apply (P' _ (fun p => (p, v, None)) _ _ _ E).
  - apply orb_false_iff in H as [-> H]. rewrite link_call in E. apply I in E as (l&w1&E1&E).
    destruct l as [[[v t] n]|]; [|by destruct (IHe H _ _ _ E1)]. cbn [andb] in E. apply I in E as (k&w2&E2&E).
    by apply (P' _ (fun p => (p, VUndef, None)) _ _ _ E).
  - rewrite link_tagged in E. apply I in E as (l&w1&E1&E).
    destruct l as [[[v t] n]|]; [|by destruct (IHe H _ _ _ E1)]. by eapply P, E.
Qed.

(** A link that is always there, without this value and name. *)
Lemma bind_plain {A} (m : comp W A) (k : A -> comp W link) :
  (forall w a w', m w = (Ret a, w') -> exists m', k a ≈ plain m') ->
  bind m k ≈ plain (bind (bind m k) (fun l => ret (link_value l))).
Proof.
  intros H w. unfold plain. unfold bind at 1 2 3 4. specialize (H w). destruct (m w) as [[a|v] w1]; [|done].
  destruct (H a w1 eq_refl) as [m' K]. rewrite K. unfold plain, bind, ret. by destruct (m' w1) as [[a'|?] w2].
Qed.
Lemma link_plain e : is_reference e = false -> in_chain e = false -> eval_link h e ≈ plain (eval h e).
Proof.
  assert (forall m, eval_link h e ≈ plain m -> eval_link h e ≈ plain (eval h e)) as P.
  { intros m H. mt; [exact H|]. apply plain_ext, meq_sym. by apply eval_plain. }
  destruct e; cbn [is_reference in_chain]; intros R C; try done; try (by eapply P; apply meq_refl).
  - apply orb_false_iff in C as [-> C]. unfold eval. rewrite link_call. apply bind_plain. intros w l w' E.
    destruct l as [[[v t] n]|]; [|by destruct (chain_some _ C _ _ _ E)]. cbn [andb].
    exists (bind (eval_args h args) (call h v t n)). unfold plain. apply meq_sym, bind_assoc.
  - unfold eval. rewrite link_tagged. apply bind_plain. intros w l w' E.
    destruct l as [[[v t] n]|]; [|by destruct (chain_some _ C _ _ _ E)]. by eexists.
Qed.

(** What the object of a member expression is to it. *)
Definition on_object {B} (none : comp W B) (k : val -> comp W B) (e : expr) : comp W B :=
  bind (eval_link h e) (fun l => match l with Some (v, _, _) => k v | None => none end).
Lemma on_object_some {B} (none : comp W B) k e : in_chain e = false -> on_object none k e ≈ bind (eval h e) k.
Proof.
  intros C w. unfold on_object, eval, bind, ret. pose proof (chain_some e C w) as K.
  destruct (eval_link h e w) as [[l|v] w1]; [|done]. destruct l as [[[v t] n]|]; [done|by destruct (K _ _ eq_refl)].
Qed.

Lemma eval_land l r : eval h (EBin BLand l r) ≈ bind (eval h l) (fun v => if truthy v then eval h r else ret v).
Proof. by apply eval_plain. Qed.
Lemma eval_lor l r : eval h (EBin BLor l r) ≈ bind (eval h l) (fun v => if truthy v then ret v else eval h r).
Proof. by apply eval_plain. Qed.
Lemma eval_nullish l r : eval h (EBin BNullish l r) ≈ bind (eval h l) (fun v => if nullish v then eval h r else ret v).
Proof. by apply eval_plain. Qed.
Lemma eval_cond t a b : eval h (ECond t a b) ≈ bind (test h t) (fun c : bool => if c then eval h a else eval h b).
Proof.
  mt; [by apply (eval_plain (ECond t a b) (bind (eval h t) (fun v => if truthy v then eval h a else eval h b)))|].
  unfold test. apply meq_sym. mt; [apply bind_assoc|]. by apply bind_r.
Qed.
Definition strict_op (op : binop) : bool :=
  match op with BLand | BLor | BNullish | BComma => false | _ => true end.
Lemma link_strict op l r : strict_op op = true ->
  eval_link h (EBin op l r) = plain (bind (eval h l) (fun a => bind (eval h r) (fun b => binary h op a b))).
Proof. by destruct op. Qed.
Lemma test_land l r : test h (EBin BLand l r) ≈ bind (test h l) (fun c : bool => if c then test h r else ret false).
Proof.
  unfold test at 1 2. mt; [apply bind_l, eval_land|]. mt; [apply bind_assoc|]. apply meq_sym. mt; [apply bind_assoc|].
  apply bind_r. intros v w. unfold bind at 1, ret at 1. cbn. destruct (truthy v) eqn:E; [done|].
  unfold bind, ret. by rewrite E.
Qed.
Lemma test_lor l r : test h (EBin BLor l r) ≈ bind (test h l) (fun c : bool => if c then ret true else test h r).
Proof.
  unfold test at 1 2. mt; [apply bind_l, eval_lor|]. mt; [apply bind_assoc|]. apply meq_sym. mt; [apply bind_assoc|].
  apply bind_r. intros v w. unfold bind at 1, ret at 1. cbn. destruct (truthy v) eqn:E; [|done].
  unfold bind, ret. by rewrite E.
Qed.
Lemma test_cond t a b : test h (ECond t a b) ≈ bind (test h t) (fun c : bool => if c then test h a else test h b).
Proof.
  unfold test at 1. mt; [apply bind_l, eval_cond|]. mt; [apply bind_assoc|]. apply bind_r. by intros [].
Qed.
Lemma test_ext a b : eval h a ≈ eval h b -> test h a ≈ test h b.
Proof. intros. by apply bind_l. Qed.
End links.

(** ** Constants *)
Section consts.
Context {W : Type} (R : rust) (h : host W) (A : agrees R h).

Definition sem (v : cval) : val :=
  match v with
  | CUndefined => VUndef | CNull => VNull | CBool b => VBool b | CNum x => VNum x
  | CStr s => VStr (utf16 s) | CBigInt n => VBig (Z.of_N n)
  end.
Definition const_ok (v : cval) : Prop :=
  match v with CStr s => valid_str s | CNum x => is_f64 x | _ => True end.
Definition lit_ok (e : expr) : Prop :=
  match e with EStr s units => units = None /\ valid_str s | ENum x => is_f64 x | _ => True end.

Lemma const_link e v : lit_ok e -> const_val e = Some v ->
  const_ok v /\ eval_link h e ≈ plain (ret (sem v)).
Proof.
  destruct e; try done; cbn [const_val lit_ok].
  - by intros _ [= <-].
  - by intros _ [= <-].
  - by intros ? [= <-].
  - by intros [-> ?] [= <-].
  - by intros _ [= <-].
  - destruct op; try done. intros _. destruct (is_safe_void_arg e) eqn:E; [|done]. intros [= <-].
    by destruct e.
Qed.
Lemma const_eval e v : lit_ok e -> const_val e = Some v -> const_ok v /\ eval h e ≈ ret (sem v).
Proof. intros L C. destruct (const_link e v L C) as [? H]. split; [done|]. by apply eval_plain. Qed.

Lemma utf16_nil s : utf16 s = [] <-> s = [].
Proof.
  split; [|by intros ->]. destruct s as [|c s]; [done|]. unfold utf16, utf16_char. cbn. by destruct (c <? 65536).
Qed.
Lemma truthy_sem v : truthy (sem v) =
  match v with
  | CUndefined | CNull => false
  | CBool b => b
  | CNum x => negb (f64_is_zero x) && negb (f64_is_nan x)
  | CStr s => negb (bool_decide (s = []))
  | CBigInt n => negb (n =? 0)
  end.
Proof.
  destruct v as [| |b|x|s|n]; cbn; try done.
  - destruct (f64_is_nan x), (f64_is_zero x); done.
  - f_equal. apply bool_decide_ext, utf16_nil.
  - f_equal. destruct (N.eqb_spec n 0) as [->|]; [done|]. apply Z.eqb_neq. lia.
Qed.
Lemma const_truth e t : lit_ok e -> const_truthiness e = Some t ->
  exists v, const_val e = Some v /\ truthy (sem v) = t /\ eval h e ≈ ret (sem v) /\ eval_link h e ≈ plain (ret (sem v)).
Proof.
  intros L. unfold const_truthiness. destruct (const_val e) as [v|] eqn:C; [|done]. intros H. exists v.
  destruct (const_eval e v L C) as [_ E], (const_link e v L C) as [_ K]. split; [done|]. split; [|done].
  rewrite truthy_sem. destruct v; congruence.
Qed.
Lemma nullish_sem v : nullish (sem v) = is_nullish v.
Proof. by destruct v. Qed.

Lemma typeof_sem v : type_name (sem v) <> None /\ unary h UTypeof (sem v) ≈ ret (VStr (utf16 (const_typeof v))) /\
  valid_str (const_typeof v).
Proof. destruct v; (split; [done|]); (split; [done|]); by repeat constructor. Qed.

Lemma reads_or_not nearest s :
  (exists v, reads nearest f64_infinity f64_negate f64_zero s v) \/
  (forall v, ~ reads nearest f64_infinity f64_negate f64_zero s v).
Proof.
  destruct (trim_split _ whitespace_spec s) as (w&w'&E&W1&W2).
  destruct (bool_decide_reflect (trim_matches is_ecmascript_whitespace s = [])) as [T|T].
  - left. exists f64_zero. rewrite E, T. cbn [app]. apply reads_nothing. by apply Forall_app.
  - destruct (literal_value nearest (trim_matches is_ecmascript_whitespace s)) as [v|] eqn:L.
    + left. exists v. rewrite E. apply reads_literal; [done..|]. by apply literal_value_spec.
    + right. intros v H. destruct H as [u U|u t v' u' U U' K].
      * by rewrite (trim_spaces _ whitespace_spec) in T.
      * destruct (literal_plain _ _ _ K) as [P N]. rewrite (trim_plain _ whitespace_spec) in L by done.
        apply literal_value_spec in K. congruence.
Qed.
Lemma string_number_ok s : valid_str s -> number_of_string h (utf16 s) = string_number R s.
Proof.
  intros V. unfold string_number.
  destruct (reads_or_not (r_nearest R) s) as [[v H]|H].
  - rewrite (ag_reads R h A s v V H). symmetry. by apply coerce_reads.
  - rewrite (ag_rejects R h A s V H). symmetry. by apply coerce_rejects.
Qed.

Lemma strict_sem a b : const_ok a -> const_ok b -> strictly_equal (sem a) (sem b) = js_strict_eq a b.
Proof.
  destruct a as [| |a|a|a|a], b as [| |b|b|b|b]; cbn [sem strictly_equal js_strict_eq const_ok]; intros Va Vb;
    try (by apply bool_decide_eq_false_2); try (by apply bool_decide_eq_true_2).
  - by destruct a, b.
  - unfold f64_eqb. by destruct (f64_is_nan a), (f64_is_nan b).
  - apply bool_decide_ext. split; [|congruence]. intros [= E]. by apply utf16_inj.
  - destruct (N.eqb_spec a b) as [->|]; [by apply bool_decide_eq_true_2|]. apply bool_decide_eq_false_2. intros [= E]. lia.
Qed.

Lemma loose_sem a b t : const_ok a -> const_ok b -> js_loose_eq R a b = Some t -> loosely_equal h (sem a) (sem b) = t.
Proof.
  intros Va Vb. pose proof (strict_sem a b Va Vb) as S.
  destruct a as [| |a|a|a|a], b as [| |b|b|b|b]; cbn [js_loose_eq loose_rest bool_num js_strict_eq]; intros [= <-]; try done;
    cbn [sem loosely_equal bool_as_number strictly_equal js_strict_eq const_ok] in *;
    try (by apply bool_decide_eq_false_2); try (by apply bool_decide_eq_true_2); try done.
  all: try (by rewrite string_number_ok).
  all: try (unfold f64_eqb; by destruct a, b).
  all: try (unfold f64_eqb; destruct a; by destruct (f64_is_nan b)).
  all: try (unfold f64_eqb; destruct b; by destruct (f64_is_nan a)).
Qed.

Lemma utf16_low s : Forall (fun c => c < 128) s -> utf16 s = s /\ valid_str s.
Proof.
  induction 1 as [|c s C H [IH1 IH2]]; [by split; [|constructor]|]. unfold utf16, utf16_char in *. cbn [map concat].
  destruct (N.ltb_spec c 65536); [|lia]. cbn [app]. rewrite IH1. split; [done|]. constructor; [|done].
  unfold is_scalar. destruct (N.ltb_spec c 55296); [done|lia].
Qed.
Lemma low_digits ds : digits ds -> Forall (fun c => c < 128) ds.
Proof. intros D. eapply Forall_impl; [exact D|]. cbn. intros. lia. Qed.
Lemma low_zeros n : Forall (fun c => c < 128) (repeat 48 n).
Proof. induction n; by constructor. Qed.
Lemma spelled_low ds n s : digits ds -> spelled ds n s -> Forall (fun c => c < 128) s.
Proof.
  intros D H. pose proof (low_digits _ D) as L.
  assert (forall z e, spells_integer z e -> Forall (fun c => c < 128) e) as I.
  { intros z e (m&(N&F&->)%numeral10&_). by apply low_digits, digits_forallb. }
  destruct H as [| | |d e ? -> S|d ds' e ? -> ? S]; repeat (apply Forall_app; split); try done;
    try apply low_zeros; try (by apply Forall_take); try (by apply Forall_drop); try (by eapply I);
    repeat (apply Forall_cons; split); try done; try lia; try (by eapply I).
  all: try (by inversion L; subst). all: try (by destruct (n <? 0)%Z).
Qed.
Lemma to_string_low x s : to_string (r_shortest R) x s -> Forall (fun c => c < 128) s.
Proof.
  intros [| | | |y ds e s' H H1 H2|y y' ds e s' H H0 H1 H2]; try (by repeat constructor).
  - eapply spelled_low; [|exact H2]. by destruct (ag_digits R h A _ _ _ H H1) as (?&?&?).
  - constructor; [done|]. eapply spelled_low; [|exact H2]. by destruct (ag_digits R h A _ _ _ H H1) as (?&?&?).
Qed.

Lemma text_sem v : const_ok v -> text_of h (sem v) = utf16 (const_to_string R v) /\ valid_str (const_to_string R v).
Proof.
  destruct v as [| |b|x|s|n]; cbn [sem text_of const_to_string const_ok]; intros V.
  - split; [done|]. by repeat constructor.
  - split; [done|]. by repeat constructor.
  - destruct b; (split; [done|]); by repeat constructor.
  - pose proof (minifier_spells _ x V (ag_digits R h A)) as M. pose proof (ag_number R h A x V) as N.
    rewrite (to_string_unique _ _ _ _ (ag_digits R h A) N M).
    destruct (utf16_low _ (to_string_low _ _ M)) as [-> ?]. done.
  - done.
  - destruct (decimal_of_N_spec n) as [C E].
    assert (decimal_spelling (Z.of_N n) (decimal_of_N n)) as D.
    { exists (decimal_of_N n). split; [done|]. split; [rewrite E; lia|]. destruct (Z.ltb_spec (Z.of_N n) 0); [lia|done]. }
    rewrite (decimal_spelling_unique _ _ _ (ag_bigint R h A n) D).
    destruct (utf16_low (decimal_of_N n)) as [-> ?]; [|done]. apply low_digits. by destruct C as (?&?&?).
Qed.

Lemma of_N_small n : n < 2 ^ 53 -> f64_bits (f64_of_N n) < 2 ^ 63.
Proof.
  intros L. unfold f64_of_N. destruct (N.eqb_spec n 0) as [|N]; [done|]. cbn [f64_bits].
  destruct (N.log2_spec n ltac:(lia)) as [A1 A2].
  assert (N.log2 n < 53) as LL by (apply N.log2_lt_pow2; [lia|done]).
  assert (n * 2 ^ (52 - N.log2 n) < 2 ^ 53) as B.
  { apply N.lt_le_trans with (2 ^ N.succ (N.log2 n) * 2 ^ (52 - N.log2 n)).
    - apply N.mul_lt_mono_pos_r; [|done]. apply N.neq_0_lt_0, N.pow_nonzero. done.
    - rewrite <- N.pow_add_r. apply N.pow_le_mono_r; [done|]. lia. }
  remember (n * 2 ^ (52 - N.log2 n)) as q. remember (N.log2 n) as e. clear - LL B.
  change (2 ^ 53) with 9007199254740992 in *. change (2 ^ 52) with 4503599627370496. change (2 ^ 63) with 9223372036854775808. lia.
Qed.
Lemma of_int z : (- 2 ^ 33 < z < 2 ^ 33)%Z -> f64_of_int z = number_of_int z.
Proof.
  intros B. unfold f64_of_int, number_of_int. destruct (Z.ltb_spec z 0); [|done].
  unfold f64_negate. assert (Z.to_N (- z) < 2 ^ 53) as L.
  { change (2 ^ 33)%Z with 8589934592%Z in *. change (2 ^ 53) with 9007199254740992. lia. }
  pose proof (of_N_small _ L) as K. rewrite bits_neg.
  - destruct (N.leb_spec (2 ^ 63) (f64_bits (f64_of_N (Z.to_N (- z))))); [lia|]. f_equal. lia.
  - eapply N.lt_trans; [exact K|done].
Qed.

Lemma int32_same x : int32 h x = js_to_int32 x.
Proof. eapply int32_unique; [apply (ag_int32 R h A)|apply int32_correct]. Qed.
Lemma uint32_same x : uint32 h x = js_to_uint32 x.
Proof. eapply uint32_unique; [apply (ag_uint32 R h A)|apply uint32_correct]. Qed.
Lemma int32_range x : (- 2 ^ 31 <= js_to_int32 x < 2 ^ 31)%Z.
Proof. apply (int32_correct x). Qed.
Lemma uint32_range x : (0 <= js_to_uint32 x < 2 ^ 32)%Z.
Proof. apply (uint32_correct x). Qed.

(** Bitwise operations keep 31 bits and a sign. *)
Lemma bits_range z : (- 2 ^ 31 <= z < 2 ^ 31)%Z <-> (forall i, 31 <= i -> Z.testbit z i = Z.testbit z 31)%Z.
Proof.
  split.
  - intros [L U] i I. destruct (Z.ltb_spec z 0).
    + assert (forall j, 31 <= j -> Z.testbit z j = true)%Z as K; [|rewrite !K; [done|lia..]].
      intros j J. replace z with (Z.lnot (- z - 1))%Z by (unfold Z.lnot; lia). rewrite Z.lnot_spec by lia.
      apply negb_true_iff. destruct (Z.eqb_spec (- z - 1) 0) as [->|]; [apply Z.bits_0|].
      apply Z.bits_above_log2; [lia|]. eapply Z.lt_le_trans; [|exact J]. apply Z.log2_lt_pow2; lia.
    + assert (forall j, 31 <= j -> Z.testbit z j = false)%Z as K; [|rewrite !K; [done|lia..]].
      intros j J. destruct (Z.eqb_spec z 0) as [->|]; [apply Z.bits_0|].
      apply Z.bits_above_log2; [lia|]. eapply Z.lt_le_trans; [|exact J]. apply Z.log2_lt_pow2; lia.
  - intros H. assert (z / 2 ^ 31 = 0 \/ z / 2 ^ 31 = -1)%Z as D.
    { rewrite <- Z.shiftr_div_pow2 by done. destruct (Z.testbit z 31) eqn:T.
      - right. apply Z.bits_inj'. intros i I. rewrite Z.shiftr_spec by done. rewrite H by lia.
        change (-1)%Z with (Z.lnot 0). by rewrite Z.lnot_spec, Z.bits_0.
      - left. apply Z.bits_inj'. intros i I. rewrite Z.shiftr_spec by done. rewrite H by lia. by rewrite Z.bits_0. }
    pose proof (Z.div_mod z (2 ^ 31) ltac:(done)). pose proof (Z.mod_pos_bound z (2 ^ 31) ltac:(done)).
    destruct D as [D|D]; rewrite D in *; lia.
Qed.
Lemma bit_op_range (f : Z -> Z -> Z) (g : bool -> bool -> bool) a b :
  (forall x y i, Z.testbit (f x y) i = g (Z.testbit x i) (Z.testbit y i)) ->
  (- 2 ^ 31 <= a < 2 ^ 31 -> - 2 ^ 31 <= b < 2 ^ 31 -> - 2 ^ 33 < f a b < 2 ^ 33)%Z.
Proof.
  intros F Ha Hb. assert (- 2 ^ 31 <= f a b < 2 ^ 31)%Z.
  { apply bits_range. intros i I. rewrite !F. rewrite (proj1 (bits_range a) Ha i I), (proj1 (bits_range b) Hb i I). done. }
  change (2 ^ 31)%Z with 2147483648%Z in *. change (2 ^ 33)%Z with 8589934592%Z. lia.
Qed.

Lemma wrap_signed z : wrap32 z = signed32 z.
Proof.
  unfold wrap32, signed32. assert (2 ^ 32 <> 0)%Z as N by done.
  pose proof (Z.div_mod z _ N). pose proof (Z.mod_pos_bound z (2 ^ 32) ltac:(done)).
  pose proof (Z.div_mod (z + 2 ^ 31) _ N). pose proof (Z.mod_pos_bound (z + 2 ^ 31) (2 ^ 32) ltac:(done)).
  remember (z mod 2 ^ 32)%Z as u. remember ((z + 2 ^ 31) mod 2 ^ 32)%Z as v.
  remember (z / 2 ^ 32)%Z as q. remember ((z + 2 ^ 31) / 2 ^ 32)%Z as r. clear Hequ Heqv Heqq Heqr.
  change (2 ^ 31)%Z with 2147483648%Z in *. change (2 ^ 32)%Z with 4294967296%Z in *.
  destruct (Z.ltb_spec u 2147483648); lia.
Qed.
Lemma signed_range z : (- 2 ^ 33 < signed32 z < 2 ^ 33)%Z.
Proof.
  unfold signed32. pose proof (Z.mod_pos_bound (z + 2 ^ 31) (2 ^ 32) ltac:(done)).
  change (2 ^ 31)%Z with 2147483648%Z in *. change (2 ^ 32)%Z with 4294967296%Z in *. change (2 ^ 33)%Z with 8589934592%Z. lia.
Qed.
Lemma shift_count u : (0 <= u)%Z -> Z.land u 31 = (u mod 32)%Z.
Proof. intros. change 31%Z with (Z.ones 5). rewrite Z.land_ones by done. done. Qed.
Lemma div_range z c : (- 2 ^ 32 <= z < 2 ^ 32 -> 0 <= c -> - 2 ^ 33 < z / 2 ^ c < 2 ^ 33)%Z.
Proof.
  intros B C. assert (0 < 2 ^ c)%Z as P by (apply Z.pow_pos_nonneg; lia).
  pose proof (Z.div_mod z (2 ^ c) ltac:(lia)). pose proof (Z.mod_pos_bound z (2 ^ c) P).
  remember (z / 2 ^ c)%Z as q. remember (z mod 2 ^ c)%Z as r. remember (2 ^ c)%Z as d. clear - B P H H0.
  change (2 ^ 32)%Z with 4294967296%Z in *. change (2 ^ 33)%Z with 8589934592%Z. nia.
Qed.

Lemma num_op_sem op x y z :
  (op <> BPow \/ forall x y, r_powf R x y = n_exp h x y) -> num_op R op x y = Some z -> on_numbers h op x y = Some z.
Proof.
  intros P. unfold num_op, on_numbers. rewrite !uint32_same, !int32_same.
  pose proof (int32_range x) as Ix. pose proof (int32_range y) as Iy.
  pose proof (uint32_range x) as Ux. pose proof (uint32_range y) as Uy.
  rewrite shift_count by lia. assert (0 <= js_to_uint32 y mod 32 < 32)%Z as C by (apply Z.mod_pos_bound; done).
  destruct op; try done; intros [= <-]; f_equal.
  - apply (ag_add R h A).
  - apply (ag_sub R h A).
  - apply (ag_mul R h A).
  - apply (ag_div R h A).
  - apply (ag_rem R h A).
  - destruct P as [P|P]; [done|]. by rewrite P.
  - symmetry. apply of_int, (bit_op_range _ andb); [|done..]. intros. apply Z.land_spec.
  - symmetry. apply of_int, (bit_op_range _ orb); [|done..]. intros. apply Z.lor_spec.
  - symmetry. apply of_int, (bit_op_range _ xorb); [|done..]. intros. apply Z.lxor_spec.
  - rewrite wrap_signed, Z.shiftl_mul_pow2 by lia. symmetry. apply of_int, signed_range.
  - rewrite Z.shiftr_div_pow2 by lia. symmetry. apply of_int, div_range; [|lia].
    change (2 ^ 31)%Z with 2147483648%Z in *. change (2 ^ 32)%Z with 4294967296%Z. lia.
  - rewrite Z.shiftr_div_pow2 by lia. symmetry. apply of_int, div_range; [|lia].
    change (2 ^ 32)%Z with 4294967296%Z in *. lia.
Qed.

Lemma number_sem v x : const_ok v -> const_to_number R v = Some x -> numeric h (sem v) = inl x.
Proof. destruct v; cbn; intros V [= <-]; try done. by rewrite string_number_ok. Qed.

Lemma lex_flip a b : lex_cmp b a = CompOpp (lex_cmp a b).
Proof.
  revert b. induction a as [|x a IH]; intros [|y b]; try done. cbn. rewrite (N.compare_antisym x y).
  destruct (x ?= y); cbn; [apply IH|done..].
Qed.
End consts.
