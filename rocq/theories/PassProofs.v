(** Proofs about the optimizer passes. *)
From stdpp Require Import base decidable list numbers gmap sets.
From Coq Require Import NArith ZArith Lia.
From Verif Require Import VmBase RustStr ILModel CfgSpec CfgProofs ILSpec PassModel.

Local Open Scope N_scope.

(** ** Blocks *)
Lemma phis_rest is : is = phis_of is ++ rest_of is.
Proof. induction is as [|i is IH]; [done|]. cbn [phis_of rest_of]. destruct (is_phi i); cbn; [by f_equal|done]. Qed.
Lemma phis_of_phi is i : i ∈ phis_of is -> is_phi i = true.
Proof. induction is as [|j is IH]; cbn [phis_of]; [by intros ?%elem_of_nil|]. destruct (is_phi j) eqn:E; [|by intros ?%elem_of_nil]. intros [->|?]%elem_of_cons; auto. Qed.
Lemma phis_of_app A B : (forall i, i ∈ A -> is_phi i = true) -> (forall i, i ∈ B -> is_phi i = false) -> phis_of (A ++ B) = A /\ rest_of (A ++ B) = B.
Proof.
  induction A as [|i A IH]; cbn [app]; intros HA HB.
  - destruct B as [|j B]; [done|]. cbn [phis_of rest_of]. rewrite (HB j) by constructor. done.
  - cbn [phis_of rest_of]. rewrite (HA i) by constructor. destruct IH as [-> ->]; [intros; apply HA; by constructor|done|done].
Qed.
Lemma block_of_fmap (f : block -> block) (b : gmap N block) l : f [] = [] -> block_of (f <$> b) l = f (block_of b l).
Proof. intros H. unfold block_of. rewrite lookup_fmap. destruct (b !! l); cbn; auto. Qed.
Lemma elem_arg_vars x as_ : x ∈ arg_vars as_ <-> AVar x ∈ as_.
Proof.
  unfold arg_vars. rewrite elem_of_list_In, in_flat_map. split.
  - intros (a & Ha & Hx). destruct a; cbn in Hx; try done. destruct Hx as [->|[]]. by apply elem_of_list_In.
  - intros Ha. exists (AVar x). split; [by apply elem_of_list_In|cbn; auto].
Qed.
Lemma used_vars_spec c x : x ∈ used_vars (c_blocks c) <-> reads c x.
Proof.
  unfold used_vars, reads, in_prog. rewrite elem_of_list_to_set, elem_of_list_In, in_flat_map. split.
  - intros ([l is] & H1%elem_of_list_In%elem_of_map_to_list & H2). cbn in H2. apply in_flat_map in H2 as (i & Hi%elem_of_list_In & Hx%elem_of_list_In%elem_arg_vars).
    apply elem_of_list_lookup in Hi as [k Hk]. exists l, k, i. unfold block_of. by rewrite H1.
  - intros (l & k & i & Hi & Hx). unfold block_of in Hi. destruct (c_blocks c !! l) as [is|] eqn:E; [|by rewrite lookup_nil in Hi].
    exists (l, is). split; [by apply elem_of_list_In, elem_of_map_to_list|]. cbn. apply in_flat_map. exists i. split; [eapply elem_of_list_In, elem_of_list_lookup_2, Hi|].
    by apply elem_of_list_In, elem_arg_vars.
Qed.

Section exec.
  Context {V W : Type} (m : machine V W).
  Lemma eval_agree (P : N -> Prop) e e' a : (forall x, P x -> e x = e' x) -> (forall x, a = AVar x -> P x) -> eval m e a = eval m e' a.
  Proof. intros H Ha. destruct a; cbn; auto. Qed.
  Lemma evals_agree (P : N -> Prop) e e' as_ : (forall x, P x -> e x = e' x) -> (forall x, AVar x ∈ as_ -> P x) -> map (eval m e) as_ = map (eval m e') as_.
  Proof.
    intros H Ha. apply map_ext_in. intros a Hin%elem_of_list_In. apply (eval_agree P); [done|]. intros x ->. auto.
  Qed.
  Lemma exec_insts_app a b s : exec_insts m (a ++ b) s = exec_insts m b (exec_insts m a s).
  Proof. revert s. induction a as [|i a IH]; intros s; cbn; auto. Qed.
  Lemma assign_agree (P : N -> Prop) (e e' : N -> V) xs v : (forall x, P x -> e x = e' x) -> forall x, P x -> assign e xs v x = assign e' xs v x.
  Proof. intros H x Hx. unfold assign. case_bool_decide; auto. Qed.
  Lemma phi_entry_elem p les a : phi_entry p les = Some a -> (p, a) ∈ les.
  Proof.
    induction les as [|[q b] les IH]; cbn; [done|]. destruct (N.eqb_spec q p) as [->|]; [intros [= ->]; constructor|]. intros H. constructor; auto.
  Qed.
  Lemma phi_value_agree (P : N -> Prop) prev e e' i : (forall x, P x -> e x = e' x) -> (forall x, AVar x ∈ i_args i -> P x) -> phi_value m prev e i = phi_value m prev e' i.
  Proof.
    intros H Ha. unfold phi_value. destruct prev as [p|]; [|done]. destruct (phi_entry p _) as [a|] eqn:E; [|done].
    apply (eval_agree P); [done|]. intros x ->. apply Ha. apply phi_entry_elem, elem_of_zip_r in E. done.
  Qed.
  (** Which variables a run of instructions leaves alone. *)
  Lemma exec_phis_other prev e0 is : forall e x, (forall i, i ∈ is -> x ∉ i_tgts i) -> exec_phis m prev e0 is e x = e x.
  Proof.
    induction is as [|i is IH]; intros e x H; [done|]. cbn [exec_phis]. rewrite IH by (intros; apply H; by constructor).
    unfold assign. rewrite bool_decide_eq_false_2; [done|]. apply H. constructor.
  Qed.
End exec.

Lemma same_on_run {V W} (m : machine V W) (P : N -> Prop) c c' : (forall s s', same_on P s s' -> same_on P (step m c s) (step m c' s')) ->
  forall n s s', same_on P s s' -> same_on P (run m c n s) (run m c' n s').
Proof. intros H n. induction n as [|n IH]; intros s s' Hs; cbn; auto. Qed.

(** ** Dead code elimination *)
Lemma dce_block_app u a b : dce_block u (a ++ b) = dce_block u a ++ dce_block u b.
Proof. induction a as [|i a IH]; [done|]. cbn. destruct (dce_dead u i); [|by rewrite IH]. case_bool_decide; by rewrite IH. Qed.
Lemma dce_block_elem u is j : j ∈ dce_block u is -> exists i, i ∈ is /\ i_t j = i_t i /\ (j = i \/ j = set_tgts i [] /\ i_t i = ICall).
Proof.
  induction is as [|i is IH]; cbn [dce_block]; [by intros ?%elem_of_nil|].
  assert (T : j ∈ dce_block u is -> exists i', i' ∈ i :: is /\ i_t j = i_t i' /\ (j = i' \/ j = set_tgts i' [] /\ i_t i' = ICall)).
  { intros H. destruct (IH H) as (i' & ? & ?). exists i'. split; [by constructor|done]. }
  destruct (dce_dead u i).
  - case_bool_decide as Hc; [|done]. intros [->|?]%elem_of_cons; [|auto]. exists i. split; [constructor|]. split; [done|]. right. auto.
  - intros [->|?]%elem_of_cons; [|auto]. exists i. split; [constructor|]. split; [done|]. auto.
Qed.
Lemma dce_split u is : (forall i, i ∈ rest_of is -> is_phi i = false) ->
  phis_of (dce_block u is) = dce_block u (phis_of is) /\ rest_of (dce_block u is) = dce_block u (rest_of is).
Proof.
  intros H. rewrite (phis_rest is) at 1 3. rewrite dce_block_app. apply phis_of_app.
  - intros j (i & Hi & Et & _)%dce_block_elem. apply phis_of_phi in Hi. unfold is_phi in *. by rewrite Et.
  - intros j (i & Hi & Et & _)%dce_block_elem. apply H in Hi. unfold is_phi in *. by rewrite Et.
Qed.
Lemma dce_dead_spec u i : dce_dead u i = true -> i_tgts i <> [] /\ forall x, x ∈ i_tgts i -> x ∉ u.
Proof.
  unfold dce_dead. intros [H1 H2]%andb_true_iff. split; [by case_bool_decide|]. intros x Hx Hu.
  rewrite forallb_forall in H2. specialize (H2 x). rewrite <- elem_of_list_In in H2. specialize (H2 Hx). by rewrite bool_decide_eq_true_2 in H2.
Qed.
Section dce.
  Context {V W : Type} (m : machine V W) (u : gset N).
  Lemma dead_pure i vs w : inst_ok i -> i_tgts i <> [] -> i_t i <> ICall -> (effect m i vs w).1 = w.
  Proof.
    unfold inst_ok, effect. intros H Ht Hc. destruct (i_t i); try done; try (by destruct H as [H _]; rewrite H in Ht).
    all: destruct vs as [|? [|? [|? []]]]; done.
  Qed.
  Lemma dce_insts is : (forall i, i ∈ is -> inst_ok i) -> (forall i x, i ∈ is -> AVar x ∈ i_args i -> x ∈ u) ->
    forall s s', (forall x, x ∈ u -> s.1 x = s'.1 x) -> s.2 = s'.2 ->
    (forall x, x ∈ u -> (exec_insts m is s).1 x = (exec_insts m (dce_block u is) s').1 x) /\ (exec_insts m is s).2 = (exec_insts m (dce_block u is) s').2.
  Proof.
    induction is as [|i is IH]; intros Hok Hu [e w] [e' w'] He Hw; cbn [fst snd] in *; subst w'; [done|].
    assert (Ev : map (eval m e) (i_args i) = map (eval m e') (i_args i)) by (apply (evals_agree m (.∈ u)); [done|]; intros x Hx; eapply Hu; [constructor|done]).
    assert (IH' := IH ltac:(intros; apply Hok; by constructor) ltac:(intros; eapply Hu; [by constructor|done])). clear IH.
    cbn [dce_block exec_insts]. destruct (dce_dead u i) eqn:D.
    - apply dce_dead_spec in D as [D1 D2]. case_bool_decide as Hc.
      + cbn [exec_insts]. apply IH'; unfold exec_inst; cbn [fst snd set_tgts i_args i_tgts]; rewrite Ev.
        * intros x Hx. unfold assign. rewrite bool_decide_eq_false_2 by (intros ?; by eapply D2). rewrite bool_decide_eq_false_2 by (by intros ?%elem_of_nil). auto.
        * unfold effect, set_tgts; cbn [i_t i_spreads]. by rewrite Hc.
      + apply IH'; unfold exec_inst; cbn [fst snd].
        * intros x Hx. unfold assign. rewrite bool_decide_eq_false_2 by (intros ?; by eapply D2). auto.
        * apply dead_pure; [|done|done]. apply Hok. constructor.
    - cbn [exec_insts]. apply IH'; unfold exec_inst; cbn [fst snd]; rewrite Ev; [|done]. by apply (assign_agree (.∈ u)).
  Qed.
  Lemma dce_phis prev e0 e0' is : (forall x, x ∈ u -> e0 x = e0' x) -> (forall i, i ∈ is -> is_phi i = true) -> (forall i x, i ∈ is -> AVar x ∈ i_args i -> x ∈ u) ->
    forall e e', (forall x, x ∈ u -> e x = e' x) -> forall x, x ∈ u -> exec_phis m prev e0 is e x = exec_phis m prev e0' (dce_block u is) e' x.
  Proof.
    intros H0. induction is as [|i is IH]; intros Hphi Hu e e' He x Hx; [cbn; auto|].
    assert (IH' := IH ltac:(intros; apply Hphi; by constructor) ltac:(intros; eapply Hu; [by constructor|done])). clear IH.
    cbn [dce_block exec_phis]. destruct (dce_dead u i) eqn:D.
    - apply dce_dead_spec in D as [D1 D2]. assert (Hp : is_phi i = true) by (apply Hphi; constructor). unfold is_phi in Hp. apply bool_decide_eq_true in Hp.
      rewrite bool_decide_eq_false_2 by congruence. apply IH'; [|done]. intros y Hy. unfold assign. rewrite bool_decide_eq_false_2 by (intros ?; by eapply D2). auto.
    - cbn [exec_phis]. apply IH'; [|done]. rewrite (phi_value_agree m (.∈ u) prev e0 e0' i H0) by (intros y Hy; eapply Hu; [constructor|done]).
      by apply (assign_agree (.∈ u)).
  Qed.
End dce.
Lemma last_dce u is : block_ok is -> (forall i, last is = Some i -> is_cond_goto i = true -> last (dce_block u is) = Some i) /\
  ((forall i, last is = Some i -> is_cond_goto i = false) -> forall j, last (dce_block u is) = Some j -> is_cond_goto j = false).
Proof.
  intros (H1 & H2 & H3). split.
  - intros i Hl Hc. destruct is as [|i' is0 _] using rev_ind; [done|]. rewrite last_snoc in Hl. injection Hl as ->. rewrite dce_block_app. cbn [dce_block].
    assert (Ht : i_tgts i = []). { assert (O : inst_ok i) by (apply H1; set_solver). unfold inst_ok in O. unfold is_cond_goto in Hc. apply bool_decide_eq_true in Hc. rewrite Hc in O. apply O. }
    unfold dce_dead. rewrite Ht. cbn. by rewrite last_snoc.
  - intros Hl j Hj. destruct (is_cond_goto j) eqn:E; [|done]. exfalso.
    apply last_Some_elem_of in Hj. apply dce_block_elem in Hj as (i & Hi & Et & _). apply elem_of_list_split in Hi as (a & b & ->).
    assert (Ei : is_cond_goto i = true) by (unfold is_cond_goto in *; by rewrite <- Et). specialize (H3 a i b eq_refl Ei). subst b. rewrite Hl in Ei; [done|]. by rewrite last_snoc.
Qed.
Lemma dce_preserves {V W} (m : machine V W) c : prog_ok c -> forall e e' w n, (forall x, reads c x -> e x = e' x) ->
  same_on (reads c) (run m c n (start c e w)) (run m (optpass_trivial_dce c) n (start (optpass_trivial_dce c) e' w)).
Proof.
  intros [Hb _] e e' w n He. apply same_on_run; [|by split]. clear e e' w n He. intros s s' Hs.
  set (u := used_vars (c_blocks c)).
  assert (HR : forall x, reads c x <-> x ∈ u) by (intros; unfold u; by rewrite used_vars_spec).
  destruct s as [l p e w|e w], s' as [l' p' e' w'|e' w']; cbn in Hs; try done.
  destruct Hs as (<- & <- & <- & He). cbn [step]. unfold optpass_trivial_dce. cbn [c_blocks].
  rewrite block_of_fmap by done. fold u. set (is := block_of (c_blocks c) l).
  assert (Hu : forall i x, i ∈ is -> AVar x ∈ i_args i -> x ∈ u).
  { intros i x Hi Hx. apply HR. apply elem_of_list_lookup in Hi as [k Hk]. by exists l, k, i. }
  assert (Ok := Hb l). destruct Ok as (O1 & O2 & O3). fold is in O1, O2, O3.
  assert (E : (forall x, x ∈ u -> (exec_block m p is (e, w)).1 x = (exec_block m p (dce_block u is) (e', w)).1 x) /\
              (exec_block m p is (e, w)).2 = (exec_block m p (dce_block u is) (e', w)).2).
  { unfold exec_block. destruct (dce_split u is O2) as [-> ->]. cbn [fst snd]. apply dce_insts; cbn [fst snd]; [| | |done].
    - intros i Hi. apply O1. rewrite (phis_rest is). set_solver.
    - intros i x Hi. apply Hu. rewrite (phis_rest is). set_solver.
    - intros x Hx. apply dce_phis; [intros; apply He; by apply HR|by apply phis_of_phi| |intros; apply He; by apply HR|done].
      intros i y Hi. apply Hu. rewrite (phis_rest is). set_solver. }
  destruct E as [E1 E2].
  set (r := exec_block m p is (e, w)) in *. set (r' := exec_block m p (dce_block u is) (e', w)) in *.
  assert (En : next m c l r.1 = next m (Cfg (c_graph c) (dce_block u <$> c_blocks c) (c_entry c)) l r'.1).
  { unfold next. cbn [c_blocks c_graph]. rewrite block_of_fmap by done. fold is. destruct (last_dce u is (Hb l)) as [L1 L2].
    destruct (last is) as [i|] eqn:El.
    - destruct (is_cond_goto i) eqn:Ec.
      + rewrite (L1 i eq_refl Ec), Ec. destruct (i_args i) as [|a []] eqn:Ea; try done. destruct (i_labels i) as [|? [|? []]]; try done.
        rewrite (eval_agree m (.∈ u) r.1 r'.1 a); [done|done|]. intros x ->. eapply Hu; [by eapply last_Some_elem_of|]. rewrite Ea. constructor.
      + destruct (last (dce_block u is)) as [j|] eqn:Ej; [|done]. rewrite (L2 ltac:(intros ? [= <-]; done) j eq_refl). done.
    - destruct (last (dce_block u is)) as [j|] eqn:Ej; [|done]. rewrite (L2 ltac:(done) j eq_refl). done. }
  rewrite <- En. destruct (next m c l r.1); cbn; repeat split; auto; intros x Hx; apply E1; by apply HR.
Qed.

(** ** Strict SSA *)
Lemma available_mono c x l k k' : available c x l k -> (k <= k')%nat -> available c x l k'.
Proof. intros H Hk p Hp. destruct (H p Hp) as [?|(j & ? & ?)]; [by left|right]. exists j. split; [lia|done]. Qed.
Lemma available_pred c x l n k : available c x n 0 -> edge (c_graph c) l n -> (length (block_of (c_blocks c) l) <= k)%nat -> available c x l k.
Proof.
  intros H He Hk p Hp. destruct (H (l :: p) (path_step _ _ _ _ Hp He)) as [(l' & k' & [->|Hl]%elem_of_cons & Hd)|(? & ? & _)]; [right|left|lia].
  - exists k'. split; [|done]. destruct Hd as (i & Hi & _). apply lookup_lt_Some in Hi. lia.
  - by exists l', k'.
Qed.
Lemma available_back c x l k : available c x l (S k) -> ~ defines c x l k -> available c x l k.
Proof.
  intros H Hn p Hp. destruct (H p Hp) as [?|(j & Hj & Hd)]; [by left|right]. exists j. split; [|done].
  assert (j <> k) by (intros ->; done). lia.
Qed.
Lemma path_suffix c l2 : forall p l, path c (l :: p) -> l2 ∈ p -> exists p', path c (l2 :: p') /\ (length p' < length p)%nat.
Proof.
  induction p as [|q p IH]; intros l H Hin; [by apply elem_of_nil in Hin|]. inversion H; subst.
  apply elem_of_cons in Hin as [->|Hin]; [exists p; split; [done|cbn; lia]|].
  destruct (IH q) as (p' & ? & ?); [done|done|]. exists p'. split; [done|cbn; lia].
Qed.
(** Where [t] is available, an instruction that feeds the definition of [t] does not run. *)
Lemma no_clobber c b t l k l2 k2 i2 : strict_ssa c -> defines c b l k -> in_prog c l2 k2 i2 -> is_phi i2 = false -> AVar b ∈ i_args i2 -> t ∈ i_tgts i2 ->
  available c t l k -> forall n p, (length p <= n)%nat -> path c (l :: p) -> False.
Proof.
  intros S Db I2 Np Hb Ht Ht'. assert (D2 : defines c t l2 k2) by (by exists i2).
  assert (Ab : available c b l2 k2) by (by eapply ssa_use). induction n as [|n IH]; intros p Hn Hp.
  - destruct p; [|cbn in Hn; lia]. destruct (Ht' [] Hp) as [(? & ? & ?%elem_of_nil & _)|(j & Hj & Hd)]; [done|].
    destruct (ssa_once _ S _ _ _ _ _ D2 Hd) as [-> ->]. destruct (Ab [] Hp) as [(? & ? & ?%elem_of_nil & _)|(j' & ? & Hd')]; [done|].
    destruct (ssa_once _ S _ _ _ _ _ Db Hd') as [_ ->]. lia.
  - assert (Q : exists p', path c (l2 :: p') /\ ((length p' < length p)%nat \/ p' = p /\ l2 = l /\ (k2 < k)%nat)).
    { destruct (Ht' p Hp) as [(l' & k' & Hin & Hd)|(j & Hj & Hd)]; destruct (ssa_once _ S _ _ _ _ _ D2 Hd) as [-> ->].
      - destruct (path_suffix c l' p l Hp Hin) as (p' & ? & ?). exists p'. auto.
      - exists p. auto. }
    destruct Q as (p' & Hp' & Hlen). destruct (Ab p' Hp') as [(l' & k' & Hin & Hd)|(j & Hj & Hd)]; destruct (ssa_once _ S _ _ _ _ _ Db Hd) as [-> ->].
    + destruct (path_suffix c l' p' l2 Hp' Hin) as (p'' & Hp'' & ?). apply (IH p''); [|done]. destruct Hlen as [?|(-> & _)]; lia.
    + destruct Hlen as [?|(_ & _ & ?)]; [|lia]. apply (IH p'); [lia|done].
Qed.

(** ** Removing copies *)
Lemma as_var_assign_spec i : inst_ok i -> forall t a, (t, a) ∈ as_var_assign i <-> i_t i = IVarAssign /\ i_tgts i = [t] /\ i_args i = [a].
Proof.
  intros O t a. unfold as_var_assign, is_var_assign. case_bool_decide as Ht; [|split; [by intros ?%elem_of_nil|by intros (? & _)]].
  unfold inst_ok in O. rewrite Ht in O. destruct O as [O1 O2]. destruct (i_tgts i) as [|t' []]; try done. destruct (i_args i) as [|a' []]; try done.
  rewrite elem_of_list_singleton. split; [by intros [= -> ->]|intros (_ & [= ->] & [= ->]); done].
Qed.
Lemma all_copies_spec c t a : prog_ok c -> (t, a) ∈ all_copies (c_blocks c) <-> copy c t a.
Proof.
  intros [Ok _]. unfold all_copies, block_copies. rewrite elem_of_list_In, in_flat_map. split.
  - intros ([l is] & H1%elem_of_list_In%elem_of_map_to_list & H2). cbn in H2. apply in_flat_map in H2 as (i & Hi%elem_of_list_In & Hx%elem_of_list_In).
    assert (Eb : block_of (c_blocks c) l = is) by (unfold block_of; by rewrite H1).
    assert (O : inst_ok i) by (apply (proj1 (Ok l)); by rewrite Eb). apply (as_var_assign_spec i O) in Hx. apply elem_of_list_lookup in Hi as [k Hk].
    exists l, k, i. split; [unfold in_prog; by rewrite Eb|done].
  - intros (l & k & i & Hi & Hx). assert (O : inst_ok i) by (apply (proj1 (Ok l)); by eapply elem_of_list_lookup_2). unfold in_prog, block_of in Hi. destruct (c_blocks c !! l) as [is|] eqn:E; [|by rewrite lookup_nil in Hi].
    exists (l, is). split; [by apply elem_of_list_In, elem_of_map_to_list|]. cbn. apply in_flat_map. exists i. split; [eapply elem_of_list_In, elem_of_list_lookup_2, Hi|].
    by apply elem_of_list_In, as_var_assign_spec.
Qed.
Lemma NoDup_flat_map {A B} (g : A -> list B) L : (forall x, x ∈ L -> NoDup (g x)) ->
  (forall j1 j2 x1 x2 b, L !! j1 = Some x1 -> L !! j2 = Some x2 -> b ∈ g x1 -> b ∈ g x2 -> j1 = j2) -> NoDup (flat_map g L).
Proof.
  induction L as [|x L IH]; intros H1 H2; cbn; [constructor|]. apply NoDup_app. split; [apply H1; constructor|]. split.
  - intros b Hb (y & Hy%elem_of_list_In & Hb'%elem_of_list_In)%elem_of_list_In%in_flat_map. apply elem_of_list_lookup in Hy as [j Hj]. specialize (H2 0%nat (S j) x y b eq_refl Hj Hb Hb'). lia.
  - apply IH; [intros; apply H1; by constructor|]. intros j1 j2 x1 x2 b E1 E2 B1 B2. specialize (H2 (S j1) (S j2) x1 x2 b E1 E2 B1 B2). lia.
Qed.
Lemma map_flat_map {A B C} (f : B -> C) (g : A -> list B) L : map f (flat_map g L) = flat_map (fun x => map f (g x)) L.
Proof. induction L as [|x L IH]; [done|]. cbn. by rewrite map_app, IH. Qed.
Lemma copies_nodup c : prog_ok c -> strict_ssa c -> NoDup (map fst (all_copies (c_blocks c))).
Proof.
  intros [Ok _] S. unfold all_copies, block_copies. rewrite map_flat_map.
  assert (M : forall l is, (l, is) ∈ map_to_list (c_blocks c) -> block_of (c_blocks c) l = is).
  { intros l is H%elem_of_map_to_list. unfold block_of. by rewrite H. }
  assert (D : forall l is t, (l, is) ∈ map_to_list (c_blocks c) -> t ∈ map fst (flat_map as_var_assign is) -> exists k, defines c t l k).
  { intros l is t Hl Ht. apply elem_of_list_In, in_map_iff in Ht as ([t' a] & <- & (i & Hi & Ha)%in_flat_map). cbn [fst]. apply elem_of_list_In, elem_of_list_lookup in Hi as [k Hk].
    exists k, i. split; [unfold in_prog; by rewrite (M _ _ Hl)|]. apply elem_of_list_In, as_var_assign_spec in Ha as (_ & -> & _); [constructor|].
    apply (proj1 (Ok l)). rewrite (M _ _ Hl). by eapply elem_of_list_lookup_2. }
  apply NoDup_flat_map.
  - intros [l is] Hl. cbn [snd]. rewrite map_flat_map. apply NoDup_flat_map.
    + intros i Hi. unfold as_var_assign. destruct (is_var_assign i), (i_tgts i), (i_args i); cbn; try constructor; try (by intros ?%elem_of_nil). constructor.
    + intros j1 j2 i1 i2 t H1 H2 T1 T2.
      assert (Q : forall j i, is !! j = Some i -> t ∈ map fst (as_var_assign i) -> defines c t l j).
      { intros j i Hj Hi. exists i. split; [unfold in_prog; by rewrite (M _ _ Hl)|]. apply elem_of_list_In, in_map_iff in Hi as ([t' a] & <- & Ha). apply elem_of_list_In, as_var_assign_spec in Ha as (_ & -> & _); [constructor|].
        apply (proj1 (Ok l)). rewrite (M _ _ Hl). by eapply elem_of_list_lookup_2. }
      by destruct (ssa_once _ S _ _ _ _ _ (Q _ _ H1 T1) (Q _ _ H2 T2)).
  - intros j1 j2 [l1 is1] [l2 is2] t H1 H2 T1 T2. cbn [snd] in *. assert (I1 := elem_of_list_lookup_2 _ _ _ H1). assert (I2 := elem_of_list_lookup_2 _ _ _ H2).
    destruct (D _ _ _ I1 T1) as [k1 D1], (D _ _ _ I2 T2) as [k2 D2]. destruct (ssa_once _ S _ _ _ _ _ D1 D2) as [-> _].
    assert (N1 := NoDup_fst_map_to_list (c_blocks c)). apply (NoDup_lookup _ j1 j2 l2 N1); rewrite list_lookup_fmap; [by rewrite H1|by rewrite H2].
Qed.

Section copies.
  Context {V W : Type} (m : machine V W) (c : cfg).
  Context (Ok : prog_ok c) (S : strict_ssa c) (Flat : copies_flat c).
  Let s : gmap N arg := list_to_map (all_copies (c_blocks c)).
  Lemma subst_lookup t a : s !! t = Some a <-> copy c t a.
  Proof. unfold s. rewrite <- elem_of_list_to_map by (by apply copies_nodup). by apply all_copies_spec. Qed.
  Notation copied := (copied c).
  Lemma copied_dec t : {copied t} + {~ copied t}.
  Proof. destruct (s !! t) as [a|] eqn:E; [left; exists a; by apply subst_lookup|right; intros [a Ha%subst_lookup]; congruence]. Qed.
  (** At a point where exactly the variables in [A] are surely written. *)
  Definition copies_hold (A : N -> Prop) (e : N -> V) : Prop := forall t a, copy c t a -> A t -> e t = eval m e a.
  Definition agree (e e' : N -> V) : Prop := forall x, ~ copied x -> e x = e' x.
  Lemma eval_copy_src t a e e' : copy c t a -> agree e e' -> eval m e a = eval m e' a.
  Proof. intros H He. destruct a; cbn; auto. apply He. intros [a' Ha']. by eapply (Flat _ _ H). Qed.
  Lemma eval_subst (A : N -> Prop) e e' a : agree e e' -> copies_hold A e -> (forall x, a = AVar x -> A x) -> eval m e a = eval m e' (subst_arg s a).
  Proof.
    intros He Hc Ha. destruct a as [| | |x]; cbn [subst_arg]; auto. destruct (s !! x) as [a|] eqn:E.
    - apply subst_lookup in E. rewrite <- (eval_copy_src _ _ e e' E He). apply (Hc _ _ E). by apply Ha.
    - cbn. apply He. intros [a Hx%subst_lookup]. congruence.
  Qed.
  Lemma subst_effect i vs w : effect m (subst_inst s i) vs w = effect m i vs w.
  Proof. done. Qed.
  Lemma copy_unique t a l k i : copy c t a -> in_prog c l k i -> t ∈ i_tgts i -> i_t i = IVarAssign /\ i_tgts i = [t] /\ i_args i = [a].
  Proof.
    intros (l' & k' & i' & Hi' & Ht & Hg & Ha) Hi Hin. assert (D1 : defines c t l k) by (by exists i). assert (D2 : defines c t l' k') by (exists i'; rewrite Hg; split; [done|constructor]).
    destruct (ssa_once _ S _ _ _ _ _ D1 D2) as [-> ->]. unfold in_prog in *. rewrite Hi in Hi'. by injection Hi' as <-.
  Qed.
  (** One instruction. *)
  Lemma copy_inst l k i e w p : in_prog c l k i -> is_phi i = false -> path c (l :: p) -> copies_hold (fun t => available c t l k) e ->
    let r := exec_inst m i (e, w) in copies_hold (fun t => available c t l (Datatypes.S k)) r.1 /\
    forall e', agree e e' -> (is_var_assign i = true -> agree r.1 e' /\ r.2 = w) /\
      (is_var_assign i = false -> agree r.1 (exec_inst m (subst_inst s i) (e', w)).1 /\ r.2 = (exec_inst m (subst_inst s i) (e', w)).2).
  Proof.
    intros Hi Np Hp Hc r. split.
    - intros t a Hta Hav. destruct (decide (t ∈ i_tgts i)) as [Hin|Hin].
      + destruct (copy_unique _ _ _ _ _ Hta Hi Hin) as (Et & Eg & Ea). unfold r, exec_inst, effect. cbn [fst snd]. rewrite Et, Eg, Ea. cbn [map fst snd].
        unfold assign at 1. rewrite bool_decide_eq_true_2 by constructor. destruct a as [| | |b]; cbn; try done. unfold assign. rewrite bool_decide_eq_false_2; [done|].
        intros ->%elem_of_list_singleton. by apply (Flat _ _ Hta t (AVar t)).
      + assert (Hav' : available c t l k) by (apply available_back; [done|]; intros (i' & Hi' & ?); unfold in_prog in *; rewrite Hi in Hi'; injection Hi' as <-; done).
        unfold r, exec_inst. cbn [fst snd]. unfold assign at 1. rewrite bool_decide_eq_false_2 by done. rewrite (Hc t a Hta Hav').
        destruct a as [| | |b]; cbn; try done. unfold assign. rewrite bool_decide_eq_false_2; [done|]. intros Hb.
        destruct Hta as (l2 & k2 & i2 & H2 & Et2 & Eg2 & Ea2). eapply (no_clobber c b t l k l2 k2 i2); try done.
        * by exists i.
        * unfold is_phi. by rewrite Et2.
        * rewrite Ea2. constructor.
        * rewrite Eg2. constructor.
    - intros e' He. split.
      + unfold is_var_assign. intros Et%bool_decide_eq_true. assert (O := proj1 (proj1 Ok l) i ltac:(by eapply elem_of_list_lookup_2)). unfold inst_ok in O. rewrite Et in O.
        destruct O as [O1 O2]. destruct (i_tgts i) as [|t []] eqn:Eg; try done. destruct (i_args i) as [|a []] eqn:Ea; try done.
        unfold r, exec_inst, effect. cbn [fst snd]. rewrite Et, Ea, Eg. cbn [map fst snd]. split; [|done]. intros x Hx. unfold assign. rewrite bool_decide_eq_false_2; [auto|].
        intros ->%elem_of_list_singleton. apply Hx. exists a, l, k, i. done.
      + intros _. assert (Ev : map (eval m e) (i_args i) = map (eval m e') (i_args (subst_inst s i))).
        { cbn. rewrite map_map. apply map_ext_in. intros a Ha%elem_of_list_In. apply (eval_subst (fun t => available c t l k)); [done|done|]. intros x ->. by eapply ssa_use. }
        unfold r, exec_inst. cbn [fst snd]. rewrite <- Ev, subst_effect. split; [|done]. intros x Hx. unfold assign. cbn [i_tgts subst_inst set_args]. case_bool_decide; auto.
  Qed.
  Lemma drop_cons i is : drop_copies (i :: is) = if is_var_assign i then drop_copies is else i :: drop_copies is.
  Proof. unfold drop_copies. rewrite filter_cons. destruct (is_var_assign i); [by rewrite decide_False|by rewrite decide_True]. Qed.
  Lemma copy_insts l p is : path c (l :: p) -> forall k, (forall j, is !! j = block_of (c_blocks c) l !! (k + j)%nat) -> (forall i, i ∈ is -> is_phi i = false) ->
    forall e e' w, copies_hold (fun t => available c t l k) e -> agree e e' ->
    let r := exec_insts m is (e, w) in let r' := exec_insts m (map (subst_inst s) (drop_copies is)) (e', w) in
    copies_hold (fun t => available c t l (k + length is)) r.1 /\ agree r.1 r'.1 /\ r.2 = r'.2.
  Proof.
    intros Hp. induction is as [|i is IH]; intros k Hk Np e e' w Hc He; cbn zeta.
    - cbn. rewrite Nat.add_0_r. auto.
    - assert (Hi : in_prog c l k i). { unfold in_prog. specialize (Hk 0%nat). rewrite Nat.add_0_r in Hk. by rewrite <- Hk. }
      destruct (copy_inst l k i e w p Hi ltac:(apply Np; constructor) Hp Hc) as [Hc' Hr]. destruct (Hr e' He) as [Hv Hn].
      replace (k + length (i :: is))%nat with (Datatypes.S k + length is)%nat by (cbn; lia).
      rewrite drop_cons. cbn [exec_insts]. destruct (exec_inst m i (e, w)) as [e1 w1]; cbn [fst snd] in *.
      assert (Hk' : forall j, is !! j = block_of (c_blocks c) l !! (Datatypes.S k + j)%nat). { intros j. specialize (Hk (Datatypes.S j)). rewrite Nat.add_succ_comm. exact Hk. }
      destruct (is_var_assign i).
      + destruct (Hv eq_refl) as [H1 ->]. apply IH; [done|intros; apply Np; by constructor|done|done].
      + destruct (Hn eq_refl) as [H1 H2]. cbn [map exec_insts]. destruct (exec_inst m (subst_inst s i) (e', w)) as [e1' w1']. cbn [fst snd] in *. subst w1'.
        apply IH; [done|intros; apply Np; by constructor|done|done].
  Qed.
  Lemma phi_entry_subst p ls as_ : phi_entry p (zip ls (map (subst_arg s) as_)) = subst_arg s <$> phi_entry p (zip ls as_).
  Proof. revert as_. induction ls as [|l ls IH]; intros [|a as_]; cbn; try done. destruct (l =? p); [done|apply IH]. Qed.
  (** The state on entry to a block. *)
  Definition entering (l : N) (prev : option N) (e : N -> V) : Prop :=
    match prev with
    | None => l = c_entry c
    | Some q => (exists p, path c (q :: p)) /\ edge (c_graph c) q l /\ copies_hold (fun t => available c t q (length (block_of (c_blocks c) q))) e
    end.
  Lemma entering_path l prev e : entering l prev e -> exists p, path c (l :: p).
  Proof. destruct prev as [q|]; cbn; [intros ([p Hp] & He & _); exists (q :: p); by constructor|intros ->; exists []; constructor]. Qed.
  Lemma entering_hold l prev e : entering l prev e -> copies_hold (fun t => available c t l 0) e.
  Proof.
    intros H t a Hta Ha. destruct prev as [q|]; cbn in H.
    - destruct H as (_ & He & Hc). apply Hc; [done|]. by eapply available_pred.
    - subst l. destruct (Ha [] (path_entry c)) as [(? & ? & ?%elem_of_nil & _)|(? & ? & _)]; [done|lia].
  Qed.
  Lemma copy_phis l prev e e' is : entering l prev e -> agree e e' -> (forall i, i ∈ is -> is_phi i = true) -> (forall i, i ∈ is -> exists k, in_prog c l k i) ->
    forall f f', agree f f' -> agree (exec_phis m prev e is f) (exec_phis m prev e' (map (subst_inst s) is) f').
  Proof.
    intros H He. induction is as [|i is IH]; intros Np Hin f f' Hf; [done|]. cbn [map exec_phis].
    apply IH; [intros; apply Np; by constructor|intros; apply Hin; by constructor|].
    assert (Ev : phi_value m prev e i = phi_value m prev e' (subst_inst s i)).
    { unfold phi_value. destruct prev as [q|]; [|done]. cbn [subst_inst set_args i_labels i_args]. rewrite phi_entry_subst. destruct (phi_entry q _) as [a|] eqn:E; [|done]. cbn.
      destruct H as (_ & Hq & Hc). apply (eval_subst _ _ _ _ He Hc). intros x ->. destruct (Hin i ltac:(constructor)) as [k Hk]. eapply ssa_phi; [done|done| |done|].
      - apply Np. constructor.
      - by apply phi_entry_elem. }
    rewrite <- Ev. intros x Hx. unfold assign. cbn [subst_inst set_args i_tgts]. case_bool_decide; auto.
  Qed.
  Lemma phis_hold l prev e0 : entering l prev e0 -> forall is k, (forall j, is !! j = phis_of (block_of (c_blocks c) l) !! (k + j)%nat) -> forall e,
    copies_hold (fun t => available c t l k) e -> copies_hold (fun t => available c t l (k + length is)) (exec_phis m prev e0 is e).
  Proof.
    intros He0. destruct (entering_path _ _ _ He0) as [p Hp]. induction is as [|i is IH]; intros k Hk e Hc; cbn [exec_phis].
    - cbn. by rewrite Nat.add_0_r.
    - replace (k + length (i :: is))%nat with (Datatypes.S k + length is)%nat by (cbn; lia). apply IH.
      + intros j. specialize (Hk (Datatypes.S j)). rewrite Nat.add_succ_comm. exact Hk.
      + assert (Hi : phis_of (block_of (c_blocks c) l) !! k = Some i) by (specialize (Hk 0%nat); rewrite Nat.add_0_r in Hk; by rewrite <- Hk).
        assert (Hphi : is_phi i = true) by (by eapply phis_of_phi, elem_of_list_lookup_2).
        assert (Hip : in_prog c l k i). { unfold in_prog. rewrite (phis_rest (block_of (c_blocks c) l)). by apply lookup_app_l_Some. }
        intros t a Hta Hav. assert (Hnt : t ∉ i_tgts i). { intros Hin. destruct (copy_unique _ _ _ _ _ Hta Hip Hin) as (Et & _). unfold is_phi in Hphi. rewrite Et in Hphi. done. }
        assert (Hav' : available c t l k). { apply available_back; [done|]. intros (i' & Hi' & ?). unfold in_prog in *. rewrite Hip in Hi'. injection Hi' as <-. done. }
        unfold assign at 1. rewrite bool_decide_eq_false_2 by done. rewrite (Hc t a Hta Hav'). destruct a as [| | |b]; cbn; try done. unfold assign. rewrite bool_decide_eq_false_2; [done|]. intros Hb.
        destruct Hta as (l2 & k2 & i2 & H2 & Et2 & Eg2 & Ea2). eapply (no_clobber c b t l k l2 k2 i2); try done.
        * by exists i.
        * unfold is_phi. by rewrite Et2.
        * rewrite Ea2. constructor.
        * rewrite Eg2. constructor.
  Qed.
  Let f (is : block) : block := map (subst_inst s) (drop_copies is).
  Lemma f_elem is j : j ∈ f is -> exists i, i ∈ is /\ j = subst_inst s i.
  Proof. unfold f. intros (i & -> & Hi)%elem_of_list_fmap. exists i. split; [|done]. unfold drop_copies in Hi. by apply elem_of_list_filter in Hi as [_ Hi]. Qed.
  Lemma f_app a b : f (a ++ b) = f a ++ f b.
  Proof. unfold f, drop_copies. by rewrite filter_app, map_app. Qed.
  Lemma f_phis is : (forall i, i ∈ is -> is_phi i = true) -> f is = map (subst_inst s) is.
  Proof.
    unfold f. intros H. f_equal. unfold drop_copies. induction is as [|i is IH]; [done|]. rewrite filter_cons, decide_True, IH; [done|intros; apply H; by constructor|].
    specialize (H i ltac:(constructor)). unfold is_phi, is_var_assign in *. apply bool_decide_eq_true in H. by rewrite H.
  Qed.
  Lemma f_split is : (forall i, i ∈ rest_of is -> is_phi i = false) -> phis_of (f is) = map (subst_inst s) (phis_of is) /\ rest_of (f is) = f (rest_of is).
  Proof.
    intros H. rewrite (phis_rest is) at 1 3. rewrite f_app. rewrite <- (f_phis (phis_of is)) by apply phis_of_phi. apply phis_of_app.
    - intros j (i & Hi & ->)%f_elem. by apply phis_of_phi in Hi.
    - intros j (i & Hi & ->)%f_elem. by apply H in Hi.
  Qed.
  Lemma last_f is : block_ok is -> (forall i, last is = Some i -> is_cond_goto i = true -> last (f is) = Some (subst_inst s i)) /\
    ((forall i, last is = Some i -> is_cond_goto i = false) -> forall j, last (f is) = Some j -> is_cond_goto j = false).
  Proof.
    intros (H1 & H2 & H3). split.
    - intros i Hl Hc. destruct is as [|i' is0 _] using rev_ind; [done|]. rewrite last_snoc in Hl. injection Hl as ->. rewrite f_app.
      assert (E : f [i] = [subst_inst s i]). { unfold f. rewrite drop_cons. unfold is_cond_goto, is_var_assign in *. apply bool_decide_eq_true in Hc. rewrite Hc. done. }
      by rewrite E, last_snoc.
    - intros Hl j Hj. destruct (is_cond_goto j) eqn:E; [|done]. exfalso.
      apply last_Some_elem_of in Hj. apply f_elem in Hj as (i & Hi & ->). apply elem_of_list_split in Hi as (a & b & ->).
      assert (Ei : is_cond_goto i = true) by done. specialize (H3 a i b eq_refl Ei). subst b. rewrite Hl in Ei; [done|]. by rewrite last_snoc.
  Qed.
  Lemma exec_cond_goto i st : is_cond_goto i = true -> inst_ok i -> forall x, (exec_inst m i st).1 x = st.1 x.
  Proof.
    intros Hc O x. unfold is_cond_goto in Hc. apply bool_decide_eq_true in Hc. unfold inst_ok in O. rewrite Hc in O. destruct O as (O & _). unfold exec_inst. cbn. rewrite O. unfold assign.
    rewrite bool_decide_eq_false_2; [done|]. by intros ?%elem_of_nil.
  Qed.

  Definition rel (st st' : @state V W) : Prop :=
    same_on (fun x => ~ copied x) st st' /\ match st with Running l prev e w => entering l prev e | Stopped _ _ => True end.
  Lemma copies_step c' : c' = Cfg (c_graph c) (f <$> c_blocks c) (c_entry c) -> forall st st', rel st st' -> rel (step m c st) (step m c' st').
  Proof.
    intros -> st st' [Hs Hin]. destruct st as [l p e w|e w], st' as [l' p' e' w'|e' w']; cbn in Hs; try done.
    destruct Hs as (<- & <- & <- & He). cbn [step c_blocks]. rewrite block_of_fmap by done. set (is := block_of (c_blocks c) l).
    destruct (proj1 Ok l) as (O1 & O2 & O3). fold is in O1, O2, O3. destruct (entering_path _ _ _ Hin) as [pa Hpa].
    assert (E : let r := exec_block m p is (e, w) in let r' := exec_block m p (f is) (e', w) in copies_hold (fun t => available c t l (length is)) r.1 /\ agree r.1 r'.1 /\ r.2 = r'.2).
    { unfold exec_block. destruct (f_split is O2) as [-> ->]. cbn [fst snd]. assert (L : length is = (length (phis_of is) + length (rest_of is))%nat) by (rewrite (phis_rest is) at 1; apply app_length).
      rewrite L. apply (copy_insts l pa); [done| |done| |].
      - intros j. fold is. rewrite (phis_rest is) at 3. rewrite lookup_app_r by lia. f_equal. lia.
      - apply (phis_hold l p e Hin (phis_of is) 0%nat); [done|]. by eapply entering_hold.
      - apply (copy_phis l); [done|done|by apply phis_of_phi| |done]. intros i Hi. assert (Hi' : i ∈ is) by (rewrite (phis_rest is); set_solver). by apply elem_of_list_lookup in Hi'. }
    cbn zeta in E. destruct E as (E1 & E2 & E3). set (r := exec_block m p is (e, w)) in *. set (r' := exec_block m p (f is) (e', w)) in *.
    assert (En : next m c l r.1 = next m (Cfg (c_graph c) (f <$> c_blocks c) (c_entry c)) l r'.1 /\ forall n, next m c l r.1 = Some n -> edge (c_graph c) l n).
    { assert (G : forall n, match children_sorted (c_graph c) l with [n] => Some n | _ => None end = Some n -> edge (c_graph c) l n).
      { intros n Hn. destruct (children_sorted (c_graph c) l) as [|n' []] eqn:Ech; try done. injection Hn as ->. unfold edge. apply elem_of_sorted. unfold children_sorted in Ech. rewrite Ech. constructor. }
      unfold next. cbn [c_blocks c_graph]. rewrite block_of_fmap by done. assert (Fl := proj2 Ok l). unfold flow_ok in Fl. fold is. fold is in Fl. destruct (last_f is (proj1 Ok l)) as [L1 L2].
      destruct (last is) as [i|] eqn:El.
      - destruct (is_cond_goto i) eqn:Ec.
        + rewrite (L1 i eq_refl Ec). assert (Oi : inst_ok i) by (apply O1; by apply last_Some_elem_of). change (is_cond_goto (subst_inst s i)) with (is_cond_goto i). rewrite Ec.
          cbn [subst_inst set_args i_args i_labels]. destruct (i_args i) as [|a [|a2 as2]] eqn:Ea; cbn [map]; try done. destruct (i_labels i) as [|tl [|fl [|]]] eqn:Elb; try done.
          rewrite <- (eval_subst (fun t => available c t l (length is)) r.1 r'.1 a); [|done|done|].
          * split; [done|]. intros n Hn. apply (Fl eq_refl). destruct (m_truthy _ _); injection Hn as <-; [constructor|constructor; constructor].
          * intros x ->. rewrite last_lookup in El. apply (available_mono c x l (Init.Nat.pred (length is))); [|lia]. eapply ssa_use; [done|exact El| |rewrite Ea; constructor].
            unfold is_phi, is_cond_goto in *. apply bool_decide_eq_true in Ec. by rewrite Ec.
        + destruct (last (f is)) as [j|] eqn:Ej; [|done]. rewrite (L2 ltac:(intros ? [= <-]; done) j eq_refl). done.
      - destruct (last (f is)) as [j|] eqn:Ej; [|done]. rewrite (L2 ltac:(done) j eq_refl). done. }
    destruct En as [En Ed]. rewrite <- En. destruct (next m c l r.1) as [n|]; split; cbn; try done.
    split; [by exists pa|]. split; [by apply Ed|done].
  Qed.
End copies.
Lemma copies_preserve {V W} (m : machine V W) c : prog_ok c -> strict_ssa c -> copies_flat c ->
  exists c', optpass_redundant_assigns c = Some c' /\ forall e e' w n, (forall x, ~ copied c x -> e x = e' x) ->
  same_on (fun x => ~ copied c x) (run m c n (start c e w)) (run m c' n (start c' e' w)).
Proof.
  intros Ok S F. unfold optpass_redundant_assigns. rewrite bool_decide_eq_true_2 by (by apply copies_nodup). eexists. split; [done|]. intros e e' w n He. match goal with |- context [start ?c'] => lazymatch c' with c => fail | _ => set (c1 := c') end end.
  assert (H : forall k st st', rel m c st st' -> rel m c (run m c k st) (run m c1 k st')).
  { induction k as [|k IH]; intros st st' Hr; [exact Hr|]. apply IH. by apply (copies_step m c Ok S F _ eq_refl). }
  apply H. by split.
Qed.
