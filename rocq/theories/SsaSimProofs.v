(** A program and its SSA form run in lockstep. *)
From stdpp Require Import base decidable sets numbers gmap list.
From Coq Require Import NArith ZArith Lia.
From Verif Require Import VmBase RustStr ILModel CfgSpec CfgProofs ILSpec PassModel PassProofs BranchProofs DomModel DomSpec DomProofs CfgPruneModel CfgPruneProofs SsaModel SsaFormProofs.

Local Open Scope N_scope.

Definition small (n0 : N) (i : inst) : Prop := (forall v, v ∈ i_tgts i -> v < n0) /\ forall v, AVar v ∈ i_args i -> v < n0.
Lemma few_tgts i : inst_ok i -> i_tgts i = [] \/ exists t, i_tgts i = [t].
Proof. unfold inst_ok. destruct (i_tgts i) as [|t []]; [by left|right; by exists t|]. destruct (i_t i); cbn; intros; repeat match goal with H : _ /\ _ |- _ => destruct H end; try done; lia. Qed.

Section sim.
  Context {V W : Type} (m : machine V W) (n0 : N).
  Definition agree (K : stacks) (e e' : N -> V) : Prop := forall v, v < n0 -> e v = e' (top K v).
  Definition low (K : stacks) (n : N) : Prop := (forall v, v < n0 -> top K v < n) /\ n0 <= n.
  Lemma eval_agree K e e' a : agree K e e' -> (forall v, a = AVar v -> v < n0) -> eval m e a = eval m e' (rename_arg K a).
  Proof. intros H Ha. destruct a; cbn; try done. apply H. by apply Ha. Qed.
  Lemma args_agree K e e' as_ : agree K e e' -> (forall v, AVar v ∈ as_ -> v < n0) -> map (eval m e) as_ = map (eval m e') (map (rename_arg K) as_).
  Proof.
    intros H Ha. induction as_ as [|a as_ IH]; [done|]. cbn. f_equal; [apply eval_agree; [done|]; intros v ->; apply Ha; constructor|]. apply IH. intros v Hv. apply Ha. by constructor.
  Qed.
  Lemma exec_inst_agree K n i i' K' n' e e' w : rename_inst K n i = (i', K', n') -> is_phi i = false -> inst_ok i -> small n0 i -> low K n -> agree K e e' ->
    low K' n' /\ agree K' (exec_inst m i (e, w)).1 (exec_inst m i' (e', w)).1 /\ (exec_inst m i (e, w)).2 = (exec_inst m i' (e', w)).2.
  Proof.
    unfold rename_inst. intros H Hp Ok [St Sa] [L1 L2] A. rewrite Hp in H. cbn [i_tgts set_args] in H. pose proof (args_agree K e e' (i_args i) A Sa) as Ea.
    destruct (few_tgts i Ok) as [Et|[t Et]]; rewrite Et in H; cbn in H; injection H as <- <- <-; unfold exec_inst; cbn [fst snd i_args i_tgts set_args set_tgts].
    - split; [done|]. rewrite <- Ea. assert (Ef : forall vals, effect m (set_tgts (set_args i (map (rename_arg K) (i_args i))) []) vals w = effect m i vals w) by done. rewrite Ef. split; [|done].
      intros v Hv. unfold assign. rewrite Et. rewrite !bool_decide_eq_false_2 by (by intros ?%elem_of_nil). by apply A.
    - rewrite <- Ea. assert (Ef : forall vals, effect m (set_tgts (set_args i (map (rename_arg K) (i_args i))) [n]) vals w = effect m i vals w) by done. rewrite Ef. split; [|split; [|done]].
      + split; [|lia]. intros v Hv. rewrite top_push. case_decide; [lia|]. specialize (L1 v Hv). lia.
      + intros v Hv. rewrite top_push. unfold assign. rewrite Et. case_decide as Hvt.
        * subst. rewrite !bool_decide_eq_true_2 by constructor. done.
        * rewrite !bool_decide_eq_false_2; [by apply A| |]; intros Hq%elem_of_list_singleton; [|done]. specialize (L1 v Hv). lia.
  Qed.
  Lemma exec_insts_agree is : forall K n is' K' n' e e' w, rename_block K n is = (is', K', n') -> (forall i, i ∈ is -> is_phi i = false /\ inst_ok i /\ small n0 i) -> low K n -> agree K e e' ->
    low K' n' /\ agree K' (exec_insts m is (e, w)).1 (exec_insts m is' (e', w)).1 /\ (exec_insts m is (e, w)).2 = (exec_insts m is' (e', w)).2.
  Proof.
    induction is as [|i is IH]; intros K n is' K' n' e e' w H Hi L A; cbn [rename_block] in H; [injection H as <- <- <-; done|].
    destruct (rename_inst K n i) as [[i1 K1] n1] eqn:E. destruct (rename_block K1 n1 is) as [[is2 K2] n2] eqn:E2. injection H as <- <- <-. cbn [exec_insts].
    destruct (Hi i) as (P & O & S); [constructor|]. destruct (exec_inst_agree _ _ _ _ _ _ e e' w E P O S L A) as (L1 & A1 & W1).
    destruct (exec_inst m i (e, w)) as [e1 w1], (exec_inst m i1 (e', w)) as [e1' w1']. cbn in *. subst w1'. eapply IH; [exact E2| |done|done]. intros j Hj. apply Hi. by constructor.
  Qed.
  Lemma exec_phis_agree q e (val : N -> V) e0 P : forall vars ts K n e1, NoDup vars -> ts = names n vars -> Forall3 (fun v t i => i_tgts i = [t] /\ phi_value m q e0 i = val v) vars ts P ->
    (forall v, v ∈ vars -> e v = val v) -> (forall v, v < n0 -> (v ∉ vars) -> e v = e1 (top K v)) -> low K n ->
    agree (pushes K n vars) e (exec_phis m q e0 P e1) /\ low (pushes K n vars) (n + N.of_nat (length vars)).
  Proof.
    induction P as [|i P IH]; intros vars ts K n e1 Nd Ets H Hv Ho L; subst ts; (destruct vars as [|v vars0]; cbn [names] in H; [|try by inversion H]); try by inversion H.
    - cbn. rewrite N.add_0_r. split; [|done]. intros v Hlt. apply Ho; [done|]. by intros ?%elem_of_nil.
    - inversion H as [|? ? ? ? ? ? [H1 H2] HP]; subst. apply NoDup_cons in Nd as [Hnv Nd]. cbn [pushes exec_phis length]. replace (n + N.of_nat (S (length vars0))) with (n + 1 + N.of_nat (length vars0)) by lia.
      eapply IH; [done|done|done|intros u Hu; apply Hv; by constructor| |].
      + intros u Hu Hnu. rewrite top_push, H1, H2. unfold assign. case_decide as Huv.
        * subst. rewrite bool_decide_eq_true_2 by constructor. apply Hv. constructor.
        * rewrite bool_decide_eq_false_2; [apply Ho; [done|]; by intros [?|?]%elem_of_cons|]. intros Hq%elem_of_list_singleton. destruct L as [L _]. specialize (L u Hu). lia.
      + destruct L as [L1 L2]. split; [|lia]. intros u Hu. rewrite top_push. case_decide; [lia|]. specialize (L1 u Hu). lia.
  Qed.
  Lemma nxt_agree is K n is' K' n' ch e e' : rename_block K n is = (is', K', n') -> (forall i, i ∈ is -> is_phi i = false /\ inst_ok i /\ small n0 i) -> agree K' e e' -> nxt m is ch e = nxt m is' ch e'.
  Proof.
    intros H Hi A. destruct is as [|i is _] using rev_ind; [cbn in H; by injection H as <- <- <-|]. rewrite rename_app in H. destruct (rename_block K n is) as [[is1 K1] n1]. cbn [rename_block] in H.
    destruct (rename_inst K1 n1 i) as [[i2 K2] n2] eqn:E. injection H as <- <- <-. unfold nxt. rewrite !last_snoc. destruct (Hi i) as (P & O & [_ S]); [apply elem_of_app; right; constructor|].
    destruct (rename_inst_phi _ _ _ _ _ _ E) as (_ & -> & ->). destruct (is_cond_goto i) eqn:Ec; [|done]. unfold rename_inst in E. rewrite P in E. cbn [i_tgts set_args] in E.
    assert (Et : i_tgts i = []). { unfold is_cond_goto in Ec. apply bool_decide_eq_true in Ec. unfold inst_ok in O. rewrite Ec in O. by destruct O. } rewrite Et in E. cbn in E. injection E as <- <- <-. cbn.
    destruct (i_args i) as [|a []] eqn:Ea; [done| |done]. cbn. rewrite (eval_agree K1 e e' a A); [done|]. intros v ->. apply S. constructor.
  Qed.

  (** The SSA form, block by block. *)
  Context (c c' : cfg) (vs : N -> list N) (G : gmap N (stacks * N * stacks)).
  Local Notation B l := (block_of (c_blocks c) l).
  Context (Hok : prog_ok c) (Hplain : forall l i, i ∈ B l -> is_phi i = false /\ small n0 i).
  Context (Hg : c_graph c' = c_graph c) (He : c_entry c' = c_entry c) (Hent : vs (c_entry c) = []).
  Context (Hnd : forall x, NoDup (vs x)) (Hvs : forall x v, v ∈ vs x -> v < n0).
  Definition ssa_block (x : N) : Prop := exists Kin nx Kout P R n2, G !! x = Some (Kin, nx, Kout) /\ block_of (c_blocks c') x = P ++ R /\
    Forall3 (fun v t i => is_phi i = true /\ i_tgts i = [t] /\ forall p, edge (c_graph c) p x -> exists Ki ni Kp, G !! p = Some (Ki, ni, Kp) /\ ent p i = Some (AVar (top Kp v))) (vs x) (names nx (vs x)) P /\
    rename_block (pushes Kin nx (vs x)) (nx + N.of_nat (length (vs x))) (B x) = (R, Kout, n2) /\ low Kin nx.
  Context (Hblocks : forall x p, path c (x :: p) -> ssa_block x).
  Context (Hstart : forall Kin nx Kout, G !! c_entry c = Some (Kin, nx, Kout) -> forall v, top Kin v = v).
  Context (Hflow : forall p x Kp np Kop Kx nx Kox, (exists q, path c (p :: q)) -> edge (c_graph c) p x -> G !! p = Some (Kp, np, Kop) -> G !! x = Some (Kx, nx, Kox) -> forall v, v < n0 -> (v ∉ vs x) -> top Kop v = top Kx v).

  Definition matched (s s' : @state V W) : Prop :=
    match s, s' with
    | Running l q e w, Running l' q' e' w' => l = l' /\ q = q' /\ w = w' /\ (exists p, path c (l :: p)) /\
        match q with
        | None => l = c_entry c /\ forall v, v < n0 -> e v = e' v
        | Some p => edge (c_graph c) p l /\ (exists r, path c (p :: r)) /\ exists Ki ni Ko, G !! p = Some (Ki, ni, Ko) /\ agree Ko e e'
        end
    | Stopped e w, Stopped e' w' => w = w'
    | _, _ => False
    end.
  Lemma matched_step s s' : matched s s' -> matched (step m c s) (step m c' s').
  Proof.
    destruct s as [l q e w|e w], s' as [l' q' e' w'|e' w']; cbn [matched]; try done. intros (<- & <- & <- & [r Hr] & Hq).
    destruct (Hblocks l r Hr) as (Kin & nx & Kout & P & R & n2 & Gl & EB & HP & ER & HL).
    assert (Hpl : forall i, i ∈ B l -> is_phi i = false /\ inst_ok i /\ small n0 i). { intros i Hi. destruct (Hplain l i Hi). split; [done|]. split; [by apply (proj1 Hok l)|done]. }
    assert (HPp : forall i, i ∈ P -> is_phi i = true). { intros i Hi. apply elem_of_list_lookup in Hi as [k Hk]. destruct (Forall3_lookup_r _ _ _ _ k i HP Hk) as (? & ? & _ & _ & ? & _). done. }
    assert (HRp : forall i, i ∈ R -> is_phi i = false). { eapply rename_block_plain; [exact ER|]. intros i Hi. by apply Hpl. }
    destruct (phis_of_app P R HPp HRp) as [Q1 Q2].
    assert (Hbp : phis_of (B l) = [] /\ rest_of (B l) = B l). { destruct (phis_of_app [] (B l)) as [X1 X2]; [by intros ? ?%elem_of_nil|intros i Hi; by apply Hpl|]. done. }
    destruct Hbp as [X1 X2].
    (* the phis *)
    assert (AP : agree (pushes Kin nx (vs l)) e (exec_phis m q e' P e') /\ low (pushes Kin nx (vs l)) (nx + N.of_nat (length (vs l)))).
    { destruct q as [p|].
      - destruct Hq as (Hpl' & Hpp & Ki & ni & Ko & Gp & A). apply (exec_phis_agree (Some p) e (fun v => e' (top Ko v)) e' P (vs l) (names nx (vs l))); [apply Hnd|done| | | |done].
        + eapply Forall3_impl; [exact HP|]. cbn. intros v t i (_ & T & Hp). split; [done|]. destruct (Hp p Hpl') as (Ki' & ni' & Kp' & Gp' & Hen). rewrite Gp in Gp'. injection Gp' as <- <- <-. unfold phi_value. fold (ent p i). by rewrite Hen.
        + intros v Hv. apply A. by apply (Hvs l).
        + intros v Hv Hnv. rewrite <- (Hflow p l _ _ _ _ _ _ Hpp Hpl' Gp Gl v Hv Hnv). by apply A.
      - destruct Hq as [-> Hq]. rewrite Hent in *. inversion HP; subst. cbn. rewrite N.add_0_r. split; [|done]. intros v Hv. rewrite (Hstart _ _ _ Gl). by apply Hq. }
    destruct AP as [AP LP]. destruct (exec_insts_agree _ _ _ _ _ _ _ _ w ER Hpl LP AP) as (LO & AO & WO).
    cbn [step]. unfold exec_block. rewrite EB, Q1, Q2, X1, X2. cbn [exec_phis fst snd]. rewrite !next_nxt, EB, Q2, X2, Hg.
    rewrite <- (nxt_agree _ _ _ _ _ _ (children_sorted (c_graph c) l) _ _ ER Hpl AO).
    destruct (nxt m (B l) _ _) as [n|] eqn:En; cbn [matched]; [|done].
    assert (Hln : edge (c_graph c) l n). { apply (next_edge m c l (exec_insts m (B l) (e, w)).1); [apply Hok|]. by rewrite next_nxt, X2. }
    split; [done|]. split; [done|]. split; [done|]. split; [exists (l :: r); by constructor|]. split; [done|]. split; [by exists r|]. exists Kin, nx, Kout. done.
  Qed.
  Lemma matched_run k : forall s s', matched s s' -> matched (run m c k s) (run m c' k s').
  Proof. induction k as [|k IH]; intros s s' H; [done|]. cbn. apply IH. by apply matched_step. Qed.
  Lemma ssa_same e w k : same_on (fun _ => False) (run m c k (start c e w)) (run m c' k (start c' e w)).
  Proof.
    assert (H : matched (run m c k (start c e w)) (run m c' k (start c' e w))).
    { apply matched_run. unfold start. rewrite He. cbn. repeat split; try done. exists []. constructor. }
    destruct (run m c k _) as [l q e1 w1|e1 w1], (run m c' k _) as [l' q' e1' w1'|e1' w1']; cbn in H |- *; try done. by destruct H as (-> & -> & -> & _).
  Qed.
End sim.
