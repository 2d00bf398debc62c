(** * The statement passes of the minifier, one layer at a time *)
From stdpp Require Import base decidable numbers gmap sets list.
From Verif Require Import StmtModel StmtSpec StmtProofs StmtMoreProofs MinModel MinSpec MinProofs.

(** ** Where a labelled `continue` goes *)
Section Jumps.
Context {M : machine}.
Notation SE := (stmt_ev M (ecma_if M)).

Definition jumps (loops own : list N) (s : stmt) : Prop :=
  forall E w l w', does (M := M) E own s w (CContinue (Some l) None) w' -> l ∈ loops.
Definition list_jumps (loops : list N) (ss : list stmt) : Prop :=
  forall E w l w', lists (M := M) E ss w (CContinue (Some l) None) w' -> l ∈ loops.

Lemma list_jumps_all loops ss : Forall (jumps loops []) ss -> list_jumps loops ss.
Proof.
  induction 1 as [|s ss Hs _ IH]; intros E w l w'.
  - rewrite lists_nil. by intros [[=] _].
  - rewrite lists_cons. intros [[H _]|(w1 & _ & H)]; [by eapply Hs|by eapply IH].
Qed.

Lemma block_jumps loops ss E w l w' :
  list_jumps loops ss -> blocks (M := M) E ss w (CContinue (Some l) None) w' -> l ∈ loops.
Proof. intros H. rewrite blocks_iff. intros (E' & w1 & w2 & _ & _ & Hl). by eapply H. Qed.

Lemma body_jumps loops ss E w l w' :
  list_jumps loops ss -> bodies (M := M) E ss w (CContinue (Some l) None) w' -> l ∈ loops.
Proof.
  intros H. rewrite bodies_iff. destruct (declares ss); [by apply block_jumps|]. intros Hl. by eapply H.
Qed.

Lemma while_jumps loops E own t s V w c w' :
  while_ev M (ecma_if M) E own t s V w c w' -> jumps (own ++ loops) [] s ->
  forall l v, c = CContinue (Some l) v -> l ∈ loops.
Proof.
  intros H Hj. induction H; intros l v0 Hc; try done; [|by eapply IHwhile_ev].
  assert (Hl : l ∈ ls ++ loops).
  { apply (Hj E w1 l w'). exists c. split; [done|]. destruct c as [[]| | |? []|? []]; cbn in *; by simplify_eq. }
  apply elem_of_app in Hl as [Hl|]; [|done].
  destruct c as [[]| | |? []|? []]; cbn in *; by simplify_eq.
Qed.

Lemma do_jumps loops E own t s V w c w' :
  do_ev M (ecma_if M) E own s t V w c w' -> jumps (own ++ loops) [] s ->
  forall l v, c = CContinue (Some l) v -> l ∈ loops.
Proof.
  intros H Hj. induction H; intros l v0 Hc; try done; [|by eapply IHdo_ev].
  assert (Hl : l ∈ ls ++ loops).
  { apply (Hj E w l w'). exists c. split; [done|]. destruct c as [[]| | |? []|? []]; cbn in *; by simplify_eq. }
  apply elem_of_app in Hl as [Hl|]; [|done].
  destruct c as [[]| | |? []|? []]; cbn in *; by simplify_eq.
Qed.

Lemma for_jumps loops E own t p body V w c w' :
  for_ev M (ecma_if M) E own t p body V w c w' -> list_jumps (own ++ loops) body ->
  forall l v, c = CContinue (Some l) v -> l ∈ loops.
Proof.
  intros H Hj. induction H; intros l v0 Hc; try done; [|by eapply IHfor_ev].
  assert (Hl : l ∈ ls ++ loops).
  { apply (body_jumps _ _ E w1 l w' Hj). exists c. split; [done|].
    destruct c as [[]| | |? []|? []]; cbn in *; by simplify_eq. }
  apply elem_of_app in Hl as [Hl|]; [|done].
  destruct c as [[]| | |? []|? []]; cbn in *; by simplify_eq.
Qed.

Lemma closed_jump it (c : completion (value M)) w r w' l v :
  closed M it c w r w' -> r = CContinue (Some l) v -> c = CContinue (Some l) v.
Proof. intros (x & _ & _ & ->) Hr. destruct c, x; by simplify_eq. Qed.

Lemma of_jumps loops E own b it body V w c w' :
  for_of_ev M (ecma_if M) E own b it body V w c w' -> list_jumps (own ++ loops) body ->
  forall l v, c = CContinue (Some l) v -> l ∈ loops.
Proof.
  intros H Hj. induction H; intros l v0 Hc; try done; [| |by eapply IHfor_of_ev].
  { by match goal with Hx : closed _ _ _ _ _ _ |- _ => pose proof (closed_jump _ _ _ _ _ _ _ Hx Hc) end. }
  match goal with Hx : closed _ _ _ _ _ _ |- _ => pose proof (closed_jump _ _ _ _ _ _ _ Hx Hc) as Hu end.
  assert (Hl : l ∈ ls ++ loops).
  { eapply (body_jumps _ _ _ _ l _ Hj). exists c. split; [done|].
    destruct c as [[]| | |? []|? []]; cbn in *; by simplify_eq. }
  apply elem_of_app in Hl as [Hl|]; [|done].
  destruct c as [[]| | |? []|? []]; cbn in *; by simplify_eq.
Qed.

Lemma clauses_jumps loops E bodies V w c w' :
  clauses_ev M (ecma_if M) E bodies V w c w' -> Forall (list_jumps loops) bodies ->
  forall l v, c = CContinue (Some l) v -> l ∈ loops.
Proof.
  intros H. induction H; intros Hb j v0 Hc; try done; inversion Hb; subst; [|by eapply IHclauses_ev].
  match goal with Hj : list_jumps _ _ |- _ => eapply (Hj _ _ j) end. exists c. split; [done|].
  destruct c as [[]| | |? []|? []]; cbn in *; by simplify_eq.
Qed.

Lemma search_bodies E v a w bs w' :
  search_ev M E v a w (inl (Some bs)) w' -> bs ⊆ map snd a.
Proof.
  intros H. remember (inl (Some bs)) as r eqn:Hr. revert bs Hr.
  induction H; intros bs Hr; simplify_eq; cbn.
  - done.
  - specialize (IHsearch_ev _ eq_refl). set_solver.
Qed.

Lemma forallb_Forall {A} (f : A -> bool) (l : list A) : forallb f l = true <-> Forall (fun x => f x = true) l.
Proof.
  rewrite Forall_forall, forallb_forall. by setoid_rewrite elem_of_list_In.
Qed.

Lemma both_Forall {A} (P : A -> Prop) (f : A -> bool) (Q : A -> Prop) (l : list A) :
  Forall P l -> forallb f l = true -> (forall x, P x -> f x = true -> Q x) -> Forall Q l.
Proof.
  rewrite forallb_Forall. intros H1 H2 H. induction H1; inversion H2; subst; constructor; auto.
Qed.

Lemma unbroken_jump (u : value M) c l v : unbroken u c = CContinue (Some l) v -> c = CContinue (Some l) v.
Proof. destruct c as [| | |[] []|]; cbn; intros; by simplify_eq. Qed.

Lemma stmt_jumps s : forall enc loops own,
  labels_valid enc loops own s = true -> jumps loops own s.
Proof.
  induction s as [ | | | | |body IH|t c a IHc IHa| | |body h f IH IHh IHf|t s IHs|s t IHs|i t p body IH|b e body IH
                 |e a d IHa IHd|l s IHs| |l] using stmt_induct; intros enc loops own Hv E w j w' (k & Hk & He);
    destruct k as [| | | |? v]; try done; cbn in He; simplify_eq; cbn in Hv;
    try (inversion Hk; subst; done).
  - (* var *) inversion Hk; subst. by destruct t.
  - (* block *) apply (block_jumps loops body E w j w'); [|apply does_block with own; by eexists].
    apply list_jumps_all. eapply both_Forall; [exact IH|exact Hv|]. cbn. eauto.
  - (* if *) apply andb_true_iff in Hv as [Hc Ha].
    assert (Hd : does E own (SIf t c a) w (CContinue (Some j) None) w') by (by eexists).
    apply does_if in Hd as ([x|x|] & w1 & _ & Hd); [|by destruct Hd|done].
    destruct (to_boolean M x w1); [by eapply IHc|].
    destruct a; [by eapply IHa|by destruct Hd].
  - (* try *) apply andb_true_iff in Hv as [Hv Hf]. apply andb_true_iff in Hv as [Hb Hh].
    assert (Jb : list_jumps loops body) by (apply list_jumps_all; eapply both_Forall; [exact IH|exact Hb|]; cbn; eauto).
    inversion Hk; subst.
    assert (exists v', r = CContinue (Some j) v') as [v' ->] by (destruct r as [[]| | |? []|? []]; cbn in *; simplify_eq; eauto).
    assert (Hfin : (exists v, c = CContinue (Some j) v) \/ j ∈ loops).
    { match goal with Hx : finished _ _ _ _ _ _ _ _ |- _ => inversion Hx; subst end; [left; eauto..|].
      right. eapply (block_jumps loops body0); [|by eexists].
      apply list_jumps_all. eapply both_Forall; [by apply IHf|exact Hf|]. cbn; eauto. }
    destruct Hfin as [[v1 ->]|]; [|done].
    match goal with Hx : handled _ _ _ _ _ _ _ _ |- _ => inversion Hx; subst end.
    + eapply (block_jumps loops body); [done|by eexists].
    + eapply (block_jumps loops body); [done|by eexists].
    + assert (Jh : list_jumps loops body0).
      { apply list_jumps_all. eapply both_Forall; [by eapply IHh|exact Hh|]. cbn; eauto. }
      match goal with Hx : catch_ev _ _ _ _ _ _ _ _ _ |- _ => inversion Hx; subst end.
      * eapply Jh. by eexists.
      * eapply Jh. by eexists.
      * eapply (body_jumps loops body0); [done|by eexists].
  - (* while *) inversion Hk; subst. eapply while_jumps; [done| |by eapply unbroken_jump].
    by eapply IHs.
  - (* do *) inversion Hk; subst. eapply do_jumps; [done| |by eapply unbroken_jump].
    by eapply IHs.
  - (* for *) inversion Hk; subst. eapply for_jumps; [done| |by eapply unbroken_jump].
    apply list_jumps_all. eapply both_Forall; [exact IH|exact Hv|]. cbn; eauto.
  - (* for of *) inversion Hk; subst. eapply of_jumps; [done| |by eapply unbroken_jump].
    apply list_jumps_all. eapply both_Forall; [exact IH|exact Hv|]. cbn; eauto.
  - (* switch *) apply andb_true_iff in Hv as [Ha Hd].
    assert (Hcases : forall a : list (expr * list stmt), Forall (fun b => Forall (fun s => forall enc loops own,
        labels_valid enc loops own s = true -> jumps loops own s) (snd b)) a ->
        forallb (fun b => forallb (labels_valid enc loops []) (snd b)) a = true ->
        Forall (list_jumps loops) (map snd a)).
    { clear. intros a IH Hv. apply Forall_map. eapply both_Forall; [exact IH|exact Hv|]. cbn. intros [e b] Hb Hf.
      apply list_jumps_all. eapply both_Forall; [exact Hb|exact Hf|]. cbn; eauto. }
    pose proof (Hcases _ IHa Ha) as Ja. inversion Hk; subst.
    match goal with Hx : unbroken _ _ = _ |- _ => apply unbroken_jump in Hx; subst end.
    assert (Jd : forall s b, d = Some (s, b) -> list_jumps loops s /\ Forall (list_jumps loops) (map snd b)).
    { intros s b ->. apply andb_true_iff in Hd as [Hs Hb]. destruct (IHd _ _ eq_refl) as [Is Ib].
      split; [|by apply Hcases]. apply list_jumps_all. eapply both_Forall; [exact Is|exact Hs|]. cbn; eauto. }
    match goal with Hx : case_block_ev _ _ _ _ _ _ _ _ _ |- _ => inversion Hx; subst end.
    + eapply clauses_jumps; [done| |done]. apply Forall_app. split.
      * match goal with Hx : search_ev _ _ _ _ _ _ _ |- _ => apply search_bodies in Hx as Hsub end.
        rewrite Forall_forall in Ja |- *. auto.
      * destruct d as [[s b]|]; [|done]. destruct (Jd _ _ eq_refl). by constructor.
    + destruct (Jd _ _ eq_refl). eapply clauses_jumps; [done| |done].
      match goal with Hx : search_ev _ _ _ _ _ (inl (Some _)) _ |- _ => apply search_bodies in Hx as Hsub end.
      rewrite Forall_forall in *. auto.
    + destruct (Jd _ _ eq_refl). eapply clauses_jumps; [done| |done]. by constructor.
  - (* label *) apply andb_true_iff in Hv as [_ Hv]. inversion Hk; subst.
    eapply IHs; [exact Hv|]. exists c. split; [done|].
    destruct c as [[]| | |[]|]; cbn in *; try done; [|by simplify_eq]. by destruct (decide _).
  - (* continue *) inversion Hk; subst. by apply bool_decide_eq_true in Hv.
Qed.
End Jumps.
