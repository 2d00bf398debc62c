(** Prototype chains over histories; lookups along them. *)
From stdpp Require Import base decidable list numbers sets.
From Coq Require Import NArith ZArith Lia.
From RecordUpdate Require Import RecordUpdate.
From Verif Require Import VmBase HeapModel HeapObjModel HeapSpec HeapGcProofs HeapInvProofs HeapObjProofs
  ObjectOpsModel ObjectOpsProofs HeapTidyProofs HeapSafeProofs HeapHistory HeapHistoryProofs HeapFrameProofs HeapApiProofs
  ObjSpec ObjViewProofs ObjHistoryProofs ObjApiProofs ProtoSpec ProtoProofs.

Open Scope N_scope.

(** ** Chains *)
Lemma link_live h a b : proto_link h a b <-> exists x, live_as h a x /\ proto_of x = Some b.
Proof.
  unfold proto_link, proto_of. split.
  - intros (v & (bs & Hb & ->)%abs_object_Some & Hp). apply get_object_base_Ok in Hb as (x & Hx & Hb). exists x. rewrite Hb. done.
  - intros (x & Hx & Hp). destruct (base_of x) as [bs|] eqn:Hb; [|done]. exists (abs_base h bs). split; [|done].
    apply abs_object_Some. exists bs. split; [|done]. apply get_object_base_Ok. eauto.
Qed.
Lemma link_fun h a b c : proto_link h a b -> proto_link h a c -> b = c.
Proof. intros (v & E1 & E2) (w & F1 & F2). congruence. Qed.
Lemma link_dec h a : (exists b, proto_link h a b) \/ forall b, ~ proto_link h a b.
Proof.
  destruct (abs_object h a) as [v|] eqn:E; [|right; intros b (w & ? & _); congruence].
  destruct (ao_prototype v) as [b|] eqn:Ep; [left; exists b, v; done|right]. intros b (w & ? & ?). congruence.
Qed.
Lemma chain_fun h a l l' : chain h a l -> chain h a l' -> l = l'.
Proof.
  intros C. revert l'. induction C as [a Hn|a b l Hl _ IH]; intros l' C'; inversion C'; subst; auto; try (by exfalso; eapply Hn; eauto).
  - exfalso. by apply (H b).
  - f_equal. apply IH. by rewrite (link_fun _ _ _ _ Hl H).
Qed.
Lemma chain_in h a l b : chain h a l -> b ∈ l -> exists l1 l2, l = l1 ++ l2 /\ chain h b l2.
Proof.
  induction 1 as [a Hn|a c l Hl C IH]; intros Hb; apply elem_of_cons in Hb as [->|Hb].
  - exists [], [a]. split; [done|by constructor].
  - by apply elem_of_nil in Hb.
  - exists [], (a :: l). split; [done|]. by econstructor.
  - destruct (IH Hb) as (l1 & l2 & -> & C2). exists (a :: l1), l2. done.
Qed.
Lemma chain_NoDup h a l : chain h a l -> NoDup l.
Proof.
  intros C. induction C as [a Hn|a b l Hl C IH]; constructor; auto; [apply not_elem_of_nil|constructor|].
  intros Hin. destruct (chain_in _ _ _ _ C Hin) as (l1 & l2 & -> & C2).
  assert (E : l2 = a :: l1 ++ l2) by (apply (chain_fun h a); [done|by econstructor]).
  apply (f_equal length) in E. cbn in E. rewrite app_length in E. lia.
Qed.
Lemma chain_head h a l : chain h a l -> exists t, l = a :: t.
Proof. intros C; inversion C; eauto. Qed.
Lemma acyclic_intro h : (forall a, live h a -> exists l, chain h a l) -> acyclic h.
Proof.
  intros Hc a. destruct (link_dec h a) as [[b Hb]|Hn].
  - destruct (Hc a) as [l C]; [apply link_live in Hb as (x & Hx & _); by exists x|]. exists l. split; [done|by eapply chain_NoDup].
  - exists [a]. split; [by constructor|]. constructor; [apply not_elem_of_nil|constructor].
Qed.
Lemma link_edge h a b : no_dangling h -> proto_link h a b -> live h b.
Proof.
  intros [_ N] (x & Hx & Hp)%link_live. apply (N a x b Hx). unfold proto_of in Hp. destruct (base_of x) as [bs|] eqn:Hb; [|done].
  eapply object_has_base; eauto. by apply bh_proto.
Qed.
Lemma slots_link h h' a b : h_slots h' = h_slots h -> proto_link h' a b <-> proto_link h a b.
Proof. intros E. unfold proto_link. by rewrite (slots_view _ _ _ E). Qed.
Lemma slots_chain h h' a l : h_slots h' = h_slots h -> chain h a l -> chain h' a l.
Proof.
  intros E. induction 1 as [a Hn|a b l Hl C IH]; [constructor; intros b; rewrite slots_link by done; apply Hn|].
  apply (ch_next _ _ b); [by apply (proj2 (slots_link h h' a b E))|done].
Qed.
Lemma slots_acyclic h h' : h_slots h' = h_slots h -> acyclic h -> acyclic h'.
Proof. intros E A a. destruct (A a) as (l & C & N). exists l. split; [|done]. by apply (slots_chain h). Qed.

(** ** One call *)
Section step.
Context (P : heap_id -> Prop) (h h' : heap).
Context (H : heap_ok h) (N : no_dangling h) (N' : no_dangling h') (V : evolves h h') (Hr : h_gc_runs h' < h_gc_runs h + two32).
Context (Hp : protos P h h') (HP : forall p, P p -> live h p).
Lemma kept_proto a x' : live h a -> live_as h' a x' -> exists x, live_as h a x /\ proto_of x' = proto_of x.
Proof.
  intros La (hs & s' & A1 & A2 & A3 & A4). destruct (po_slots _ _ _ Hp _ _ _ A1 A3) as [(s & x & B1 & B2 & B3 & B4)|[Hn _]].
  - exists x. split; [|done]. exists (sl_host s), s. split; [done|]. split; [congruence|done].
  - exfalso. assert (L' : live h' a) by (by exists x', hs, s'). refine (newer_not_live h h' a H V _ L' Hr La). rewrite A2 in Hn. by destruct a.
Qed.
Lemma kept_link a b : live h a -> proto_link h' a b -> proto_link h a b.
Proof. intros La (x' & Hx' & Hb)%link_live. destruct (kept_proto a x' La Hx') as (x & Hx & E). apply link_live. exists x. split; [done|congruence]. Qed.
Lemma kept_link' a b : live h' a -> proto_link h a b -> proto_link h' a b.
Proof.
  intros [x' Hx'] (x0 & Hx0 & Hb)%link_live. destruct (kept_proto a x') as (x & Hx & E); [by exists x0|done|].
  apply link_live. exists x'. split; [done|]. rewrite E, (live_as_fun _ _ _ _ Hx Hx0). done.
Qed.
Lemma kept_chain a l : chain h a l -> live h a -> live h' a -> chain h' a l.
Proof.
  induction 1 as [a Hn|a b l Hl C IH]; intros La La'.
  - constructor. intros b Hb. by apply (Hn b), kept_link.
  - assert (Hl' := kept_link' a b La' Hl). econstructor; [exact Hl'|]. apply IH; eapply link_edge; eauto.
Qed.
Lemma step_acyclic : acyclic h -> acyclic h'.
Proof.
  intros A. apply acyclic_intro. intros a [x' Hx'].
  assert (La' : live h' a) by by exists x'.
  destruct (Hx') as (hs & s' & A1 & A2 & A3 & A4). destruct (po_slots _ _ _ Hp _ _ _ A1 A3) as [(s & x & B1 & B2 & B3 & B4)|[Hn Hf]].
  - destruct (A a) as (l & C & _). exists l. apply kept_chain; auto. exists x, (sl_host s), s. split; [done|]. split; [congruence|done].
  - destruct (proto_of x') as [b|] eqn:E.
    + assert (Hl : proto_link h' a b) by (apply link_live; eauto). destruct (A b) as (l & C & _). exists (a :: l). econstructor; [exact Hl|].
      apply kept_chain; auto. by eapply link_edge.
    + exists [a]. constructor. intros b (y & Hy & Ey)%link_live. rewrite (live_as_fun _ _ _ _ Hy Hx') in Ey. congruence.
Qed.
End step.

(** ** Setting a prototype *)
Lemma object_prototype_Ok h a p : object_prototype h a = Ok p ->
  exists v, abs_object h a = Some v /\ ao_prototype v = p.
Proof.
  unfold object_prototype. destruct (get_object_base h a) as [b|e|] eqn:E; [|done..]. intros [= <-]. exists (abs_base h b). split; [|done].
  apply abs_object_Some. eauto.
Qed.
Lemma object_prototype_view h a v : abs_object h a = Some v -> object_prototype h a = Ok (ao_prototype v).
Proof. intros (b & Hb & ->)%abs_object_Some. unfold object_prototype. by rewrite Hb. Qed.
Lemma proto_walk_chain fuel h o vis p : proto_walk fuel h o vis (Some p) = Ok tt -> exists l, chain h p l /\ o ∉ l.
Proof.
  revert vis p. induction fuel as [|fuel IH]; intros vis p E; [done|]. cbn [proto_walk] in E.
  case_bool_decide; [done|]. case_bool_decide as Hpo; [done|]. destruct (object_prototype h p) as [q|e|] eqn:Eq; [|done..]. cbn [rbind] in E.
  apply object_prototype_Ok in Eq as (v & Ev & Ep). destruct q as [q|].
  - destruct (IH _ _ E) as (l & C & Hn). exists (p :: l). split; [econstructor; [|exact C]; by exists v|]. apply not_elem_of_cons. split; congruence.
  - exists [p]. split; [|apply not_elem_of_cons; split; [congruence|apply not_elem_of_nil]]. constructor. intros b (w & Ew & Eb). congruence.
Qed.
Lemma proto_walk_spec fuel h o l p vis : chain h p l -> objects h l -> (forall a, a ∈ l -> a ∉ vis) ->
  proto_walk fuel h o vis (Some p) =
    if decide (o ∈ take fuel l) then Err EPrototypeCycle else
    if decide (length l <= fuel)%nat then Ok tt else Err EPrototypeChainTooDeep.
Proof.
  intros C Ho Hv. assert (ND := chain_NoDup _ _ _ C). revert fuel vis Ho Hv ND. induction C as [a Hn|a b l Hl C IH]; intros fuel vis Ho Hv ND.
  all: destruct fuel as [|fuel]; [rewrite take_0, decide_False by apply not_elem_of_nil; rewrite decide_False by (cbn; lia); done|].
  all: cbn [proto_walk take]; rewrite bool_decide_false by (apply Hv; left).
  all: destruct (Ho a) as [v Ev]; [left|]; rewrite (object_prototype_view _ _ _ Ev); cbn [rbind].
  all: case_bool_decide as E; [subst; by rewrite decide_True by left|].
  - rewrite decide_False; [|rewrite take_nil; intros Hi; apply elem_of_list_singleton in Hi; congruence].
    rewrite decide_True by (cbn; lia). destruct (ao_prototype v) as [b|] eqn:Ep; [exfalso; apply (Hn b); by exists v|]. by destruct fuel.
  - destruct Hl as (v' & Ev' & Ep). assert (v' = v) by congruence. subst v'. rewrite Ep. apply NoDup_cons in ND as [Ha ND].
    rewrite (IH fuel (a :: vis)); [|intros c Hc; apply Ho; by right| |done].
    + assert (D1 : o ∈ take fuel l <-> o ∈ a :: take fuel l) by (rewrite elem_of_cons; split; [by right|intros [?|?]; congruence]).
      destruct (decide (o ∈ take fuel l)), (decide (o ∈ a :: take fuel l)); try tauto.
      destruct (decide (length l <= fuel)%nat), (decide (length (a :: l) <= S fuel)%nat); auto; cbn in *; lia.
    + intros c Hc. apply not_elem_of_cons. split; [by intros ->|]. apply Hv. by right.
Qed.
Lemma set_prototype_cases o p h : heap_ok h ->
  (exists e, object_set_prototype o p h = (h, Err e)) \/
  (exists x b h', live_as h o x /\ base_of x = Some b /\ (forall q, p = Some q -> proto_walk max_prototype_chain h o [] (Some q) = Ok tt) /\
     object_set_prototype o p h = (h', Ok tt) /\ ustep o x (set_base x (b <| ob_prototype := p |>)) h h').
Proof.
  intros H. unfold object_set_prototype, mbind, mread. destruct (get_object_base h o) as [b|e|] eqn:Eb;
    [|left; eauto|by pose proof (np_get_object_base h o) as Q; rewrite Eb in Q].
  case_bool_decide; [left; by eexists|].
  assert (np (proto_walk max_prototype_chain h o [] p)) as Np.
  { destruct (good_object_set_prototype o p) with (h := h) (h' := fst (object_set_prototype o p h)) (r := snd (object_set_prototype o p h)) as (_ & Q & _); [done|by destruct (object_set_prototype o p h)|].
    revert Q. unfold object_set_prototype, mbind, mread. rewrite Eb. rewrite bool_decide_false by done. by destruct (proto_walk _ _ _ _ _). }
  destruct (proto_walk max_prototype_chain h o [] p) as [[]|e|] eqn:Ew; [|left; eauto|done].
  unfold update_base.
  match goal with |- context [update_object o ?f h] => destruct (update_object_spec o f h H) as [(e & E1 & _)|(x & x' & h' & Hl & Hf & E1 & U)] end.
  - intros x x'. destruct (base_of x) as [b0|] eqn:Hx; [|done]. cbn. intros [= <-]. apply (set_base_like _ _ b0); [done|]. split; [|done]. unfold base_kind_eq. cbn. by destruct (ob_kind b0).
  - intros x. destruct (base_of x); done.
  - left. exists e. done.
  - right. destruct (base_of x) as [b0|] eqn:Hx; [|done]. cbn in Hf. injection Hf as <-. exists x, b0, h'.
    split; [done|]. split; [done|]. split; [|done]. intros q ->. done.
Qed.
Lemma ustep_others o x x' h h' a : ustep o x x' h h' -> a <> o -> forall y, live_as h' a y <-> live_as h a y.
Proof.
  intros U Hne y. unfold live_as, live_with. destruct (decide (hid_index a = hid_index o)) as [Hi|Hi].
  - destruct (us_live _ _ _ _ _ U) as (hs & s & A1 & A2 & _). destruct (us_live' _ _ _ _ _ U) as (hs' & s' & B1 & B2 & _). rewrite Hi.
    split; intros (hs0 & s0 & C1 & C2 & _); exfalso; apply Hne; destruct a, o; cbn in *; congruence.
  - by rewrite (us_other _ _ _ _ _ U) by done.
Qed.
Lemma ustep_links o x x' h h' : ustep o x x' h h' -> forall a b, proto_link h' a b <-> if decide (a = o) then proto_of x' = Some b else proto_link h a b.
Proof.
  intros U a b. rewrite link_live. destruct (decide (a = o)) as [->|Hne].
  - split.
    + intros (y & Hy & E). by rewrite (live_as_fun _ _ _ _ (us_live' _ _ _ _ _ U) Hy).
    + intros E. exists x'. split; [apply U|done].
  - rewrite (link_live h a b). split; intros (y & Hy & E); exists y; (split; [by apply (ustep_others o x x' h h' a U Hne y)|done]).
Qed.
Lemma set_prototype_acyclic o p h h' r : heap_ok h -> acyclic h -> object_set_prototype o p h = (h', r) -> acyclic h'.
Proof.
  intros H A E. destruct (set_prototype_cases o p h H) as [(e & E1)|(x & b & h1 & Hx & Hb & Hw & E1 & U)]; rewrite E1 in E; simplify_eq; [done|].
  pose proof (ustep_links _ _ _ _ _ U) as L.
  assert (Ep : proto_of (set_base x (b <| ob_prototype := p |>)) = p) by (unfold proto_of; destruct x; cbn in *; simplify_eq; done).
  rewrite Ep in L. clear Ep.
  assert (K : forall a l, chain h a l -> o ∉ l -> chain h' a l).
  { induction 1 as [a Hn|a c l Hl C IH]; intros Ho; apply not_elem_of_cons in Ho as [Hao Ho].
    - constructor. intros c. rewrite L, decide_False by congruence. apply Hn.
    - econstructor; [|by apply IH]. apply L. by rewrite decide_False by congruence. }
  assert (Co : exists l, chain h' o l).
  { destruct p as [q|].
    - destruct (proto_walk_chain _ _ _ _ _ (Hw q eq_refl)) as (l & C & Hn). exists (o :: l). econstructor; [|by apply K].
      apply L. by rewrite decide_True.
    - exists [o]. constructor. intros c. by rewrite L, decide_True by done. }
  destruct Co as [lo Co]. apply acyclic_intro. intros a _. destruct (A a) as (l & C & _). clear Hw.
  induction C as [a Hn|a c l Hl C IH].
  - destruct (decide (a = o)) as [->|Hne]; [by exists lo|]. exists [a]. constructor. intros c. rewrite L, decide_False by done. apply Hn.
  - destruct (decide (a = o)) as [->|Hne]; [by exists lo|]. destruct IH as [l' C']. exists (a :: l'). econstructor; [|exact C'].
    apply L. by rewrite decide_False.
Qed.

(** ** Histories *)
Definition acyclic_step (c : op) : Prop := forall h, heap_ok h -> no_dangling h -> disciplined c h ->
  h_gc_runs (fst (exec c h)) < h_gc_runs h + two32 -> acyclic h -> acyclic (fst (exec c h)).
Lemma run_acyclic cs : Forall acyclic_step cs -> forall h, heap_ok h -> no_dangling h -> disciplined_history cs h ->
  h_gc_runs (run cs h) < h_gc_runs h + two32 -> acyclic h -> acyclic (run cs h).
Proof.
  induction 1 as [|c cs Hc _ IH]; intros h H N D Hr A; [done|]. cbn [run disciplined_history] in *. destruct D as [D1 D2].
  destruct (exec_evolves c h H) as [H1 V1]. destruct (good_run cs _ H1) as [H2 V2]. destruct (safe_exec c h H N D1) as [N1 _].
  pose proof (ev_runs _ _ V1). pose proof (ev_runs _ _ V2). apply IH; auto; [lia|]. apply Hc; auto. lia.
Qed.
Lemma disciplined_live c h : (forall body, c <> OpScope body) -> disciplined c h -> no_dangling h -> forall x, x ∈ op_handles c -> live h x.
Proof.
  intros Hns D N. destruct c; try exact D; try (by destruct (Hns body)). destruct D as [D1 D2]. intros x [->|Hx]%elem_of_cons; [done|].
  destruct (D2 x Hx) as [(v & Hv & Hh)|Hh]; apply N; [by eapply rt_stack|by apply rt_env_stack].
Qed.
Lemma all_acyclic c : acyclic_step c.
Proof.
  induction c as [body IH|c Hns] using op_ind'; intros h H N D Hr A.
  - rewrite disciplined_scope in D. rewrite exec_scope_state in *. eapply slots_acyclic; [|apply (run_acyclic body IH h H N D Hr A)]. done.
  - assert (Dc : (exists a p, c = OpSetPrototype a p) \/ ~ exists a p, c = OpSetPrototype a p)
      by (destruct c; try (right; intros (? & ? & ?); done); left; eauto).
    destruct Dc as [Hs|Hs].
    { destruct c; try (exfalso; destruct Hs as (? & ? & ?); done). cbn [exec]. 
      apply (set_prototype_acyclic o p h _ (snd (object_set_prototype o p h)) H A). apply surjective_pairing. }
    destruct (exec_evolves c h H) as [H1 V1]. destruct (safe_exec c h H N D) as [N1 _].
    assert (Q : pt (fun x => x ∈ op_handles c) (exec c)) by (apply pt_exec; [done|intros a p ->; apply Hs; eauto]).
    destruct (exec c h) as [h1 r] eqn:E. destruct (Q _ _ _ H E) as [_ K]. cbn [fst] in *.
    eapply (step_acyclic _ h h1); eauto. intros x Hx. by eapply disciplined_live.
Qed.

Lemma heap_new_acyclic ly mb gt : acyclic (heap_new ly mb gt).
Proof. apply acyclic_intro. intros a (o & hs & s & A & _). cbn in A. by rewrite lookup_nil in A. Qed.
Lemma history_acyclic cs h : heap_ok h -> no_dangling h -> disciplined_history cs h ->
  h_gc_runs (run cs h) < h_gc_runs h + two32 -> acyclic h -> acyclic (run cs h).
Proof. apply run_acyclic. apply Forall_forall. intros c _. apply all_acyclic. Qed.
Lemma state_acyclic h : disciplined_state h -> h_gc_runs h < two32 -> acyclic h.
Proof.
  intros (ly & mb & gt & os & Hl & D & ->) Hr. apply history_acyclic; auto; [by apply heap_new_ok|apply heap_new_safe|apply heap_new_acyclic].
Qed.

(** ** Setting a prototype, exactly *)
Lemma ustep_other_view o x x' b b' h h' a : ustep o x x' h h' -> base_of x = Some b -> base_of x' = Some b' -> a <> o -> abs_object h' a = abs_object h a.
Proof.
  intros U Hb Hb' Hne.
  assert (E : forall c, get_object_base h' a = Ok c <-> get_object_base h a = Ok c).
  { intros c. rewrite !get_object_base_Ok. split; intros (y & Hy & E); exists y; (split; [|done]); by apply (ustep_others o x x' h h' a U Hne y). }
  assert (X : forall c, abs_base h' c = abs_base h c) by (intros c; apply abs_base_ext; intros s _; eapply ustep_string; eauto).
  unfold abs_object. destruct (get_object_base h' a) as [c|e|] eqn:E1, (get_object_base h a) as [c'|e'|] eqn:E2; auto.
  all: try (specialize (proj1 (E _) eq_refl); intros Q; try discriminate Q; injection Q as ->; by rewrite X).
  all: specialize (proj2 (E _) eq_refl); intros Q; discriminate Q.
Qed.
Lemma set_prototype_exact h o v p l : heap_ok h -> abs_object h o = Some v ->
  match p with Some q => chain h q l | None => l = [] end -> objects h l ->
  if decide (o ∈ take max_prototype_chain l) then object_set_prototype o p h = (h, Err EPrototypeCycle) else
  if decide (length l <= max_prototype_chain)%nat then
    exists h', object_set_prototype o p h = (h', Ok tt) /\
      abs_object h' o = Some (AObject p (ao_extensible v) (ao_array v) (ao_props v)) /\
      forall a, a <> o -> abs_object h' a = abs_object h a
  else object_set_prototype o p h = (h, Err EPrototypeChainTooDeep).
Proof.
  intros H (b & Hb & ->)%abs_object_Some Hc Ho.
  assert (W : bool_decide (p = Some o) = false -> proto_walk max_prototype_chain h o [] p =
    if decide (o ∈ take max_prototype_chain l) then Err EPrototypeCycle else
    if decide (length l <= max_prototype_chain)%nat then Ok tt else Err EPrototypeChainTooDeep).
  { intros _. destruct p as [q|].
    - apply proto_walk_spec; auto. intros a _. apply not_elem_of_nil.
    - subst l. rewrite take_nil, decide_False by apply not_elem_of_nil. rewrite decide_True by (cbn; lia). by destruct max_prototype_chain. }
  assert (U : object_set_prototype o p h = if bool_decide (p = Some o) then (h, Err EPrototypeCycle) else
     match proto_walk max_prototype_chain h o [] p with
     | Ok _ => update_base o (fun b => Ok (b <| ob_prototype := p |>)) h
     | Err e => (h, Err e) | Panic => (h, Panic) end).
  { unfold object_set_prototype, mbind, mread. rewrite Hb. by case_bool_decide. }
  destruct (bool_decide (p = Some o)) eqn:Ep.
  { apply bool_decide_eq_true_1 in Ep as ->. destruct (chain_head _ _ _ Hc) as [t ->].
    rewrite decide_True; [done|]. replace max_prototype_chain with (S (pred max_prototype_chain)); [left|].
    apply Nat.succ_pred. intros E. apply (f_equal N.of_nat) in E. unfold max_prototype_chain in E. rewrite N2Nat.id in E. done. }
  rewrite U, (W eq_refl). destruct (decide (o ∈ take _ l)) as [Hi|Hi]; [done|]. destruct (decide _) as [Hl|Hl]; [|done].
  destruct (set_prototype_cases o p h H) as [(e & E1)|(x & b0 & h' & Hx & Hb0 & _ & E1 & Us)]; rewrite U, (W eq_refl) in E1.
  - exfalso. apply get_object_base_Ok in Hb as (x & Hx & Hb). destruct Hx as (hs & s & A1 & A2 & A3 & _).
    unfold update_base in E1. rewrite (update_object_live _ _ _ _ _ A1 A2 A3), Hb in E1. done.
  - exists h'. split; [done|]. apply get_object_base_Ok in Hb as (y & Hy & Hb). assert (y = x) by (by eapply live_as_fun). subst y.
    assert (b0 = b) by congruence. subst b0.
    assert (B' : base_of (set_base x (b <| ob_prototype := p |>)) = Some (b <| ob_prototype := p |>)) by by destruct x.
    split.
    + apply abs_object_Some. exists (b <| ob_prototype := p |>). split; [apply get_object_base_Ok; eexists; split; [apply Us|done]|].
      etrans; [|symmetry; apply (abs_base_ext h)]; [done|]. intros s _. eapply ustep_string; eauto.
    + intros a Hne. eapply ustep_other_view; eauto.
Qed.

(** ** Lookups *)
Lemma get_walk_spec fuel h k l o vis : chain h o l -> objects h l -> (forall a, a ∈ l -> a ∉ vis) -> good_key (abs_key h k) ->
  match nearest h (take fuel l) (abs_key h k) with
  | Some d => exists d', get_property_walk fuel h k vis (Some o) = Ok (Some d') /\ abs_desc h d' = d
  | None => get_property_walk fuel h k vis (Some o) = if decide (length l <= fuel)%nat then Ok None else Err EPrototypeChainTooDeep
  end.
Proof.
  intros C Ho Hv Hk. assert (ND := chain_NoDup _ _ _ C). revert fuel vis Ho Hv ND. induction C as [a Hn|a b l Hl C IH]; intros fuel vis Ho Hv ND.
  all: destruct fuel as [|fuel]; [rewrite take_0; cbn [nearest]; rewrite decide_False by (cbn; lia); done|].
  all: cbn [get_property_walk take nearest]; rewrite bool_decide_false by (apply Hv; left).
  all: destruct (Ho a) as [v Ev]; [left|]; destruct (get_own_reads h a v k Ev Hk) as (d & E1 & E2); rewrite E1, Ev, (object_prototype_view _ _ _ Ev); cbn [rbind]; cbn; rewrite <- E2.
  all: destruct d as [d|]; [by exists d|cbn].
  - rewrite take_nil. cbn [nearest]. rewrite decide_True by lia.
    destruct (ao_prototype v) as [b|] eqn:Ep; [exfalso; apply (Hn b); by exists v|]. by destruct fuel.
  - destruct Hl as (v' & Ev' & Ep). assert (v' = v) by congruence. subst v'. rewrite Ep. apply NoDup_cons in ND as [Ha ND].
    specialize (IH fuel (a :: vis)). destruct (nearest h (take fuel l) (abs_key h k)).
    + apply IH; [intros c Hc; apply Ho; by right| |done]. intros c Hc. apply not_elem_of_cons. split; [by intros ->|]. apply Hv. by right.
    + rewrite IH; [|intros c Hc; apply Ho; by right| |done].
      * destruct (decide (length l <= fuel)%nat), (decide (S (length l) <= S fuel)%nat); auto; lia.
      * intros c Hc. apply not_elem_of_cons. split; [by intros ->|]. apply Hv. by right.
Qed.

(** ** Example: [pc_c] inherits from [pc_b], which inherits from [pc_a]; [pc_a] and
    [pc_b] have a property "x" and only [pc_a] has "y". *)
Definition pc_a : heap_id := HId 0 0.
Definition pc_b : heap_id := HId 1 0.
Definition pc_c : heap_id := HId 2 0.
Definition pc_x : heap_id := HId 3 0.
Definition pc_y : heap_id := HId 4 0.
Definition pc_patch (n : N) : descriptor_patch := PPatch (Some true) (Some true) (Some (VNumber (f64_of_N n))) (Some true) None None.
Definition pc_ops : list op :=
  [OpAllocObject; OpAddRoot (VObject pc_a); OpAllocObjectWith (Some pc_a) []; OpAddRoot (VObject pc_b); OpAllocObject; OpAddRoot (VObject pc_c);
   OpAllocString [120]; OpAddRoot (VString pc_x); OpAllocString [121]; OpAddRoot (VString pc_y);
   OpDefineOwn pc_a (PKString pc_x) (pc_patch 1); OpDefineOwn pc_a (PKString pc_y) (pc_patch 2); OpDefineOwn pc_b (PKString pc_x) (pc_patch 3);
   OpSetPrototype pc_c (Some pc_b); OpSetPrototype pc_a (Some pc_c)].
Definition pc_heap : heap := run pc_ops demo_heap.
Lemma pc_disciplined : disciplined_state pc_heap.
Proof. exists demo_layout, 1000000, 1000000, pc_ops. split; [apply demo_limits|]. split; [|done].
  unfold pc_ops. apply disc_b_ok. vm_compute. reflexivity. Qed.
Definition pc_chain : list heap_id := [pc_c; pc_b; pc_a].
Lemma pc_link a b : (ao_prototype <$> abs_object pc_heap a) = Some (Some b) -> proto_link pc_heap a b.
Proof. intros E. destruct (abs_object pc_heap a) as [v|] eqn:Ev; [|discriminate E]. exists v. split; [done|]. by injection E. Qed.
Lemma pc_is_chain : chain pc_heap pc_c pc_chain.
Proof.
  apply (ch_next _ _ pc_b); [apply pc_link; vm_compute; reflexivity|]. apply (ch_next _ _ pc_a); [apply pc_link; vm_compute; reflexivity|].
  constructor. intros b (v & Ev & Ep). assert (K : (ao_prototype <$> abs_object pc_heap pc_a) = Some None) by (vm_compute; reflexivity).
  rewrite Ev in K. cbn in K. rewrite Ep in K. discriminate K.
Qed.
Lemma pc_objects : objects pc_heap pc_chain.
Proof.
  intros a Ha. unfold pc_chain in Ha.
  assert (K : forall x, match abs_object pc_heap x with Some _ => true | None => false end = true -> exists v, abs_object pc_heap x = Some v)
    by (intros x; destruct (abs_object pc_heap x) as [v|]; [by exists v|discriminate]).
  repeat (apply elem_of_cons in Ha as [->|Ha]; [apply K; vm_compute; reflexivity|]). by apply elem_of_nil in Ha.
Qed.
