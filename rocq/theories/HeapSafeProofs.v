(** Rooting discipline: operations called with live handles leave no dangling
    reference behind, although every allocation may run the collector. *)
From stdpp Require Import base decidable list numbers sets.
From Coq Require Import NArith ZArith Lia.
From RecordUpdate Require Import RecordUpdate.
From Verif Require Import VmBase HeapModel HeapObjModel HeapSpec HeapGcProofs HeapInvProofs HeapObjProofs
  ObjectOpsModel ObjectOpsProofs HeapTidyProofs.

Open Scope N_scope.

(** ** Single steps *)
Definition stack_rooted (h : heap) (id : heap_id) : Prop :=
  (exists v, v ∈ h_roots h /\ value_has v id) \/ id ∈ h_env_roots h.

Lemma stack_rooted_rooted h id : stack_rooted h id -> rooted h id.
Proof. intros [(v & Hv & Hh)|He]; [by eapply rt_stack|by apply rt_env_stack]. Qed.
Lemma stack_rooted_ext h h' id : stack_ext h h' -> stack_rooted h id -> stack_rooted h' id.
Proof.
  intros [[l1 E1] [l2 E2]] [(v & Hv & Hh)|He]; [left; exists v; rewrite E1|right; rewrite E2]; set_solver.
Qed.
Lemma rooted_same h h' id :
  h_roots h' = h_roots h -> h_env_roots h' = h_env_roots h -> pers_eq h h' -> h_registry h' = h_registry h ->
  rooted h' id -> rooted h id.
Proof.
  intros E1 E2 (E3&_&E4&_) E5 R. inversion R; subst; rewrite ?E1, ?E2, ?E3, ?E4, ?E5 in *;
    [by eapply rt_stack|by apply rt_env_stack|by eapply rt_persistent|by apply rt_persistent_env
    |by apply rt_registry_key|by apply rt_registry_sym].
Qed.
Lemma live_as_live h id o : live_as h id o -> live h id. Proof. intros H. by exists o. Qed.

Lemma gstep_pers extra h h' : gstep extra h h' -> pers_eq h h'.
Proof. intros G. repeat split; try apply G. by rewrite (gs_registry _ _ _ G). Qed.
Lemma gstep_closed extra h h' : gstep extra h h' -> no_dangling h -> (forall x, x ∈ extra -> live h x) ->
  no_dangling h' /\ (forall x, x ∈ extra -> live h' x) /\ stack_ext h h'.
Proof.
  intros G [HR HO] He.
  assert (K : forall id, reachable h extra id -> live h' id).
  { intros id R. assert (live h id) as (o & hs & Hl) by (inversion R; done). exists o, hs. eapply gstep_keep; eauto. }
  assert (RR : forall id, rooted h' id -> rooted h id).
  { intros id. apply rooted_same; try apply G. eapply gstep_pers; eauto. }
  split; [split|split].
  - intros id R. apply RR in R. apply K. apply reach_root; auto.
  - intros id o id' (hs & Hl) Hh. pose proof (gstep_back _ _ _ _ _ _ G Hl) as Hl0.
    assert (Hl' : live h id') by (eapply HO; [exists hs; eauto|done]).
    destruct (gs_reach _ _ _ G) as [Es|Hr].
    + destruct Hl' as (o' & hs' & s & A & B). exists o', hs', s. by rewrite Es.
    + apply K. eapply reach_step; [apply Hr; by exists o, hs|exists hs; eauto|done|done].
  - intros x Hx. apply K. apply reach_extra; auto.
  - split; [by rewrite (gs_roots _ _ _ G)|by rewrite (gs_env_roots _ _ _ G)].
Qed.
Lemma gstep_rooted_live extra h h' id : gstep extra h h' -> no_dangling h -> rooted h id -> live h' id.
Proof.
  intros G [HR HO] R. destruct (HR id R) as (o & hs & Hl). exists o, hs. eapply gstep_keep; eauto.
  apply reach_root; [done|by exists o, hs].
Qed.

Lemma same_rest_frame h h' : same_rest h h' ->
  h_roots h' = h_roots h /\ h_env_roots h' = h_env_roots h /\ pers_eq h h' /\ h_registry h' = h_registry h.
Proof. intros (?&?&?&?&?&?&?&?&?&?&?&?). repeat split; auto; by intros ?; match goal with E : h_registry _ = h_registry _ |- _ => rewrite E end. Qed.

Lemma ustep_live id o o' h h' x : ustep id o o' h h' -> live h x <-> live h' x.
Proof.
  intros U. destruct (us_live _ _ _ _ _ U) as (hs & s & A & B & C & D).
  destruct (us_live' _ _ _ _ _ U) as (hs' & s' & A' & B' & C' & D').
  destruct (decide (hid_index x = hid_index id)) as [E|N].
  - split; intros (y & hy & t & T1 & T2 & T3 & T4).
    + exists o', hs', s'. rewrite E in *. assert (t = s) by congruence. subst. repeat split; auto; congruence.
    + exists o, hs, s. rewrite E in *. assert (t = s') by congruence. subst. repeat split; auto; congruence.
  - split; intros (y & hy & t & T1 & T2); exists y, hy, t; [rewrite (us_other _ _ _ _ _ U)|rewrite <- (us_other _ _ _ _ _ U)]; auto.
Qed.
Lemma ustep_closed id o o' h h' : ustep id o o' h h' -> no_dangling h ->
  (forall x, x ∈ trace_object o' -> live h x) -> no_dangling h' /\ stack_ext h h'.
Proof.
  intros U [HR HO] Ho. destruct (same_rest_frame _ _ (us_rest _ _ _ _ _ U)) as (E1&E2&E3&E4).
  split; [split|split; by rewrite ?E1, ?E2].
  - intros x Hx. apply (ustep_live _ _ _ _ _ _ U). apply HR. by eapply rooted_same.
  - intros x y z (hy & t & T1 & T2 & T3 & T4) Hz. apply (ustep_live _ _ _ _ _ _ U).
    destruct (decide (hid_index x = hid_index id)) as [E|N].
    + destruct (us_live' _ _ _ _ _ U) as (hs' & s' & A' & B' & C' & D').
      rewrite E in *. assert (t = s') by congruence. subst. assert (y = o') by congruence. subst.
      apply Ho. by apply trace_object_in.
    + apply (HO x y z); [|done]. exists hy, t. rewrite <- (us_other _ _ _ _ _ U); auto.
Qed.

Lemma alloc_live h h' id obj x : alloc_step h h' id obj -> live h x -> live h' x.
Proof.
  intros Al (y & hy & t & T1 & T2 & T3 & T4). exists y, hy, t. rewrite (as_other _ _ _ _ Al); auto.
  intros E. rewrite E in T1. destruct (as_fresh _ _ _ _ Al) as [F|(s & F1 & F2 & F3)]; congruence.
Qed.
Lemma alloc_closed h h' id obj : alloc_step h h' id obj -> no_dangling h ->
  (forall x, x ∈ trace_object obj -> live h x) -> no_dangling h' /\ stack_ext h h' /\ live h' id.
Proof.
  intros Al [HR HO] Ho. destruct (same_rest_frame _ _ (as_rest _ _ _ _ Al)) as (E1&E2&E3&E4).
  split; [split|split; [split; by rewrite ?E1, ?E2|]].
  - intros x Hx. eapply alloc_live; eauto. apply HR. by eapply rooted_same.
  - intros x y z (hy & t & T1 & T2 & T3 & T4) Hz. eapply alloc_live; eauto.
    destruct (as_live _ _ _ _ Al) as (s & A & B & C & D).
    destruct (decide (hid_index x = hid_index id)) as [E|N].
    + rewrite E in *. assert (t = s) by congruence. subst. assert (y = obj) by congruence. subst.
      apply Ho. by apply trace_object_in.
    + apply (HO x y z); [|done]. exists hy, t. rewrite <- (as_other _ _ _ _ Al); auto.
  - exists obj, None. apply Al.
Qed.

(** ** Triples *)

(** [safe X L m F]: started with the handles of [X] on the scope stacks and those
    of [L] live, [m] leaves no dangling reference, and on success with result [a]
    the handles [fst (F a)] are on the stacks and [snd (F a)] are live. *)
Definition safe {A} (X L : list heap_id) (m : M A) (F : A -> list heap_id * list heap_id) : Prop :=
  forall h h' r, heap_ok h -> no_dangling h ->
    (forall x, x ∈ X -> stack_rooted h x) -> (forall x, x ∈ L -> live h x) -> m h = (h', r) ->
    heap_ok h' /\ no_dangling h' /\ stack_ext h h' /\
    forall a, r = Ok a -> (forall x, x ∈ fst (F a) -> stack_rooted h' x) /\ (forall x, x ∈ snd (F a) -> live h' x).

Lemma safe_bind {A B} X L (m : M A) (k : A -> M B) F G :
  safe X L m F -> (forall a, safe (X ++ fst (F a)) (snd (F a)) (k a) G) -> safe X L (mbind m k) G.
Proof.
  intros Hm Hk h h' r H C HX HL E. unfold mbind in E. destruct (m h) as [h1 r1] eqn:E1.
  destruct (Hm _ _ _ H C HX HL E1) as (H1 & C1 & S1 & R1). destruct r1 as [a|e|]; simplify_eq.
  - destruct (R1 a eq_refl) as [R1a R1b].
    destruct (Hk a h1 h' r H1 C1) as (H2 & C2 & S2 & R2); auto.
    { intros x [Hx|Hx]%elem_of_app; auto. eapply stack_rooted_ext; eauto. }
    split; auto. split; auto. split; [eapply stack_ext_trans; eauto|auto].
  - split; auto. split; auto. split; auto. intros a Ha. done.
  - split; auto. split; auto. split; auto. intros a Ha. done.
Qed.
Lemma safe_weaken {A} X L X' L' (m : M A) F G :
  safe X' L' m F -> X' ⊆ X -> L' ⊆ X ++ L ->
  (forall a, fst (G a) ⊆ X ++ fst (F a)) -> (forall a, snd (G a) ⊆ X ++ fst (F a) ++ snd (F a)) -> safe X L m G.
Proof.
  intros Hm HX' HL' HG1 HG2 h h' r H C HX HL E.
  destruct (Hm h h' r) as (H1 & C1 & S1 & R1); auto.
  { intros x Hx. apply HL' in Hx as [Hx|Hx]%elem_of_app; auto. apply C. by apply stack_rooted_rooted, HX. }
  split; auto. split; auto. split; auto. intros a Ha. destruct (R1 a Ha) as [R2 R3].
  assert (P : forall x, x ∈ X -> stack_rooted h' x) by (intros; eapply stack_rooted_ext; eauto).
  split; intros x Hx.
  - apply HG1 in Hx as [Hx|Hx]%elem_of_app; auto.
  - apply HG2 in Hx as [Hx|[Hx|Hx]%elem_of_app]%elem_of_app; auto; apply C1; apply stack_rooted_rooted; auto.
Qed.
Lemma safe_post {A} X L (m : M A) F G : safe X L m F ->
  (forall a, fst (G a) ⊆ X ++ fst (F a)) -> (forall a, snd (G a) ⊆ X ++ fst (F a) ++ snd (F a)) -> safe X L m G.
Proof. intros H. apply (safe_weaken X L X L); auto. set_solver. Qed.

Lemma safe_ret {A} X L (a : A) : safe X L (mret a) (fun _ => ([], L)).
Proof.
  intros h h' r H C HX HL E. unfold mret in E. simplify_eq. split; auto. split; auto. split; [apply stack_ext_refl|].
  intros b Hb. split; [set_solver|auto].
Qed.
Lemma safe_fail {A} X L e F : safe X L (mfail (A:=A) e) F.
Proof.
  intros h h' r H C HX HL E. unfold mfail in E. simplify_eq. split; auto. split; auto. split; [apply stack_ext_refl|].
  intros b Hb. done.
Qed.
Lemma safe_mread {A} X L (f : heap -> res A) (R : A -> list heap_id) :
  (forall h a, heap_ok h -> no_dangling h -> f h = Ok a -> forall x, x ∈ R a -> live h x) ->
  safe X L (mread f) (fun a => ([], R a ++ L)).
Proof.
  intros HR h h' r H C HX HL E. unfold mread in E. simplify_eq. split; auto. split; auto. split; [apply stack_ext_refl|].
  intros a Ha. split; [set_solver|]. simpl. intros x [Hx|Hx]%elem_of_app; eauto.
Qed.
Lemma safe_mread0 {A} X L (f : heap -> res A) : safe X L (mread f) (fun a => ([], L)).
Proof. apply (safe_mread X L f (fun _ => [])). set_solver. Qed.
Lemma safe_mget {A} X L (f : heap -> A) : safe X L (mget f) (fun a => ([], L)).
Proof.
  intros h h' r H C HX HL E. unfold mget in E. simplify_eq. split; auto. split; auto. split; [apply stack_ext_refl|].
  intros a Ha. split; [set_solver|auto].
Qed.
Lemma safe_with_scope {A} X L (m : M A) F : tidy m -> safe X L m F ->
  safe X L (with_scope m) (fun a => ([], fst (F a) ++ snd (F a))).
Proof.
  intros Ht Hm h h' r H C HX HL E. pose proof (with_scope_restores m h h' r Ht E) as (E1 & E2 & P).
  unfold with_scope in E. destruct (m h) as [h1 r1] eqn:Em. destruct (Hm h h1 r1) as (H1 & C1 & S1 & R1); auto.
  simplify_eq. set (h' := h1 <| h_roots := _ |> <| h_env_roots := _ |>) in *.
  assert (Hl : forall x, live h1 x <-> live h' x) by done.
  split; [|split; [|split]].
  - pose proof (hk_caps h1 H1) as (?&?&?&?&?&?&?&?&?&?&?). apply heap_ok_set_roots; auto.
    + pose proof (nlen_take (length (h_roots h)) (h_roots h1)). lia.
    + pose proof (nlen_take (length (h_env_roots h)) (h_env_roots h1)). lia.
  - destruct C1 as [CR CO]. split; [|done]. intros x Hx. apply CR. destruct S1 as [[l1 S1] [l2 S2]]. destruct Hx.
    + eapply rt_stack; eauto. rewrite E1 in *. rewrite S1. set_solver.
    + apply rt_env_stack. rewrite E2 in *. rewrite S2. set_solver.
    + eapply rt_persistent; eauto.
    + apply rt_persistent_env. done.
    + apply rt_registry_key. done.
    + apply rt_registry_sym. done.
  - split; by rewrite ?E1, ?E2.
  - intros a Ha. destruct (R1 a Ha) as [R2 R3]. split; [set_solver|]. simpl.
    intros x [Hx|Hx]%elem_of_app; change (live h1 x); auto. apply C1, stack_rooted_rooted; auto.
Qed.

Lemma live_set_roots h r e x : live (h <| h_roots := r |> <| h_env_roots := e |>) x <-> live h x.
Proof. done. Qed.
Lemma closed_set_stack h c r e : no_dangling h ->
  (forall v x, v ∈ r -> value_has v x -> live h x) -> (forall x, x ∈ e -> live h x) ->
  no_dangling (h <| h_caps := c |> <| h_roots := r |> <| h_env_roots := e |>).
Proof.
  intros [HR HO] Hr He. split; [|exact HO]. intros x Hx. change (live h x). destruct Hx; cbn in *; eauto.
  - apply HR. eapply rt_persistent; eauto.
  - apply HR. by apply rt_persistent_env.
  - apply HR. by apply rt_registry_key.
  - apply HR. by apply rt_registry_sym.
Qed.

Lemma safe_push_roots_with X L vs extra : trace_values vs ++ extra ⊆ X ++ L ->
  safe X L (push_roots_with vs extra) (fun _ => (trace_values vs, extra)).
Proof.
  intros Hsub h h' r H C HX HL E. destruct (push_roots_spec vs extra h H) as (h1 & H1 & G & Hc).
  assert (He : forall x, x ∈ trace_values vs ++ extra -> live h x).
  { intros x Hx. apply Hsub in Hx as [Hx|Hx]%elem_of_app; auto. by apply C, stack_rooted_rooted, HX. }
  destruct (gstep_closed _ _ _ G C He) as (C1 & L1 & S1). destruct Hc as [E1|(c & E1 & H2)]; rewrite E1 in E; simplify_eq.
  - split; auto. split; auto. split; auto. done.
  - split; auto. split; [|split].
    + set (h2 := h1 <| h_caps := c |> <| h_roots := h_roots h1 ++ vs |>).
      assert (EQ : h2 = h1 <| h_caps := c |> <| h_roots := h_roots h1 ++ vs |> <| h_env_roots := h_env_roots h1 |>)
        by (subst h2; clear; by destruct h1).
      rewrite EQ. apply closed_set_stack; auto.
      * intros v x [Hv|Hv]%elem_of_app Hx; [apply C1; by eapply rt_stack|].
        apply L1. apply elem_of_app. left. apply trace_values_in. eauto.
      * intros x Hx. apply C1. by apply rt_env_stack.
    + eapply stack_ext_trans; [apply S1|]. split; cbn; [by eexists|done].
    + intros a _. simpl. split.
      * intros x Hx. apply trace_values_in in Hx as (v & Hv & Hh). left. exists v. cbn. split; [set_solver|done].
      * intros x Hx. change (live h1 x). apply L1. set_solver.
Qed.
Lemma safe_push_roots X L vs : trace_values vs ⊆ X ++ L -> safe X L (push_roots vs) (fun _ => (trace_values vs, [])).
Proof. intros Hs. apply safe_push_roots_with. by rewrite app_nil_r. Qed.
Lemma safe_push_root X L v : trace_value v ⊆ X ++ L -> safe X L (push_root v) (fun _ => (trace_value v, [])).
Proof.
  intros Hs. eapply safe_post; [apply (safe_push_roots X L [v])|..].
  - unfold trace_values; simpl. by rewrite app_nil_r.
  - intros a. unfold trace_values; simpl. rewrite app_nil_r. set_solver.
  - set_solver.
Qed.
Lemma safe_push_env_root X L e : e ∈ X ++ L -> safe X L (push_env_root e) (fun _ => ([e], [])).
Proof.
  intros Hsub h h' r H C HX HL E. destruct (push_env_root_spec e h H) as (h1 & H1 & G & Hc).
  assert (He : forall x, x ∈ [e] -> live h x).
  { intros x ->%elem_of_list_singleton. apply elem_of_app in Hsub as [Hx|Hx]; auto. by apply C, stack_rooted_rooted, HX. }
  destruct (gstep_closed _ _ _ G C He) as (C1 & L1 & S1). destruct Hc as [E1|(c & E1 & H2)]; rewrite E1 in E; simplify_eq.
  - split; auto. split; auto. split; auto. done.
  - split; auto. split; [|split].
    + set (h2 := h1 <| h_caps := c |> <| h_env_roots := h_env_roots h1 ++ [e] |>).
      assert (EQ : h2 = h1 <| h_caps := c |> <| h_roots := h_roots h1 |> <| h_env_roots := h_env_roots h1 ++ [e] |>)
        by (subst h2; clear; by destruct h1).
      rewrite EQ. apply closed_set_stack; auto.
      * intros v x Hv Hx. apply C1. by eapply rt_stack.
      * intros x [Hx|Hx]%elem_of_app; [apply C1; by apply rt_env_stack|auto].
    + eapply stack_ext_trans; [apply S1|]. split; cbn; [done|by eexists].
    + intros a _. simpl. split; [|set_solver]. intros x Hx. right. cbn. set_solver.
Qed.
Lemma safe_ensure X L add extra : extra ⊆ X ++ L ->
  safe X L (ensure_can_allocate_with add extra) (fun _ => ([], extra)).
Proof.
  intros Hsub h h' r H C HX HL E. destruct (ensure_spec add extra h H) as (h1 & H1 & G & _ & Hc).
  assert (He : forall x, x ∈ extra -> live h x).
  { intros x Hx. apply Hsub in Hx as [Hx|Hx]%elem_of_app; auto. by apply C, stack_rooted_rooted, HX. }
  destruct (gstep_closed _ _ _ G C He) as (C1 & L1 & S1).
  assert (h' = h1) as -> by (destruct Hc as [[E1 _]|[E1 _]]; rewrite E1 in E; by simplify_eq).
  split; auto. split; auto. split; auto. intros a _. simpl. split; [set_solver|auto].
Qed.
Lemma safe_ensure0 X L n : safe X L (ensure_can_allocate n) (fun _ => ([], [])).
Proof. apply safe_ensure. set_solver. Qed.

(** Allocation sizes depend on the layout, which no operation changes. *)
Definition safel {A} (l : layout) (X L : list heap_id) (m : M A) (F : A -> list heap_id * list heap_id) : Prop :=
  forall h h' r, h_layout h = l -> heap_ok h -> no_dangling h ->
    (forall x, x ∈ X -> stack_rooted h x) -> (forall x, x ∈ L -> live h x) -> m h = (h', r) ->
    heap_ok h' /\ no_dangling h' /\ stack_ext h h' /\
    forall a, r = Ok a -> (forall x, x ∈ fst (F a) -> stack_rooted h' x) /\ (forall x, x ∈ snd (F a) -> live h' x).
Lemma safel_safe {A} l X L (m : M A) F : safe X L m F -> safel l X L m F.
Proof. intros Hm h h' r _. apply Hm. Qed.
Lemma safel_bind {A B} l X L (m : M A) (k : A -> M B) F G : good m ->
  safe X L m F -> (forall a, safel l (X ++ fst (F a)) (snd (F a)) (k a) G) -> safel l X L (mbind m k) G.
Proof.
  intros Hg Hm Hk h h' r El H C HX HL E. unfold mbind in E. destruct (m h) as [h1 r1] eqn:E1.
  destruct (Hm _ _ _ H C HX HL E1) as (H1 & C1 & S1 & R1). destruct (Hg _ _ _ H E1) as (_ & _ & Ev).
  destruct r1 as [a|e|]; simplify_eq.
  - destruct (R1 a eq_refl) as [R1a R1b].
    destruct (Hk a h1 h' r (ev_layout _ _ Ev) H1 C1) as (H2 & C2 & S2 & R2); auto.
    { intros x [Hx|Hx]%elem_of_app; auto. eapply stack_rooted_ext; eauto. }
    split; auto. split; auto. split; [eapply stack_ext_trans; eauto|auto].
  - split; auto. split; auto. split; auto. intros a Ha. done.
  - split; auto. split; auto. split; auto. intros a Ha. done.
Qed.
Lemma safe_layout {A} X L (k : layout -> M A) F : (forall l, safel l X L (k l) F) -> safe X L (mbind (mget h_layout) k) F.
Proof. intros Hk h h' r. apply (Hk (h_layout h) h h' r eq_refl). Qed.
Lemma safel_alloc l X L obj nb : sizes nb (payload_bytes l obj) -> trace_object obj ⊆ X ->
  safel l X L (alloc_unchecked obj nb) (fun id => ([], [id])).
Proof.
  intros Hnb Hsub h h' r El H C HX HL E. subst l. destruct (alloc_unchecked_spec obj nb h H Hnb) as (h1 & H1 & G & Hc).
  destruct (gstep_closed [] _ _ G C) as (C1 & _ & S1); [set_solver|].
  destruct Hc as [E1|(h2 & id & E1 & H2 & Al)]; rewrite E1 in E; simplify_eq.
  - split; auto. split; auto. split; auto. done.
  - destruct (alloc_closed _ _ _ _ Al C1) as (C2 & S2 & Li).
    { intros x Hx. apply C1, stack_rooted_rooted. eapply stack_rooted_ext; [apply S1|]. apply HX, Hsub, Hx. }
    split; auto. split; auto. split; [eapply stack_ext_trans; eauto|].
    intros a Ha. simplify_eq. simpl. set_solver.
Qed.

Lemma safe_ustep {A} X L (m : M A) F :
  (forall h h' r, heap_ok h -> m h = (h', r) ->
     (h' = h /\ forall a, r <> Ok a) \/
     exists id o o', ustep id o o' h h' /\ trace_object o' ⊆ trace_object o ++ X ++ L /\
       (forall a, r = Ok a -> fst (F a) = [] /\ snd (F a) ⊆ X ++ L ++ trace_object o)) -> safe X L m F.
Proof.
  intros Hm h h' r H C HX HL E. destruct (Hm h h' r H E) as [[-> Hr]|(id & o & o' & U & Ht & HF)].
  - split; auto. split; auto. split; [apply stack_ext_refl|]. intros a Ha. by destruct (Hr a).
  - assert (HX' : forall x, x ∈ X -> live h x) by (intros; apply C, stack_rooted_rooted; auto).
    assert (Ho : forall x, x ∈ trace_object o -> live h x).
    { intros x Hx. eapply (proj2 C); [apply (us_live _ _ _ _ _ U)|]. by apply trace_object_in. }
    destruct (ustep_closed _ _ _ _ _ U C) as [C1 S1].
    { intros x Hx. apply Ht in Hx. rewrite !elem_of_app in Hx. naive_solver. }
    split; [apply U|]. split; auto. split; auto. intros a Ha. destruct (HF a Ha) as [-> HF']. split; [set_solver|].
    intros x Hx. apply (ustep_live _ _ _ _ _ _ U). apply HF' in Hx. rewrite !elem_of_app in Hx. naive_solver.
Qed.

(** In-place updates. *)
Lemma safe_update_object X L id f :
  (forall l o o', f o = Ok o' -> same_kind o o' /\ payload_bytes l o' = payload_bytes l o) ->
  (forall o, np (f o)) -> (forall o o', f o = Ok o' -> trace_object o' ⊆ trace_object o ++ X ++ L) ->
  safe X L (update_object id f) (fun _ => ([], L)).
Proof.
  intros Hf Hn Ht. apply safe_ustep. intros h h' r H E.
  destruct (update_object_spec id f h H) as [(e & E1 & _)|(o & o' & h1 & _ & Eo & E1 & U)]; auto.
  - rewrite E1 in E. simplify_eq. left. done.
  - rewrite E1 in E. simplify_eq. right. exists id, o, o'. split; auto. split; eauto. intros; split; [done|]. set_solver.
Qed.
Lemma trace_set_base o b b' Y : base_of o = Some b -> trace_base b' ⊆ trace_base b ++ Y ->
  trace_object (set_base o b') ⊆ trace_object o ++ Y.
Proof.
  intros Hb Hs. destruct o; simpl in *; simplify_eq; simpl; auto.
  - unfold trace_function. cbn. intros x Hx. rewrite !elem_of_app in *. specialize (Hs x). rewrite elem_of_app in Hs. tauto.
  - unfold trace_promise. cbn. intros x Hx. rewrite !elem_of_app in *. specialize (Hs x). rewrite elem_of_app in Hs. tauto.
Qed.
Lemma safe_update_base X L id f :
  (forall b b', f b = Ok b' -> base_like b b' /\ trace_base b' ⊆ trace_base b ++ X ++ L) -> (forall b, np (f b)) ->
  safe X L (update_base id f) (fun _ => ([], L)).
Proof.
  intros Hf Hn. unfold update_base. apply safe_update_object.
  - intros l o o' E. destruct (base_of o) eqn:Eb; [|done]. destruct (f o0) eqn:Ef; simpl in E; simplify_eq.
    apply (set_base_like l o o0 a); auto. by apply Hf.
  - by apply update_base_np.
  - intros o o' E. destruct (base_of o) eqn:Eb; [|done]. destruct (f o0) eqn:Ef; simpl in E; simplify_eq.
    eapply trace_set_base; eauto. by apply Hf.
Qed.

Lemma safe_alloc X L obj nb : (forall l, sizes nb (payload_bytes l obj)) -> trace_object obj ⊆ X ->
  safe X L (alloc_unchecked obj nb) (fun id => ([], [id])).
Proof. intros Hs Ht h h' r. apply (safel_alloc (h_layout h) X L obj nb); auto. Qed.

(** Sequencing with the intermediate assertion given explicitly. *)
Ltac sbind F := apply (safe_bind _ _ _ _ F); [|intros ?; cbn [fst snd]].
Ltac sbindl F := apply (safel_bind _ _ _ _ _ F); [auto with good| |intros ?; cbn [fst snd]].
Ltac inc_at x :=
  repeat match goal with H : ?a ⊆ ?b |- _ => specialize (H x) end;
  cbn in *; rewrite ?app_nil_r in *;
  rewrite ?elem_of_app, ?elem_of_cons, ?elem_of_nil, ?elem_of_app, ?elem_of_cons, ?elem_of_nil in *; tauto.
Ltac inc := match goal with
  | |- ?x ∈ _ => inc_at x
  | |- _ => let x := fresh "x" in let Hx := fresh "Hx" in intros x Hx; inc_at x
  end.

Lemma safe_alloc_string X L u : safe X L (alloc_string u) (fun id => ([], [id])).
Proof.
  unfold alloc_string. sbind (fun _ : unit => ([] : list heap_id, [] : list heap_id)); [apply safe_ensure0|].
  apply safe_alloc; [|inc]. intros l. apply string_bytes_ok.
Qed.
Lemma safe_mmodify X L f :
  (forall h, heap_ok h -> heap_ok (f h) /\ h_slots (f h) = h_slots h /\ h_roots (f h) = h_roots h /\
     h_env_roots (f h) = h_env_roots h /\ pers_eq h (f h) /\ h_registry (f h) = h_registry h) ->
  safe X L (mmodify f) (fun _ => ([], L)).
Proof.
  intros Hf h h' r H C HX HL E. unfold mmodify in E. simplify_eq. destruct (Hf h H) as (H1&Es&E1&E2&E3&E4).
  assert (Hl : forall x o, live_as (f h) x o <-> live_as h x o).
  { intros x o. unfold live_as, live_with. by rewrite Es. }
  assert (Hv : forall x, live (f h) x <-> live h x).
  { intros x. unfold live. split; intros (o & Ho); exists o; by apply Hl. }
  split; auto. split; [split|split].
  - intros x Hx. apply Hv, C. by eapply rooted_same.
  - intros x o y Hx Ho. apply Hv. eapply (proj2 C); eauto. by apply Hl.
  - split; by rewrite ?E1, ?E2.
  - intros a Ha. split; [inc|]. intros x Hx. apply Hv. auto.
Qed.
Lemma safe_new_symbol X L d : opt_list d ⊆ X ++ L -> safe X L (new_symbol d) (fun id => ([], [id])).
Proof.
  intros Hd. unfold new_symbol.
  eapply safe_post; [apply safe_with_scope; [|]|..].
  - pose proof (tidy_new_symbol d) as T. apply tidy_bind; [tidy|]. intros _. apply tidy_bind; [tidy|]. intros _.
    apply tidy_bind; [tidy|]. intros n. apply tidy_bind; [|tidy]. apply tidy_mmodify. intros. by apply same_fields_tidy.
  - sbind (fun _ : unit => (opt_list d, [] : list heap_id)).
    { destruct d as [d|]; [apply safe_push_root; inc|]. eapply safe_post; [apply safe_ret|inc|inc]. }
    sbind (fun _ : unit => ([] : list heap_id, [] : list heap_id)); [apply safe_ensure0|].
    sbind (fun _ : N => ([] : list heap_id, [] : list heap_id)); [apply safe_mget|].
    sbind (fun _ : unit => ([] : list heap_id, [] : list heap_id)).
    { apply safe_mmodify. intros h H. split; [by apply heap_ok_set_symbol|]. by repeat split. }
    apply safe_alloc; [by left|]. cbn. inc.
  - inc.
  - inc.
Qed.
