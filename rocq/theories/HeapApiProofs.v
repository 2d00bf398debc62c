(** The heap properties, in the form the property file states them. *)
From stdpp Require Import base decidable list numbers sets.
From Coq Require Import NArith ZArith Lia.
From RecordUpdate Require Import RecordUpdate.
From Verif Require Import VmBase HeapModel HeapObjModel HeapSpec HeapGcProofs HeapInvProofs HeapObjProofs
  ObjectOpsModel ObjectOpsProofs HeapTidyProofs HeapSafeProofs HeapSafeOps HeapSafeOps2 HeapSafeOps3
  HeapHistory HeapHistoryProofs HeapFrameProofs HeapApiSpec.

Open Scope N_scope.

Lemma live_fun h id o o' : live_as h id o -> live_as h id o' -> o = o'.
Proof. intros (hs & s & A1 & A2 & A3 & _) (hs' & s' & B1 & B2 & B3 & _). congruence. Qed.
Lemma exec_step o h : heap_ok h -> heap_ok (fst (exec o h)) /\ evolves h (fst (exec o h)) /\ snd (exec o h) <> Panic.
Proof. intros H. destruct (exec o h) as [h1 r] eqn:E. destruct (good_exec o _ _ _ H E) as (? & ? & ?). auto. Qed.
Lemma run_app os1 os2 h : run (os1 ++ os2) h = run os2 (run os1 h).
Proof. revert h. induction os1; intros h; cbn; auto. Qed.
Lemma disciplined_app os1 os2 h : disciplined_history (os1 ++ os2) h <-> disciplined_history os1 h /\ disciplined_history os2 (run os1 h).
Proof. revert h. induction os1 as [|o os IH]; intros h; cbn; [tauto|]. rewrite IH. tauto. Qed.
Lemma reachable_state_run os h : reachable_state h -> reachable_state (run os h).
Proof. intros (ly & mb & gt & os0 & Hl & ->). exists ly, mb, gt, (os0 ++ os). split; auto. by rewrite run_app. Qed.
Lemma disciplined_state_run os h : disciplined_state h -> disciplined_history os h -> disciplined_state (run os h).
Proof.
  intros (ly & mb & gt & os0 & Hl & D & ->) Hd. exists ly, mb, gt, (os0 ++ os). split; auto. split; [|by rewrite run_app].
  by apply disciplined_app.
Qed.
Lemma disciplined_reachable h : disciplined_state h -> reachable_state h.
Proof. intros (ly & mb & gt & os0 & Hl & D & ->). by exists ly, mb, gt, os0. Qed.

(** *** Collection *)
Lemma collect_frees extra h h' id : heap_ok h -> collect_with extra h = Some h' -> live h' id -> reachable h extra id.
Proof.
  intros H Hc Hl. destruct (collect_ok extra h H) as (h1 & E & H1 & G & _). assert (h1 = h') by congruence. subst h1. clear E.
  destruct (collect_spec extra h (heap_ok_gc_ready h H))
    as (marks & h2 & Hc2 & HL & Hh' & _ & _ & _ & _ & Hunm). assert (h2 = h') by congruence. subst h2. clear Hc2.
  destruct Hl as (o & hs & s' & Hs' & Hg & Ho & _).
  assert (Hslots : h_slots h' = zip_with swept (h_slots h) marks) by (rewrite Hh'; reflexivity).
  rewrite Hslots in Hs'. apply lookup_zip_with_Some in Hs' as (s & m & -> & Hs & Hm).
  unfold swept in *. destruct (sl_value s) eqn:Hv; [|congruence].
  destruct (Nat.eqb_spec m 0) as [Hz|Hz]; [discriminate Ho|].
  destruct (Hunm (hid_index id)) as (id' & Hi & Hr).
  { congruence. }
  { eapply lookup_lt_Some; eauto. }
  assert (Hid : id' = id); [|by subst].
  assert (Hl : live h id') by (by inversion Hr; subst).
  destruct Hl as (o' & hs' & s2 & Hs2 & Hg2 & _). rewrite Hi, Hs in Hs2. simplify_eq.
  destruct id, id'; simpl in *; congruence.
Qed.
Lemma live_payload_used h : heap_ok h -> h_used h = live_payload h.
Proof.
  intros H. rewrite (hk_used h H). unfold live_payload. pose proof (hk_slots h H) as Hs.
  induction (h_slots h) as [|s ss IH]; [done|]. cbn [sum_bytes foldr]. fold (sum_bytes ss).
  rewrite IH by (intros i x Hx; apply (Hs (S i)); exact Hx). pose proof (so_bytes _ _ (Hs 0%nat s eq_refl)) as Hb.
  destruct (sl_value s); rewrite Hb; lia.
Qed.
Lemma gc_keeps h extra : reachable_state h -> exists h', collect_with extra h = Some h' /\
  (forall id o hs, reachable h extra id -> live_with h id o hs -> live_with h' id o hs) /\
  (forall id, live h' id -> reachable h extra id) /\
  h_roots h' = h_roots h /\ h_env_roots h' = h_env_roots h /\ h_proots h' = h_proots h /\ h_peroots h' = h_peroots h /\
  h_registry h' = h_registry h /\ h_used h' = live_payload h'.
Proof.
  intros H%reachable_state_ok. destruct (collect_ok extra h H) as (h' & E & H' & G & _). exists h'. split; auto.
  split; [intros; eapply gstep_keep; eauto|]. split; [intros; eapply collect_frees; eauto|].
  destruct G. repeat split; auto. by apply live_payload_used.
Qed.

(** *** Stale handles *)
Lemma mod_two32_same g k : g < two32 -> k < two32 -> (g + k) mod two32 = g -> k = 0.
Proof.
  intros Hg Hk E. destruct (decide (g + k < two32)); [rewrite N.mod_small in E by done; lia|].
  replace (g + k) with (g + k - two32 + 1 * two32) in E by lia. rewrite N.mod_add in E by done.
  rewrite N.mod_small in E by lia. lia.
Qed.
Lemma evolves_kind h h' id o o' : heap_ok h -> evolves h h' -> h_gc_runs h' < h_gc_runs h + two32 ->
  live_as h id o -> live_as h' id o' -> same_kind o o'.
Proof.
  intros H V Hr (hs & s & A1 & A2 & A3 & _) (hs' & s' & B1 & B2 & B3 & _).
  destruct (ev_slots _ _ V _ _ A1) as (s1 & k & C1 & C2 & C3 & C4). assert (s1 = s') by congruence. subst s1.
  pose proof (so_gen _ _ (hk_slots h H _ _ A1)) as Hg. pose proof (ev_runs _ _ V).
  assert (k = 0) as ->. { apply (mod_two32_same (sl_gen s)); auto; try lia; congruence. }
  destruct (C4 eq_refl o A3) as (o2 & D1 & D2). congruence.
Qed.
Lemma stale_stays h h1 h2 id : heap_ok h -> heap_ok h1 -> evolves h h1 -> evolves h1 h2 -> h_gc_runs h2 < h_gc_runs h + two32 ->
  live h id -> ~ live h1 id -> ~ live h2 id.
Proof.
  intros H H1 V1 V2 Hr (o & hs & s & A1 & A2 & A3 & _) Hn (o' & hs' & s' & B1 & B2 & B3 & _).
  destruct (ev_slots _ _ V1 _ _ A1) as (s1 & k & C1 & C2 & C3 & C4).
  destruct (ev_slots _ _ V2 _ _ C1) as (s2 & k2 & D1 & D2 & D3 & D4). assert (s2 = s') by congruence. subst s2.
  pose proof (so_gen _ _ (hk_slots h H _ _ A1)) as Hg. pose proof (ev_runs _ _ V1). pose proof (ev_runs _ _ V2).
  destruct (decide (k = 0)) as [->|Hk].
  - apply Hn. destruct (C4 eq_refl o A3) as (o1 & E1 & _). exists o1, (sl_host s1), s1. split; auto.
    split; [|auto]. rewrite C3, N.add_0_r, N.mod_small; auto.
  - rewrite C3, N.add_mod_idemp_l in D3 by done. rewrite <- N.add_assoc in D3.
    assert (k + k2 = 0); [|lia]. apply (mod_two32_same (sl_gen s)); auto; try lia; congruence.
Qed.

(** *** Allocation *)
Definition makes (m : M heap_id) (P : heap_object -> Prop) : Prop :=
  forall h h' id, heap_ok h -> m h = (h', Ok id) -> live h' id -> h_gc_runs h' < h_gc_runs h + two32 ->
    exists o, live_as h' id o /\ P o.
Lemma makes_bind {A} (m : M A) k P : good m -> (forall a, makes (k a) P) -> makes (mbind m k) P.
Proof.
  intros Hg Hk h h' id H E Hl Hr. unfold mbind in E. destruct (m h) as [h1 r1] eqn:E1.
  destruct (Hg _ _ _ H E1) as (H1 & _ & V1). destruct r1; simplify_eq. pose proof (ev_runs _ _ V1).
  apply (Hk a h1 h' id); auto. lia.
Qed.
Definition makesl (l : layout) (m : M heap_id) (P : heap_object -> Prop) : Prop :=
  forall h h' id, h_layout h = l -> heap_ok h -> m h = (h', Ok id) -> live h' id -> h_gc_runs h' < h_gc_runs h + two32 ->
    exists o, live_as h' id o /\ P o.
Lemma makesl_of l m P : makes m P -> makesl l m P.
Proof. intros Hm h h' id _. apply Hm. Qed.
Lemma makesl_bind {A} l (m : M A) k P : good m -> (forall a, makesl l (k a) P) -> makesl l (mbind m k) P.
Proof.
  intros Hg Hk h h' id Hl0 H E Hl Hr. unfold mbind in E. destruct (m h) as [h1 r1] eqn:E1.
  destruct (Hg _ _ _ H E1) as (H1 & _ & V1). destruct r1; simplify_eq. pose proof (ev_runs _ _ V1).
  apply (Hk a h1 h' id); auto; [by apply V1|lia].
Qed.
Lemma makes_layout k P : (forall l, makesl l (k l) P) -> makes (mbind (mget h_layout) k) P.
Proof. intros Hk h h' id H E. eapply (Hk (h_layout h)); eauto. Qed.
Lemma makesl_alloc l obj nb (P : heap_object -> Prop) : sizes nb (payload_bytes l obj) -> P obj -> makesl l (alloc_unchecked obj nb) P.
Proof.
  intros Hs HP h h' id <- H E Hl Hr.
  destruct (alloc_unchecked_spec obj nb h H Hs) as (h1 & H1 & G & [E1|(h2 & i & E1 & H2 & A)]); rewrite E1 in E; simplify_eq.
  exists obj. split; auto. eexists. apply (as_live _ _ _ _ A).
Qed.
Lemma makes_scope m P : makes m P -> makes (with_scope m) P.
Proof.
  intros Hm h h' id H E Hl Hr. unfold with_scope in E. destruct (m h) as [h1 r1] eqn:E1.
  injection E as <- ->. apply (Hm h h1 id); auto.
Qed.
Lemma makes_fail e P : makes (mfail e) P.
Proof. intros h h' id H E. discriminate E. Qed.
Lemma makesl_fun l f nb (k : heap_id -> M heap_id) : sizes nb (payload_bytes l (HFunction f)) ->
  (forall x, good (k x)) -> (forall x h h' y, k x h = (h', Ok y) -> y = x) ->
  makesl l (mbind (alloc_unchecked (HFunction f) nb) k) (fun o => exists f, o = HFunction f).
Proof.
  intros Hs Hg Hk h h' id <- H E Hl Hr. unfold mbind in E.
  destruct (alloc_unchecked_spec (HFunction f) nb h H Hs) as (h1 & H1 & G & [E1|(h2 & i & E1 & H2 & A)]); rewrite E1 in E; simplify_eq.
  pose proof (Hk _ _ _ _ E). subst i. destruct (Hg id _ _ _ H2 E) as (H3 & _ & V). destruct Hl as [o Ho]. exists o. split; auto.
  assert (K : same_kind (HFunction f) o).
  { eapply evolves_kind; [exact H2|exact V| |eexists; apply (as_live _ _ _ _ A)|exact Ho].
    destruct (as_rest _ _ _ _ A) as (_&_&_&R4&_). pose proof (gs_runs _ _ _ G). lia. }
  destruct o as [| | |f0| |]; try done. by exists f0.
Qed.
Lemma insert_by_perm {A} (key : A -> N) x l : insert_by key x l ≡ₚ x :: l.
Proof. induction l as [|y l IH]; cbn; [done|]. destruct (_ <=? _); rewrite ?IH; [done|]. by rewrite Permutation_swap. Qed.
Lemma sort_by_perm {A} (key : A -> N) l : sort_by key l ≡ₚ l.
Proof. induction l as [|y l IH]; cbn; [done|]. by rewrite insert_by_perm, IH. Qed.
Ltac mk := first [apply makes_bind; [auto with good|intros ?]|apply makes_scope].
Ltac mkl := apply makes_layout; intros l; apply makesl_bind; [auto with good|intros ?].
Lemma makes_alloc obj nb (P : heap_object -> Prop) : (forall l, sizes nb (payload_bytes l obj)) -> P obj -> makes (alloc_unchecked obj nb) P.
Proof. intros Hs HP h h' id H E. eapply (makesl_alloc (h_layout h)); eauto. Qed.
Lemma finish_id f name len (c : bool) h h' y :
  (set_function_name f (PKString name) None ;;; set_function_length f len ;;;
    if c then make_constructor f ;;; mret f else mret f) h = (h', Ok y) -> y = f.
Proof.
  unfold mbind at 1 2. destruct (set_function_name _ _ _ h) as [h1 [?|?|]]; try discriminate.
  destruct (set_function_length _ _ h1) as [h2 [?|?|]]; try discriminate. destruct c; [|by intros [= _ <-]].
  unfold mbind. destruct (make_constructor f h2) as [h3 [?|?|]]; try discriminate. by intros [= _ <-].
Qed.
Lemma good_finish f name len (c : bool) :
  good (set_function_name f (PKString name) None ;;; set_function_length f len ;;;
    if c then make_constructor f ;;; mret f else mret f).
Proof. destruct c; auto with good. Qed.
Lemma allocates_makes o m : allocates o = Some m -> makes m (allocated o).
Proof.
  destruct o; intros [= <-]; cbn [allocated].
  - unfold alloc_string. mk. apply makes_alloc; [|done]. intros l. apply string_bytes_ok.
  - unfold new_symbol. do 4 mk. apply makes_bind; [apply good_mmodify; intros h H; split; [by apply heap_ok_set_symbol|by apply evolves_same_slots]|]. intros ?. apply makes_alloc; [|by eexists]. intros l. by left.
  - unfold alloc_object. mkl. apply makesl_alloc; [by right|done].
  - unfold alloc_object_with_properties. do 2 mk. mkl. apply makesl_alloc; [by right|done].
  - unfold alloc_array. destruct (_ <? _); [apply makes_fail|]. do 3 mk. mkl. apply makesl_alloc; [by right|by eexists].
  - unfold alloc_promise_with_prototype. do 2 mk. mkl. apply makesl_alloc; [|done]. right. by rewrite promise_bytes_ok.
  - unfold alloc_native_function. do 2 mk. mkl. apply makesl_fun; [right; apply function_size_ok|intros x|intros x].
    + destruct construct; [apply (good_finish _ _ _ true)|apply (good_finish _ _ _ false)].
    + destruct construct; [apply (finish_id _ _ _ true)|apply (finish_id _ _ _ false)].
  - unfold alloc_ecma_function. do 2 mk. mkl. apply makesl_fun; [right; apply function_size_ok|intros x|intros x].
    + apply (good_finish _ _ _ c).
    + apply (finish_id _ _ _ c).
  - unfold alloc_user_function. do 2 mk. mkl. apply makesl_fun; [right; apply function_size_ok|intros x|intros x].
    + apply (good_finish _ _ _ false).
    + apply (finish_id _ _ _ false).
  - unfold alloc_bound_function. mk. unfold alloc_bound_function_raw. do 2 mk. mkl.
    apply makesl_alloc; [right; apply function_size_ok|]. eexists. split; [reflexivity|]. done.
  - unfold env_create. do 2 mk. mkl. apply makesl_alloc; [by right|done].
  - unfold alloc_declarative_env_record. do 2 mk. destruct (negb a); [apply makes_fail|]. mk. mkl.
    destruct (has_adjacent_dup _ _); [intros h h' id _ _ E; discriminate E|]. apply makesl_alloc.
    + right. rewrite env_bytes_ok. simpl. unfold nlen. by rewrite sort_by_length.
    + eexists. split; [apply sort_by_perm|done].
  - unfold alloc_object_env_record. do 2 mk. destruct (negb a); [apply makes_fail|]. mk. mkl. apply makesl_alloc; [by left|done].
Qed.
Lemma allocates_newer o m h0 h' id : allocates o = Some m -> heap_ok h0 -> m h0 = (h', Ok id) -> newer h0 h' id.
Proof.
  intros Ha H E.
  assert (F : ft no_target [] m (fun id => [id])).
  { destruct o; try discriminate Ha; injection Ha as <-;
      first [apply ft_alloc_string|apply ft_new_symbol|apply ft_alloc_object|apply ft_alloc_object_with_properties|apply ft_alloc_array
            |apply ft_alloc_promise|apply ft_alloc_native_function|apply ft_alloc_ecma_function|apply ft_alloc_user_function
            |apply ft_alloc_bound_function|apply ft_env_create|apply ft_alloc_declarative_env|apply ft_alloc_object_env]. }
  destruct (F h0 h0 h' (Ok id) H H) as (_ & _ & _ & R); auto; [by apply keeps_refl|intros f Hf; by apply elem_of_nil in Hf|].
  apply (R id eq_refl). set_solver.
Qed.
Lemma newer_not_live h h' id : heap_ok h -> evolves h h' -> newer h h' id -> live h' id -> h_gc_runs h' < h_gc_runs h + two32 -> ~ live h id.
Proof.
  intros H V Hn (o' & hs' & s' & B1 & B2 & B3 & _) Hr (o & hs & s & A1 & A2 & A3 & _).
  destruct (Hn s A1) as [?|(s1 & k & C1 & C2 & C3)]; [congruence|]. assert (s1 = s') by congruence. subst s1.
  pose proof (so_gen _ _ (hk_slots h H _ _ A1)) as Hg.
  assert (k = 0); [|lia]. apply (mod_two32_same (sl_gen s)); auto; try lia; congruence.
Qed.
Lemma allocates_safe o m h h' id : allocates o = Some m -> heap_ok h -> no_dangling h -> disciplined o h -> m h = (h', Ok id) -> live h' id.
Proof.
  intros Ha H C D E.
  assert (F : safe [] (op_handles o) m (fun id => gives [id])).
  { destruct o; try discriminate Ha; injection Ha as <-;
    first [apply safe_alloc_string|apply safe_new_symbol; hnd|apply safe_alloc_object|apply safe_alloc_object_with_properties; hnd
      |apply safe_alloc_array|apply safe_alloc_promise; hnd|apply safe_alloc_native_function; hnd|apply safe_alloc_ecma_function; hnd
      |apply safe_alloc_user_function; hnd
      |apply safe_alloc_bound_function; cbn [op_handles]; rewrite (handles_trace (this :: args)), trace_values_cons; hnd|apply safe_env_create; hnd|apply safe_alloc_declarative; hnd|apply safe_alloc_object_env; hnd]. }
  destruct (F h h' (Ok id) H C) as (_ & _ & _ & R); auto.
  - intros x Hx. by apply elem_of_nil in Hx.
  - destruct o; try discriminate Ha; exact D.
  - apply (R id eq_refl). set_solver.
Qed.

(** *** Disciplined histories *)
Lemma safe_run os h : heap_ok h -> no_dangling h -> disciplined_history os h -> no_dangling (run os h).
Proof.
  revert h. induction os as [|o os IH]; intros h H C D; [done|]. destruct D as [D1 D2]. cbn [run].
  destruct (safe_exec o h H C D1) as [C1 _]. apply IH; auto. by apply exec_step.
Qed.
Lemma heap_new_safe ly mb gt : no_dangling (heap_new ly mb gt).
Proof.
  split.
  - intros id R. exfalso. destruct R; cbn in H; by apply elem_of_nil in H.
  - intros id o id' (hs & s & A & _). cbn in A. by rewrite lookup_nil in A.
Qed.
Lemma disciplined_no_dangling h : disciplined_state h -> no_dangling h.
Proof.
  intros (ly & mb & gt & os & Hl & D & ->). apply safe_run; auto; [by apply heap_new_ok|apply heap_new_safe].
Qed.
Lemma tidy_rooted h h' id : stack_ext h h' -> pers_eq h h' -> rooted h id -> rooted h' id.
Proof.
  intros [[l1 E1] [l2 E2]] (P1 & _ & P2 & _ & P3) R. destruct R.
  - eapply rt_stack; eauto. rewrite E1. set_solver.
  - apply rt_env_stack. rewrite E2. set_solver.
  - eapply rt_persistent; eauto. by rewrite P1.
  - apply rt_persistent_env. by rewrite P2.
  - apply rt_registry_key. auto.
  - apply rt_registry_sym. auto.
Qed.
Lemma live_dec_contents h id : live h id -> exists o, live_as h id o.
Proof. done. Qed.
Lemma frame_reachable o h id ob : disciplined_state h -> disciplined o h -> root_op o = false -> op_writes o = [] ->
  h_gc_runs (fst (exec o h)) < h_gc_runs h + two32 ->
  reachable h [] id -> live_as h id ob -> live_as (fst (exec o h)) id ob /\ reachable (fst (exec o h)) [] id.
Proof.
  intros Hd D Hro Hw Hr R. pose proof (reachable_state_ok _ (disciplined_reachable _ Hd)) as H.
  pose proof (disciplined_no_dangling _ Hd) as C. destruct (safe_exec o h H C D) as [C' _].
  destruct (exec o h) as [h' r] eqn:E. cbn [fst] in *.
  destruct (tidy_exec o Hro _ _ _ E) as [S P]. destruct (fr_exec o _ _ _ H E) as [H' K].
  assert (Same : forall x a, live_as h x a -> live h' x -> live_as h' x a).
  { intros x a La [b Lb]. replace a with b; [done|]. refine (keeps_live (fun x => x ∈ op_writes o) h h' x a b H K Hr _ La Lb). cbn beta. rewrite Hw. intros Hn. by apply elem_of_nil in Hn. }
  revert ob. induction R as [x Hx|x Hx Lx|x a y R IH La Hxy Ly]; intros ob Lo.
  - by apply elem_of_nil in Hx.
  - assert (L' : live h' x) by (apply C'; by eapply tidy_rooted). split; [by apply Same|]. apply reach_root; auto. by eapply tidy_rooted.
  - destruct (IH a La) as [La' R']. assert (L' : live h' y) by (eapply C'; eauto). split; [by apply Same|].
    eapply reach_step; eauto.
Qed.

(** *** Persistent roots *)
Lemma get_root_run i v os h : heap_ok h -> get_root h i = Some v -> forallb (fun o => negb (touches_root i o)) os = true ->
  get_root (run os h) i = Some v.
Proof.
  revert h. induction os as [|o os IH]; intros h H Hg Ht; [done|]. cbn in *. apply andb_true_iff in Ht as [T1 T2].
  apply negb_true_iff in T1. apply IH; auto; [by apply exec_step|]. by apply (keep_root i v o T1).
Qed.
Lemma get_env_root_run i v os h : heap_ok h -> get_env_root h i = Some v -> forallb (fun o => negb (touches_env_root i o)) os = true ->
  get_env_root (run os h) i = Some v.
Proof.
  revert h. induction os as [|o os IH]; intros h H Hg Ht; [done|]. cbn in *. apply andb_true_iff in Ht as [T1 T2].
  apply negb_true_iff in T1. apply IH; auto; [by apply exec_step|]. by apply (keep_env_root i v o T1).
Qed.
Lemma add_root_fresh v h h' i : heap_ok h -> add_root v h = (h', Ok i) ->
  get_root h i = None /\ get_root h' i = Some v /\ forall j, j <> i -> get_root h' j = get_root h j.
Proof.
  intros H E. destruct (add_root_spec v h H) as (h1 & H1 & G & [E1|(h2 & j & E1 & H2 & Es & R & Hj & Hk & Ho)]); rewrite E1 in E; simplify_eq.
  split; [|split; [unfold get_root; by rewrite Hj|exact Ho]].
  unfold get_root. destruct (h_proots h !! i) as [[w|]|] eqn:Hi; auto. by destruct (Hk i w Hi).
Qed.
Lemma get_root_rooted h i v id : get_root h i = Some v -> value_has v id -> rooted h id.
Proof.
  unfold get_root. destruct (h_proots h !! i) as [[w|]|] eqn:Hi; try done. intros [= ->] Hv. eapply rt_persistent; eauto.
  apply elem_of_list_lookup. eauto.
Qed.
Lemma get_env_root_rooted h i e : get_env_root h i = Some e -> rooted h e.
Proof.
  unfold get_env_root. destruct (h_peroots h !! i) as [[w|]|] eqn:Hi; try done. intros [= ->]. apply rt_persistent_env.
  apply elem_of_list_lookup. eauto.
Qed.
Lemma remove_root_get i h : heap_ok h -> get_root (fst (remove_root i h)) i = None /\
  forall j, j <> i -> get_root (fst (remove_root i h)) j = get_root h j.
Proof.
  intros H. unfold remove_root. destruct (h_proots h !! i) as [[w|]|] eqn:Hi; cbn [fst].
  - unfold get_root. cbn. split; [|intros j Hj; by rewrite list_lookup_insert_ne].
    rewrite list_lookup_insert; [done|]. eapply lookup_lt_Some; eauto.
  - unfold get_root. by rewrite Hi.
  - unfold get_root. by rewrite Hi.
Qed.
Lemma set_root_get i v h : get_root h i <> None -> get_root (fst (set_root i v h)) i = Some v /\
  forall j, j <> i -> get_root (fst (set_root i v h)) j = get_root h j.
Proof.
  unfold set_root, get_root. destruct (h_proots h !! i) as [[w|]|] eqn:Hi; cbn [fst]; try done. intros _. cbn.
  split; [|intros j Hj; by rewrite list_lookup_insert_ne].
  rewrite list_lookup_insert; [done|]. eapply lookup_lt_Some; eauto.
Qed.
(** *** Scopes *)
Lemma scope_restores body h : heap_ok h ->
  h_roots (fst (exec (OpScope body) h)) = h_roots h /\ h_env_roots (fst (exec (OpScope body) h)) = h_env_roots h.
Proof.
  intros H. rewrite exec_scope_state. cbn.
  assert (S : stack_ext h (run body h)).
  { revert h H. induction body as [|o os IH]; intros h H; [apply stack_ext_refl|]. cbn [run].
    destruct (exec o h) as [h1 r] eqn:E. eapply stack_ext_trans; [eapply (stack_keep_exec o); eauto|]. cbn [fst]. apply IH.
    by destruct (good_exec o _ _ _ H E). }
  destruct S as [[l1 E1] [l2 E2]]. rewrite E1, E2, !take_app. done.
Qed.
Lemma run_stack os h : heap_ok h -> stack_ext h (run os h).
Proof.
  revert h. induction os as [|o os IH]; intros h H; [apply stack_ext_refl|]. cbn [run].
  destruct (exec o h) as [h1 r] eqn:E. eapply stack_ext_trans; [eapply (stack_keep_exec o); eauto|]. cbn [fst]. apply IH.
  by destruct (good_exec o _ _ _ H E).
Qed.

(** *** The generation counter wraps *)
Definition demo_layout : layout := Layout 64 16 16 8 16 8 16 48 48 32 96 64.
Definition demo_heap : heap := heap_new demo_layout 1000000 1000000.
Lemma demo_limits : limits_ok demo_layout 1000000.
Proof. repeat split; vm_compute; reflexivity. Qed.
Definition churned (g r : N) : heap :=
  Heap demo_layout 1000000 1000000 0 r [Slot g None None 0] [0%nat] [0%nat] 1 [] [] [] [] [] [] [] (Caps 1 1 1 1 0 0 0 0 0 0 0).
Lemma churn_one g r : run (churn 1) (churned g r) = churned (wrapping_succ32 g) (r + 1).
Proof. vm_compute. reflexivity. Qed.
Lemma churn_cons n h : run (churn (S n)) h = run (churn n) (run (churn 1) h).
Proof. reflexivity. Qed.
Lemma churn_many n g r : g < two32 -> run (churn n) (churned g r) = churned ((g + N.of_nat n) mod two32) (r + N.of_nat n).
Proof.
  revert g r. induction n as [|n IH]; intros g r Hg.
  - cbn [churn run]. f_equal; [|lia]. rewrite N.add_0_r, N.mod_small; auto.
  - rewrite churn_cons, churn_one, IH by apply wrapping_succ32_lt. f_equal; [|lia].
    unfold wrapping_succ32. rewrite N.add_mod_idemp_l by done. f_equal. lia.
Qed.
Lemma stale_wraps : exists (h : heap) (id : heap_id) (os : list op), reachable_state h /\ live_as h id (HString [97]) /\
  ~ live (fst (exec OpCollect h)) id /\ live_as (run os (fst (exec OpCollect h))) id (HString [98]).
Proof.
  exists (run [OpAllocString [97]] demo_heap), (HId 0 0), (churn (N.to_nat (two32 - 1)) ++ [OpAllocString [98]]).
  split; [|split; [|split]].
  - exists demo_layout, 1000000, 1000000, [OpAllocString [97]]. split; [apply demo_limits|done].
  - exists None, (Slot 0 (Some (HString [97])) None 2). repeat split.
  - intros (o & hs & s & A & B & C & D). vm_compute in A. simplify_eq.
  - rewrite run_app. replace (fst (exec OpCollect (run [OpAllocString [97]] demo_heap))) with (churned 1 1) by (vm_compute; reflexivity).
    rewrite churn_many by done. rewrite N2Nat.id. replace (1 + (two32 - 1)) with two32 by done. rewrite N.mod_same by done.
    exists None, (Slot 0 (Some (HString [98])) None 2). repeat split.
Qed.

(** *** Checking concrete histories *)
Definition liveb (h : heap) (id : heap_id) : bool :=
  match h_slots h !! hid_index id with
  | Some s => (sl_gen s =? hid_gen id) && (match sl_value s with Some _ => true | None => false end)
  | None => false
  end.
Lemma liveb_live h id : liveb h id = true <-> live h id.
Proof.
  unfold liveb. split.
  - destruct (h_slots h !! hid_index id) as [s|] eqn:E; [|done]. intros [E1 E2]%andb_true_iff. apply N.eqb_eq in E1.
    destruct (sl_value s) as [o|] eqn:Ev; [|done]. by exists o, (sl_host s), s.
  - intros (o & hs & s & A & B & C & D). rewrite A, C. apply andb_true_iff. split; [by apply N.eqb_eq|done].
Qed.
Fixpoint disc_b (os : list op) (h : heap) : bool :=
  match os with
  | [] => true
  | OpScope _ :: _ | OpSetFunctionName _ _ _ :: _ => false
  | o :: os => forallb (liveb h) (op_handles o) && disc_b os (fst (exec o h))
  end.
Lemma disc_b_ok os h : disc_b os h = true -> disciplined_history os h.
Proof.
  revert h. induction os as [|o os IH]; intros h Hb; [done|]. cbn [disciplined_history].
  assert (K : forallb (liveb h) (op_handles o) = true /\ disc_b os (fst (exec o h)) = true).
  { destruct o; try discriminate Hb; by apply andb_true_iff in Hb. }
  destruct K as [K1 K2]. split; [|by apply IH]. rewrite forallb_forall in K1.
  assert (K3 : forall id, id ∈ op_handles o -> live h id) by (intros id Hi; apply liveb_live, K1; by apply elem_of_list_In).
  destruct o; try discriminate Hb; exact K3.
Qed.
Lemma not_liveb h id : liveb h id = false -> ~ live h id.
Proof. intros Hb Hl%liveb_live. congruence. Qed.
(** A root, a cycle through it, an unreachable string. *)
Definition demo_obj := HId 0 0.
Definition demo_key := HId 1 0.
Definition demo_peer := HId 2 0.
Definition demo_garbage := HId 3 0.
Definition value_patch (v : value) : descriptor_patch := PPatch (Some true) (Some false) (Some v) (Some true) None None.
Definition demo_ops : list op :=
  [OpAllocObject; OpAddRoot (VObject demo_obj); OpAllocString [97]; OpAddRoot (VString demo_key); OpAllocObject;
   OpDefineOwn demo_obj (PKString demo_key) (value_patch (VObject demo_peer));
   OpDefineOwn demo_peer (PKString demo_key) (value_patch (VObject demo_obj));
   OpAllocString [103]].
Definition demo : heap := run demo_ops demo_heap.
Lemma demo_disciplined : disciplined_state demo.
Proof.
  exists demo_layout, 1000000, 1000000, demo_ops. split; [apply demo_limits|]. split; [|done]. apply disc_b_ok. vm_compute. reflexivity.
Qed.
Lemma demo_reachable : reachable_state demo.
Proof. apply disciplined_reachable, demo_disciplined. Qed.

(** What a handle resolves to, computed. *)
Definition resolve (h : heap) (id : heap_id) : option heap_object :=
  match h_slots h !! hid_index id with
  | Some s => if sl_gen s =? hid_gen id then sl_value s else None
  | None => None
  end.
Lemma resolve_live h id o : resolve h id = Some o <-> live_as h id o.
Proof.
  unfold resolve. split.
  - destruct (h_slots h !! hid_index id) as [s|] eqn:E; [|done]. destruct (N.eqb_spec (sl_gen s) (hid_gen id)); [|done].
    intros Hv. by exists (sl_host s), s.
  - intros (hs & s & A & B & C & D). by rewrite A, B, N.eqb_refl.
Qed.

(** A live but unrooted name passed to [set_function_name]. *)
Definition fname_ops : list op :=
  [OpAllocString [102]; OpAddRoot (VString (HId 0 0)); OpAllocUser 0 (HId 0 0) 0;
   OpAddRoot (VObject (HId 1 0)); OpPushRoots (replicate 8 VNull); OpAllocString [110]].
Lemma function_name_dangles : exists h f name, disciplined_state h /\ live h f /\ live h name /\
  snd (exec (OpSetFunctionName f (PKString name) None) h) = Ok tt /\
  ~ no_dangling (fst (exec (OpSetFunctionName f (PKString name) None) h)).
Proof.
  exists (run fname_ops (heap_new demo_layout 1000000 0)), (HId 1 0), (HId 4 0). split; [|split; [|split; [|split]]].
  - exists demo_layout, 1000000, 0, fname_ops. split; [apply demo_limits|]. split; [|done]. apply disc_b_ok. vm_compute. reflexivity.
  - apply liveb_live. vm_compute. reflexivity.
  - apply liveb_live. vm_compute. reflexivity.
  - vm_compute. reflexivity.
  - set (h := fst _). intros [_ C].
    assert (K : match h_slots h !! 1%nat with Some (Slot 0 (Some (HFunction f)) _ _) => bool_decide (fn_name f = HId 4 0) | _ => false end = true)
      by (vm_compute; reflexivity).
    destruct (h_slots h !! 1%nat) as [[[|g] [[| | |f| |]|] hs b]|] eqn:E; try discriminate K. apply bool_decide_eq_true in K.
    assert (L : live h (HId 4 0)).
    { apply (C (HId 1 0) (HFunction f)); [exists hs; eexists; split; [exact E|]; by repeat split|].
      apply oh_function. rewrite <- K. apply fh_name. }
    revert L. apply not_liveb. vm_compute. reflexivity.
Qed.
