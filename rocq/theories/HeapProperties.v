(** Properties of the vm-js heap (C01-C07, C55-C57).

    [reachable_state h]: [h] is the heap after some finite sequence of heap API
    calls.  [disciplined_state h]: the same, where every handle passed to a call
    was still live at that moment.  [live_with h id o hs]: handle [id] resolves in
    [h] to object [o] with host slots [hs]. *)
From stdpp Require Import base decidable list numbers.
From Coq Require Import NArith ZArith Lia.
From Verif Require Import VmBase HeapModel HeapObjModel HeapSpec ObjectOpsModel HeapInvProofs HeapHistory HeapHistoryProofs
  HeapFrameProofs HeapApiSpec HeapApiProofs.

Open Scope N_scope.

(** ** C01: a collection keeps everything reachable, with the same contents. *)
Theorem gc_preserves_reachable : forall h extra, reachable_state h ->
  exists h', collect_with extra h = Some h' /\
    (forall id o hs, reachable h extra id -> live_with h id o hs -> live_with h' id o hs) /\
    h_roots h' = h_roots h /\ h_env_roots h' = h_env_roots h /\ h_proots h' = h_proots h /\
    h_peroots h' = h_peroots h /\ h_registry h' = h_registry h.
Proof. intros h extra H. destruct (gc_keeps h extra H) as (h' & A & B & C & D1 & D2 & D3 & D4 & D5 & E). by exists h'. Qed.
Print Assumptions gc_preserves_reachable.

Example gc_preserves_reachable_case : reachable_state demo /\ reachable demo [] demo_peer /\ live demo demo_peer.
Proof.
  split; [apply demo_reachable|]. assert (L : live demo demo_peer) by (apply liveb_live; vm_compute; reflexivity).
  split; [|done]. pose (e := PEntry (PKString demo_key) (PDesc true false (PData (VObject demo_peer) true))).
  apply (reach_step _ _ demo_obj (HObject (OBase None true [e] KOrdinary))); [| |apply oh_object, (bh_desc _ e)|exact L].
  - apply reach_root; [|apply liveb_live; vm_compute; reflexivity]. eapply rt_persistent; [|apply vh_object].
    vm_compute. apply elem_of_list_here.
  - apply resolve_live. vm_compute. reflexivity.
  - apply elem_of_list_here.
  - apply dh_data. apply vh_object.
Qed.

(** ** C02: a collection frees everything else, and gives the bytes back. *)
Theorem gc_frees_unreachable : forall h extra h', reachable_state h -> collect_with extra h = Some h' ->
  (forall id, live h' id -> reachable h extra id) /\ h_used h' = live_payload h'.
Proof.
  intros h extra h' H E. destruct (gc_keeps h extra H) as (h1 & A & B & C & D1 & D2 & D3 & D4 & D5 & F).
  assert (h1 = h') by congruence. by subst h1.
Qed.
Print Assumptions gc_frees_unreachable.

Example gc_frees_unreachable_case : exists h', collect_with [] demo = Some h' /\ live demo demo_garbage /\ ~ live h' demo_garbage /\
  h_used h' + 2 = h_used demo.
Proof.
  exists (fst (collect_garbage demo)). split; [vm_compute; reflexivity|]. split; [apply liveb_live; vm_compute; reflexivity|].
  split; [apply not_liveb; vm_compute; reflexivity|]. vm_compute. reflexivity.
Qed.

(** ** C03: a successful allocation returns a handle that was not live, denoting what
    was asked for; every other handle still live has its old contents, and
    everything reachable is still live.  The bound on the number of collections is
    the generation wrap-around of C04. *)
Theorem allocation_is_fresh : forall o m h h' id, allocates o = Some m -> disciplined_state h -> disciplined o h ->
  m h = (h', Ok id) -> h_gc_runs h' < h_gc_runs h + two32 ->
  ~ live h id /\
  (exists new, live_as h' id new /\ allocated o new) /\
  (forall other x x', live_as h other x -> live_as h' other x' -> x' = x) /\
  (forall other x, reachable h [] other -> live_as h other x -> live_as h' other x).
Proof.
  intros o m h h' id Ha Hd D E Hr. pose proof (reachable_state_ok _ (disciplined_reachable _ Hd)) as H.
  pose proof (disciplined_no_dangling _ Hd) as C. pose proof (allocates_safe o m h h' id Ha H C D E) as L.
  assert (Ex : fst (exec o h) = h').
  { destruct o; try discriminate Ha; injection Ha as <-; cbn [exec]; rewrite void_fst; by rewrite E. }
  destruct (exec_step o h H) as (H' & V & _). rewrite Ex in *.
  split; [|split; [|split]].
  - eapply newer_not_live; eauto. eapply allocates_newer; eauto.
  - by apply (allocates_makes o m Ha h h' id).
  - intros other x x' L1 L2. destruct (exec o h) as [h1 r] eqn:E1. cbn in Ex. subst h1.
    destruct (fr_exec o _ _ _ H E1) as [_ K]. refine (keeps_live _ h h' other x x' H K Hr _ L1 L2).
    destruct o; try discriminate Ha; intros Hn; by apply elem_of_nil in Hn.
  - intros other x R L1. rewrite <- Ex. apply frame_reachable; auto; try (rewrite Ex; done);
      destruct o; try discriminate Ha; reflexivity.
Qed.
Print Assumptions allocation_is_fresh.

Example allocation_is_fresh_case : disciplined_state demo /\ disciplined (OpAllocArray 3) demo /\
  exists h' id, alloc_array 3 demo = (h', Ok id) /\ h_gc_runs h' < h_gc_runs demo + two32.
Proof.
  split; [apply demo_disciplined|]. split; [intros id Hid; by apply elem_of_nil in Hid|].
  assert (K : match alloc_array 3 demo with (h', Ok _) => h_gc_runs h' <? two32 | _ => false end = true) by (vm_compute; reflexivity).
  destruct (alloc_array 3 demo) as [h' [id| |]]; try discriminate K. exists h', id. split; [done|]. by apply N.ltb_lt in K.
Qed.

(** ** C04: a freed handle does not resolve again (for the next 2^32-1
    collections), and a handle that resolves always denotes the object it was
    created for. *)
Theorem stale_handle_stays_stale : forall h os1 os2 id, reachable_state h ->
  h_gc_runs (run os2 (run os1 h)) < h_gc_runs h + two32 ->
  live h id -> ~ live (run os1 h) id -> ~ live (run os2 (run os1 h)) id.
Proof.
  intros h os1 os2 id H%reachable_state_ok. destruct (good_run os1 h H) as [H1 V1]. destruct (good_run os2 _ H1) as [H2 V2].
  by apply stale_stays.
Qed.
Print Assumptions stale_handle_stays_stale.

Theorem handle_keeps_kind : forall h os id o o', reachable_state h -> h_gc_runs (run os h) < h_gc_runs h + two32 ->
  live_as h id o -> live_as (run os h) id o' -> same_kind o o'.
Proof. intros h os id o o' H%reachable_state_ok Hr. destruct (good_run os h H) as [H1 V1]. by apply evolves_kind. Qed.
Print Assumptions handle_keeps_kind.

(** The bound is necessary: the 32-bit generation wraps, and the handle of a freed
    string then resolves to a different string. *)
Theorem stale_handle_forever_refuted : exists h id os, reachable_state h /\ live_as h id (HString [97]) /\
  ~ live (fst (exec OpCollect h)) id /\ live_as (run os (fst (exec OpCollect h))) id (HString [98]).
Proof. exact stale_wraps. Qed.
Print Assumptions stale_handle_forever_refuted.

Example stale_handle_case : live demo demo_garbage /\ ~ live (run [OpCollect] demo) demo_garbage /\
  live (run [OpAllocString [98]] (run [OpCollect] demo)) (HId 3 1) /\
  h_gc_runs (run [OpAllocString [98]] (run [OpCollect] demo)) < h_gc_runs demo + two32.
Proof.
  split; [apply liveb_live; vm_compute; reflexivity|]. split; [apply not_liveb; vm_compute; reflexivity|].
  split; [apply liveb_live; vm_compute; reflexivity|]. vm_compute. reflexivity.
Qed.

(** ** C05: the byte counter is exact and the heap never exceeds its limit. *)
Theorem bytes_exact_and_bounded : forall h, reachable_state h ->
  h_used h = live_payload h /\ estimated_total_bytes h = total_bytes h /\ total_bytes h <= h_max_bytes h.
Proof.
  intros h H%reachable_state_ok. pose proof (hk_total h H) as Ht. pose proof (hk_lim h H) as (_&_&_&_&Hm&_).
  split; [by apply live_payload_used|]. split; [|done]. rewrite estimated_total_bytes_exact. apply N.min_l. lia.
Qed.
Print Assumptions bytes_exact_and_bounded.

(** A call that fails, whatever the error, frees nothing that is reachable and
    changes no object outside the ones it was asked to write. *)
Theorem failed_call_keeps_others : forall o h e id x x', reachable_state h -> snd (exec o h) = Err e ->
  h_gc_runs (fst (exec o h)) < h_gc_runs h + two32 -> id ∉ op_writes o ->
  live_as h id x -> live_as (fst (exec o h)) id x' -> x' = x.
Proof.
  intros o h e id x x' H%reachable_state_ok _ Hr Hw L1 L2. destruct (exec o h) as [h1 r] eqn:E1. cbn in *.
  destruct (fr_exec o _ _ _ H E1) as [_ K]. exact (keeps_live _ h h1 id x x' H K Hr Hw L1 L2).
Qed.
Print Assumptions failed_call_keeps_others.

(** An allocation fails under a small limit (1000000 in the demo heap). *)
Example out_of_memory_case :
  snd (exec (OpAllocString (replicate 1000 97)) (run [OpAllocObject] (heap_new demo_layout 1000 1000))) = Err EOutOfMemory.
Proof. vm_compute. reflexivity. Qed.

(** ** C06: persistent roots. *)
Theorem add_root_registers : forall h v h' i, reachable_state h -> add_root v h = (h', Ok i) ->
  get_root h i = None /\ get_root h' i = Some v /\ forall j, j <> i -> get_root h' j = get_root h j.
Proof. intros h v h' i H%reachable_state_ok. by apply add_root_fresh. Qed.
Print Assumptions add_root_registers.

Theorem root_until_changed : forall h i v os, reachable_state h -> get_root h i = Some v ->
  forallb (fun o => negb (touches_root i o)) os = true -> get_root (run os h) i = Some v.
Proof. intros h i v os H%reachable_state_ok. by apply get_root_run. Qed.
Print Assumptions root_until_changed.

Theorem env_root_until_changed : forall h i e os, reachable_state h -> get_env_root h i = Some e ->
  forallb (fun o => negb (touches_env_root i o)) os = true -> get_env_root (run os h) i = Some e.
Proof. intros h i v os H%reachable_state_ok. by apply get_env_root_run. Qed.
Print Assumptions env_root_until_changed.

Theorem root_set_and_remove : forall h i v, reachable_state h ->
  (get_root h i <> None -> get_root (fst (set_root i v h)) i = Some v) /\
  (forall j, j <> i -> get_root (fst (set_root i v h)) j = get_root h j) /\
  get_root (fst (remove_root i h)) i = None /\
  (forall j, j <> i -> get_root (fst (remove_root i h)) j = get_root h j).
Proof.
  intros h i v H%reachable_state_ok. destruct (remove_root_get i h H) as [R1 R2].
  destruct (get_root h i) as [w|] eqn:Hg.
  - destruct (set_root_get i v h) as [S1 S2]; [by rewrite Hg|]. by repeat split.
  - split; [done|]. split; [|by split]. intros j Hj. unfold set_root, get_root in *.
    destruct (h_proots h !! i) as [[?|]|]; done.
Qed.
Print Assumptions root_set_and_remove.

(** A rooted object is never collected, however long the root is held. *)
Theorem rooted_stays_live : forall h i v id os, disciplined_state h -> get_root h i = Some v -> value_has v id ->
  forallb (fun o => negb (touches_root i o)) os = true -> disciplined_history os h -> live (run os h) id.
Proof.
  intros h i v id os Hd Hg Hv Ht D. pose proof (disciplined_state_run os h Hd D) as Hd'.
  apply (disciplined_no_dangling _ Hd'). eapply get_root_rooted; [|exact Hv].
  eapply root_until_changed; eauto. by apply disciplined_reachable.
Qed.
Print Assumptions rooted_stays_live.

(** A removed id is reused: a stale [RootId] then denotes someone else's root. *)
Theorem removed_root_id_reused_refuted : exists h i v w, reachable_state h /\ get_root h i = Some v /\ v <> w /\
  get_root (fst (remove_root i h)) i = None /\
  get_root (run [OpRemoveRoot i; OpAddRoot w] h) i = Some w.
Proof.
  exists demo, 0%nat, (VObject demo_obj), (VBool true). split; [apply demo_reachable|].
  split; [vm_compute; reflexivity|]. split; [discriminate|]. split; vm_compute; reflexivity.
Qed.
Print Assumptions removed_root_id_reused_refuted.

Example root_case : get_root demo 0 = Some (VObject demo_obj) /\
  forallb (fun o => negb (touches_root 0 o)) [OpCollect; OpAddRoot (VBool true); OpRemoveRoot 1] = true /\
  disciplined_history [OpCollect; OpAddRoot (VBool true); OpRemoveRoot 1] demo.
Proof. split; [vm_compute; reflexivity|]. split; [reflexivity|]. apply disc_b_ok. vm_compute. reflexivity. Qed.

(** ** C07: a scope leaves the root stacks as it found them, and while it is open
    everything pushed stays on them. *)
Theorem scope_restores_stack : forall h body, reachable_state h ->
  h_roots (fst (exec (OpScope body) h)) = h_roots h /\ h_env_roots (fst (exec (OpScope body) h)) = h_env_roots h.
Proof. intros h body H%reachable_state_ok. by apply scope_restores. Qed.
Print Assumptions scope_restores_stack.

Theorem stack_roots_persist : forall h os, reachable_state h ->
  h_roots h `prefix_of` h_roots (run os h) /\ h_env_roots h `prefix_of` h_env_roots (run os h).
Proof. intros h os H%reachable_state_ok. by apply run_stack. Qed.
Print Assumptions stack_roots_persist.

Example scope_case : h_roots (run [OpPushRoots [VObject demo_peer]] demo) = h_roots demo ++ [VObject demo_peer] /\
  h_roots (fst (exec (OpScope [OpPushRoots [VObject demo_peer]; OpScope [OpPushRoots [VNull; VNull]]]) demo)) = h_roots demo.
Proof. split; vm_compute; reflexivity. Qed.

(** ** C55: no history of calls on live handles leaves a dangling reference. *)
Theorem no_dangling_references : forall h, disciplined_state h -> no_dangling h.
Proof. exact disciplined_no_dangling. Qed.
Print Assumptions no_dangling_references.

(** [set_function_name] needs its name rooted, not merely live: the collection it
    may start frees an unrooted name, and the function then refers to it. *)
Theorem unrooted_function_name_refuted : exists h f name, disciplined_state h /\ live h f /\ live h name /\
  snd (exec (OpSetFunctionName f (PKString name) None) h) = Ok tt /\
  ~ no_dangling (fst (exec (OpSetFunctionName f (PKString name) None) h)).
Proof. exact function_name_dangles. Qed.
Print Assumptions unrooted_function_name_refuted.

Example no_dangling_case : disciplined_state demo /\ rooted demo demo_peer.
Proof.
  split; [apply demo_disciplined|]. eapply rt_stack with (v := VObject demo_peer); [|apply vh_object].
  vm_compute. do 2 apply elem_of_list_further. apply elem_of_list_here.
Qed.

(** ** C56: no call panics, whatever handles it is given. *)
Theorem heap_calls_never_panic : forall h o, reachable_state h -> snd (exec o h) <> Panic.
Proof. intros h o H%reachable_state_ok. by apply exec_step. Qed.
Print Assumptions heap_calls_never_panic.

(** Stale and ill-kinded handles are errors. *)
Example heap_calls_never_panic_case :
  snd (exec (OpDefineOwn (HId 77 5) (PKString demo_key) (value_patch VNull)) demo) = Err EInvalidHandle /\
  snd (exec (OpSetExtensible demo_key false) demo) = Err EInvalidHandle.
Proof. split; vm_compute; reflexivity. Qed.

(** ** C57: a call changes only the objects it is asked to write. *)
Theorem calls_change_only_their_targets : forall h os id x x', reachable_state h ->
  h_gc_runs (run os h) < h_gc_runs h + two32 -> (forall o, o ∈ os -> id ∉ op_writes o) ->
  live_as h id x -> live_as (run os h) id x' -> x' = x.
Proof.
  intros h os id x x' H%reachable_state_ok Hr Hw. 
  apply (keeps_live (fun y => y <> id) h (run os h)); auto. apply fr_run; auto.
  intros o y Ho Hy ->. by apply (Hw o).
Qed.
Print Assumptions calls_change_only_their_targets.

Example calls_change_only_their_targets_case :
  let os := [OpDefineOwn demo_obj (PKString demo_key) (value_patch VNull); OpCollect; OpSetPrototype demo_obj None] in
  (forall o, o ∈ os -> demo_peer ∉ op_writes o) /\ live demo demo_peer /\ live (run os demo) demo_peer.
Proof.
  split; [|split; apply liveb_live; vm_compute; reflexivity].
  intros o Ho Hn. repeat (apply elem_of_cons in Ho as [->|Ho]; [vm_compute in Hn; repeat (apply elem_of_cons in Hn as [Hn|Hn]; [discriminate Hn|]); by apply elem_of_nil in Hn|]).
  by apply elem_of_nil in Ho.
Qed.
