(** Properties of vm-js objects (C08, C09, C10, C11).

    [disciplined_state h]: [h] is the heap after some finite sequence of heap API
    calls, each given live handles.  [well_formed h o v]: handle [o] denotes the
    abstract object [v] (ObjSpec), which is ordinary or an array.  [abs_key] and
    [abs_patch] read a key or a descriptor patch out of the heap.  The bound on
    the number of collections is the 32-bit generation wrap-around of C04. *)
From stdpp Require Import base decidable list numbers sets.
From Coq Require Import NArith ZArith Lia.
From Verif Require Import VmBase HeapModel HeapObjModel HeapSpec HeapGcProofs HeapInvProofs ObjectOpsModel HeapHistory HeapHistoryProofs HeapFrameProofs
  HeapApiSpec HeapApiProofs KeySpec ObjSpec ObjHistorySpec ObjViewProofs ObjDefineProofs ObjTopProofs ObjEssentialProofs ObjHistoryProofs ObjApiProofs ObjUniqueProofs.

Open Scope N_scope.

(** ** C09: [[DefineOwnProperty]] does what ECMA-262 says.  [define_spec] is the
    specification for ordinary objects and arrays; a mixed data and accessor
    descriptor is an error that changes nothing; running out of memory changes
    nothing, except that shrinking an array may stop part of the way.  No other
    object changes. *)
Theorem define_own_property_spec : forall h o v k p h' r,
  disciplined_state h -> well_formed h o v -> (forall x, x ∈ o :: key_handles k ++ patch_handles p -> live h x) ->
  good_key (abs_key h k) -> patch_good (abs_patch h p) ->
  define_own_property o k p h = (h', r) -> h_gc_runs h' < h_gc_runs h + two32 ->
  (r <> Err EOutOfMemory -> live h' o) /\
  (live h' o -> exists v', well_formed h' o v' /\
    ((exists ok, r = Ok ok /\ define_spec v (abs_key h k) (abs_patch h p) ok v') \/
     (r = Err EInvalidPatch /\ patch_mixed (abs_patch h p) /\ v' = v) \/
     (r = Err EOutOfMemory /\ define_oom v (abs_key h k) (abs_patch h p) v'))) /\
  (forall other, other <> o -> live h other -> live h' other -> abs_object h' other = abs_object h other).
Proof.
  intros h o v k p h' r Hd W L Hk Hp E Hr. pose proof (call_ready h o v Hd W) as R.
  assert (T : top o v h (define_own_property o k p) (define_result v (abs_key h k) (abs_patch h p))).
  { apply top_define_own; auto; intros x Hx; apply L; rewrite handles_key, handles_patch; set_solver. }
  destruct (top_outside _ _ h o v (OpDefineOwn o k p) h' r R Hd (disciplined_define _ _ _ _ L) (void_fst _ _) T (define_result_shape _ _ _) E Hr) as (A & B & C).
  split; [done|]. split; [|done]. intros L'. destruct (B L') as (v' & W' & [Q|[-> Ev]]); exists v'; (split; [done|]); [exact Q|]. subst v'.
  right. right. split; [done|]. constructor.
Qed.
Print Assumptions define_own_property_spec.

(** In English terms, for an ordinary object: success means that reading the
    property gives the requested fields, else the previous ones, else the
    defaults, and every other property is as before; refusal changes nothing. *)
Theorem define_then_get_own_property : forall h o v k p h' ok,
  disciplined_state h -> well_formed h o v -> ao_array v = None -> (forall x, x ∈ o :: key_handles k ++ patch_handles p -> live h x) ->
  good_key (abs_key h k) -> patch_good (abs_patch h p) ->
  define_own_property o k p h = (h', Ok ok) -> h_gc_runs h' < h_gc_runs h + two32 ->
  (ok = true <-> ~ rejects (ao_extensible v) (own v (abs_key h k)) (abs_patch h p)) /\
  forall k', good_key (abs_key h' k') -> exists d, object_get_own_property h' o k' = Ok d /\
    abs_desc h' <$> d = (if decide (ok = true /\ abs_key h' k' = abs_key h k) then Some (merged (own v (abs_key h k)) (abs_patch h p))
                         else own v (abs_key h' k')).
Proof.
  intros h o v k p h' ok Hd W Ha L Hk Hp E Hr.
  destruct (define_own_property_spec h o v k p h' (Ok ok) Hd W L Hk Hp E Hr) as (A & B & _).
  destruct (B (A ltac:(done))) as (v' & [V' W'] & [(ok' & [= <-] & S)|[(? & _)|(? & _)]]); try discriminate.
  destruct S as [_ S|n w es S]; [|rewrite (ar_len _ _ _ _ S) in Ha; discriminate].
  assert (Ho : (ok = true <-> ~ rejects (ao_extensible v) (own v (abs_key h k)) (abs_patch h p)) /\
    forall q, own v' q = if decide (ok = true /\ q = abs_key h k) then Some (merged (own v (abs_key h k)) (abs_patch h p)) else own v q).
  { destruct S as [Hr1|Hr1]; (split; [split; done|]); intros q; [rewrite decide_False; [done|]; by intros [? _]|].
    unfold own at 1. cbn [ao_props with_props]. rewrite alookup_aput. destruct (decide (q = abs_key h k)) as [->|Hne].
    - by rewrite !decide_True.
    - by rewrite !decide_False by naive_solver. }
  destruct Ho as [Ho1 Ho2]. split; [done|]. intros k' Hk'. destruct (get_own_reads h' o v' k' V' Hk') as (d & Ed & Hd'). exists d. split; [done|]. by rewrite Hd', Ho2.
Qed.
Print Assumptions define_then_get_own_property.

Example define_own_property_case : disciplined_state ex_heap /\ well_formed ex_heap ex_arr ex_view /\
  (forall x, x ∈ ex_arr :: key_handles (PKString ex_length) ++ patch_handles (length_patch 0) -> live ex_heap x) /\
  good_key (abs_key ex_heap (PKString ex_length)) /\ patch_good (abs_patch ex_heap (length_patch 0)) /\
  exists h', define_own_property ex_arr (PKString ex_length) (length_patch 0) ex_heap = (h', Ok false) /\ h_gc_runs h' < h_gc_runs ex_heap + two32 /\
    abs_object h' ex_arr = Some (AObject None true (Some 2) ((akey_length, alength 2 true) :: take 2 ex_elems)).
Proof.
  split; [apply ex_disciplined|]. split; [apply ex_well_formed|]. split.
  { assert (A : live ex_heap ex_arr /\ live ex_heap ex_length) by (split; apply liveb_live; vm_compute; reflexivity).
    destruct A as [A1 A2]. intros x [->|[->|Hx%elem_of_nil]%elem_of_cons]%elem_of_cons; done. }
  split; [by vm_compute|]. split. { split; [|split]; intros x Hx; vm_compute in Hx; try discriminate Hx; injection Hx as <-; intros []. }
  destruct (define_own_property ex_arr (PKString ex_length) (length_patch 0) ex_heap) as [h' r] eqn:E. 
  assert (K : snd (define_own_property ex_arr (PKString ex_length) (length_patch 0) ex_heap) = Ok false /\
    (h_gc_runs (fst (define_own_property ex_arr (PKString ex_length) (length_patch 0) ex_heap)) <? h_gc_runs ex_heap + two32) = true /\
    abs_object (fst (define_own_property ex_arr (PKString ex_length) (length_patch 0) ex_heap)) ex_arr = Some (AObject None true (Some 2) ((akey_length, alength 2 true) :: take 2 ex_elems)))
    by (split; [vm_compute; reflexivity|split; vm_compute; reflexivity]).
  rewrite E in K. cbn [fst snd] in K. destruct K as (-> & K2 & K3). exists h'. split; [done|]. split; [by apply N.ltb_lt|done].
Qed.

Example define_then_get_own_property_case : disciplined_state demo /\ well_formed demo demo_obj (default ex_view (abs_object demo demo_obj)) /\
  ao_array (default ex_view (abs_object demo demo_obj)) = None /\
  (exists h', define_own_property demo_obj (PKString demo_garbage) (elem_patch true) demo = (h', Ok true) /\ abs_object h' demo_obj <> abs_object demo demo_obj) /\
  (exists h', define_own_property demo_obj (PKString demo_key) (elem_patch true) demo = (h', Ok false)).
Proof.
  split; [apply demo_disciplined|]. split; [split; [by vm_compute|left; by vm_compute]|]. split; [by vm_compute|]. split.
  - eexists. split; [rewrite (surjective_pairing (define_own_property _ _ _ _)); f_equal; vm_compute; reflexivity|]. vm_compute. discriminate.
  - eexists. rewrite (surjective_pairing (define_own_property _ _ _ _)); f_equal; vm_compute; reflexivity.
Qed.

(** [[Delete]] removes exactly the one property, unless it is not configurable. *)
Theorem delete_own_property_spec : forall h o v k h' r,
  disciplined_state h -> well_formed h o v -> (forall x, x ∈ o :: key_handles k -> live h x) -> good_key (abs_key h k) ->
  ordinary_delete o k h = (h', r) -> h_gc_runs h' < h_gc_runs h + two32 ->
  (r <> Err EOutOfMemory -> live h' o) /\
  (live h' o -> exists v', well_formed h' o v' /\
    ((exists ok, r = Ok ok /\ delete_spec v (abs_key h k) ok v') \/ (r = Err EOutOfMemory /\ v' = v))) /\
  (forall other, other <> o -> live h other -> live h' other -> abs_object h' other = abs_object h other).
Proof.
  intros h o v k h' r Hd W L Hk E Hr. pose proof (call_ready h o v Hd W) as R.
  assert (T : top o v h (ordinary_delete o k) (delete_result v (abs_key h k))).
  { apply top_delete; auto. intros x Hx; apply L; rewrite handles_key; set_solver. }
  destruct (top_outside _ _ h o v (OpDelete o k) h' r R Hd L (void_fst _ _) T (delete_result_shape _ _) E Hr) as (A & B & C).
  split; [done|]. split; [|done]. intros L'. destruct (B L') as (v' & W' & [Q|Q]); exists v'; (split; [done|]); [exact Q|by right].
Qed.
Print Assumptions delete_own_property_spec.

Example delete_own_property_case : disciplined_state ex_heap /\ well_formed ex_heap ex_arr ex_view /\
  snd (ordinary_delete ex_arr (PKString (ex_elem 1)) ex_heap) = Ok false /\ snd (ordinary_delete ex_arr (PKString (ex_elem 2)) ex_heap) = Ok true /\
  abs_object (fst (ordinary_delete ex_arr (PKString (ex_elem 2)) ex_heap)) ex_arr =
    Some (AObject None true (Some 3) ((akey_length, alength 3 true) :: take 2 ex_elems)).
Proof. split; [apply ex_disciplined|]. split; [apply ex_well_formed|]. split; [|split]; vm_compute; reflexivity. Qed.

(** ** C08: the essential invariants of ECMA-262 6.1.7.3 hold of every object over
    every history in which it is written only through its internal methods. *)
Theorem essential_invariants : forall h o v calls,
  disciplined_state h -> well_formed h o v -> disciplined_history calls h ->
  each_call typed_call calls h -> each_call (internal_method o) calls h ->
  h_gc_runs (run calls h) < h_gc_runs h + two32 -> live (run calls h) o ->
  exists v', well_formed (run calls h) o v' /\ essential v v'.
Proof.
  intros h o v calls Hd W D T I Hr L. pose proof (call_ready h o v Hd W) as [H N _].
  destruct (history_step o calls h v H N D T I Hr W L) as (v' & W' & E & _). by exists v'.
Qed.
Print Assumptions essential_invariants.

(** Without the restriction the raw entry points break them: [delete] ignores
    configurability. *)
Theorem essential_invariants_raw_refuted : exists h o v calls v', disciplined_state h /\ well_formed h o v /\ disciplined_history calls h /\
  abs_object (run calls h) o = Some v' /\ ~ essential v v'.
Proof.
  exists ex_heap, ex_arr, ex_view, [OpDeleteRaw ex_arr (PKString (ex_elem 1))].
  exists (AObject None true (Some 3) ((akey_length, alength 3 true) :: [(AKStr [48], ADesc true true (AData (anum 7) true)); (AKStr [50], ADesc true true (AData (anum 7) true))])).
  split; [apply ex_disciplined|]. split; [apply ex_well_formed|]. split; [apply disc_b_ok; vm_compute; reflexivity|]. split; [vm_compute; reflexivity|].
  intros E. destruct (es_fixed _ _ E (AKStr [49]) (ADesc true false (AData (anum 7) true))) as (d' & Hd & _); [by vm_compute|done|]. vm_compute in Hd. discriminate Hd.
Qed.
Print Assumptions essential_invariants_raw_refuted.

Definition case_calls : list op :=
  [OpDefineOwn ex_arr (PKString (ex_elem 1)) (elem_patch true); OpDelete ex_arr (PKString (ex_elem 1)); OpSetExtensible ex_arr false;
   OpSet ex_arr (PKString (ex_elem 0)) VNull (VObject ex_arr); OpDelete ex_arr (PKString (ex_elem 2)); OpCreateData ex_arr (PKString (ex_elem 2)) VNull; OpCollect].
Example essential_invariants_case : disciplined_history case_calls ex_heap /\ each_call typed_call case_calls ex_heap /\
  each_call (internal_method ex_arr) case_calls ex_heap /\ each_call no_oom case_calls ex_heap /\
  h_gc_runs (run case_calls ex_heap) < h_gc_runs ex_heap + two32 /\ live (run case_calls ex_heap) ex_arr /\
  abs_object (run case_calls ex_heap) ex_arr = Some (AObject None false (Some 3) ((akey_length, alength 3 true) ::
    [(AKStr [48], ADesc true true (AData ANull true)); (AKStr [49], ADesc true false (AData (anum 7) true))])).
Proof.
  split; [apply disc_b_ok; vm_compute; reflexivity|]. split.
  { apply (each_callb_ok typed_callb); [apply typed_callb_ok|]. vm_compute. reflexivity. }
  split; [do 6 (split; [done|]); split; [by intros ?%elem_of_nil|done]|]. split.
  { apply (each_callb_ok no_oomb); [apply no_oomb_ok|]. vm_compute. reflexivity. }
  split; [vm_compute; reflexivity|]. split; [apply liveb_live; vm_compute; reflexivity|]. vm_compute. reflexivity.
Qed.

(** ** C10: array length.  A new array has its length above every index; this
    persists while the array is written through its internal methods and no call
    runs out of memory; [define_spec] (C09) says which elements a shrink deletes
    and when an index extends the length. *)
Theorem array_length_bounds_indices : forall h o calls,
  disciplined_state h -> bounded_array h o -> disciplined_history calls h ->
  each_call typed_call calls h -> each_call (internal_method o) calls h -> each_call no_oom calls h ->
  h_gc_runs (run calls h) < h_gc_runs h + two32 -> live (run calls h) o -> bounded_array (run calls h) o.
Proof.
  intros h o calls Hd (v & n & w & es & W & Sh & B) D T I O Hr L. pose proof (call_ready h o v Hd W) as [H N _].
  destruct (history_step o calls h v H N D T I Hr W L) as (v' & W' & _ & _ & K). destruct (K n w es Sh) as (n' & w' & es' & Sh' & B').
  exists v', n', w', es'. split; [done|]. split; [done|]. apply B'; [tauto|done].
Qed.
Print Assumptions array_length_bounds_indices.

Theorem new_array_bounded : forall h n h' id, disciplined_state h -> alloc_array n h = (h', Ok id) -> h_gc_runs h' < h_gc_runs h + two32 ->
  bounded_array h' id /\ exists v, well_formed h' id v /\ array_shape v n true [].
Proof.
  intros h n h' id Hd E Hr. destruct (new_array n h h' id) as (v & W & Sh); auto.
  - by apply reachable_state_ok, disciplined_reachable.
  - by apply disciplined_no_dangling.
  - split; [|by exists v]. exists v, n, true, []. split; [done|]. split; [done|]. intros k d i Hin. by apply elem_of_nil in Hin.
Qed.
Print Assumptions new_array_bounded.

(** Defining a property of an array, one case of [define_spec] each: an index at or
    beyond the length extends it, and is refused when the length is read-only. *)
Theorem array_index_extends_length : forall v n w es k i p ok v', array_shape v n w es -> akey_index k i -> n <= i ->
  define_spec v k p ok v' ->
  (w = false -> ok = false /\ v' = v) /\
  (ok = true -> exists es', array_shape v' (i + 1) w es' /\ own v' k = Some (merged (own v k) p)).
Proof.
  intros v n w es k i p ok v' Sh Hi Hn S. destruct S as [Ha S|n' w' es' Sh' S]; [by rewrite (ar_len _ _ _ _ Sh) in Ha|].
  destruct (array_shape_fun _ _ _ _ _ _ _ Sh Sh') as (-> & -> & ->). 
  assert (Hl : k <> akey_length). { intros ->. by apply (length_not_index i). }
  pose proof (define_spec_shape False v k p ok v' ltac:(by eapply dfs_array)) as [_ K]. destruct (K n w es Sh) as (n2 & w2 & es2 & Sh2 & _).
  destruct S as [? Hx|? Hx|j Hj Hle Hw|j Hj Hor Hrej|j Hj Hor Hrej|?|?|?|?|?|?]; try done; try (by destruct (Hx i)).
  pose proof (akey_index_fun _ _ _ Hj Hi) as ->. assert (w = true) as -> by (destruct Hor; [lia|done]). split; [done|]. intros _.
  exists es2. pose proof (ar_len _ _ _ _ Sh2) as L2. pose proof (ar_props _ _ _ _ Sh2) as P2. cbn in L2, P2. unfold alength in P2.
  injection L2 as <-. injection P2 as Ew Ees. rewrite N.max_r in Sh2 |- * by lia. subst. split; [done|].
  unfold own at 1. cbn. rewrite decide_False by done. by rewrite alookup_aput, decide_True.
Qed.
Print Assumptions array_index_extends_length.

(** Shrinking the length: the elements deleted are exactly those with an index at
    or above the new length, which is the requested one unless an element there is
    not configurable; then it is just above the highest such element, and the call
    reports failure. *)
Theorem array_shrink_deletes_tail : forall v n es p x m ok v', array_shape v n true es -> array_bounded n es ->
  ap_value p = Some x -> length_value x m -> m < n -> ~ rejects (ao_extensible v) (Some (alength n true)) (with_value p (anum m)) ->
  define_spec v akey_length p ok v' ->
  exists stop w' es', array_shape v' stop w' es' /\ m <= stop /\ (ok = true <-> stop = m) /\
    (forall k d, (k, d) ∈ es' <-> (k, d) ∈ es /\ forall i, akey_index k i -> i < stop) /\
    (stop = m \/ exists k d, (k, d) ∈ es /\ akey_index k (stop - 1) /\ a_configurable d = false) /\
    (forall k d i, (k, d) ∈ es -> akey_index k i -> stop <= i -> a_configurable d = true).
Proof. exact shrink_deletes_tail. Qed.
Print Assumptions array_shrink_deletes_tail.

(** Running out of memory while shrinking leaves elements beyond the length... *)
Theorem array_length_oom_refuted : exists h o c, disciplined_state h /\ bounded_array h o /\ disciplined c h /\
  internal_method o c h /\ snd (exec c h) = Err EOutOfMemory /\ live (fst (exec c h)) o /\ ~ bounded_array (fst (exec c h)) o.
Proof.
  exists full_heap, ex_arr, (OpDefineOwn ex_arr (PKString ex_length) (length_patch 0)).
  split; [apply full_disciplined|]. split; [apply full_bounded|]. split.
  { assert (A : live full_heap ex_arr /\ live full_heap ex_length) by (split; apply liveb_live; vm_compute; reflexivity).
    destruct A as [A1 A2]. intros x [->|[->|Hx%elem_of_nil]%elem_of_cons]%elem_of_cons; done. }
  split; [done|]. split; [vm_compute; reflexivity|]. split; [apply liveb_live; vm_compute; reflexivity|]. apply cut_unbounded, full_cut.
Qed.
Print Assumptions array_length_oom_refuted.
(** ... and so does writing the length through the heap's raw data-property
    setter, which reports success. *)
Theorem array_length_raw_refuted : exists h o c, disciplined_state h /\ bounded_array h o /\ disciplined c h /\
  snd (exec c h) = Ok tt /\ ~ bounded_array (fst (exec c h)) o.
Proof.
  exists ex_heap, ex_arr, (OpSetExisting ex_arr (PKString ex_length) (VNumber (f64_of_N 0))).
  split; [apply ex_disciplined|]. split; [apply ex_bounded|]. split.
  { assert (A : live ex_heap ex_arr /\ live ex_heap ex_length) by (split; apply liveb_live; vm_compute; reflexivity).
    destruct A as [A1 A2]. intros x [->|[->|Hx%elem_of_nil]%elem_of_cons]%elem_of_cons; done. }
  split; [vm_compute; reflexivity|]. apply raw_unbounded.
Qed.
Print Assumptions array_length_raw_refuted.

Example array_length_case : bounded_array ex_heap ex_arr /\ each_call no_oom case_calls ex_heap /\ bounded_array (run case_calls ex_heap) ex_arr.
Proof.
  split; [apply ex_bounded|]. destruct essential_invariants_case as (A & B & C & D & E & F & _). split; [done|].
  apply array_length_bounds_indices; auto; [apply ex_disciplined|apply ex_bounded].
Qed.

(** ** C11: no two keys returned by [[OwnPropertyKeys]] are the same key.  Keys are
    compared by content (strings) or identity (symbols): [abs_key].  The object
    starts with distinct keys and is then written by any history of internal
    methods, prototype changes and extensibility changes, while anything at all is
    done to other objects. *)
Theorem own_keys_distinct : forall h o v calls ks,
  disciplined_state h -> well_formed h o v -> NoDup (map fst (ao_props v)) -> disciplined_history calls h ->
  each_call typed_call calls h -> each_call (table_method o) calls h ->
  h_gc_runs (run calls h) < h_gc_runs h + two32 ->
  own_property_keys (run calls h) o = Ok ks -> NoDup (map (abs_key (run calls h)) ks).
Proof.
  intros h o v calls ks Hd W Dv D T I Hr E. pose proof (call_ready h o v Hd W) as [H N _].
  destruct (history_distinct o calls h v H N D T I Hr W (own_keys_live _ _ _ E)) as (v' & [V' _] & K). exact (distinct_keys _ _ _ _ V' (K Dv) E).
Qed.
Print Assumptions own_keys_distinct.

Example own_keys_distinct_case : let calls := OpSetPrototype ex_arr None :: case_calls in
  disciplined_history calls ex_heap /\ each_call typed_call calls ex_heap /\ each_call (table_method ex_arr) calls ex_heap /\
  NoDup (map fst (ao_props ex_view)) /\ own_property_keys (run calls ex_heap) ex_arr = Ok [PKString (ex_elem 0); PKString (ex_elem 1); PKString (HId 0 0)].
Proof.
  split; [apply disc_b_ok; vm_compute; reflexivity|]. split.
  { apply (each_callb_ok typed_callb); [apply typed_callb_ok|]. vm_compute. reflexivity. }
  split; [do 7 (split; [done|]); split; [by intros ?%elem_of_nil|done]|]. split; [apply ex_shape|]. vm_compute. reflexivity.
Qed.

(** In particular for an object made by [alloc_object], and for arrays. *)
Theorem own_keys_distinct_new : forall h h1 o calls ks,
  disciplined_state h -> (alloc_object h = (h1, Ok o) \/ exists n, alloc_array n h = (h1, Ok o)) ->
  h_gc_runs h1 < h_gc_runs h + two32 -> disciplined_history calls h1 ->
  each_call typed_call calls h1 -> each_call (table_method o) calls h1 ->
  h_gc_runs (run calls h1) < h_gc_runs h1 + two32 ->
  own_property_keys (run calls h1) o = Ok ks -> NoDup (map (abs_key (run calls h1)) ks).
Proof.
  intros h h1 o calls ks Hd Ha Hr1 D T I Hr E. pose proof (reachable_state_ok _ (disciplined_reachable _ Hd)) as H. pose proof (disciplined_no_dangling _ Hd) as N.
  assert (Hv : heap_ok h1 /\ no_dangling h1 /\ exists v, well_formed h1 o v /\ NoDup (map fst (ao_props v))).
  { destruct Ha as [Ha|[n Ha]].
    - destruct (safe_exec OpAllocObject h H N) as [N1 _]; [intros x Hx; by apply elem_of_nil in Hx|]. destruct (exec_evolves OpAllocObject h H) as [H1 _].
      cbn [exec] in *. rewrite void_fst, Ha in *. split; [done|]. split; [done|]. exists (AObject None true None []). split; [split; [exact (new_object h h1 o H N Ha Hr1)|by left]|]. constructor.
    - destruct (safe_exec (OpAllocArray n) h H N) as [N1 _]; [intros x Hx; by apply elem_of_nil in Hx|]. destruct (exec_evolves (OpAllocArray n) h H) as [H1 _].
      cbn [exec] in *. rewrite void_fst, Ha in *. split; [done|]. split; [done|]. destruct (new_array n h h1 o H N Ha Hr1) as (v & W & Sh). exists v. split; [done|apply Sh]. }
  destruct Hv as (H1 & N1 & v & W & Dv).
  destruct (history_distinct o calls h1 v H1 N1 D T I Hr W (own_keys_live _ _ _ E)) as (v' & [V' _] & K). exact (distinct_keys _ _ _ _ V' (K Dv) E).
Qed.
Print Assumptions own_keys_distinct_new.

Example own_keys_distinct_new_case : exists h1 o, alloc_object ex_heap = (h1, Ok o) /\
  own_property_keys (run [OpAddRoot (VObject o); OpDefineOwn o (PKString (ex_elem 1)) (elem_patch true); OpDefineOwn o (PKString (ex_elem 0)) (elem_patch true);
    OpDefineOwn o (PKString (ex_elem 1)) (elem_patch false)] h1) o = Ok [PKString (ex_elem 0); PKString (ex_elem 1)].
Proof.
  destruct (alloc_object ex_heap) as [h1 [o| |]] eqn:E; vm_compute in E; try discriminate E. exists h1, o. split; [done|].
  injection E as <- <-. vm_compute. reflexivity.
Qed.

(** [alloc_object_with_properties] takes its table as it is: an object made from a
    table with a repeated key returns that key twice. *)
Theorem own_keys_distinct_raw_refuted : exists h o calls ks, disciplined_state h /\ disciplined_history calls h /\
  own_property_keys (run calls h) o = Ok ks /\ ~ NoDup (map (abs_key (run calls h)) ks).
Proof.
  set (e := PEntry (PKString (ex_elem 0)) (PDesc true true (PData VNull true))).
  destruct (own_property_keys (run [OpAllocObjectWith None [e; e]] ex_heap) (HId 6 0)) as [ks| |] eqn:E; vm_compute in E; try discriminate E.
  exists ex_heap, (HId 6 0), [OpAllocObjectWith None [e; e]], ks. split; [apply ex_disciplined|].
  split; [apply disc_b_ok; vm_compute; reflexivity|]. split; [by vm_compute|]. injection E as <-. vm_compute. intros Hn.
  apply NoDup_cons in Hn as [Hn _]. apply Hn. left.
Qed.
Print Assumptions own_keys_distinct_raw_refuted.
