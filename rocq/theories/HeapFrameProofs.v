(** Which objects an operation can change: every object outside the operation's
    target keeps its contents or is collected. *)
From stdpp Require Import base decidable list numbers sets.
From Coq Require Import NArith ZArith Lia.
From RecordUpdate Require Import RecordUpdate.
From Verif Require Import VmBase HeapModel HeapObjModel HeapSpec HeapGcProofs HeapInvProofs HeapObjProofs
  ObjectOpsModel ObjectOpsProofs HeapTidyProofs HeapSafeProofs HeapHistory HeapHistoryProofs.

Open Scope N_scope.

(** Objects outside [T] keep their contents unless their slot's generation moved on. *)
Record keeps (T : heap_id -> Prop) (h h' : heap) : Prop := {
  kp_layout : h_layout h' = h_layout h;
  kp_runs : h_gc_runs h <= h_gc_runs h';
  kp_slots : forall i s, h_slots h !! i = Some s ->
    exists s' k, h_slots h' !! i = Some s' /\ k <= h_gc_runs h' - h_gc_runs h /\
      sl_gen s' = (sl_gen s + k) mod two32 /\
      (k = 0 -> forall o, sl_value s = Some o -> exists o', sl_value s' = Some o' /\ (~ T (HId i (sl_gen s)) -> o' = o)) }.

Lemma gen_small h i s : heap_ok h -> h_slots h !! i = Some s -> sl_gen s = (sl_gen s + 0) mod two32.
Proof. intros H Hs. pose proof (so_gen _ _ (hk_slots h H i s Hs)). rewrite N.add_0_r, N.mod_small; auto. Qed.
Lemma keeps_refl T h : heap_ok h -> keeps T h h.
Proof.
  intros H. constructor; auto; try lia. intros i s Hs. exists s, 0. split; auto. split; [lia|]. split; [|by eauto].
  eapply gen_small; eauto.
Qed.
Lemma keeps_same T h h' : heap_ok h -> h_layout h' = h_layout h -> h_gc_runs h' = h_gc_runs h -> h_slots h' = h_slots h ->
  keeps T h h'.
Proof. intros H E1 E2 E3. destruct (keeps_refl T h H) as [_ _ K]. constructor; auto; try lia. rewrite E2, E3. done. Qed.
Lemma keeps_trans T h1 h2 h3 : heap_ok h1 -> keeps T h1 h2 -> keeps T h2 h3 -> keeps T h1 h3.
Proof.
  intros H [L1 R1 S1] [L2 R2 S2]. constructor; [congruence|lia|].
  intros i s Hs. destruct (S1 i s Hs) as (s2 & k & Hs2 & Hk & Hg & Hl).
  destruct (S2 i s2 Hs2) as (s3 & k' & Hs3 & Hk' & Hg' & Hl').
  exists s3, (k + k'). split; auto. split; [lia|]. split.
  - rewrite Hg', Hg. rewrite N.add_mod_idemp_l by done. f_equal. lia.
  - intros Hz o Ho. assert (k = 0) by lia. assert (k' = 0) by lia. subst.
    destruct (Hl eq_refl o Ho) as (o2 & Ho2 & E2). destruct (Hl' eq_refl o2 Ho2) as (o3 & Ho3 & E3).
    exists o3. split; auto. intros Ht. rewrite E3, E2; auto. rewrite Hg, <- (gen_small _ _ _ H Hs). done.
Qed.
Lemma keeps_weaken (T T' : heap_id -> Prop) h h' : (forall x, T x -> T' x) -> keeps T h h' -> keeps T' h h'.
Proof.
  intros HT [L R S]. constructor; auto. intros i s Hs. destruct (S i s Hs) as (s' & k & ? & ? & ? & K).
  exists s', k. repeat split; auto. intros Hk o Ho. destruct (K Hk o Ho) as (o1 & A & B). exists o1. split; [done|]. intros Hn. apply B. auto.
Qed.
Lemma keeps_gstep T extra h h' : heap_ok h -> gstep extra h h' -> keeps T h h'.
Proof.
  intros H G. constructor; [apply G|apply (gs_runs _ _ _ G)|].
  intros i s Hs. destruct (gs_slots _ _ _ G _ _ Hs) as (s' & Hs' & [->|(_ & -> & Hr & _)]).
  - exists s, 0. split; auto. split; [lia|]. split; [|by eauto]. eapply gen_small; eauto.
  - exists (Slot (wrapping_succ32 (sl_gen s)) None None 0), 1. split; auto. split; [lia|]. split; auto. done.
Qed.
Lemma keeps_ustep (T : heap_id -> Prop) id o o' h h' : heap_ok h -> T id \/ o' = o -> ustep id o o' h h' -> keeps T h h'.
Proof.
  intros H HT U. destruct (us_rest _ _ _ _ _ U) as (R1&R2&R3&R4&_). constructor; auto; try lia.
  intros i s Hs. destruct (decide (i = hid_index id)) as [->|N].
  - destruct (us_live _ _ _ _ _ U) as (hs & t & A & B & C & D). destruct (us_live' _ _ _ _ _ U) as (hs' & t' & A' & B' & C' & D').
    assert (t = s) by congruence. subst t. exists t', 0. split; auto. split; [lia|]. split.
    + rewrite B', <- B. eapply gen_small; eauto.
    + intros _ x Hx. exists o'. split; [done|]. intros Hn. destruct HT as [HT|HT]; [|congruence]. destruct Hn. rewrite B. by destruct id.
  - exists s, 0. rewrite (us_other _ _ _ _ _ U) by done. split; auto. split; [lia|]. split; [|by eauto]. eapply gen_small; eauto.
Qed.
Lemma keeps_ustep_T (T : heap_id -> Prop) id o o' h h' : heap_ok h -> T id -> ustep id o o' h h' -> keeps T h h'.
Proof. intros H HT. apply keeps_ustep; auto. Qed.
Lemma keeps_alloc T h h' id obj : heap_ok h -> alloc_step h h' id obj -> keeps T h h'.
Proof.
  intros H A. destruct (as_rest _ _ _ _ A) as (R1&R2&R3&R4&_). constructor; auto; try lia.
  intros i s Hs. destruct (decide (i = hid_index id)) as [->|N].
  - destruct (as_fresh _ _ _ _ A) as [E|(s0 & E1 & E2 & E3)]; [congruence|]. assert (s0 = s) by congruence. subst s0.
    destruct (as_live _ _ _ _ A) as (t & T1 & T2 & T3 & T4). exists t, 0. split; auto. split; [lia|]. split.
    + rewrite T2, <- E3. eapply gen_small; eauto.
    + intros _ o Ho. congruence.
  - exists s, 0. rewrite (as_other _ _ _ _ A) by done. split; auto. split; [lia|]. split; [|by eauto]. eapply gen_small; eauto.
Qed.

(** ** Operations *)
Definition fr {A} (T : heap_id -> Prop) (m : M A) : Prop :=
  forall h h' r, heap_ok h -> m h = (h', r) -> heap_ok h' /\ keeps T h h'.
Definition frl {A} (l : layout) (T : heap_id -> Prop) (m : M A) : Prop :=
  forall h h' r, h_layout h = l -> heap_ok h -> m h = (h', r) -> heap_ok h' /\ keeps T h h'.
Lemma frl_of_fr {A} l T (m : M A) : fr T m -> frl l T m.
Proof. intros Hm h h' r _. apply Hm. Qed.
Lemma frl_bind {A B} l T (m : M A) (k : A -> M B) : frl l T m -> (forall a, frl l T (k a)) -> frl l T (mbind m k).
Proof.
  intros Hm Hk h h' r Hl H E. unfold mbind in E. destruct (m h) as [h1 r1] eqn:E1.
  destruct (Hm _ _ _ Hl H E1) as [H1 K1]. destruct r1 as [a|e|]; simplify_eq; auto.
  destruct (Hk a h1 h' r) as [H2 K2]; auto; [rewrite (kp_layout _ _ _ K1); auto|].
  split; auto. eapply keeps_trans; eauto.
Qed.
Lemma fr_bind {A B} T (m : M A) (k : A -> M B) : fr T m -> (forall a, fr T (k a)) -> fr T (mbind m k).
Proof. intros Hm Hk h h' r. apply (frl_bind (h_layout h) T m k); [by apply frl_of_fr|intros; by apply frl_of_fr|done]. Qed.
Lemma fr_layout {A} T (k : layout -> M A) : (forall l, frl l T (k l)) -> fr T (mbind (mget h_layout) k).
Proof. intros Hk h h' r. apply (Hk (h_layout h) h h' r eq_refl). Qed.
Lemma fr_ret {A} T (a : A) : fr T (mret a).
Proof. intros h h' r H E. unfold mret in E. simplify_eq. split; auto. by apply keeps_refl. Qed.
Lemma fr_fail {A} T e : fr T (mfail (A:=A) e).
Proof. intros h h' r H E. unfold mfail in E. simplify_eq. split; auto. by apply keeps_refl. Qed.
Lemma fr_mget {A} T (f : heap -> A) : fr T (mget f).
Proof. intros h h' r H E. unfold mget in E. simplify_eq. split; auto. by apply keeps_refl. Qed.
Lemma fr_mread {A} T (f : heap -> res A) : fr T (mread f).
Proof. intros h h' r H E. unfold mread in E. simplify_eq. split; auto. by apply keeps_refl. Qed.
Lemma fr_weaken {A} (T T' : heap_id -> Prop) (m : M A) : (forall x, T x -> T' x) -> fr T m -> fr T' m.
Proof. intros HT Hm h h' r H E. destruct (Hm _ _ _ H E). split; auto. eapply keeps_weaken; eauto. Qed.
Lemma fr_with_scope {A} T (m : M A) : fr T m -> fr T (with_scope m).
Proof.
  intros Hm h h' r H E. unfold with_scope in E. destruct (m h) as [h1 r1] eqn:Em. destruct (Hm _ _ _ H Em) as [H1 K1].
  injection E as <- <-. split.
  - pose proof (hk_caps h1 H1) as (?&?&?&?&?&?&?&?&?&?&?). apply heap_ok_set_roots; auto.
    + pose proof (nlen_take (length (h_roots h)) (h_roots h1)). lia.
    + pose proof (nlen_take (length (h_env_roots h)) (h_env_roots h1)). lia.
  - eapply keeps_trans; eauto. by apply keeps_same.
Qed.
Lemma fr_ensure T add extra : fr T (ensure_can_allocate_with add extra).
Proof.
  intros h h' r H E. destruct (ensure_spec add extra h H) as (h1 & H1 & G & _ & [[E1 _]|[E1 _]]); rewrite E1 in E; simplify_eq;
    (split; [done|eapply keeps_gstep; eauto]).
Qed.
Lemma fr_push_roots_with T vs extra : fr T (push_roots_with vs extra).
Proof.
  intros h h' r H E. destruct (push_roots_spec vs extra h H) as (h1 & H1 & G & [E1|(c & E1 & H2)]); rewrite E1 in E; injection E as <- <-.
  - split; [done|eapply keeps_gstep; eauto].
  - split; [done|]. eapply keeps_trans; [done|eapply keeps_gstep; eauto|]. by apply keeps_same.
Qed.
Lemma fr_push_env_root T e : fr T (push_env_root e).
Proof.
  intros h h' r H E. destruct (push_env_root_spec e h H) as (h1 & H1 & G & [E1|(c & E1 & H2)]); rewrite E1 in E; injection E as <- <-.
  - split; [done|eapply keeps_gstep; eauto].
  - split; [done|]. eapply keeps_trans; [done|eapply keeps_gstep; eauto|]. by apply keeps_same.
Qed.
Lemma frl_alloc l T obj nb : sizes nb (payload_bytes l obj) -> frl l T (alloc_unchecked obj nb).
Proof.
  intros Hs h h' r <- H E. destruct (alloc_unchecked_spec obj nb h H Hs) as (h1 & H1 & G & [E1|(h2 & id & E1 & H2 & A)]); rewrite E1 in E; simplify_eq.
  - split; [done|eapply keeps_gstep; eauto].
  - split; [done|]. eapply keeps_trans; [done|eapply keeps_gstep; eauto|]. eapply keeps_alloc; eauto.
Qed.
Lemma fr_alloc T obj nb : (forall l, sizes nb (payload_bytes l obj)) -> fr T (alloc_unchecked obj nb).
Proof. intros Hs h h' r. by apply (frl_alloc (h_layout h)). Qed.
Lemma fr_mmodify T f : (forall h, heap_ok h -> heap_ok (f h)) ->
  (forall h, h_layout (f h) = h_layout h /\ h_gc_runs (f h) = h_gc_runs h /\ h_slots (f h) = h_slots h) -> fr T (mmodify f).
Proof. intros Hf He h h' r H E. unfold mmodify in E. simplify_eq. split; auto. destruct (He h) as (?&?&?). by apply keeps_same. Qed.
Lemma fr_update_object (T : heap_id -> Prop) id f : T id ->
  (forall l o o', f o = Ok o' -> same_kind o o' /\ payload_bytes l o' = payload_bytes l o) ->
  (forall o, np (f o)) -> fr T (update_object id f).
Proof.
  intros HT Hf Hn h h' r H E. destruct (update_object_spec id f h H (fun o o' => Hf (h_layout h) o o') Hn)
    as [(e & E1 & _)|(o & o' & h1 & _ & _ & E1 & U)]; rewrite E1 in E; simplify_eq.
  - split; auto. by apply keeps_refl.
  - split; [apply U|]. eapply keeps_ustep_T; eauto.
Qed.
(** The proof that an operation keeps the invariant, reused for the state part. *)
Lemma fr_good {A} T (m : M A) : good m -> (forall h h' r, heap_ok h -> m h = (h', r) -> keeps T h h') -> fr T m.
Proof. intros Hg Hk h h' r H E. destruct (Hg _ _ _ H E) as (? & _). split; eauto. Qed.

Lemma fr_update_base (T : heap_id -> Prop) id f : T id ->
  (forall b b', f b = Ok b' -> base_like b b') -> (forall b, np (f b)) -> fr T (update_base id f).
Proof.
  intros HT Hf Hn. unfold update_base. apply fr_update_object; auto.
  - intros l x x'. destruct (base_of x) eqn:Hx; [|done]. cbn. destruct (f o) eqn:E; [|done..]. cbn. intros [= <-].
    eapply set_base_like; eauto.
  - by apply update_base_np.
Qed.
Lemma fr_delete_own (T : heap_id -> Prop) o k : T o -> fr T (object_delete_own_property o k).
Proof.
  intros HT. apply fr_good; [auto with good|]. intros h h' r H E.
  destruct (delete_own_spec o k h H) as [[E1 _]|(ob & b & Hl & Hb & [[_ E1]|(i & h1 & _ & E1 & U)])]; rewrite E1 in E; simplify_eq.
  - by apply keeps_refl.
  - by apply keeps_refl.
  - eapply keeps_ustep_T; eauto.
Qed.
Lemma fr_define_core (T : heap_id -> Prop) o k d h h' t r : T o -> heap_ok h -> define_target o k h = Ok t ->
  define_core o k d t h = (h', r) -> heap_ok h' /\ keeps T h h'.
Proof.
  intros HT H Ht E. destruct (define_core_spec o k d h t H Ht) as (s & ob & b & _ & _ & _ & _ & _ & h1 & H1 & G & [(e & E1 & _)|(h2 & E1 & U)]);
    rewrite E1 in E; simplify_eq.
  - split; [done|eapply keeps_gstep; eauto].
  - split; [apply U|]. eapply keeps_trans; [done|eapply keeps_gstep; eauto|]. eapply keeps_ustep_T; eauto.
Qed.

(** ** Updates that only touch the slot of their target *)
Definition gens_ok (h : heap) : Prop := forall i s, h_slots h !! i = Some s -> sl_gen s < two32.
Lemma heap_ok_gens h : heap_ok h -> gens_ok h.
Proof. intros H i s Hs. apply (so_gen _ _ (hk_slots h H i s Hs)). Qed.
Definition raw {A} (T : heap_id -> Prop) (m : M A) : Prop :=
  forall h h' r, m h = (h', r) ->
    h_layout h' = h_layout h /\ h_gc_runs h' = h_gc_runs h /\ forall i s, h_slots h !! i = Some s -> exists s', h_slots h' !! i = Some s' /\ sl_gen s' = sl_gen s /\ (forall o, sl_value s = Some o -> exists o', sl_value s' = Some o' /\ (~ T (HId i (sl_gen s)) -> o' = o)).
Lemma raw_fr {A} T (m : M A) : good m -> raw T m -> fr T m.
Proof.
  intros Hg Hr. apply fr_good; auto. intros h h' r H E. destruct (Hr _ _ _ E) as (E1 & E2 & E3). constructor; auto; try lia.
  intros i s Hs. destruct (E3 i s Hs) as (s' & A1 & A2 & A3). exists s', 0. split; auto. split; [lia|]. split; [|by auto].
  rewrite A2. eapply gen_small; eauto.
Qed.
Lemma raw_id {A} T (m : M A) : (forall h, fst (m h) = h) -> raw T m.
Proof. intros Hm h h' r E. pose proof (Hm h) as Q. rewrite E in Q. cbn in Q. subst. split; auto. split; auto. eauto 10. Qed.
Lemma raw_bind {A B} T (m : M A) (k : A -> M B) : raw T m -> (forall a, raw T (k a)) -> raw T (mbind m k).
Proof.
  intros Hm Hk h h' r E. unfold mbind in E. destruct (m h) as [h1 r1] eqn:E1. destruct (Hm _ _ _ E1) as (L1 & R1 & S1).
  destruct r1 as [a|e|]; simplify_eq; auto. destruct (Hk a _ _ _ E) as (L2 & R2 & S2). split; [congruence|]. split; [congruence|].
  intros i s Hs. destruct (S1 i s Hs) as (s1 & A1 & A2 & A3). destruct (S2 i s1 A1) as (s2 & B1 & B2 & B3).
  exists s2. split; auto. split; [congruence|]. intros o Ho. destruct (A3 o Ho) as (o2 & C1 & C2). destruct (B3 o2 C1) as (o3 & D1 & D2).
  exists o3. split; auto. intros HT. rewrite D2, C2; auto. by rewrite A2.
Qed.
Lemma raw_update_object (T : heap_id -> Prop) id f : T id -> raw T (update_object id f).
Proof.
  intros HT h h' r E. unfold update_object in E. destruct (validate h id) as [ix|] eqn:Hv.
  2:{ simplify_eq. by eapply (raw_id T (mfail (A:=unit) EInvalidHandle)). }
  apply validate_Some in Hv as [-> Hl]. destruct (live_slot h id Hl) as (s & o & Hs & Hg & Ho). rewrite Hs, Ho in E.
  destruct (f o); simplify_eq; try (split; [done|]; split; [done|]; eauto 10; fail).
  split; [done|]. split; [done|]. cbn. intros i t Ht. destruct (decide (i = hid_index id)) as [->|N].
  - assert (t = s) by congruence. subst. exists (s <| sl_value := Some a |>).
    rewrite list_lookup_insert by (by eapply lookup_lt_Some). split; auto. split; auto. intros x Hx. exists a. split; [done|]. intros Hn. destruct Hn. rewrite Hg. by destruct id.
  - exists t. rewrite list_lookup_insert_ne by done. eauto 10.
Qed.
Lemma raw_update_slot_bytes T i n : raw T (update_slot_bytes i n).
Proof.
  intros h h' r E. unfold update_slot_bytes in E. destruct (h_slots h !! i) as [s|] eqn:Hs; simplify_eq;
    (split; [done|]; split; [done|]); eauto 10. cbn. intros j t Ht. destruct (decide (i = j)) as [->|N].
  - assert (t = s) by congruence. subst. eexists. rewrite list_lookup_insert by (by eapply lookup_lt_Some). split; [done|]. cbn. eauto 10.
  - exists t. rewrite list_lookup_insert_ne by done. eauto 10.
Qed.
Create HintDb raw.
Global Hint Extern 1 (raw _ (mret _)) => apply raw_id; done : raw.
Global Hint Extern 1 (raw _ (mfail _)) => apply raw_id; done : raw.
Global Hint Extern 1 (raw _ (mget _)) => apply raw_id; done : raw.
Global Hint Extern 1 (raw _ (mread _)) => apply raw_id; done : raw.
Global Hint Resolve raw_update_object raw_update_slot_bytes : raw.
Global Hint Extern 4 (raw _ (mbind _ _)) => apply raw_bind; [|intros ?] : raw.
Global Hint Extern 5 (raw _ (match ?x with _ => _ end)) => destruct x : raw.

Ltac fraw := apply raw_fr; [auto with good|].
Section targets.
Context (T : heap_id -> Prop).
Lemma fr_heap_array_set_length o n : T o -> fr T (heap_array_set_length o n).
Proof. intros HT. fraw. unfold heap_array_set_length, update_base. auto with raw. Qed.
Lemma fr_array_set_length_writable o n : T o -> fr T (array_set_length_writable o n).
Proof. intros HT. fraw. unfold array_set_length_writable, update_base. auto with raw. Qed.
Lemma fr_object_set_prototype o n : T o -> fr T (object_set_prototype o n).
Proof. intros HT. fraw. unfold object_set_prototype, update_base. auto 10 with raw. Qed.
Lemma fr_object_set_extensible o n : T o -> fr T (object_set_extensible o n).
Proof. intros HT. fraw. unfold object_set_extensible, update_base. auto 10 with raw. Qed.
Lemma fr_define_array_fixup o a n k : T o -> fr T (define_array_fixup o a n k).
Proof. intros HT. fraw. unfold define_array_fixup, update_base. auto 10 with raw. Qed.
Lemma fr_set_existing o k v : T o -> fr T (object_set_existing_data_property_value o k v).
Proof. intros HT. fraw. unfold object_set_existing_data_property_value, update_base. auto 10 with raw. Qed.
Lemma fr_env_initialize o k v : T o -> fr T (env_initialize_binding o k v).
Proof. intros HT. fraw. unfold env_initialize_binding, update_bindings. auto 10 with raw. Qed.
Lemma fr_env_set o k v : T o -> fr T (env_set_mutable_binding o k v).
Proof. intros HT. fraw. unfold env_set_mutable_binding, update_bindings. auto 10 with raw. Qed.
Lemma fr_env_initialize_sym o k v : T o -> fr T (env_initialize_symbol_binding o k v).
Proof. intros HT. fraw. unfold env_initialize_symbol_binding, update_bindings. auto 10 with raw. Qed.
Lemma fr_env_set_sym o k v : T o -> fr T (env_set_mutable_symbol_binding o k v).
Proof. intros HT. fraw. unfold env_set_mutable_symbol_binding, update_bindings. auto 10 with raw. Qed.
Lemma fr_bound_this o v : T o -> fr T (set_function_bound_this o v).
Proof. intros HT. fraw. unfold set_function_bound_this, update_function. auto 10 with raw. Qed.
Lemma fr_bound_new_target o v : T o -> fr T (set_function_bound_new_target o v).
Proof. intros HT. fraw. unfold set_function_bound_new_target, update_function. auto 10 with raw. Qed.
Lemma fr_realm o v : T o -> fr T (set_function_realm o v).
Proof. intros HT. fraw. unfold set_function_realm, update_function. auto 10 with raw. Qed.
Lemma fr_job_realm o v : T o -> fr T (set_function_job_realm o v).
Proof. intros HT. fraw. unfold set_function_job_realm, update_function. auto 10 with raw. Qed.
Lemma fr_data o v : T o -> fr T (set_function_data o v).
Proof. intros HT. fraw. unfold set_function_data, update_function. auto 10 with raw. Qed.
Lemma fr_closure_env o v : T o -> fr T (set_function_closure_env o v).
Proof. intros HT. fraw. unfold set_function_closure_env, update_function. auto 10 with raw. Qed.
Lemma fr_update_function o g : T o -> (forall x, fn_bound_args (g x) = fn_bound_args x /\ fn_native_slots (g x) = fn_native_slots x
     /\ fn_base (g x) = fn_base x) -> fr T (update_function o g).
Proof. intros HT Hg. apply raw_fr; [by apply good_update_function|]. unfold update_function. auto 10 with raw. Qed.
Lemma fr_promise_handled o v : T o -> fr T (promise_set_is_handled o v).
Proof. intros HT. fraw. unfold promise_set_is_handled, update_promise. auto 10 with raw. Qed.
Lemma fr_promise_set_state o st r : T o -> fr T (promise_set_state_and_result o st r).
Proof. intros HT. fraw. unfold promise_set_state_and_result, update_promise. auto 10 with raw. Qed.
Lemma fr_promise_fulfill o r : T o -> fr T (promise_fulfill o r).
Proof. apply fr_promise_set_state. Qed.
Lemma fr_promise_reject o r : T o -> fr T (promise_reject o r).
Proof. apply fr_promise_set_state. Qed.
Lemma fr_promise_settle o st r : T o -> fr T (promise_settle_and_take_reactions o st r).
Proof. intros HT. fraw. unfold promise_settle_and_take_reactions, update_promise. auto 12 with raw. Qed.
Lemma fr_host_slots o hs : fr T (object_set_host_slots o hs).
Proof.
  fraw. intros h h' r E. unfold object_set_host_slots in E. destruct (validate h o) as [ix|] eqn:Hv.
  2:{ simplify_eq. by eapply (raw_id T (mfail (A:=unit) EInvalidHandle)). }
  destruct (h_slots h !! ix) as [s|] eqn:Hs.
  2:{ simplify_eq. by eapply (raw_id T (mpanic (A:=unit))). }
  assert (K : h' = h \/ h' = h <| h_slots := <[ix := s <| sl_host := hs |>]> (h_slots h) |>)
    by (destruct (sl_value s) as [[]|]; simplify_eq; auto).
  destruct K as [->| ->]; (split; [done|]; split; [done|]); eauto 10. cbn. intros j t Ht. destruct (decide (ix = j)) as [->|N].
  - assert (t = s) by congruence. subst. eexists. rewrite list_lookup_insert by (by eapply lookup_lt_Some). split; [done|]. cbn. eauto 10.
  - exists t. rewrite list_lookup_insert_ne by done. eauto 10.
Qed.
Lemma fr_env_add_binding o b : T o -> fr T (env_add_binding o b).
Proof.
  intros HT. apply fr_good; [auto with good|]. intros h h' r H E.
  destruct (env_add_binding_spec o b h H) as [(e & E1)|(x & x' & Hl & h1 & H1 & G & [(e & E1)|(h2 & _ & E1 & U)])];
    rewrite E1 in E; simplify_eq; [by apply keeps_refl|by eapply keeps_gstep|].
  eapply keeps_trans; [done|eapply keeps_gstep; eauto|]. eapply keeps_ustep_T; eauto.
Qed.
Lemma fr_append_reaction o f b : T o -> fr T (promise_append_reaction o f b).
Proof.
  intros HT. apply fr_good; [auto with good|]. intros h h' r H E.
  destruct (append_reaction_spec o f b h H) as [(e & E1)|(x & x' & Hl & _ & h1 & H1 & G & [(e & E1)|(h2 & _ & E1 & U)])];
    rewrite E1 in E; simplify_eq; [by apply keeps_refl|by eapply keeps_gstep|].
  eapply keeps_trans; [done|eapply keeps_gstep; eauto|]. eapply keeps_ustep_T; eauto.
Qed.
Lemma fr_heap_define_property o k d : T o -> fr T (heap_define_property o k d).
Proof.
  intros HT. apply fr_good; [auto with good|]. intros h h' r H E. rewrite heap_define_property_unfold in E.
  destruct (define_target o k h) as [t|e|] eqn:Ht; [|simplify_eq; by apply keeps_refl..].
  match type of E with context [define_new_length ?a ?b ?c ?d] => destruct (define_new_length a b c d) as [nl|e|] end;
    [|simplify_eq; by apply keeps_refl..].
  unfold mbind in E. destruct (define_core o k d t h) as [h1 r1] eqn:E1.
  destruct (fr_define_core T _ _ _ _ _ _ _ HT H Ht E1) as [H1 K1].
  destruct r1 as [a|e|]; [|simplify_eq; auto..].
  destruct (fr_define_array_fixup _ _ _ _ HT _ _ _ H1 E) as [H2 K2]. eapply keeps_trans; eauto.
Qed.
Lemma fr_registry_insert key sym : fr T (symbol_registry_insert key sym).
Proof.
  apply fr_good; [auto with good|]. intros h h' r H E.
  destruct (registry_insert_spec key sym h H) as (h1 & H1 & G & [(e & E1)|(c & H2 & [(e & E1)|(u & x & _ & _ & E1)])]).
  - rewrite E1 in E. simplify_eq. eapply keeps_gstep; eauto.
  - rewrite E1 in E. simplify_eq. eapply keeps_trans; [done|eapply keeps_gstep; eauto|]. by apply keeps_same.
  - destruct x as [i|i]; [|destruct E1 as [E1 _]]; rewrite E1 in E; simplify_eq;
      (eapply keeps_trans; [done|eapply keeps_gstep; eauto|]; by apply keeps_same).
Qed.
Lemma fr_collect : fr T collect_garbage.
Proof.
  apply fr_good; [auto with good|]. intros h h' r H E. destruct (collect_ok [] h H) as (h1 & E1 & H1 & G & _).
  unfold collect_garbage in E. rewrite E1 in E. simplify_eq. eapply keeps_gstep; eauto.
Qed.
Lemma fr_add_root v : fr T (add_root v).
Proof.
  apply fr_good; [auto with good|]. intros h h' r H E.
  destruct (add_root_spec v h H) as (h1 & H1 & G & [E1|(h2 & j & E1 & H2 & Es & R & _)]); rewrite E1 in E; simplify_eq.
  - eapply keeps_gstep; eauto.
  - eapply keeps_trans; [done|eapply keeps_gstep; eauto|]. destruct R as (R1&R2&R3&R4&_). by apply keeps_same.
Qed.
Lemma fr_add_env_root v : fr T (add_env_root v).
Proof.
  change (add_env_root v) with (with_scope (push_env_root v ;;; add_env_root_inner v)).
  apply fr_with_scope, fr_bind; [apply fr_push_env_root|]. intros _ h h' r H E.
  destruct (add_env_root_inner_spec v h H) as (h1 & H1 & G & [E1|(h2 & j & E1 & H2 & Es & R & _)]); rewrite E1 in E; simplify_eq.
  - split; [done|]. eapply keeps_gstep; eauto.
  - split; [done|]. eapply keeps_trans; [done|eapply keeps_gstep; eauto|]. destruct R as (R1&R2&R3&R4&_). by apply keeps_same.
Qed.
Lemma fr_roots_only {A} (m : M A) : good m ->
  (forall h, h_layout (fst (m h)) = h_layout h /\ h_gc_runs (fst (m h)) = h_gc_runs h /\ h_slots (fst (m h)) = h_slots h) -> fr T m.
Proof.
  intros Hg Hm. apply fr_good; auto. intros h h' r H E. destruct (Hm h) as (E1 & E2 & E3). rewrite E in *. by apply keeps_same.
Qed.
Lemma fr_set_root i v : fr T (set_root i v).
Proof. apply fr_roots_only; [auto with good|]. intros h. unfold set_root. destruct (h_proots h !! i) as [[]|]; done. Qed.
Lemma fr_remove_root i : fr T (remove_root i).
Proof. apply fr_roots_only; [auto with good|]. intros h. unfold remove_root. destruct (h_proots h !! i) as [[]|]; done. Qed.
Lemma fr_set_env_root i v : fr T (set_env_root i v).
Proof. apply fr_roots_only; [auto with good|]. intros h. unfold set_env_root. destruct (h_peroots h !! i) as [[]|]; done. Qed.
Lemma fr_remove_env_root i : fr T (remove_env_root i).
Proof. apply fr_roots_only; [auto with good|]. intros h. unfold remove_env_root. destruct (h_peroots h !! i) as [[]|]; done. Qed.
Lemma fr_push_root v : fr T (push_root v).
Proof. apply fr_push_roots_with. Qed.
Lemma fr_push_roots v : fr T (push_roots v).
Proof. apply fr_push_roots_with. Qed.
End targets.

Create HintDb fr.
Global Hint Resolve fr_ret fr_fail fr_mget fr_mread fr_ensure fr_push_roots_with fr_push_env_root fr_delete_own
  fr_heap_array_set_length fr_array_set_length_writable fr_object_set_prototype fr_object_set_extensible fr_set_existing
  fr_env_initialize fr_env_set fr_env_initialize_sym fr_env_set_sym fr_bound_this fr_bound_new_target fr_realm fr_job_realm
  fr_data fr_closure_env fr_promise_handled fr_promise_set_state fr_promise_fulfill fr_promise_reject fr_promise_settle
  fr_host_slots fr_env_add_binding fr_append_reaction fr_heap_define_property fr_registry_insert fr_collect fr_add_root
  fr_add_env_root fr_set_root fr_remove_root fr_set_env_root fr_remove_env_root fr_push_root fr_push_roots : fr.
Global Hint Extern 1 (fr _ (with_scope _)) => apply fr_with_scope : fr.
Global Hint Extern 1 (fr _ (ensure_can_allocate _)) => apply fr_ensure : fr.
Global Hint Extern 3 (fr _ (mbind (mget h_layout) _)) => apply fr_layout; intros ? : fr.
Global Hint Extern 4 (fr _ (mbind _ _)) => apply fr_bind; [|intros ?] : fr.
Global Hint Extern 4 (frl _ _ (mbind _ _)) => apply frl_bind; [|intros ?] : fr.
Global Hint Extern 5 (fr _ (match ?x with _ => _ end)) => destruct x : fr.
Global Hint Extern 5 (frl _ _ (match ?x with _ => _ end)) => destruct x : fr.
Global Hint Extern 6 (frl _ _ _) => apply frl_of_fr : fr.

(** ** Allocation *)
(** The slot of [f] held no object in [h0], or its object has been collected since. *)
Definition newer (h0 h : heap) (f : heap_id) : Prop :=
  forall s, h_slots h0 !! hid_index f = Some s -> sl_value s = None \/
    exists s' k, h_slots h !! hid_index f = Some s' /\ 1 <= k <= h_gc_runs h - h_gc_runs h0 /\
      sl_gen s' = (sl_gen s + k) mod two32.
Lemma newer_keeps T h0 h h' f : newer h0 h f -> h_gc_runs h0 <= h_gc_runs h -> keeps T h h' -> newer h0 h' f.
Proof.
  intros Hn Hle K s Hs. destruct (Hn s Hs) as [?|(s1 & k & A1 & A2 & A3)]; [by left|right].
  destruct (kp_slots _ _ _ K _ _ A1) as (s2 & k2 & B1 & B2 & B3 & _). pose proof (kp_runs _ _ _ K).
  exists s2, (k + k2). split; auto. split; [lia|]. rewrite B3, A3, N.add_mod_idemp_l by done. f_equal. lia.
Qed.
Lemma newer_alloc T h0 h h' id obj : heap_ok h0 -> keeps T h0 h -> alloc_step h h' id obj -> newer h0 h' id.
Proof.
  intros H0 K A s Hs. destruct (kp_slots _ _ _ K _ _ Hs) as (s1 & k & B1 & B2 & B3 & B4).
  destruct (as_fresh _ _ _ _ A) as [E|(s2 & E1 & E2 & E3)]; [congruence|]. assert (s2 = s1) by congruence. subst s2.
  destruct (as_live _ _ _ _ A) as (t & T1 & T2 & T3 & T4). destruct (as_rest _ _ _ _ A) as (_&_&_&R4&_).
  destruct (sl_value s) as [o|] eqn:Hv; [right|by left]. destruct (decide (k = 0)) as [Hk|Hk].
  - destruct (B4 Hk o eq_refl) as (o' & C & _). congruence.
  - exists t, k. split; auto. split; [lia|]. congruence.
Qed.

(** Frame triples relative to a start heap [h0]: [N] lists handles allocated since. *)
Definition ft {A} (T : heap_id -> Prop) (N : list heap_id) (m : M A) (F : A -> list heap_id) : Prop :=
  forall h0 h h' r, heap_ok h0 -> heap_ok h -> keeps T h0 h -> (forall f, f ∈ N -> newer h0 h f) -> m h = (h', r) ->
    heap_ok h' /\ keeps T h0 h' /\ (forall f, f ∈ N -> newer h0 h' f) /\
    forall a, r = Ok a -> forall f, f ∈ F a -> newer h0 h' f.
Definition ftl {A} (l : layout) (T : heap_id -> Prop) (N : list heap_id) (m : M A) (F : A -> list heap_id) : Prop :=
  forall h0 h h' r, h_layout h = l -> heap_ok h0 -> heap_ok h -> keeps T h0 h -> (forall f, f ∈ N -> newer h0 h f) -> m h = (h', r) ->
    heap_ok h' /\ keeps T h0 h' /\ (forall f, f ∈ N -> newer h0 h' f) /\
    forall a, r = Ok a -> forall f, f ∈ F a -> newer h0 h' f.
Definition nil_of {A} : A -> list heap_id := fun _ => [].
Lemma keeps_newer (T T' : heap_id -> Prop) (N : list heap_id) h0 h h' : heap_ok h0 -> keeps T h0 h -> keeps T' h h' ->
  (forall x, T' x -> T x \/ x ∈ N) -> (forall f, f ∈ N -> newer h0 h f) -> keeps T h0 h'.
Proof.
  intros H0 K1 K2 HT HN. pose proof (kp_runs _ _ _ K1) as R1. pose proof (kp_runs _ _ _ K2) as R2.
  constructor; [rewrite (kp_layout _ _ _ K2); apply (kp_layout _ _ _ K1)|lia|].
  intros i s Hs. destruct (kp_slots _ _ _ K1 _ _ Hs) as (s1 & k1 & A1 & A2 & A3 & A4).
  destruct (kp_slots _ _ _ K2 _ _ A1) as (s2 & k2 & B1 & B2 & B3 & B4).
  destruct (sl_value s) as [o|] eqn:Hv.
  2:{ exists s2, (k1 + k2). split; auto. split; [lia|]. split; [|done]. rewrite B3, A3, N.add_mod_idemp_l by done. f_equal. lia. }
  destruct (decide (k1 = 0)) as [->|Hk].
  2:{ exists s2, (k1 + k2). split; auto. split; [lia|]. split; [|lia]. rewrite B3, A3, N.add_mod_idemp_l by done. f_equal. lia. }
  destruct (A4 eq_refl o eq_refl) as (o1 & C1 & C2). rewrite <- (gen_small _ _ _ H0 Hs) in A3.
  destruct (decide (HId i (sl_gen s) ∈ N)) as [Hin|Hin].
  - destruct (HN _ Hin s Hs) as [?|(s' & k & D1 & D2 & D3)]; [congruence|]. cbn in D1. assert (s' = s1) by congruence. subst s'.
    exists s2, (k + k2). split; auto. split; [lia|]. split; [|lia]. rewrite B3, D3, N.add_mod_idemp_l by done. f_equal. lia.
  - exists s2, k2. split; auto. split; [lia|]. split; [by rewrite B3, A3|]. intros Hk2 x [= <-].
    destruct (B4 Hk2 o1 C1) as (o2 & E1 & E2). exists o2. split; auto. intros Ht. rewrite E2; auto. rewrite A3.
    intros Hx. destruct (HT _ Hx); auto.
Qed.
Lemma ft_of_fr {A} (T T' : heap_id -> Prop) (N : list heap_id) (m : M A) : fr T' m -> (forall x, T' x -> T x \/ x ∈ N) -> ft T N m nil_of.
Proof.
  intros Hm HT h0 h h' r H0 H K HN E. destruct (Hm _ _ _ H E) as [H1 K1]. split; auto. split; [eapply keeps_newer; eauto|].
  split; [|intros a _ f Hf; by apply elem_of_nil in Hf]. intros f Hf. eapply newer_keeps; [by apply HN|apply K|exact K1].
Qed.
Lemma ftl_of_ft {A} l T N (m : M A) F : ft T N m F -> ftl l T N m F.
Proof. intros Hm h0 h h' r _. apply Hm. Qed.
Lemma ftl_bind {A B} l T N (m : M A) (k : A -> M B) F G :
  ftl l T N m F -> (forall a, ftl l T (F a ++ N) (k a) G) -> ftl l T N (mbind m k) G.
Proof.
  intros Hm Hk h0 h h' r Hl H0 H K HN E. unfold mbind in E. destruct (m h) as [h1 r1] eqn:E1.
  destruct (Hm h0 _ _ _ Hl H0 H K HN E1) as (H1 & K1 & N1 & R1). destruct r1 as [a|e|]; simplify_eq; auto.
  - destruct (Hk a h0 h1 h' r) as (H2 & K2 & N2 & R2); auto.
    + rewrite (kp_layout _ _ _ K1). rewrite (kp_layout _ _ _ K) in *. done.
    + intros f [Hf|Hf]%elem_of_app; eauto.
    + split; auto. split; auto. split; auto. intros f Hf. apply N2. set_solver.
  - split; auto. split; auto. split; auto. done.
  - split; auto. split; auto. split; auto. done.
Qed.
Lemma ft_bind {A B} T N (m : M A) (k : A -> M B) F G :
  ft T N m F -> (forall a, ft T (F a ++ N) (k a) G) -> ft T N (mbind m k) G.
Proof. intros Hm Hk h0 h h' r. apply (ftl_bind (h_layout h) T N m k F G); [by apply ftl_of_ft|intros; by apply ftl_of_ft|done]. Qed.
Lemma ft_layout {A} T N (k : layout -> M A) F : (forall l, ftl l T N (k l) F) -> ft T N (mbind (mget h_layout) k) F.
Proof. intros Hk h0 h h' r. apply (Hk (h_layout h) h0 h h' r eq_refl). Qed.
Lemma ft_ret {A} T N (a : A) F : F a ⊆ N -> ft T N (mret a) F.
Proof.
  intros Hs h0 h h' r H0 H K HN E. unfold mret in E. simplify_eq. split; auto. split; auto. split; auto.
  intros x [= <-] f Hf. apply HN. set_solver.
Qed.
Lemma ft_fail {A} T N e F : ft T N (mfail (A:=A) e) F.
Proof. intros h0 h h' r H0 H K HN E. unfold mfail in E. simplify_eq. split; auto. split; auto. split; auto. done. Qed.
Lemma ft_with_scope {A} T N (m : M A) F : ft T N m F -> ft T N (with_scope m) F.
Proof.
  intros Hm h0 h h' r H0 H K HN E. unfold with_scope in E. destruct (m h) as [h1 r1] eqn:Em.
  destruct (Hm h0 _ _ _ H0 H K HN Em) as (H1 & K1 & N1 & R1). injection E as <- <-.
  set (h' := h1 <| h_roots := _ |> <| h_env_roots := _ |>) in *.
  assert (H2 : heap_ok h').
  { pose proof (hk_caps h1 H1) as (?&?&?&?&?&?&?&?&?&?&?). apply heap_ok_set_roots; auto.
    + pose proof (nlen_take (length (h_roots h)) (h_roots h1)). lia.
    + pose proof (nlen_take (length (h_env_roots h)) (h_env_roots h1)). lia. }
  assert (K2 : keeps T h0 h'). { eapply keeps_trans; eauto. by apply keeps_same. }
  split; auto.
Qed.
Lemma ftl_alloc l T N obj nb : sizes nb (payload_bytes l obj) -> ftl l T N (alloc_unchecked obj nb) (fun id => [id]).
Proof.
  intros Hs h0 h h' r <- H0 H K HN E.
  destruct (alloc_unchecked_spec obj nb h H Hs) as (h1 & H1 & G & [E1|(h2 & id & E1 & H2 & A)]); rewrite E1 in E; simplify_eq.
  - assert (K1 : keeps T h h') by (eapply keeps_gstep; eauto). split; auto. split; [eapply keeps_trans; eauto|]. split; [|done].
    intros f Hf. eapply newer_keeps; [by apply HN|apply K|exact K1].
  - assert (K1 : keeps T h h1) by (eapply keeps_gstep; eauto). assert (K2 : keeps T h1 h') by (eapply keeps_alloc; eauto).
    assert (K3 : keeps T h0 h1) by (eapply keeps_trans; eauto). assert (K4 : keeps T h0 h') by (eapply keeps_trans; eauto).
    split; auto. split; auto. split.
    + intros f Hf. eapply newer_keeps; [|apply K3|exact K2]. eapply newer_keeps; [by apply HN|apply K|exact K1].
    + intros a [= <-] f Hf. apply elem_of_list_singleton in Hf as ->. eapply newer_alloc; [exact H0|exact K3|exact A].
Qed.
Lemma ft_alloc T N obj nb : (forall l, sizes nb (payload_bytes l obj)) -> ft T N (alloc_unchecked obj nb) (fun id => [id]).
Proof. intros Hs h0 h h' r. by apply (ftl_alloc (h_layout h)). Qed.
Lemma fr_of_ft {A} T (m : M A) F : ft T [] m F -> fr T m.
Proof.
  intros Hm h h' r H E. destruct (Hm h h h' r H H) as (? & ? & _); auto; [by apply keeps_refl|].
  intros f Hf. by apply elem_of_nil in Hf.
Qed.

Ltac ftb F := apply (ft_bind _ _ _ _ F); [|intros ?].
Ltac ftn := eapply ft_bind; [eapply ft_of_fr; [auto with fr|try (intros ? []; fail)]|intros ?]; cbn [app nil_of].
Definition no_target : heap_id -> Prop := fun _ => False.
(** Operations without targets. *)
Lemma ft_pure {A} T N (m : M A) : fr no_target m -> ft T N m nil_of.
Proof. intros Hm. eapply ft_of_fr; [exact Hm|]. intros x []. Qed.
Ltac fp := eapply ft_bind; [apply ft_pure; auto 10 with fr|intros ?]; cbn [app nil_of].
Ltac flp := eapply ftl_bind; [apply ftl_of_ft, ft_pure; auto 10 with fr|intros ?]; cbn [app nil_of].

Section allocs.
Context (T : heap_id -> Prop) (N : list heap_id).
Lemma ft_alloc_string u : ft T N (alloc_string u) (fun id => [id]).
Proof. unfold alloc_string. fp. apply ft_alloc. intros l. apply string_bytes_ok. Qed.
Lemma ft_new_symbol d : ft T N (new_symbol d) (fun id => [id]).
Proof.
  unfold new_symbol. apply ft_with_scope. do 3 fp. eapply ft_bind; [apply ft_pure|intros ?; apply ft_alloc; intros l; by left].
  apply fr_mmodify; [|done]. intros h H. by apply heap_ok_set_symbol.
Qed.
Lemma ft_alloc_object : ft T N alloc_object (fun id => [id]).
Proof. unfold alloc_object. apply ft_layout. intros l. flp. apply ftl_alloc. by right. Qed.
Lemma ft_alloc_object_with_properties p ps : ft T N (alloc_object_with_properties p ps) (fun id => [id]).
Proof.
  unfold alloc_object_with_properties. apply ft_with_scope. fp. apply ft_layout. intros l. flp. apply ftl_alloc. by right.
Qed.
Lemma ft_alloc_promise p : ft T N (alloc_promise_with_prototype p) (fun id => [id]).
Proof.
  unfold alloc_promise_with_prototype. apply ft_with_scope. fp. apply ft_layout. intros l. flp. apply ftl_alloc.
  right. by rewrite promise_bytes_ok.
Qed.
Lemma ft_alloc_declarative_env o bs : ft T N (alloc_declarative_env_record o bs) (fun id => [id]).
Proof.
  unfold alloc_declarative_env_record. apply ft_with_scope. fp.
  destruct (negb a); [apply ft_fail|]. fp.
  apply ft_layout. intros l. flp.
  destruct (has_adjacent_dup _ _); [apply ftl_of_ft, ft_fail|]. apply ftl_alloc.
  right. rewrite env_bytes_ok. simpl. unfold nlen. by rewrite sort_by_length.
Qed.
Lemma ft_alloc_object_env b o w : ft T N (alloc_object_env_record b o w) (fun id => [id]).
Proof.
  unfold alloc_object_env_record. apply ft_with_scope. fp.
  destruct (negb a); [apply ft_fail|]. fp. apply ft_layout. intros l. flp. apply ftl_alloc. by left.
Qed.
Lemma ft_env_create o : ft T N (env_create o) (fun id => [id]).
Proof. unfold env_create. apply ft_with_scope. fp. apply ft_layout. intros l. flp. apply ftl_alloc. by right. Qed.
End allocs.
Lemma ft_weaken_post {A} T N (m : M A) F G : ft T N m F -> (forall a, G a ⊆ F a ++ N) -> ft T N m G.
Proof.
  intros Hm HG h0 h h' r H0 H K HN E. destruct (Hm _ _ _ _ H0 H K HN E) as (A1 & A2 & A3 & A4). split; auto. split; auto. split; auto.
  intros a Ha f Hf. apply HG in Hf. apply elem_of_app in Hf as [Hf|Hf]; eauto.
Qed.
Lemma ft_alloc_array T N n : ft T N (alloc_array n) (fun id => [id]).
Proof.
  unfold alloc_array. destruct (_ <? _); [apply ft_fail|]. apply ft_with_scope.
  eapply ft_bind; [apply ft_alloc_string|]. intros k. fp.
  apply ft_layout. intros l. flp. apply ftl_alloc. by right.
Qed.
Lemma ft_symbol_for T N k : ft T N (symbol_for k) nil_of.
Proof.
  unfold symbol_for. do 2 fp. destruct a0; [apply ft_ret; set_solver|]. fp. apply ft_with_scope. fp.
  eapply ft_bind; [apply ft_new_symbol|]. intros s. do 2 fp. apply ft_ret. set_solver.
Qed.
Lemma fr_alloc_string T u : fr T (alloc_string u). Proof. eapply fr_of_ft, ft_alloc_string. Qed.
Global Hint Resolve fr_alloc_string : fr.
Lemma fr_compute_function_name T n p : fr T (compute_function_name n p).
Proof. unfold compute_function_name. destruct p, n; auto 10 with fr. Qed.
Global Hint Resolve fr_compute_function_name : fr.
Lemma fr_define_property (T : heap_id -> Prop) o k d : T o -> fr T (define_property o k d).
Proof. intros HT. unfold define_property. auto with fr. Qed.
Global Hint Resolve fr_define_property : fr.
Lemma fr_set_function_name (T : heap_id -> Prop) f n p : T f -> fr T (set_function_name f n p).
Proof.
  intros HT. unfold set_function_name. apply fr_with_scope. do 5 (apply fr_bind; [auto with fr|intros ?]).
  by apply fr_update_function.
Qed.
Lemma fr_set_function_length (T : heap_id -> Prop) f n : T f -> fr T (set_function_length f n).
Proof.
  intros HT. unfold set_function_length. apply fr_with_scope. do 3 (apply fr_bind; [auto with fr|intros ?]).
  by apply fr_update_function.
Qed.
Global Hint Resolve fr_set_function_name fr_set_function_length : fr.
Lemma fr_make_constructor (T : heap_id -> Prop) f : T f -> fr T (make_constructor f).
Proof.
  intros HT. eapply fr_of_ft. unfold make_constructor. apply ft_with_scope. fp.
  eapply ft_bind; [apply ft_alloc_object|]. intros p. do 2 fp.
  eapply ft_bind; [apply (ft_of_fr _ (fun x => x = p)); [auto with fr|set_solver]|]. intros ?; cbn [app nil_of]. fp.
  eapply ft_bind; [apply (ft_of_fr _ (fun x => x = f)); [auto with fr|intros x ->; by left]|]. intros ?; cbn [app nil_of].
  apply (ft_ret _ _ _ nil_of). set_solver.
Qed.
Global Hint Resolve fr_make_constructor : fr.
Lemma ft_finish T N f name len (c : bool) : f ∈ N ->
  ft T N (set_function_name f (PKString name) None ;;; set_function_length f len ;;;
    if c then make_constructor f ;;; mret f else mret f) (fun id => [id]).
Proof.
  intros Hf. do 2 (eapply ft_bind; [apply (ft_of_fr _ (fun x => x = f)); [auto with fr|intros x ->; by right]|]; intros ?; cbn [app nil_of]).
  destruct c; [|apply ft_ret; set_solver].
  eapply ft_bind; [apply (ft_of_fr _ (fun x => x = f)); [auto with fr|intros x ->; by right]|]. intros ?; cbn [app nil_of]. apply ft_ret. set_solver.
Qed.
Lemma ft_alloc_native_function T N a b c d e f : ft T N (alloc_native_function a b c d e f) (fun id => [id]).
Proof.
  unfold alloc_native_function. apply ft_with_scope. fp. apply ft_layout. intros l. flp.
  eapply ftl_bind; [apply ftl_alloc; right; apply function_size_ok|]. intros fn. apply ftl_of_ft.
  destruct b; [apply (ft_finish _ _ _ _ _ true)|apply (ft_finish _ _ _ _ _ false)]; set_solver.
Qed.
Lemma ft_alloc_ecma_function T N a b c d e f g : ft T N (alloc_ecma_function a b c d e f g) (fun id => [id]).
Proof.
  unfold alloc_ecma_function. apply ft_with_scope. fp. apply ft_layout. intros l. flp.
  eapply ftl_bind; [apply ftl_alloc; right; apply function_size_ok|]. intros fn. apply ftl_of_ft.
  apply (ft_finish _ _ _ _ _ b). set_solver.
Qed.
Lemma ft_alloc_user_function T N a b c : ft T N (alloc_user_function a b c) (fun id => [id]).
Proof.
  unfold alloc_user_function. apply ft_with_scope. fp. apply ft_layout. intros l. flp.
  eapply ftl_bind; [apply ftl_alloc; right; apply function_size_ok|]. intros fn. apply ftl_of_ft.
  apply (ft_finish _ _ _ _ _ false). set_solver.
Qed.
Lemma ft_alloc_bound_function T N a b c d e : ft T N (alloc_bound_function a b c d e) (fun id => [id]).
Proof.
  unfold alloc_bound_function. fp. unfold alloc_bound_function_raw. apply ft_with_scope. fp. apply ft_layout. intros l. flp.
  apply ftl_alloc; right; apply function_size_ok.
Qed.

(** ** Object internal methods *)
Lemma fr_heap_ordinary_delete (T : heap_id -> Prop) o k : T o -> fr T (heap_ordinary_delete o k).
Proof. intros HT. unfold heap_ordinary_delete. auto 10 with fr. Qed.
Global Hint Resolve fr_heap_ordinary_delete : fr.
Lemma fr_validate_and_apply (T : heap_id -> Prop) o k e p c : T o -> fr T (validate_and_apply o k e p c).
Proof. intros HT. unfold validate_and_apply. auto 20 with fr. Qed.
Global Hint Resolve fr_validate_and_apply : fr.
Lemma fr_ordinary_define (T : heap_id -> Prop) o k p : T o -> fr T (ordinary_define_own_property o k p).
Proof. intros HT. unfold ordinary_define_own_property. auto 20 with fr. Qed.
Lemma fr_ordinary_delete (T : heap_id -> Prop) o k : T o -> fr T (ordinary_delete o k).
Proof. intros HT. unfold ordinary_delete. auto 20 with fr. Qed.
Global Hint Resolve fr_ordinary_define fr_ordinary_delete : fr.
Lemma fr_array_delete_loop (T : heap_id -> Prop) o lk ol nl nw ks : T o -> fr T (array_delete_loop o lk ol nl nw ks).
Proof. intros HT. induction ks; cbn [array_delete_loop]; auto 30 with fr. Qed.
Global Hint Resolve fr_array_delete_loop : fr.
Lemma fr_array_set_length (T : heap_id -> Prop) o lk p : T o -> fr T (array_set_length o lk p).
Proof. intros HT. unfold array_set_length. auto 30 with fr. Qed.
Global Hint Resolve fr_array_set_length : fr.
Lemma fr_array_define (T : heap_id -> Prop) o k p : T o -> fr T (array_define_own_property o k p).
Proof. intros HT. unfold array_define_own_property. auto 30 with fr. Qed.
Global Hint Resolve fr_array_define : fr.
Lemma fr_define_own_property (T : heap_id -> Prop) o k p : T o -> fr T (define_own_property o k p).
Proof. intros HT. unfold define_own_property. auto 30 with fr. Qed.
Global Hint Resolve fr_define_own_property : fr.
Lemma fr_define_property_or_throw (T : heap_id -> Prop) o k p : T o -> fr T (define_property_or_throw o k p).
Proof. intros HT. unfold define_property_or_throw. auto 30 with fr. Qed.
Lemma fr_create_data_property (T : heap_id -> Prop) o k v : T o -> fr T (create_data_property o k v).
Proof. intros HT. unfold create_data_property. auto 30 with fr. Qed.
Global Hint Resolve fr_define_property_or_throw fr_create_data_property : fr.
Lemma fr_create_data_property_or_throw (T : heap_id -> Prop) o k v : T o -> fr T (create_data_property_or_throw o k v).
Proof. intros HT. unfold create_data_property_or_throw. auto 30 with fr. Qed.
Lemma fr_delete_property_or_throw (T : heap_id -> Prop) o k : T o -> fr T (delete_property_or_throw o k).
Proof. intros HT. unfold delete_property_or_throw. auto 30 with fr. Qed.
Lemma fr_ordinary_set_stop (T : heap_id -> Prop) o k v r : (forall x, r = VObject x -> T x) -> fr T (ordinary_set stop_call o k v r).
Proof.
  intros HT. unfold ordinary_set, stop_call. destruct r; try (auto 30 with fr; fail).
Qed.
Lemma fr_env_create_binding (T : heap_id -> Prop) e n m : T e -> fr T (env_create_binding e n m).
Proof. intros HT. unfold env_create_binding. auto 30 with fr. Qed.
Lemma fr_scope_append_reaction (T : heap_id -> Prop) p f r : T p -> fr T (scope_append_reaction p f r).
Proof. intros HT. unfold scope_append_reaction. auto 30 with fr. Qed.
Global Hint Resolve fr_create_data_property_or_throw fr_delete_property_or_throw fr_env_create_binding fr_scope_append_reaction : fr.

(** ** Calls and histories *)
Lemma fr_void {A} T (m : M A) : fr T m -> fr T (void m).
Proof. intros Hm. unfold void. apply fr_bind; [exact Hm|]. intros _. apply fr_ret. Qed.
Lemma fr_run_body T os : Forall (fun o => fr T (exec o)) os -> fr T (run_body os).
Proof.
  induction 1 as [|o os Ho _ IH]; [apply fr_ret|]. intros h h' r H E. cbn [run_body] in E.
  destruct (exec o h) as [h1 r1] eqn:E1. destruct (Ho _ _ _ H E1) as [H1 K1]. cbn in E.
  destruct (IH _ _ _ H1 E) as [H2 K2]. split; auto. eapply keeps_trans; eauto.
Qed.
Lemma fr_exec_weak o : forall T : heap_id -> Prop, (forall x, x ∈ op_writes o -> T x) -> fr T (exec o).
Proof.
  induction o as [body IH|o Hns] using op_ind'; intros T HT.
  - rewrite exec_scope. apply fr_with_scope, fr_run_body. apply Forall_forall. intros o Ho.
    rewrite Forall_forall in IH. apply (IH o Ho). intros x Hx. apply HT. cbn [op_writes].
    apply elem_of_list_In, in_flat_map. exists o. split; by apply elem_of_list_In.
  - assert (HT' : forall x, In x (op_writes o) -> T x) by (intros x Hx; apply HT; by apply elem_of_list_In).
    clear HT. destruct o; try (by destruct (Hns body)); cbn [exec]; cbn [op_writes In] in HT'; try apply fr_void; auto with fr;
      try (eapply fr_of_ft;
      first [apply ft_alloc_string|apply ft_new_symbol|apply ft_alloc_object|apply ft_alloc_object_with_properties|apply ft_alloc_array
            |apply ft_alloc_promise|apply ft_alloc_native_function|apply ft_alloc_ecma_function|apply ft_alloc_user_function
            |apply ft_alloc_bound_function|apply ft_env_create|apply ft_alloc_declarative_env|apply ft_alloc_object_env|apply ft_symbol_for]; fail).
    apply fr_ordinary_set_stop. intros x ->. apply HT'. by left.
Qed.
Lemma fr_exec o : fr (fun x => x ∈ op_writes o) (exec o).
Proof. by apply fr_exec_weak. Qed.
Lemma fr_run (os : list op) (T : heap_id -> Prop) h : heap_ok h -> (forall o x, o ∈ os -> x ∈ op_writes o -> T x) -> keeps T h (run os h).
Proof.
  intros H HT. destruct (fr_run_body T os) with (h := h) (h' := run os h) (r := Ok tt) as [_ K]; auto using run_body_run.
  apply Forall_forall. intros o Ho. apply fr_exec_weak. eauto.
Qed.
(** Live on both sides: the contents are the same. *)
Lemma keeps_live (T : heap_id -> Prop) h h' id o o' : heap_ok h -> keeps T h h' -> h_gc_runs h' < h_gc_runs h + two32 -> ~ T id ->
  live_as h id o -> live_as h' id o' -> o' = o.
Proof.
  intros H K Hr HT (hs & s & A1 & A2 & A3 & _) (hs' & s' & B1 & B2 & B3 & _).
  destruct (kp_slots _ _ _ K _ _ A1) as (s1 & k & C1 & C2 & C3 & C4). assert (s1 = s') by congruence. subst s1.
  pose proof (so_gen _ _ (hk_slots h H _ _ A1)) as Hg. pose proof (kp_runs _ _ _ K).
  assert (k = 0) as ->.
  { rewrite B2, <- A2 in C3. destruct (decide (sl_gen s + k < two32)); [rewrite N.mod_small in C3 by done; lia|].
    replace (sl_gen s + k) with (sl_gen s + k - two32 + 1 * two32) in C3 by lia. rewrite N.mod_add in C3 by done.
    rewrite N.mod_small in C3 by lia. lia. }
  destruct (C4 eq_refl o A3) as (o2 & D1 & D2). rewrite D2 in D1; [congruence|].
  rewrite A2. by destruct id.
Qed.
