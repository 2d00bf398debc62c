(** Proofs about tracing, marking and sweeping. *)
From stdpp Require Import base decidable list numbers sets.
From Coq Require Import NArith ZArith Lia.
From RecordUpdate Require Import RecordUpdate.
From Verif Require Import VmBase HeapModel HeapSpec.

Open Scope N_scope.

(* ------------------------------------------------------------------ *)
(** * [trace_object] reports exactly the handles an object stores *)

Lemma opt_list_in {A} (o : option A) x : x ∈ opt_list o <-> o = Some x.
Proof. destruct o; simpl; set_solver. Qed.

Lemma in_flat_map_elem {A B} (f : A -> list B) l x :
  x ∈ flat_map f l <-> exists y, y ∈ l /\ x ∈ f y.
Proof.
  rewrite elem_of_list_In, in_flat_map.
  split; intros (y & H1 & H2); exists y; by rewrite !elem_of_list_In in *.
Qed.

Lemma trace_value_in v id : id ∈ trace_value v <-> value_has v id.
Proof.
  destruct v; simpl; split; intros H; try (inversion H; subst; fail); try (inversion H; subst; set_solver);
  try (apply elem_of_list_singleton in H; subst; constructor).
Qed.

Lemma trace_values_in vs id : id ∈ trace_values vs <-> exists v, v ∈ vs /\ value_has v id.
Proof. unfold trace_values. rewrite in_flat_map_elem. by setoid_rewrite trace_value_in. Qed.

Lemma trace_opt_value_in v id : id ∈ trace_opt_value v <-> exists x, v = Some x /\ value_has x id.
Proof. unfold trace_opt_value. rewrite trace_values_in. by setoid_rewrite opt_list_in. Qed.

Lemma trace_key_in k id : id ∈ trace_key k <-> key_has k id.
Proof.
  destruct k; simpl; rewrite elem_of_list_singleton; split; intros H; subst; try constructor;
  inversion H; auto.
Qed.

Lemma trace_desc_in d id : id ∈ trace_desc d <-> desc_has d id.
Proof.
  destruct d as [e c [v w|g s]]; unfold trace_desc; simpl;
  rewrite ?elem_of_app, ?trace_value_in; split; intros H.
  - by constructor.
  - inversion H; subst; auto.
  - destruct H; [by apply dh_get|by apply dh_set].
  - inversion H; subst; auto.
Qed.

Lemma trace_base_in b id : id ∈ trace_base b <-> base_has b id.
Proof.
  unfold trace_base. rewrite elem_of_app, opt_list_in, in_flat_map_elem.
  unfold trace_entry. split.
  - intros [H|(e & He & H)]; [by apply bh_proto|].
    rewrite elem_of_app, trace_key_in, trace_desc_in in H.
    destruct H; [by eapply bh_key|by eapply bh_desc].
  - intros H; inversion H; subst; [by left|right; exists e..]; split; auto;
    rewrite elem_of_app, trace_key_in, trace_desc_in; auto.
Qed.

Lemma trace_fn_data_in d id : id ∈ trace_fn_data d <-> fndata_has d id.
Proof.
  destruct d; cbn [trace_fn_data]; rewrite ?elem_of_app, ?trace_value_in; split; intros H;
  try (inversion H; subst; fail).
  - inversion H; subst. constructor.
  - inversion H; subst. constructor.
  - destruct H; [by apply fd_handler_f|by apply fd_handler_c].
  - inversion H; subst; auto.
  - by constructor.
  - inversion H; subst; auto.
Qed.

Lemma default_nil_in {A} (o : option (list A)) x :
  x ∈ default [] o <-> exists l, o = Some l /\ x ∈ l.
Proof.
  destruct o; simpl; split.
  - intros H. eauto.
  - intros (l' & ? & ?). by simplify_eq.
  - intros H; by apply elem_of_nil in H.
  - intros (? & ? & ?). discriminate.
Qed.

Lemma trace_function_in f id : id ∈ trace_function f <-> function_has f id.
Proof.
  unfold trace_function. cbn [trace_value].
  rewrite !elem_of_app, !opt_list_in, !trace_opt_value_in, !trace_values_in, trace_base_in,
    trace_fn_data_in, elem_of_list_singleton.
  setoid_rewrite default_nil_in.
  split.
  - intros [?|[?|[?|[?|[(?&?&?)|[(?&?&?)|[(?&(?&?&?)&?)|[(?&(?&?&?)&?)|[?|?]]]]]]]]]; subst.
    + by apply fh_base.
    + apply fh_name.
    + by apply fh_data.
    + by apply fh_target.
    + by eapply fh_this.
    + by eapply fh_newtarget.
    + by eapply fh_args.
    + by eapply fh_slots.
    + by apply fh_realm.
    + by apply fh_env.
  - intros H; inversion H; subst; eauto 20.
Qed.

Lemma trace_binding_in b id : id ∈ trace_binding b <-> eb_name b = Some id \/ value_has (eb_value b) id.
Proof. unfold trace_binding. by rewrite elem_of_app, opt_list_in, trace_value_in. Qed.

Lemma trace_env_in e id : id ∈ trace_env_record e <-> env_has e id.
Proof.
  destruct e as [outer bs t n|outer o w]; cbn [trace_env_record trace_value];
  rewrite ?elem_of_app, ?opt_list_in, ?trace_opt_value_in, ?in_flat_map_elem, ?elem_of_list_singleton.
  - setoid_rewrite trace_binding_in. split.
    + intros [?|[(b&?&[?|?])|[(?&?&?)|(?&?&?)]]]; subst.
      * constructor.
      * by eapply eh_name.
      * by eapply eh_value.
      * by constructor.
      * by constructor.
    + intros H; inversion H; subst; eauto 10.
  - split.
    + intros [?|?]; subst; constructor.
    + intros H; inversion H; subst; eauto.
Qed.

Lemma trace_reaction_in r id : id ∈ trace_reaction r <-> reaction_has r id.
Proof.
  unfold trace_reaction. rewrite elem_of_app, !in_flat_map_elem. setoid_rewrite opt_list_in.
  unfold trace_capability, trace_job_callback. setoid_rewrite elem_of_app. setoid_rewrite elem_of_app.
  setoid_rewrite trace_value_in. split.
  - intros [(c&?&[?|[?|?]])|(j&?&Hj)].
    + by eapply rh_promise.
    + by eapply rh_resolve.
    + by eapply rh_reject.
    + inversion Hj; subst. by eapply rh_handler.
  - intros H; inversion H; subst; eauto 10 using value_has.
Qed.

Lemma trace_promise_in p id : id ∈ trace_promise p <-> promise_has p id.
Proof.
  unfold trace_promise. rewrite !elem_of_app, !in_flat_map_elem, trace_base_in, trace_opt_value_in.
  setoid_rewrite default_nil_in. setoid_rewrite trace_reaction_in. split.
  - intros [?|[(?&?&?)|[(?&(?&?&?)&?)|(?&(?&?&?)&?)]]].
    + by apply ph_base.
    + by eapply ph_result.
    + by eapply ph_fulfill.
    + by eapply ph_reject.
  - intros H; inversion H; subst; eauto 10.
Qed.

Lemma trace_object_in o id : id ∈ trace_object o <-> object_has o id.
Proof.
  destruct o; cbn [trace_object];
  rewrite ?opt_list_in, ?trace_base_in, ?trace_function_in, ?trace_env_in, ?trace_promise_in;
  split; intros H; try (inversion H; subst; auto; fail); subst; try (by constructor).
Qed.

Lemma heap_root_ids_in h id : id ∈ heap_root_ids h <-> rooted h id.
Proof.
  unfold heap_root_ids. rewrite !elem_of_app, !trace_values_in, in_flat_map_elem.
  setoid_rewrite elem_of_list_omap. split.
  - intros [(v&?&?)|[?|[(v&(x&?&Hx)&?)|[(x&?&Hx)|(e&?&He)]]]].
    + by eapply rt_stack.
    + by apply rt_env_stack.
    + unfold Datatypes.id in Hx; subst. by eapply rt_persistent.
    + unfold Datatypes.id in Hx; subst. by apply rt_persistent_env.
    + apply elem_of_cons in He as [->|He]; [by apply rt_registry_key|].
      apply elem_of_list_singleton in He as ->. by apply rt_registry_sym.
  - intros H; inversion H; subst.
    + left; eauto.
    + auto.
    + right; right; left. eexists; split; [exists (Some v)|]; eauto.
    + right; right; right; left. exists (Some id); eauto.
    + do 4 right. exists e. split; auto. set_solver.
    + do 4 right. exists e. split; auto. set_solver.
Qed.

(* ------------------------------------------------------------------ *)
(** * Validation *)

Definition valid_in (slots : list slot) (id : heap_id) : Prop :=
  exists s o, slots !! hid_index id = Some s /\ sl_gen s = hid_gen id /\ sl_value s = Some o.

Lemma validate_in_Some slots id i :
  validate_in slots id = Some i <-> i = hid_index id /\ valid_in slots id.
Proof.
  unfold validate_in, valid_in. destruct (slots !! hid_index id) as [s|] eqn:Hs.
  - destruct (N.eqb_spec (sl_gen s) (hid_gen id)) as [Hg|Hg]; simpl.
    + destruct (sl_value s) eqn:Hv; split.
      * intros H; simplify_eq. eauto 6.
      * intros (-> & _). done.
      * discriminate.
      * intros (_ & s' & o & Hs' & _ & Ho). congruence.
    + split; [discriminate|]. intros (_ & s' & o & Hs' & Hg' & _). congruence.
  - split; [discriminate|]. intros (_ & s' & o & Hs' & _). discriminate.
Qed.

Lemma validate_in_None slots id : validate_in slots id = None <-> ~ valid_in slots id.
Proof.
  destruct (validate_in slots id) eqn:H.
  - apply validate_in_Some in H as [-> ?]. split; [discriminate|tauto].
  - split; auto. intros _ Hv. assert (validate_in slots id = Some (hid_index id)) by
      (apply validate_in_Some; auto). congruence.
Qed.

Lemma valid_in_live h id : valid_in (h_slots h) id <-> live h id.
Proof.
  unfold valid_in, live, live_as, live_with. split.
  - intros (s & o & ? & ? & ?). eauto 8.
  - intros (o & hs & s & ? & ? & ? & ?). eauto 8.
Qed.

Lemma valid_in_inj slots a b :
  valid_in slots a -> valid_in slots b -> hid_index a = hid_index b -> a = b.
Proof.
  intros (s & o & Hs & Hg & _) (s' & o' & Hs' & Hg' & _) Heq.
  rewrite Heq in Hs. simplify_eq. destruct a, b; simpl in *; congruence.
Qed.

(* ------------------------------------------------------------------ *)
(** * Marking *)

Definition wl_inv (slots : list slot) (m : list nat) (wl : list heap_id) : Prop :=
  length m = length slots /\
  (forall id, id ∈ wl -> valid_in slots id /\ m !! hid_index id = Some 1%nat) /\
  NoDup wl.

Definition traced (slots : list slot) (ids : list heap_id) (m m' : list nat) : Prop :=
  length m' = length m /\
  (forall i, m !! i = Some 2%nat <-> m' !! i = Some 2%nat) /\
  (forall i, m !! i = m' !! i \/
             (m !! i = Some 0%nat /\ m' !! i = Some 1%nat /\
              exists id, id ∈ ids /\ valid_in slots id /\ hid_index id = i)) /\
  (forall id, id ∈ ids -> valid_in slots id -> m' !! hid_index id <> Some 0%nat).

Lemma traced_nonzero slots ids m m' i :
  traced slots ids m m' -> m !! i <> Some 0%nat -> m' !! i <> Some 0%nat.
Proof. intros (_ & _ & H & _) Hi. destruct (H i) as [<-|(? & ? & _)]; auto. Qed.

Lemma traced_trans slots ids1 ids2 m1 m2 m3 :
  traced slots ids1 m1 m2 -> traced slots ids2 m2 m3 -> traced slots (ids1 ++ ids2) m1 m3.
Proof.
  intros H12 H23. pose proof H12 as (L1 & T1 & C1 & V1). pose proof H23 as (L2 & T2 & C2 & V2).
  split; [congruence|]. split; [intros i; by rewrite T1, T2|]. split.
  - intros i. destruct (C1 i) as [E|(E1 & E1' & id & ? & ? & ?)], (C2 i) as [E'|(E2 & E2' & id' & ? & ? & ?)].
    + left; congruence.
    + right. split; [congruence|]. split; auto. exists id'. rewrite elem_of_app. auto.
    + right. split; auto. split; [congruence|]. exists id. rewrite elem_of_app. auto.
    + congruence.
  - intros id Hid Hv. apply elem_of_app in Hid as [Hid|Hid]; auto.
    eapply traced_nonzero; eauto.
Qed.

Lemma trace_heap_id_ok slots id m wl m' wl' :
  wl_inv slots m wl ->
  trace_heap_id slots (m, wl) id = (m', wl') ->
  wl_inv slots m' wl' /\ traced slots [id] m m' /\
  (exists pre, wl' = pre ++ wl) /\
  (forall i, m' !! i = Some 1%nat -> m !! i <> Some 1%nat -> exists id, id ∈ wl' /\ hid_index id = i).
Proof.
  intros (HL & HW & HN) Ht. unfold trace_heap_id in Ht. simpl in Ht.
  destruct (validate_in slots id) as [i|] eqn:Hv.
  2: { simplify_eq. apply validate_in_None in Hv.
       repeat split; auto; try tauto.
       - apply HW; auto.
       - apply HW; auto.
       - intros id' Hid' Hv'. apply elem_of_list_singleton in Hid' as ->. tauto.
       - exists []; auto. }
  apply validate_in_Some in Hv as [-> Hv].
  destruct (m !! hid_index id) as [k|] eqn:Hm.
  2: { exfalso. destruct Hv as (s & o & Hs & _). apply lookup_lt_Some in Hs.
       rewrite <- HL in Hs. apply lookup_lt_is_Some in Hs as [? Hs]. congruence. }
  destruct k as [|k].
  - simplify_eq. assert (Hlt : (hid_index id < length m)%nat) by (eapply lookup_lt_Some; eauto).
    split; [split|split; [|split]].
    + rewrite insert_length; auto.
    + split.
      * intros id' Hid'. apply elem_of_cons in Hid' as [->|Hid'].
        -- split; auto. by apply list_lookup_insert.
        -- destruct (HW _ Hid') as [? H1]. split; auto.
           rewrite list_lookup_insert_ne; auto. intros Heq. rewrite Heq in Hm. congruence.
      * constructor; auto. intros Hin. destruct (HW _ Hin). congruence.
    + split; [apply insert_length|]. split; [|split].
      * intros i. destruct (decide (i = hid_index id)) as [->|Hne].
        -- rewrite list_lookup_insert by auto. rewrite Hm. split; congruence.
        -- by rewrite list_lookup_insert_ne.
      * intros i. destruct (decide (i = hid_index id)) as [->|Hne].
        -- right. rewrite list_lookup_insert by auto. split; auto. split; auto.
           exists id. set_solver.
        -- left. by rewrite list_lookup_insert_ne.
      * intros id' Hid' _. apply elem_of_list_singleton in Hid' as ->.
        rewrite list_lookup_insert by auto. congruence.
    + exists [id]; auto.
    + intros i Hi Hi'. destruct (decide (i = hid_index id)) as [->|Hne].
      * exists id. set_solver.
      * rewrite list_lookup_insert_ne in Hi by auto. congruence.
  - simplify_eq. split; [by split|]. split; [|split; [exists []; auto|]].
    + split; auto. split; [tauto|]. split; [auto|].
      intros id' Hid' _. apply elem_of_list_singleton in Hid' as ->. congruence.
    + intros i Hi Hi'. congruence.
Qed.

Lemma traced_refl slots m : traced slots [] m m.
Proof. split; auto. split; [tauto|]. split; auto. intros id Hid. by apply elem_of_nil in Hid. Qed.

Lemma trace_ids_ok slots ids : forall m wl m' wl',
  wl_inv slots m wl ->
  trace_ids slots ids (m, wl) = (m', wl') ->
  wl_inv slots m' wl' /\ traced slots ids m m' /\
  (exists pre, wl' = pre ++ wl) /\
  (forall i, m' !! i = Some 1%nat -> m !! i <> Some 1%nat -> exists id, id ∈ wl' /\ hid_index id = i).
Proof.
  induction ids as [|id ids IH]; intros m wl m' wl' Hinv Ht; unfold trace_ids in Ht; simpl in Ht.
  - simplify_eq. split; auto. split; [apply traced_refl|]. split; [exists []; auto|]. congruence.
  - destruct (trace_heap_id slots (m, wl) id) as [m1 wl1] eqn:H1.
    destruct (trace_heap_id_ok _ _ _ _ _ _ Hinv H1) as (Hinv1 & Ht1 & [p1 ->] & Hn1).
    destruct (IH _ _ _ _ Hinv1 Ht) as (Hinv2 & Ht2 & [p2 ->] & Hn2).
    split; auto. split; [apply (traced_trans slots [id] ids m m1 m'); auto|].
    split; [exists (p2 ++ p1); by rewrite app_assoc|].
    intros i Hi Hi'. destruct (decide (m1 !! i = Some 1%nat)) as [Hm1|Hm1].
    + destruct (Hn1 i Hm1 Hi') as (id' & Hin & ?). exists id'. split; auto.
      rewrite elem_of_app. auto.
    + apply Hn2; auto.
Qed.

Section Marking.
Context (slots : list slot) (R : heap_id -> Prop).
Hypothesis R_step : forall id s o id', R id -> slots !! hid_index id = Some s -> sl_value s = Some o ->
  valid_in slots id -> id' ∈ trace_object o -> valid_in slots id' -> R id'.

(** Invariant of the mark loop. *)
Definition mark_inv (m : list nat) (wl : list heap_id) : Prop :=
  wl_inv slots m wl /\
  (forall i, m !! i = Some 1%nat -> exists id, id ∈ wl /\ hid_index id = i) /\
  (forall i k s o id, m !! i = Some k -> (2 <= k)%nat -> slots !! i = Some s -> sl_value s = Some o ->
      id ∈ trace_object o -> valid_in slots id -> m !! hid_index id <> Some 0%nat) /\
  (forall i, m !! i <> Some 0%nat -> (i < length m)%nat ->
      exists id, hid_index id = i /\ valid_in slots id /\ R id).

Definition unfinished (m : list nat) : nat := length (filter (fun k => k <> 2%nat) m).

Lemma unfinished_insert m i k : m !! i = Some k -> k <> 2%nat ->
  (unfinished m = S (unfinished (<[i := 2%nat]> m)))%nat.
Proof.
  unfold unfinished. revert i. induction m as [|x m IH]; intros [|i] Hi Hk; simpl in *; simplify_eq.
  - rewrite filter_cons_True by auto. rewrite filter_cons_False by auto. done.
  - rewrite !filter_cons. destruct (decide (x <> 2%nat)); simpl; rewrite (IH i Hi Hk); auto.
Qed.

Lemma unfinished_traced ids m m' : traced slots ids m m' -> unfinished m = unfinished m'.
Proof.
  intros (HL & H2 & _). unfold unfinished. clear R_step R.
  revert m' HL H2. induction m as [|x m IH]; intros [|y m'] HL H2; simpl in *; try lia; auto.
  assert (Hhd : x = 2%nat <-> y = 2%nat).
  { specialize (H2 0%nat). simpl in H2. split; intros ->; [destruct H2 as [H _]|destruct H2 as [_ H]];
      specialize (H eq_refl); congruence. }
  assert (IH' : length (filter (fun k => k <> 2%nat) m) = length (filter (fun k => k <> 2%nat) m')).
  { apply IH; [lia|]. intros i. apply (H2 (S i)). }
  rewrite !filter_cons. destruct (decide (x <> 2%nat)), (decide (y <> 2%nat)); simpl; auto; try lia; tauto.
Qed.

Lemma mark_loop_ok : forall fuel m wl,
  mark_inv m wl -> (unfinished m < fuel)%nat ->
  exists m', mark_loop fuel slots (m, wl) = Some m' /\ mark_inv m' [] /\
             (forall i, m !! i <> Some 0%nat -> m' !! i <> Some 0%nat) /\ length m' = length m.
Proof.
  induction fuel as [|fuel IH]; intros m wl Hinv Hf; [lia|]. simpl.
  destruct wl as [|id wl]; [exists m; auto|].
  destruct Hinv as ((HL & HW & HN) & H1 & H2 & HR).
  destruct (HW id) as [Hv Hm]; [set_solver|].
  assert (Hv' := Hv). destruct Hv' as (s & o & Hs & Hg & Ho).
  assert (validate_in slots id = Some (hid_index id)) as -> by (apply validate_in_Some; auto).
  rewrite Hm. rewrite bool_decide_false by congruence. rewrite Hs. simpl. rewrite Ho.
  set (m1 := <[hid_index id := 2%nat]> m).
  assert (Hlt : (hid_index id < length m)%nat) by (eapply lookup_lt_Some; eauto).
  apply NoDup_cons in HN as [Hnin HN].
  assert (Hinv1 : wl_inv slots m1 wl).
  { split; [unfold m1; by rewrite insert_length|]. split; auto. intros id' Hid'.
    destruct (HW id') as [Hv1 Hm1]; [set_solver|]. split; auto.
    unfold m1. rewrite list_lookup_insert_ne; auto.
    intros Heq. apply Hnin. by rewrite (valid_in_inj slots id id' Hv Hv1 Heq). }
  destruct (trace_ids slots (trace_object o) (m1, wl)) as [m2 wl2] eqn:Ht.
  destruct (trace_ids_ok _ _ _ _ _ _ Hinv1 Ht) as (Hinv2 & Htr & [pre Hpre] & Hnew).
  assert (Hm1nz : forall i, m !! i <> Some 0%nat -> m1 !! i <> Some 0%nat).
  { intros i Hi. unfold m1. destruct (decide (i = hid_index id)) as [->|].
    - rewrite list_lookup_insert by auto. congruence.
    - by rewrite list_lookup_insert_ne. }
  destruct (IH m2 wl2) as (m' & Hloop & Hinv' & Hmono & HL').
  { split; auto. split; [|split].
    - intros i Hi. destruct (decide (m1 !! i = Some 1%nat)) as [Hm1|Hm1]; [|by apply Hnew].
      unfold m1 in Hm1. destruct (decide (i = hid_index id)) as [->|Hne].
      + rewrite list_lookup_insert in Hm1 by auto. congruence.
      + rewrite list_lookup_insert_ne in Hm1 by auto.
        destruct (H1 i Hm1) as (id' & Hin & <-). exists id'. split; auto.
        apply elem_of_cons in Hin as [->|Hin]; [congruence|]. subst wl2. rewrite elem_of_app. auto.
    - intros i k' s' o' id' Hi Hk' Hs' Ho' Hid' Hv1.
      destruct Htr as (HLt & Ht2 & Hc & Hroots).
      assert (Hi1 : m1 !! i = Some k').
      { destruct (Hc i) as [E|(_ & E2 & _)]; [congruence|]. rewrite Hi in E2. simplify_eq. lia. }
      clear Hi. rename Hi1 into Hi.
      destruct (decide (i = hid_index id)) as [->|Hne].
      + assert (s' = s) by congruence. subst. assert (o' = o) by congruence. subst. auto.
      + unfold m1 in Hi. rewrite list_lookup_insert_ne in Hi by auto.
        assert (m !! hid_index id' <> Some 0%nat) by eauto.
        eapply (traced_nonzero slots (trace_object o) m1); [unfold traced; auto|auto].
    - intros i Hi HiL. destruct Htr as (HLt & Ht2 & Hc & Hroots).
      destruct (Hc i) as [E|(E1 & E2 & id' & Hin & Hv1 & Heq)].
      + rewrite <- E in Hi. unfold m1 in Hi. destruct (decide (i = hid_index id)) as [->|Hne].
        * apply HR; [congruence|auto].
        * rewrite list_lookup_insert_ne in Hi by auto. apply HR; auto.
          rewrite HLt in HiL. unfold m1 in HiL. by rewrite insert_length in HiL.
      + exists id'. split; auto. split; auto.
        destruct (HR (hid_index id)) as (id0 & Heq0 & Hv0 & HR0); [congruence|auto|].
        assert (id0 = id) by (eapply valid_in_inj; eauto). subst id0.
        eapply R_step; eauto. }
  { rewrite <- (unfinished_traced _ _ _ Htr). unfold m1.
    pose proof (unfinished_insert m (hid_index id) 1 Hm ltac:(congruence)). lia. }
  exists m'. split; auto. split; auto. split.
  - intros i Hi. apply Hmono. eapply traced_nonzero; eauto.
  - rewrite HL'. destruct Htr as (HLt & _). rewrite HLt. unfold m1. apply insert_length.
Qed.
End Marking.

Lemma unfinished_le m : (unfinished m <= length m)%nat.
Proof. apply filter_length. Qed.

(* ------------------------------------------------------------------ *)
(** * Sweeping *)

Definition swept (s : slot) (m : nat) : slot :=
  match sl_value s with
  | Some _ => if Nat.eqb m 0 then Slot (wrapping_succ32 (sl_gen s)) None None 0 else s
  | None => s
  end.
Definition is_dead (s : slot) (m : nat) : bool :=
  match sl_value s with Some _ => Nat.eqb m 0 | None => false end.

Definition sum_bytes (ss : list slot) : N := foldr (fun s a => sl_bytes s + a) 0 ss.

Lemma sum_bytes_app a b : sum_bytes (a ++ b) = sum_bytes a + sum_bytes b.
Proof. induction a as [|s a IH]; simpl; [done|]. unfold sum_bytes in *. simpl. lia. Qed.

Lemma sum_bytes_insert ss i s s' : ss !! i = Some s ->
  sum_bytes (<[i := s']> ss) + sl_bytes s = sum_bytes ss + sl_bytes s'.
Proof.
  revert i. induction ss as [|x ss IH]; intros [|i] Hi; simpl in *; simplify_eq; unfold sum_bytes in *; simpl.
  - lia.
  - specialize (IH i Hi). lia.
Qed.

Lemma sum_bytes_lookup ss i s : ss !! i = Some s -> sl_bytes s <= sum_bytes ss.
Proof.
  revert i. induction ss as [|x ss IH]; intros [|i] Hi; simpl in *; simplify_eq; unfold sum_bytes in *; simpl.
  - lia.
  - specialize (IH i Hi). lia.
Qed.

Lemma trunc32_small i : N.of_nat i < two32 -> trunc32 i = i.
Proof. intros H. unfold trunc32. rewrite N.mod_small by auto. apply Nat2N.id. Qed.

Lemma sweep_ok : forall slots idx marks used free,
  length marks = length slots ->
  (N.of_nat (idx + length slots) <= two32) ->
  sum_bytes slots <= used ->
  exists free',
    sweep idx slots marks used free =
      Some (zip_with swept slots marks, replicate (length slots) 0%nat,
            used - (sum_bytes slots - sum_bytes (zip_with swept slots marks)), free') /\
    sum_bytes (zip_with swept slots marks) <= sum_bytes slots /\
    (forall i, i ∈ free' <-> i ∈ free \/ ((idx <= i)%nat /\
        exists s m, slots !! (i - idx)%nat = Some s /\ marks !! (i - idx)%nat = Some m /\ is_dead s m = true)) /\
    (NoDup free -> (forall i, i ∈ free -> ~ ((idx <= i)%nat /\
        exists s m, slots !! (i - idx)%nat = Some s /\ marks !! (i - idx)%nat = Some m /\ is_dead s m = true)) ->
     NoDup free').
Proof.
  induction slots as [|s slots IH]; intros idx marks used free HL Hidx Hsum;
    destruct marks as [|m marks]; try discriminate HL.
  - exists free. simpl. repeat split; auto; try lia.
    + do 3 f_equal. unfold sum_bytes; simpl. lia.
    + intros [?|(? & s & m & Hs & _)]; auto. by rewrite lookup_nil in Hs.
  - cbn [sweep]. fold (is_dead s m).
    assert (Hd : (if is_dead s m then Slot (wrapping_succ32 (sl_gen s)) None None 0 else s) = swept s m).
    { unfold is_dead, swept. destruct (sl_value s); auto. }
    change (match sl_value s with | Some _ => Nat.eqb m 0 | None => false end) with (is_dead s m).
    rewrite Hd.
    assert (Htr : trunc32 idx = idx).
    { apply trunc32_small. simpl in Hidx. lia. }
    rewrite Htr.
    assert (Hss : sum_bytes (s :: slots) = sl_bytes s + sum_bytes slots) by reflexivity.
    set (used' := if is_dead s m then sat_sub used (sl_bytes s) else used).
    set (free1 := if is_dead s m then idx :: free else free).
    destruct (IH (S idx) marks used' free1) as (free' & Hsw & Hle & Hfree & Hnd).
    { simpl in HL; lia. }
    { simpl in Hidx. lia. }
    { unfold used', sat_sub. destruct (is_dead s m); lia. }
    rewrite Hsw. exists free'. split; [|split; [|split]].
    + cbn [zip_with length replicate]. do 3 f_equal.
      change (sum_bytes (s :: slots)) with (sl_bytes s + sum_bytes slots).
      change (sum_bytes (swept s m :: zip_with swept slots marks)) with
        (sl_bytes (swept s m) + sum_bytes (zip_with swept slots marks)).
      assert (Hb : sl_bytes (swept s m) = if is_dead s m then 0 else sl_bytes s).
      { unfold swept, is_dead. destruct (sl_value s); [destruct (Nat.eqb m 0)|]; done. }
      rewrite Hb. unfold used', sat_sub. destruct (is_dead s m); lia.
    + cbn [zip_with].
      change (sum_bytes (swept s m :: zip_with swept slots marks)) with
        (sl_bytes (swept s m) + sum_bytes (zip_with swept slots marks)).
      assert (Hb : sl_bytes (swept s m) = if is_dead s m then 0 else sl_bytes s).
      { unfold swept, is_dead. destruct (sl_value s); [destruct (Nat.eqb m 0)|]; done. }
      rewrite Hb, Hss. destruct (is_dead s m); lia.
    + intros i. rewrite Hfree. unfold free1. split.
      * intros [Hi|(Hi & s' & m' & H1 & H2 & H3)].
        -- destruct (is_dead s m) eqn:Hdd; [|auto]. apply elem_of_cons in Hi as [->|Hi]; auto.
           right. split; auto. exists s, m. rewrite Nat.sub_diag. auto.
        -- right. split; [lia|]. exists s', m'. replace (i - idx)%nat with (S (i - S idx)) by lia. auto.
      * intros [Hi|(Hi & s' & m' & H1 & H2 & H3)].
        -- left. destruct (is_dead s m); auto. set_solver.
        -- destruct (decide (i = idx)) as [->|Hne].
           ++ rewrite Nat.sub_diag in *. simpl in *. simplify_eq. rewrite H3. left. set_solver.
           ++ right. split; [lia|]. exists s', m'. replace (i - idx)%nat with (S (i - S idx)) in * by lia. auto.
    + intros HN Hdisj. apply Hnd.
      * unfold free1. destruct (is_dead s m) eqn:Hdd; auto. constructor; auto.
        intros Hin. apply (Hdisj idx Hin). split; auto. exists s, m. rewrite Nat.sub_diag. auto.
      * intros i Hi (Hle' & s' & m' & H1 & H2 & H3).
        unfold free1 in Hi. destruct (is_dead s m) eqn:Hdd.
        -- apply elem_of_cons in Hi as [->|Hi]; [lia|]. apply (Hdisj i Hi). split; [lia|].
           exists s', m'. replace (i - idx)%nat with (S (i - S idx)) by lia. auto.
        -- apply (Hdisj i Hi). split; [lia|].
           exists s', m'. replace (i - idx)%nat with (S (i - S idx)) by lia. auto.
Qed.

(* ------------------------------------------------------------------ *)
(** * A whole collection *)

(** The part of the heap invariant the collector itself needs. *)
Record gc_ready (h : heap) : Prop := {
  gr_marks_len : length (h_marks h) = length (h_slots h);
  gr_marks : forall i k, h_marks h !! i = Some k -> k = 0%nat;
  gr_index : N.of_nat (length (h_slots h)) <= two32;
  gr_used : sum_bytes (h_slots h) <= h_used h }.

Lemma collect_spec extra h : gc_ready h ->
  exists marks h',
    collect_with extra h = Some h' /\
    length marks = length (h_slots h) /\
    h' = h <| h_gc_runs := h_gc_runs h + 1 |>
           <| h_slots := zip_with swept (h_slots h) marks |>
           <| h_marks := replicate (length (h_slots h)) 0%nat |>
           <| h_used := h_used h - (sum_bytes (h_slots h) - sum_bytes (zip_with swept (h_slots h) marks)) |>
           <| h_free := h_free h' |> /\
    sum_bytes (zip_with swept (h_slots h) marks) <= sum_bytes (h_slots h) /\
    (forall i, i ∈ h_free h' <-> i ∈ h_free h \/
        exists s m, h_slots h !! i = Some s /\ marks !! i = Some m /\ is_dead s m = true) /\
    (NoDup (h_free h) -> (forall i s, i ∈ h_free h -> h_slots h !! i = Some s -> sl_value s = None) ->
     NoDup (h_free h')) /\
    (forall id, reachable h extra id -> marks !! hid_index id <> Some 0%nat) /\
    (forall i, marks !! i <> Some 0%nat -> (i < length marks)%nat ->
       exists id, hid_index id = i /\ reachable h extra id).
Proof.
  intros [HL HZ HI HU]. unfold collect_with.
  set (slots := h_slots h) in *.
  set (R := reachable h extra).
  assert (Rstep : forall id s o id', R id -> slots !! hid_index id = Some s -> sl_value s = Some o ->
    valid_in slots id -> id' ∈ trace_object o -> valid_in slots id' -> R id').
  { intros id s o id' HR Hs Ho Hv Hin Hv'. eapply (reach_step _ _ id o); auto.
    - destruct Hv as (s' & o' & Hs' & Hg & _). rewrite Hs in Hs'. simplify_eq.
      exists (sl_host s'), s'. auto.
    - by apply trace_object_in.
    - by apply valid_in_live. }
  destruct (trace_ids slots (extra ++ heap_root_ids h) (h_marks h, [])) as [m1 wl1] eqn:Ht.
  assert (Hwl0 : wl_inv slots (h_marks h) []).
  { split; auto. split; [|constructor]. intros id Hid. by apply elem_of_nil in Hid. }
  destruct (trace_ids_ok _ _ _ _ _ _ Hwl0 Ht) as (Hinv1 & Htr & _ & Hnew).
  assert (Hz : forall i k, h_marks h !! i = Some k -> h_marks h !! i = Some 0%nat).
  { intros i k Hi. by rewrite (HZ i k Hi) in Hi. }
  assert (Hmi : mark_inv slots R m1 wl1).
  { split; auto. split; [|split].
    - intros i Hi. apply Hnew; auto. intros Hc. apply HZ in Hc. congruence.
    - intros i k s o id Hi Hk. destruct Htr as (_ & _ & Hc & _).
      destruct (Hc i) as [E|(_ & E2 & _)].
      + rewrite <- E in Hi. apply HZ in Hi. lia.
      + rewrite Hi in E2. simplify_eq. lia.
    - intros i Hi HiL. destruct Htr as (HLt & _ & Hc & _).
      destruct (Hc i) as [E|(_ & _ & id & Hin & Hv & Heq)].
      + rewrite HLt in HiL. apply lookup_lt_is_Some in HiL as [k Hk].
        apply Hz in Hk. congruence.
      + exists id. split; auto. split; auto. apply elem_of_app in Hin as [Hin|Hin].
        * apply reach_extra; auto. by apply valid_in_live.
        * apply reach_root; [by apply heap_root_ids_in|]. by apply valid_in_live. }
  cbn [fst snd].
  destruct (mark_loop_ok slots R Rstep (S (length slots + length wl1)) m1 wl1 Hmi)
    as (marks & Hloop & Hminv & Hmono & HLm).
  { pose proof (unfinished_le m1). destruct Hinv1 as (HL1 & _). lia. }
  rewrite Hloop.
  assert (HLm' : length marks = length slots).
  { rewrite HLm. destruct Hinv1 as (HL1 & _). auto. }
  destruct (sweep_ok slots 0 marks (h_used h) (h_free h)) as (free' & Hsw & Hle & Hfree & Hnd); auto.
  rewrite Hsw. eexists marks, _. split; [reflexivity|].
  split; auto. split; [reflexivity|]. split; auto. cbn.
  split; [|split; [|split]].
  - intros i. rewrite Hfree. rewrite Nat.sub_0_r. split.
    + intros [?|(_ & ?)]; auto.
    + intros [?|?]; auto. right. split; [lia|auto].
  - intros HN Hfr. apply Hnd; auto. intros i Hi (_ & s & m & Hs & Hm & Hd).
    rewrite Nat.sub_0_r in *. unfold is_dead in Hd. rewrite (Hfr i s Hi Hs) in Hd. discriminate.
  - intros id Hre. destruct Hminv as (Hw & H1 & H2 & HR).
    assert (Hno1 : forall i, marks !! i <> Some 1%nat).
    { intros i Hi. destruct (H1 i Hi) as (id' & Hin & _). by apply elem_of_nil in Hin. }
    induction Hre as [id Hin Hlive|id Hroot Hlive|id o id' Hre IH Ho Hhas Hlive].
    + apply Hmono. destruct Htr as (_ & _ & _ & Hr). apply Hr.
      * rewrite elem_of_app. auto.
      * by apply valid_in_live.
    + apply Hmono. destruct Htr as (_ & _ & _ & Hr). apply Hr.
      * rewrite elem_of_app, heap_root_ids_in. auto.
      * by apply valid_in_live.
    + destruct Ho as (hs & s & Hs & Hg & Ho & _).
      assert (exists k, marks !! hid_index id = Some k) as [k Hk].
      { apply lookup_lt_is_Some. rewrite HLm'. eapply lookup_lt_Some; eauto. }
      assert (2 <= k)%nat.
      { destruct k as [|[|k]]; [congruence| |lia]. by apply Hno1 in Hk. }
      eapply H2; eauto; [by apply trace_object_in|by apply valid_in_live].
  - intros i Hi HiL. destruct Hminv as (_ & _ & _ & HR).
    destruct (HR i Hi HiL) as (id & ? & ? & ?). eauto.
Qed.
