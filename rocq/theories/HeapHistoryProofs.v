(** Every history keeps the heap invariant, the root discipline and (when the
    embedder is disciplined) the absence of dangling references. *)
From stdpp Require Import base decidable list numbers sets.
From Coq Require Import NArith ZArith Lia.
From RecordUpdate Require Import RecordUpdate.
From Verif Require Import VmBase HeapModel HeapObjModel HeapSpec HeapGcProofs HeapInvProofs HeapObjProofs
  ObjectOpsModel ObjectOpsProofs HeapTidyProofs HeapSafeProofs HeapSafeOps HeapSafeOps2 HeapSafeOps3 HeapHistory.

Open Scope N_scope.

Fixpoint run_body (os : list op) : M unit :=
  match os with [] => mret tt | o :: os => fun h => run_body os (fst (exec o h)) end.
Lemma exec_scope body : exec (OpScope body) = with_scope (run_body body).
Proof. reflexivity. Qed.
Lemma run_body_run os h : run_body os h = (run os h, Ok tt).
Proof. revert h. induction os as [|o os IH]; intros h; [done|]. cbn [run_body run]. apply IH. Qed.

Definition op_ind' (P : op -> Prop) (Hscope : forall body, Forall P body -> P (OpScope body))
  (Hrest : forall o, (forall body, o <> OpScope body) -> P o) : forall o, P o :=
  fix F (o : op) : P o :=
    match o as o0 return P o0 with
    | OpScope body =>
        Hscope body ((fix G (os : list op) : Forall P os :=
                        match os with [] => List.Forall_nil P | o :: os => List.Forall_cons P o os (F o) (G os) end) body)
    | o => Hrest o ltac:(intros body; discriminate)
    end.

Lemma good_void {A} (m : M A) : good m -> good (void m).
Proof. intros Hm. unfold void. apply good_bind; [exact Hm|]. intros _. apply good_ret. Qed.
Lemma good_stop c t a : good (stop_call c t a).
Proof. apply good_fail. Qed.
Lemma good_run_body os : Forall (fun o => good (exec o)) os -> good (run_body os).
Proof.
  induction 1 as [|o os Ho _ IH]; [apply good_ret|]. intros h h' r H E. cbn [run_body] in E.
  destruct (exec o h) as [h1 r1] eqn:E1. destruct (Ho _ _ _ H E1) as (H1 & _ & V1). cbn in E.
  destruct (IH _ _ _ H1 E) as (H2 & P2 & V2). split; auto. split; auto. eapply evolves_trans; eauto.
Qed.
Lemma good_exec o : good (exec o).
Proof.
  induction o as [body IH|o Hns] using op_ind'.
  - rewrite exec_scope. apply good_with_scope. by apply good_run_body.
  - destruct o; try (by destruct (Hns body)); cbn [exec]; try apply good_void; auto with good;
      first [apply good_collect_garbage|apply good_add_root|apply good_set_root|apply good_remove_root
        |apply good_add_env_root|apply good_set_env_root|apply good_remove_env_root
        |apply good_symbol_for|apply good_alloc_bound_function|apply good_ordinary_set, good_stop
        |apply good_define_own_property|idtac].
Qed.
Lemma good_run os h : heap_ok h -> heap_ok (run os h) /\ evolves h (run os h).
Proof.
  intros H. destruct (good_run_body os) with (h := h) (h' := run os h) (r := Ok tt) as (H1 & _ & V); auto.
  - apply Forall_forall. intros o _. apply good_exec.
  - apply run_body_run.
Qed.
Lemma heap_new_ok ly mb gt : limits_ok ly mb -> heap_ok (heap_new ly mb gt).
Proof.
  intros Hl. unfold heap_new. constructor; cbn; auto; try done; try lia.
  all: try (unfold caps_cover; cbn; unfold nlen; cbn; repeat split; lia).
  all: try (split; [apply NoDup_nil_2|]; intros i; split; [intros Hi; by apply elem_of_nil in Hi|intros (x & Hx & _); done]).
  unfold total_bytes. cbn. lia.
Qed.
Lemma reachable_state_ok h : reachable_state h -> heap_ok h.
Proof. intros (ly & mb & gt & os & Hl & ->). apply good_run. by apply heap_new_ok. Qed.

(** ** Root stacks and persistent roots *)
Lemma tidy_void {A} (m : M A) : tidy m -> tidy (void m).
Proof. intros Hm. unfold void. apply tidy_bind; [exact Hm|]. intros _. apply tidy_ret. Qed.
Lemma tidy_stop c t a : tidy (stop_call c t a).
Proof. apply tidy_fail. Qed.

(** Operations that may touch the persistent tables. *)
Definition root_op (o : op) : bool :=
  match o with
  | OpScope _ | OpAddRoot _ | OpSetRoot _ _ | OpRemoveRoot _ | OpAddEnvRoot _ | OpSetEnvRoot _ _ | OpRemoveEnvRoot _ => true
  | _ => false
  end.
Lemma tidy_exec o : root_op o = false -> tidy (exec o).
Proof.
  intros Hr. destruct o; try done; cbn [exec]; try apply tidy_void; tidy;
    first [apply tidy_symbol_for|apply tidy_alloc_bound_function|apply tidy_ordinary_set, tidy_stop
        |apply tidy_define_own_property|apply tidy_update_function|apply tidy_collect|idtac].
Qed.

Definition stack_keep {A} (m : M A) : Prop := forall h h' r, heap_ok h -> m h = (h', r) -> stack_ext h h'.
Lemma stack_keep_scope {A} (m : M A) : stack_keep m -> stack_keep (with_scope m).
Proof.
  intros Hm h h' r H E. unfold with_scope in E. destruct (m h) as [h1 r1] eqn:E1.
  destruct (Hm _ _ _ H E1) as [[l1 S1] [l2 S2]]. simplify_eq. split; cbn; rewrite ?S1, ?S2, take_app; reflexivity.
Qed.
Lemma gstep_stack extra h h' : gstep extra h h' -> stack_ext h h'.
Proof. intros G. split; [by rewrite (gs_roots _ _ _ G)|by rewrite (gs_env_roots _ _ _ G)]. Qed.
Lemma stack_keep_void {A} (m : M A) : stack_keep m -> stack_keep (void m).
Proof.
  intros Hm h h' r H E. unfold void, mbind in E. destruct (m h) as [h1 r1] eqn:E1. specialize (Hm _ _ _ H E1).
  destruct r1; unfold mret in E; by simplify_eq.
Qed.
Lemma stack_keep_exec o : stack_keep (exec o).
Proof.
  induction o as [body IH|o Hns] using op_ind'.
  - rewrite exec_scope. apply stack_keep_scope. induction IH as [|o os Ho _ IH]; intros h h' r H E; cbn [run_body] in E.
    + unfold mret in E. simplify_eq. apply stack_ext_refl.
    + destruct (exec o h) as [h1 r1] eqn:E1. destruct (good_exec o _ _ _ H E1) as (H1 & _).
      eapply stack_ext_trans; [eapply Ho; eauto|]. eapply IH; eauto.
  - destruct (root_op o) eqn:Hr; [|intros h h' r _ E; eapply (tidy_exec o Hr); eauto].
    destruct o; try done; [by destruct (Hns body)|..]; cbn [exec].
    + apply stack_keep_void. intros h h' r H E. destruct (add_root_spec v h H) as (h1 & H1 & G & [E1|(h2 & i & E1 & H2 & Es & R & _)]);
        rewrite E1 in E; simplify_eq; [by eapply gstep_stack|]. destruct R as (R1&R2&R3&R4&R5&R6&R7&_). cbn in *.
      destruct (gstep_stack _ _ _ G) as [S1 S2]. split; congruence.
    + intros h h' r H E. unfold set_root in E. destruct (h_proots h !! i) as [[?|]|]; simplify_eq; split; reflexivity.
    + intros h h' r H E. unfold remove_root in E. destruct (h_proots h !! i) as [[?|]|]; simplify_eq; split; reflexivity.
    + apply stack_keep_void. apply stack_keep_scope. intros h h' r H E. unfold mbind in E.
      destruct (push_env_root e h) as [h1 r1] eqn:E1. pose proof (tidy_push_env_root e _ _ _ E1) as [S1 _].
      destruct (good_push_env_root e _ _ _ H E1) as (H1 & _).
      destruct r1; [|by simplify_eq..]. eapply stack_ext_trans; [exact S1|].
      change (add_env_root_inner e h1 = (h', r)) in E.
      destruct (add_env_root_inner_spec e h1 H1) as (h2 & H2 & G & [E2|(h3 & i & E2 & H3 & Es & R & _)]);
        rewrite E2 in E; simplify_eq; [by eapply gstep_stack|]. destruct R as (R1&R2&R3&R4&R5&R6&R7&_). cbn in *.
      destruct (gstep_stack _ _ _ G) as [S2 S3]. split; congruence.
    + intros h h' r H E. unfold set_env_root in E. destruct (h_peroots h !! i) as [[?|]|]; simplify_eq; split; reflexivity.
    + intros h h' r H E. unfold remove_env_root in E. destruct (h_peroots h !! i) as [[?|]|]; simplify_eq; split; reflexivity.
Qed.


Definition pers_keep i w o : Prop := forall h, heap_ok h -> get_root h i = Some w -> get_root (fst (exec o h)) i = Some w.
Definition epers_keep i w o : Prop := forall h, heap_ok h -> get_env_root h i = Some w -> get_env_root (fst (exec o h)) i = Some w.

Lemma run_body_keep (P : heap -> Prop) os :
  Forall (fun o => forall h, heap_ok h -> P h -> P (fst (exec o h))) os -> forall h, heap_ok h -> P h -> P (run os h).
Proof.
  induction 1 as [|o os Ho _ IH]; intros h H HP; [done|]. cbn [run]. apply IH; auto.
  destruct (exec o h) as [h1 r1] eqn:E. by destruct (good_exec o _ _ _ H E).
Qed.
Lemma exec_scope_state body h : fst (exec (OpScope body) h) =
  (run body h) <| h_roots := take (length (h_roots h)) (h_roots (run body h)) |>
               <| h_env_roots := take (length (h_env_roots h)) (h_env_roots (run body h)) |>.
Proof. rewrite exec_scope. unfold with_scope. by rewrite run_body_run. Qed.
Lemma void_fst {A} (m : M A) h : fst (void m h) = fst (m h).
Proof. unfold void, mbind. destruct (m h) as [h1 [a|e|]]; done. Qed.

Lemma add_env_root_state e h : exists h1 h2, push_env_root e h = (h1, snd (push_env_root e h)) /\
  h2 = (match snd (push_env_root e h) with Ok _ => fst (add_env_root_inner e h1) | _ => h1 end) /\
  fst (add_env_root e h) = h2 <| h_roots := take (length (h_roots h)) (h_roots h2) |>
                              <| h_env_roots := take (length (h_env_roots h)) (h_env_roots h2) |>.
Proof.
  change (add_env_root e) with (with_scope (push_env_root e ;;; add_env_root_inner e)).
  unfold with_scope, mbind. destruct (push_env_root e h) as [h1 r1]. exists h1. cbn [snd].
  destruct r1; [|by eexists..]. exists (fst (add_env_root_inner e h1)). split; [done|]. split; [done|].
  by destruct (add_env_root_inner e h1).
Qed.

Lemma keep_root i w o : touches_root i o = false -> pers_keep i w o.
Proof.
  induction o as [body IH|o Hns] using op_ind'.
  - intros Ht h H Hg. rewrite exec_scope_state. unfold get_root. cbn. fold (get_root (run body h) i).
    apply (run_body_keep (fun h => get_root h i = Some w)); auto. clear h H Hg.
    cbn [touches_root] in Ht. induction IH as [|o os Ho _ IH]; [constructor|]. cbn in Ht. apply orb_false_iff in Ht as [Ht1 Ht2].
    constructor; [|by apply IH]. intros h H Hg. by apply Ho.
  - intros Ht h H Hg. destruct (root_op o) eqn:Hr.
    2:{ destruct (exec o h) as [h1 r] eqn:E. cbn [fst]. destruct (tidy_exec o Hr _ _ _ E) as [_ (P1 & _)]. unfold get_root in *. by rewrite P1. }
    destruct o; try done; [by destruct (Hns body)|..]; cbn [exec].
    + rewrite void_fst. destruct (add_root_spec v h H) as (h1 & H1 & G & [E1|(h2 & j & E1 & H2 & Es & R & _ & Hk & _)]); rewrite E1; cbn [fst].
      * unfold get_root in *. by rewrite (gs_proots _ _ _ G).
      * unfold get_root in *. destruct (h_proots h !! i) as [[x|]|] eqn:Hi; simplify_eq.
        destruct (Hk i w Hi) as [_ Hk2]. by rewrite Hk2.
    + cbn in Ht. apply Nat.eqb_neq in Ht. unfold set_root. destruct (h_proots h !! i0) as [[x|]|]; cbn; auto.
      unfold get_root in *. cbn. by rewrite list_lookup_insert_ne.
    + cbn in Ht. apply Nat.eqb_neq in Ht. unfold remove_root. destruct (h_proots h !! i0) as [[x|]|]; cbn; auto.
      unfold get_root in *. cbn. by rewrite list_lookup_insert_ne.
    + rewrite void_fst. destruct (add_env_root_state e h) as (h1 & h2 & E1 & E2 & ->). unfold get_root in *. cbn.
      destruct (tidy_push_env_root e _ _ _ E1) as [_ (P1 & _)]. destruct (good_push_env_root e _ _ _ H E1) as (H1 & _).
      destruct (snd (push_env_root e h)); [|subst h2; by rewrite P1..].
      destruct (add_env_root_inner_spec e h1 H1) as (h3 & H3 & G & [E3|(h4 & j & E3 & H4 & Es & R & _)]); rewrite E3 in E2; subst h2; cbn [fst].
      * by rewrite (gs_proots _ _ _ G), P1.
      * destruct R as (R1&R2&R3&R4&R5&R6&R7&R8&R9&R10&R11). cbn in *.
        pose proof (gs_proots _ _ _ G). by match goal with |- match ?a !! _ with _ => _ end = _ => replace a with (h_proots h) by congruence end.
    + unfold set_env_root. destruct (h_peroots h !! i0) as [[x|]|]; done.
    + unfold remove_env_root. destruct (h_peroots h !! i0) as [[x|]|]; done.
Qed.
Lemma keep_env_root i w o : touches_env_root i o = false -> epers_keep i w o.
Proof.
  induction o as [body IH|o Hns] using op_ind'.
  - intros Ht h H Hg. rewrite exec_scope_state. unfold get_env_root. cbn. fold (get_env_root (run body h) i).
    apply (run_body_keep (fun h => get_env_root h i = Some w)); auto. clear h H Hg.
    cbn [touches_env_root] in Ht. induction IH as [|o os Ho _ IH]; [constructor|]. cbn in Ht. apply orb_false_iff in Ht as [Ht1 Ht2].
    constructor; [|by apply IH]. intros h H Hg. by apply Ho.
  - intros Ht h H Hg. destruct (root_op o) eqn:Hr.
    2:{ destruct (exec o h) as [h1 r] eqn:E. cbn [fst]. destruct (tidy_exec o Hr _ _ _ E) as [_ (_ & _ & P1 & _)].
        unfold get_env_root in *. by rewrite P1. }
    destruct o; try done; [by destruct (Hns body)|..]; cbn [exec].
    + rewrite void_fst. destruct (add_root_spec v h H) as (h1 & H1 & G & [E1|(h2 & j & E1 & H2 & Es & R & _ & Hk & _)]); rewrite E1; cbn [fst].
      * unfold get_env_root in *. by rewrite (gs_peroots _ _ _ G).
      * destruct R as (R1&R2&R3&R4&R5&R6&R7&R8&R9&R10&R11&R12). cbn in *. unfold get_env_root in *.
        pose proof (gs_peroots _ _ _ G). destruct (h_peroots h !! i) as [[x|]|] eqn:Hi; simplify_eq.
        by match goal with |- match ?a !! _ with _ => _ end = _ => replace a with (h_peroots h) by congruence; rewrite Hi end.
    + unfold set_root. destruct (h_proots h !! i0) as [[x|]|]; done.
    + unfold remove_root. destruct (h_proots h !! i0) as [[x|]|]; done.
    + rewrite void_fst. destruct (add_env_root_state e h) as (h1 & h2 & E1 & E2 & ->). unfold get_env_root in *. cbn.
      destruct (tidy_push_env_root e _ _ _ E1) as [_ (_ & _ & P1 & _)]. destruct (good_push_env_root e _ _ _ H E1) as (H1 & _).
      destruct (snd (push_env_root e h)); [|subst h2; by rewrite P1..].
      destruct (add_env_root_inner_spec e h1 H1) as (h3 & H3 & G & [E3|(h4 & j & E3 & H4 & Es & R & _ & Hk & _)]); rewrite E3 in E2; subst h2; cbn [fst].
      * by rewrite (gs_peroots _ _ _ G), P1.
      * rewrite <- P1 in Hg. destruct (h_peroots h1 !! i) as [[x|]|] eqn:Hi; simplify_eq.
        destruct (Hk i w Hi) as [_ Hk2]. by rewrite Hk2.
    + cbn in Ht. apply Nat.eqb_neq in Ht. unfold set_env_root. destruct (h_peroots h !! i0) as [[x|]|]; cbn; auto.
      unfold get_env_root in *. cbn. by rewrite list_lookup_insert_ne.
    + cbn in Ht. apply Nat.eqb_neq in Ht. unfold remove_env_root. destruct (h_peroots h !! i0) as [[x|]|]; cbn; auto.
      unfold get_env_root in *. cbn. by rewrite list_lookup_insert_ne.
Qed.

(** ** Dangling references *)
Lemma safe_void {A} X L (m : M A) F : safe X L m F -> safe X L (void m) none.
Proof. intros Hm. unfold void. eapply safe_bind; [exact Hm|]. intros a. apply safe_ret'; inc. Qed.
Lemma safe_stop : safe_call stop_call.
Proof. intros X L c t args _. apply safe_fail. Qed.
Lemma handles_trace vs : values_handles vs = trace_values vs.
Proof. unfold values_handles, trace_values. induction vs as [|v vs IH]; [done|]. cbn. rewrite IH. by destruct v. Qed.
Lemma key_handles_trace k : key_handles k = trace_key k. Proof. by destruct k. Qed.
Lemma desc_handles_trace d : desc_handles d = trace_desc d.
Proof. unfold desc_handles, trace_desc. rewrite handles_trace. destruct (pd_kind d); cbn; by rewrite ?app_nil_r. Qed.
Lemma patch_handles_trace p : patch_handles p = trace_values (patch_values p).
Proof. apply handles_trace. Qed.
Lemma fndata_handles_trace d : fndata_handles d = trace_fn_data d.
Proof. destruct d; cbn; rewrite ?handles_trace; cbn; by rewrite ?app_nil_r. Qed.
Lemma binding_handles_trace b : binding_handles b = trace_binding b.
Proof. unfold binding_handles, trace_binding. rewrite handles_trace. cbn. by rewrite app_nil_r. Qed.
Lemma reaction_handles_trace r x : x ∈ reaction_handles r <-> x ∈ trace_reaction r.
Proof.
  rewrite <- trace_reaction_values. unfold reaction_handles, reaction_values. rewrite trace_values_app, handles_trace.
  rewrite !elem_of_app. by destruct (re_handler r).
Qed.

Lemma trace_values_cons v vs : trace_values (v :: vs) = trace_value v ++ trace_values vs.
Proof. done. Qed.
Lemma entries_trace ps : flat_map (fun e => key_handles (pe_key e) ++ desc_handles (pe_desc e)) ps = trace_values (flat_map entry_values ps).
Proof.
  rewrite trace_entries_values. induction ps as [|e ps IH]; [done|]. cbn [flat_map].
  change (flat_map trace_entry (e :: ps)) with (trace_entry e ++ flat_map trace_entry ps). rewrite IH. f_equal.
  unfold trace_entry. by rewrite key_handles_trace, desc_handles_trace.
Qed.
Lemma bindings_trace bs : flat_map binding_handles bs = flat_map trace_binding bs.
Proof. induction bs as [|b bs IH]; [done|]. cbn [flat_map]. by rewrite binding_handles_trace, IH. Qed.
Lemma values_one v : values_handles [v] = trace_value v.
Proof. rewrite handles_trace. cbn. by rewrite app_nil_r. Qed.
Lemma values_two v w : values_handles [v; w] = trace_values [v; w].
Proof. apply handles_trace. Qed.

Lemma trace_one v : trace_values [v] = trace_value v.
Proof. cbn. by rewrite app_nil_r. Qed.

Definition safe_op (o : op) : Prop := forall h, heap_ok h -> no_dangling h -> disciplined o h ->
  no_dangling (fst (exec o h)) /\ stack_ext h (fst (exec o h)).

Lemma safe_op_of (o : op) L F :
  safe [] L (exec o) F -> (forall h, disciplined o h -> forall x, x ∈ L -> live h x) -> safe_op o.
Proof.
  intros Hs Hl h H C D. destruct (exec o h) as [h1 r] eqn:E. destruct (Hs h h1 r H C) as (_ & ? & ? & _); auto.
  intros x Hx. by apply elem_of_nil in Hx.
Qed.

Ltac hnd := cbn [op_handles]; rewrite ?key_handles_trace, ?patch_handles_trace, ?desc_handles_trace, ?entries_trace,
  ?bindings_trace, ?values_one, ?handles_trace, ?fndata_handles_trace; unfold pins, trace_opt_value; cbn [opt_list]; intros x; rewrite ?trace_one; rewrite ?app_nil_l; repeat (rewrite elem_of_app || rewrite elem_of_cons || rewrite elem_of_nil); try tauto.
Ltac so L := eapply (safe_op_of _ L); [cbn [exec]; try (eapply safe_void)|intros h D; exact D].

Ltac sop := lazymatch goal with |- safe_op ?o => so (op_handles o) end.

Lemma safe_exec o : safe_op o.
Proof.
  induction o as [body IH|o Hns] using op_ind'.
  - intros h H C D. rewrite exec_scope_state.
    assert (K : no_dangling (run body h) /\ stack_ext h (run body h) /\ heap_ok (run body h)).
    { cbn [disciplined] in D. revert h H C D. induction IH as [|o os Ho _ IH]; intros h H C D; [split; [done|split; [apply stack_ext_refl|done]]|].
      destruct D as [D1 D2]. cbn [run]. destruct (Ho h H C D1) as [C1 S1].
      assert (H1 : heap_ok (fst (exec o h))). { destruct (exec o h) as [h1 r] eqn:E. by destruct (good_exec o _ _ _ H E). }
      destruct (IH _ H1 C1 D2) as (C2 & S2 & H2). split; [done|]. split; [eapply stack_ext_trans; eauto|done]. }
    destruct K as ([CR CO] & [[l1 S1] [l2 S2]] & H1).
    rewrite S1, S2, !take_app. split; [split|].
    + intros x Hx. change (live (run body h) x). apply CR. destruct Hx.
      * eapply rt_stack; eauto. cbn in H0. rewrite S1. set_solver.
      * apply rt_env_stack. cbn in H0. rewrite S2. set_solver.
      * eapply rt_persistent; eauto.
      * apply rt_persistent_env. done.
      * apply rt_registry_key. done.
      * apply rt_registry_sym. done.
    + exact CO.
    + by split; cbn.
  - destruct o; try by destruct (Hns body).
    + sop. apply safe_collect.
    + sop. apply safe_push_roots; hnd.
    + sop. apply safe_push_env_root; set_solver.
    + sop. apply safe_add_root; hnd.
    + sop. apply safe_set_root; hnd.
    + sop. apply safe_remove_root.
    + sop. apply safe_add_env_root; hnd.
    + sop. apply safe_set_env_root; hnd.
    + sop. apply safe_remove_env_root.
    + sop. apply safe_alloc_string.
    + sop. apply safe_new_symbol; hnd.
    + sop. apply safe_symbol_for; hnd.
    + sop. apply safe_alloc_object.
    + sop. apply safe_alloc_object_with_properties; hnd.
    + sop. apply safe_alloc_array.
    + sop. apply safe_alloc_promise; hnd.
    + sop. apply safe_alloc_native_function; hnd.
    + sop. apply safe_alloc_ecma_function; hnd.
    + sop. apply safe_alloc_user_function; hnd.
    + sop. apply safe_alloc_bound_function; cbn [op_handles]; rewrite (handles_trace (this :: args)), trace_values_cons; hnd.
    + intros h H C [D1 D2]. rewrite key_handles_trace in D2. destruct (exec (OpSetFunctionName f n p) h) as [h1 r] eqn:E. cbn [exec fst] in *.
      destruct (safe_set_function_name (trace_key n) [f] f n p ltac:(set_solver) ltac:(set_solver) h h1 r H C D2) as (_ & ? & ? & _); auto.
      set_solver.
    + sop. apply safe_set_function_length; hnd.
    + sop. apply safe_make_constructor; hnd.
    + sop. apply safe_set_function_bound_this; hnd.
    + sop. apply safe_set_function_bound_new_target; hnd.
    + sop. apply safe_set_function_realm; hnd.
    + sop. apply safe_set_function_job_realm.
    + sop. apply safe_set_function_data; hnd.
    + sop. apply safe_set_function_closure_env; hnd.
    + sop. apply safe_host_slots.
    + sop. apply safe_define_property; hnd.
    + sop. apply safe_delete_own.
    + sop. apply safe_set_existing; hnd.
    + sop. apply safe_object_set_prototype; hnd.
    + sop. apply safe_object_set_extensible.
    + sop. apply safe_define_own; hnd.
    + sop. apply safe_define_property_or_throw; hnd.
    + sop. apply safe_create_data_property; hnd.
    + sop. apply safe_create_data_property_or_throw; hnd.
    + sop. apply safe_ordinary_delete; hnd.
    + sop. apply safe_delete_property_or_throw; hnd.
    + sop. apply safe_ordinary_set; [apply safe_stop|hnd].
    + sop. apply safe_env_create; hnd.
    + sop. apply safe_alloc_declarative; hnd.
    + sop. apply safe_alloc_object_env; hnd.
    + sop. apply safe_env_create_binding; set_solver.
    + sop. apply safe_env_initialize; hnd.
    + sop. apply safe_env_set_mutable; hnd.
    + sop. apply safe_env_initialize_symbol; hnd.
    + sop. apply safe_env_set_mutable_symbol; hnd.
    + sop. apply safe_promise_set_is_handled.
    + sop. apply safe_promise_set_state; hnd.
    + sop. apply safe_promise_set_state; hnd.
    + sop. apply safe_promise_set_state; hnd.
    + sop. apply safe_promise_settle; hnd.
    + sop. apply safe_scope_append_reaction. cbn [op_handles]. intros x. rewrite app_nil_l, !elem_of_cons, reaction_handles_trace. tauto.
Qed.
