(** C24: loading a module graph settles its promise exactly once. *)
From stdpp Require Import base decidable list numbers.
From Coq Require Import NArith Lia.
From Verif Require Import RustStr ModuleModel ModuleProofs LoadModel LoadSpec LoadProofs.

(** At most once, whatever the host does: completions in any order, re-entrant or late,
    repeated or invented, and hooks that fail. *)
Theorem load_settles_at_most_once : forall sup l s k, host_run sup lstate_init l = Some s -> length (settlements s k) <= 1.
Proof.
  intros sup l s k R. apply run_inv1 in R. destruct (ls_loads s !! k) as [ld|] eqn:E.
  - destruct (i_loads s R k ld E) as [_ X]. destruct (ld_rooted ld); [rewrite X; cbn; lia|]. destruct X as [o ->]. done.
  - rewrite (i_fresh s R); [cbn; lia|]. by apply lookup_ge_None.
Qed.
Print Assumptions load_settles_at_most_once.

(** Exactly once, as soon as nothing is running and every hook call of the load has been
    completed, for every well-behaved host. *)
Theorem load_settles_exactly_once : forall sup l s k, Forall well_behaved l -> host_run sup lstate_init l = Some s ->
  k < length (load_roots l) -> idle s -> none_outstanding s k -> exists o, settlements s k = [o].
Proof.
  intros sup l s k W R Hk [C S] N.
  assert (I : all_inv true s).
  { apply (run_all_inv true sup l); [|done|done]. apply Forall_forall. rewrite Forall_forall in W. intros a A. specialize (W a A). by destruct a. }
  destruct I as (I1 & I2 & _).
  assert (exists ld, ls_loads s !! k = Some ld) as [ld E].
  { apply lookup_lt_is_Some_2. pose proof (run_roots _ _ _ _ R) as X. unfold roots in X. cbn in X. apply (f_equal length) in X. rewrite map_length in X. lia. }
  destruct (i_loads s I1 k ld E) as [Rl X]. destruct (ld_rooted ld) eqn:Ro; [|done]. exfalso.
  destruct (j_loads true s I2 k ld E) as [P1 P2 P3 P4]; [congruence|]. specialize (P3 eq_refl). unfold total in P3. rewrite C, S in P3. rewrite tcount_fresh in P3 by exact N. cbn in P3. lia.
Qed.
Print Assumptions load_settles_exactly_once.

(** Fulfilled only when everything the requested module depends on has been loaded; the
    k-th load is the k-th call of [load_requested_modules]. *)
Theorem fulfilled_load_is_complete : forall sup l s k, Forall no_repeat l -> host_run sup lstate_init l = Some s ->
  Fulfilled ∈ settlements s k -> exists m, load_roots l !! k = Some m /\ fully_loaded (ls_graph s) m.
Proof.
  intros sup l s k N R F. destruct (run_all_inv false sup l s N ltac:(done) R) as (I1 & I2 & I3). destruct (u_log s I3 k F) as (ld & E & U).
  exists (ld_root ld). split.
  - pose proof (run_roots _ _ _ _ R) as X. unfold roots in X. cbn in X. rewrite <- X, list_lookup_fmap, E. done.
  - intros m D. induction D as [m|m r q m' m'' Er Q Im D IH].
    + destruct U as (r & Er & St). exists r. split; [done|]. split; [done|]. intros q Q. destruct (u_closed s I3 m r q Er St Q) as (m' & Im & _). eauto.
    + apply IH. destruct U as (r' & Er' & St). assert (r' = r) as -> by congruence. destruct (u_closed s I3 m r q Er St Q) as (m1 & Im1 & U1). congruence.
Qed.
Print Assumptions fulfilled_load_is_complete.

(** The first failure rejects the promise at once, with that error. *)
Theorem first_failure_rejects : forall sup l s i t e s', host_run sup lstate_init l = Some s -> ls_tokens s !! i = Some t -> 
  tk_load t < length (load_roots l) -> settlements s (tk_load t) = [] -> host_step sup s (HComplete i (inr e)) = Some s' ->
  settlements s' (tk_load t) = [Rejected (ErrHost e)].
Proof.
  intros sup l s i t e s' R T Lt N E. pose proof (run_inv1 _ _ _ R) as I. unfold host_step in E. destruct (ls_control s) eqn:C; try done. rewrite T in E. injection E as <-.
  assert (exists ld, ls_loads s !! tk_load t = Some ld) as [ld El].
  { apply lookup_lt_is_Some_2. pose proof (run_roots _ _ _ _ R) as X. unfold roots in X. cbn in X. apply (f_equal length) in X. rewrite map_length in X. lia. }
  destruct (i_loads s I _ ld El) as [Rl X]. destruct (ld_rooted ld) eqn:Ro; [|destruct X as [o X]; congruence].
  unfold finish_load, continue_load. cbn [completion]. unfold is_loading. cbn [put_tokens ls_loads]. rewrite El, <- Rl. rewrite fold_end.
  rewrite (end_load_eq _ _ _ ld) by done. rewrite (settlements_snoc s _ (tk_load t) (tk_load t) (Rejected (ErrHost e))) by done. rewrite N, bool_decide_true by done. done.
Qed.
Print Assumptions first_failure_rejects.

(** An error of the host that rejected a load was given for that load. *)
Theorem rejection_has_cause : forall sup l s k e, host_run sup lstate_init l = Some s -> Rejected (ErrHost e) ∈ settlements s k ->
  exists l1 a l2 s1, l = l1 ++ a :: l2 /\ host_run sup lstate_init l1 = Some s1 /\ gave k e a s1.
Proof.
  intros sup l s k e R X. apply settlements_in in X. destruct (run_log _ _ _ _ _ _ R X) as [Y|Y]; [by apply elem_of_nil in Y|done].
Qed.
Print Assumptions rejection_has_cause.

(** Completions that arrive after the promise is settled settle nothing and start nothing. *)
Theorem late_completions_ignored : forall sup l s i t res s', host_run sup lstate_init l = Some s -> ls_tokens s !! i = Some t ->
  settlements s (tk_load t) <> [] -> host_step sup s (HComplete i res) = Some s' ->
  ls_log s' = ls_log s /\ ls_loads s' = ls_loads s /\ ls_stack s' = ls_stack s /\ ls_control s' = CHost /\ ls_tokens s' = delete i (ls_tokens s).
Proof.
  intros sup l s i t res s' R T N E. pose proof (run_inv1 _ _ _ R) as I. unfold host_step in E. destruct (ls_control s) eqn:C; try done. rewrite T in E. injection E as <-.
  assert (L : is_loading s (tk_load t) = false).
  { unfold is_loading. destruct (ls_loads s !! tk_load t) as [ld|] eqn:El; [|done]. destruct (i_loads s I _ ld El) as [Rl X]. destruct (ld_rooted ld); [done|]. done. }
  assert (Aux : forall x r, ls_loads x = ls_loads s -> continue_load x (tk_load t) r = x).
  { intros x r Hx. unfold continue_load, is_loading in *. by rewrite Hx, L. }
  unfold finish_load. destruct (completion res) as [m|e]; [|rewrite Aux by done; by rewrite <- C].
  destruct (ls_graph _ !! tk_ref t) as [r|]; [|rewrite Aux by done; by rewrite <- C].
  destruct (List.find _ _); [case_bool_decide|]; rewrite Aux by done; by rewrite <- C.
Qed.
Print Assumptions late_completions_ignored.

(** Between two host actions the engine runs for finitely many steps. *)
Theorem load_engine_terminates : forall sup l s, host_run sup lstate_init l = Some s ->
  exists n s', host_run sup s (replicate n HEngine) = Some s' /\ ls_control s' = CHost.
Proof. intros sup l s R. apply run_inv1 in R. by apply (engine_stops sup (S (todo s)) (S (weight s)) s R); lia. Qed.
Print Assumptions load_engine_terminates.

(** A cyclic graph of two modules: the first request is completed inside the hook, the
    others later; if one of them fails instead, the promise is rejected and the
    completion that follows is ignored. *)
Definition req (c : N) : request := Request [c] [].
Definition case_actions : list haction :=
  let new rs := MRecord rs StNew [] [] [] [] in
  [HAdd (new [req 1; req 2]); HLoad 0; HEngine; HEngine; HAdd (new [req 0]); HComplete 0 (inl 1)] ++
  [HEngine; HEngine; HReturn; HEngine; HEngine; HEngine; HReturn; HEngine; HEngine; HReturn; HEngine; HEngine; HEngine].
Example load_case :
  exists s, host_run [] lstate_init case_actions = Some s /\ Forall well_behaved case_actions /\ idle s /\ length (ls_tokens s) = 2 /\ settlements s 0 = [] /\
  exists s1, host_run [] s [HComplete 0 (inl 0); HEngine; HEngine; HEngine; HComplete 0 (inl 1); HEngine; HEngine; HEngine] = Some s1 /\ settlements s1 0 = [Fulfilled] /\ idle s1 /\ ls_tokens s1 = [] /\
  exists s2, host_run [] s [HComplete 1 (inr 7%N); HComplete 0 (inl 0)] = Some s2 /\ settlements s2 0 = [Rejected (ErrHost 7%N)] /\ idle s2.
Proof.
  eexists. split; [vm_compute; reflexivity|]. split; [unfold case_actions; cbn; by repeat constructor|]. split; [done|]. split; [reflexivity|]. split; [vm_compute; reflexivity|].
  eexists. split; [vm_compute; reflexivity|]. split; [vm_compute; reflexivity|]. split; [done|]. split; [done|].
  eexists. split; [vm_compute; reflexivity|]. split; [vm_compute; reflexivity|]. done.
Qed.

(** A hook that returns an error leaves the promise unsettled for good: nothing is running
    or outstanding, and its roots are never released. *)
Theorem load_with_failing_hook_settles_refuted : exists sup l s, Forall no_repeat l /\ host_run sup lstate_init l = Some s /\
  0 < length (load_roots l) /\ idle s /\ none_outstanding s 0 /\ settlements s 0 = [].
Proof.
  exists [], [HAdd (MRecord [req 1] StNew [] [] [] []); HLoad 0; HEngine; HEngine; HFail; HComplete 0 (inl 0); HEngine; HEngine; HEngine].
  eexists. split; [by repeat constructor|]. split; [vm_compute; reflexivity|]. split; [vm_compute; lia|]. split; [done|]. split; [|vm_compute; reflexivity]. by intros t ?%elem_of_nil.
Qed.
Print Assumptions load_with_failing_hook_settles_refuted.
