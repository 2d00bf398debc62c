(** C49, C50, C52: the conformance harness. *)
From Coq Require Import NArith.
From stdpp Require Import base decidable numbers list gmap sets.
From Verif Require Import RustStr HarnessModel HarnessSpec HarnessProofs.

Local Open Scope N_scope.

(** * C49 *)
(** Shard [i] of [t] holds the items at positions [i], [i + t], [i + 2t], ... in that order. *)
Theorem shard_items {A} (items : list A) i t j : i < t -> apply_shard (Shard i t) items !! j = items !! N.to_nat (i + N.of_nat j * t).
Proof. apply apply_shard_lookup. Qed.
Print Assumptions shard_items.
(** The shards of a list are together the list. *)
Theorem shards_partition {A} (items : list A) t : 0 < t ->
  ((N.of_nat <$> seq 0 (N.to_nat t)) ≫= (fun i => apply_shard (Shard i t) items)) ≡ₚ items.
Proof.
  intros Ht. apply (shards_perm items _ t 0 Ht).
  - apply NoDup_fmap_2; [intros x y; apply Nat2N.inj|apply NoDup_ListNoDup, List.seq_NoDup].
  - intros k Hk. apply elem_of_list_fmap. exists (N.to_nat k). split; [symmetry; apply N2Nat.id|]. apply elem_of_list_In, List.in_seq.
    split; [apply Nat.le_0_l|]. cbn. apply N.compare_lt_iff in Hk. rewrite N2Nat.inj_compare in Hk. apply Nat.compare_lt_iff, Hk.
Qed.
Print Assumptions shards_partition.
Example shards_case : apply_shard (Shard 1 3) [10; 11; 12; 13; 14] = [11; 14] /\ apply_shard (Shard 0 3) [10; 11; 12; 13; 14] = [10; 13].
Proof. split; vm_compute; reflexivity. Qed.
(** A shard is read from [index/total] exactly when both are numbers and the index is less. *)
Theorem shard_parse_exact raw i t :
  parse_shard raw = Some (Shard i t) <-> exists a b, raw = a ++ 0x2F :: b /\ reads_usize a i /\ reads_usize b t /\ i < t.
Proof. apply parse_shard_iff. Qed.
Print Assumptions shard_parse_exact.
Example shard_parse_case : parse_shard [0x31; 0x2F; 0x31; 0x32] = Some (Shard 1 12) /\ parse_shard [0x32; 0x2F; 0x32] = None /\ parse_shard [0x30; 0x2F; 0x30] = None.
Proof. split; [|split]; vm_compute; reflexivity. Qed.

(** * C50 *)
(** The expectation of a test: the first entry that names its id, else the first whose glob
    matches, else the first whose regular expression matches, else a pass. *)
Theorem lookup_precedence glob regex l x id :
  from_manifest glob regex l = Some x -> expectation_of glob regex l id (lookup_expectation x id).
Proof. apply lookup_spec. Qed.
Print Assumptions lookup_precedence.
(** Only the order within a kind matters. *)
Theorem lookup_ignores_order_across_kinds glob regex l k x y id :
  from_manifest glob regex l = Some x -> from_manifest glob regex k = Some y ->
  filter (fun e => is_Some (r_id e)) l = filter (fun e => is_Some (r_id e)) k ->
  filter (fun e => is_Some (r_glob e)) l = filter (fun e => is_Some (r_glob e)) k ->
  filter (fun e => is_Some (r_regex e)) l = filter (fun e => is_Some (r_regex e)) k ->
  lookup_expectation x id = lookup_expectation y id.
Proof. apply lookup_interleave. Qed.
Print Assumptions lookup_ignores_order_across_kinds.
(** A manifest is accepted exactly when each entry names one kind of pattern, which compiles, and
    has a status. *)
Theorem manifest_accepted glob regex l : is_Some (from_manifest glob regex l) <-> Forall (valid_entry glob regex) l.
Proof. apply accepted. Qed.
Print Assumptions manifest_accepted.
(** What an expectation accepts and covers. *)
Theorem expectation_meaning a mismatched :
  (expected a mismatched = true <->
    match e_kind (a_expectation a) with Pass => mismatched = false | Skip => True | Xfail | Flaky => mismatched = true end) /\
  (covers_mismatch a = false <-> e_kind (a_expectation a) = Pass).
Proof. unfold expected, covers_mismatch. destruct (e_kind (a_expectation a)), mismatched; cbn; split; split; intros; congruence || exact I || reflexivity. Qed.
Print Assumptions expectation_meaning.
Definition any_glob (g : rstr) : option (rstr -> bool) := Some (fun id => bool_decide (g `prefix_of` id)).
Example lookup_case :
  let l := [RawEntry None (Some [0x61]) None (Some Xfail) None None; RawEntry None None (Some [0x61]) (Some Flaky) None None;
            RawEntry (Some [0x61; 0x62]) None None (Some Skip) None None] in
  exists x, from_manifest any_glob any_glob l = Some x /\ e_kind (a_expectation (lookup_expectation x [0x61; 0x62])) = Skip /\
    e_kind (a_expectation (lookup_expectation x [0x61; 0x63])) = Xfail /\ lookup_expectation x [0x62] = default_applied.
Proof. eexists. split; [vm_compute; reflexivity|]. split; [|split]; vm_compute; reflexivity. Qed.

(** * C52 *)
(** A token is cancelled only at or after its deadline, while its guard is alive, and only
    once. [h] is what happened before, latest first. *)
Theorem cancelled_only_when_due later h m now ids :
  history (later ++ ERun now ids :: h) m ->
  NoDup ids /\ forall id, id ∈ ids -> exists d, EInsert id d ∈ h /\ d <= now /\ EDrop id ∉ h /\ cancellations h id = [].
Proof. intros H. apply history_suffix in H as [m' H]. destruct (run_spec h m' now ids H) as (A & B & _). auto. Qed.
Print Assumptions cancelled_only_when_due.
(** When the thread runs at or after the deadline of a live registration, its token has been
    cancelled. *)
Theorem overdue_is_cancelled h m now ids id d :
  history (ERun now ids :: h) m -> EShutdown ∉ h -> EInsert id d ∈ h -> EDrop id ∉ h -> d <= now ->
  cancellations (ERun now ids :: h) id <> [].
Proof.
  intros H Hn Hi Hd L. destruct (run_spec h m now ids H) as (ND & _ & W). rewrite cancellations_cons, run_cancels by exact ND.
  destruct (W Hn id d Hi Hd L) as [Hin|Hc]; [rewrite decide_True by exact Hin; discriminate|].
  destruct (decide (id ∈ ids)); [discriminate|exact Hc].
Qed.
Print Assumptions overdue_is_cancelled.
(** The thread never sleeps past the deadline of a live registration that it has not
    cancelled: it has been notified, or its wait ends by then. *)
Theorem thread_never_oversleeps h m id d :
  history h m -> EShutdown ∉ h -> EInsert id d ∈ h -> EDrop id ∉ h -> cancellations h id = [] ->
  m_thread m = TStarting \/ (exists u, m_thread m = TWaiting u true) \/ (exists u, m_thread m = TWaiting (Some u) false /\ u <= d).
Proof.
  intros H Hn Hi Hd Hc. destruct (minv_history h m H) as [I1 I2 I3 I4 I5 I6 I7 I8]. destruct (I5 id d Hi Hd) as [e E].
  destruct (I4 id e E) as (A & _ & _ & D). pose proof (I3 _ _ _ Hi A) as ->.
  destruct (en_cancelled e) eqn:Ec; [destruct (D eq_refl) as [t Ht]; congruence|].
  pose proof (proj2 (I8 Hn) id e E Ec) as T. destruct (m_thread m) as [|[u|] []|]; cbn in T; eauto; contradiction.
Qed.
Print Assumptions thread_never_oversleeps.
Example timeout_case : exists m, history [ERun 12 [1]; ERun 5 []; EInsert 1 10; ETake 1] m /\ m_thread m = TWaiting None false.
Proof.
  eexists. split.
  - eapply history_step; [eapply history_step; [eapply history_step; [eapply history_step; [apply history_new|]|]|]|].
    + apply step_take. reflexivity.
    + apply step_insert; [left|]. intros d H. apply elem_of_cons in H as [H|H]; [discriminate|inversion H].
    + apply step_run. vm_compute. reflexivity.
    + apply step_run. vm_compute. reflexivity.
  - reflexivity.
Qed.
