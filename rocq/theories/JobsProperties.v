(** C16, C17: microtask checkpoints and the roots jobs own. *)
From stdpp Require Import base decidable list numbers.
From Coq Require Import NArith Lia.
From RecordUpdate Require Import RecordUpdate.
From Verif Require Import VmBase HeapModel HeapObjModel HeapSpec HeapInvProofs HeapHistory HeapHistoryProofs HeapApiProofs
  JobsModel JobsSpec JobsProofs.

Open Scope N_scope.

(** ** C16: a checkpoint runs every job once, in FIFO order, to the end. *)

(** Whatever jobs do, a checkpoint that ends has run the queued jobs and all jobs
    enqueued meanwhile, once each, in order, one at a time; it collected the errors in
    order and left the queue empty and ready for the next checkpoint. *)
Theorem checkpoint_runs_all_fifo : forall code fuel h q h' q' trace errs,
  q_performing q = false -> perform_checkpoint code fuel h q = (h', q', trace, CkDone errs) ->
  q' = queue_new /\ exists runs, fifo_runs (q_jobs q) runs trace /\ errs = omap run_error runs.
Proof.
  intros code fuel h q h' q' trace errs Hq E. unfold perform_checkpoint in E. rewrite Hq in E.
  assert (Hq1 : q_performing (q <| q_performing := true |>) = true) by done.
  destruct (drain_inv code fuel _ _ _ _ _ _ _ Hq1 E)
    as (runs & R1 & R2 & R3 & R4 & R5 & _). split.
  - destruct q' as [l b]. cbn in *. by subst.
  - exists runs. split; [|by rewrite R5]. split; [done|]. rewrite R4, app_nil_r in R1. cbn in R1. done.
Qed.
Print Assumptions checkpoint_runs_all_fifo.

(** Even a checkpoint that has not ended has run jobs in FIFO order, none twice. *)
Theorem checkpoint_prefix_fifo : forall code fuel h q h' q' trace,
  q_performing q = false -> perform_checkpoint code fuel h q = (h', q', trace, CkFuel) ->
  exists runs, length runs = fuel /\ trace = concat (map run_events runs) /\
    q_jobs q ++ concat (map jr_enqueued runs) = map jr_job runs ++ q_jobs q'.
Proof.
  intros code fuel h q h' q' trace Hq E. unfold perform_checkpoint in E. rewrite Hq in E.
  assert (Hq1 : q_performing (q <| q_performing := true |>) = true) by done.
  destruct (drain_inv code fuel _ _ _ _ _ _ _ Hq1 E)
    as (runs & R1 & R2 & R3 & R4). by exists runs.
Qed.
Print Assumptions checkpoint_prefix_fifo.

(** A re-entrant checkpoint does nothing. *)
Theorem nested_checkpoint_noop : forall code fuel h q, q_performing q = true ->
  perform_checkpoint code fuel h q = (h, q, [], CkDone []) /\ vm_checkpoint code fuel h q = (h, q, [], CkDone []).
Proof. intros code fuel h q Hq. unfold perform_checkpoint, vm_checkpoint. by rewrite Hq. Qed.
Print Assumptions nested_checkpoint_noop.

(** The checkpoint ends whenever jobs only enqueue jobs of a smaller rank. *)
Theorem checkpoint_terminates : forall code h q, (forall c, only_enqueues (fun j => jb_code j < c) (code c)) ->
  exists fuel, snd (perform_checkpoint code fuel h q) <> CkFuel.
Proof.
  intros code h q Hc. unfold perform_checkpoint. destruct (q_performing q); [by exists 0%nat|].
  set (n := N.to_nat (fold_right N.max 0 (map jb_code (q_jobs q)))).
  eapply (drain_ends code n Hc (q_jobs q) []); [done|by rewrite app_nil_r| |done].
  subst n. rewrite Nat2N.inj_succ, N2Nat.id. generalize (q_jobs q). intros l. induction l as [|j l IH]; [done|].
  constructor; cbn; [lia|]. revert IH. rewrite !Forall_forall. intros IH x Hx. specialize (IH x Hx). cbn. lia.
Qed.
Print Assumptions checkpoint_terminates.

(** The model's step bound is not observable. *)
Theorem checkpoint_fuel_irrelevant : forall code fuel more h q, snd (perform_checkpoint code fuel h q) <> CkFuel ->
  perform_checkpoint code (fuel + more) h q = perform_checkpoint code fuel h q.
Proof.
  intros code fuel more h q. unfold perform_checkpoint. destruct (q_performing q); [done|].
  intros Hf. induction more as [|more IH]; [by rewrite Nat.add_0_r|]. rewrite Nat.add_succ_r.
  destruct (drain code fuel h (q <| q_performing := true |>) []) as [[[h1 q1] ev1] o1] eqn:E. apply drain_fuel; auto.
Qed.
Print Assumptions checkpoint_fuel_irrelevant.

(** The VM's own checkpoint has the same order, reporting the first error, as long as
    no job reads an accessor property through [Vm::call_without_host]. *)
Theorem vm_checkpoint_runs_all_fifo : forall code fuel h q h' q' trace errs, (forall c, hosted (code c)) ->
  q_performing q = false -> vm_checkpoint code fuel h q = (h', q', trace, CkDone errs) ->
  q' = queue_new /\ exists runs, fifo_runs (q_jobs q) runs trace /\ errs = take 1 (omap run_error runs).
Proof.
  intros code fuel h q h' q' trace errs Hh Hq E. unfold vm_checkpoint in E. rewrite Hq in E.
  assert (Hq1 : q_performing (q <| q_performing := true |>) = true) by done.
  destruct (vdrain_inv code fuel Hh _ _ [] _ _ _ _ (Nat.le_0_l 1) Hq1 E ltac:(done)) as (runs & R1 & R2 & R3 & R4 & R5 & R6). split.
  - destruct q' as [l b]. cbn in *. by subst.
  - exists runs. split; [|done]. split; [done|]. rewrite R4, app_nil_r in R1. cbn in R1. done.
Qed.
Print Assumptions vm_checkpoint_runs_all_fifo.

(** Otherwise the order breaks: job 0 enqueues A, then a getter it reads enqueues B;
    B runs before A. *)
Definition getter_code (c : N) : prog :=
  match c with
  | 0 => Enqueue (MkJob 10 [] 9) (GetterCall (Enqueue (MkJob 11 [] 9) (Finish (Ok tt))) Finish)
  | _ => Finish (Ok tt)
  end.
Theorem vm_checkpoint_fifo_refuted : exists code fuel h q h' q' trace errs,
  q_performing q = false /\ vm_checkpoint code fuel h q = (h', q', trace, CkDone errs) /\
  enqueued trace = [MkJob 10 [] 9; MkJob 11 [] 9] /\
  started trace = q_jobs q ++ [MkJob 11 [] 9; MkJob 10 [] 9].
Proof.
  exists getter_code, 9%nat, demo_heap, (MkQueue [MkJob 0 [] 0] false). do 4 eexists.
  split; [reflexivity|]. split; [reflexivity|]. split; reflexivity.
Qed.
Print Assumptions vm_checkpoint_fifo_refuted.

(** A job enqueued by a getter during [Vm::call] is dropped without running: no error
    is reported and the queue does not hold it. *)
Theorem vm_call_keeps_jobs_refuted : exists code p h h' q' trace j,
  vm_call code 9 p h queue_new = (h', q', trace, PEnd (Ok tt)) /\
  enqueued trace = [j] /\ started trace = [] /\ q_jobs q' = [] /\ EvLost j ∈ trace.
Proof.
  exists getter_code, (GetterCall (Enqueue (MkJob 5 [] 1) (Finish (Ok tt))) Finish), demo_heap. do 4 eexists.
  split; [reflexivity|]. split; [reflexivity|]. split; [reflexivity|]. split; [reflexivity|].
  apply elem_of_list_further, elem_of_list_here.
Qed.
Print Assumptions vm_call_keeps_jobs_refuted.

(** A panicking job leaves the queue marked busy: every later checkpoint on it is a
    no-op, though jobs are waiting. *)
Definition panic_code (c : N) : prog := match c with 0 => Finish Panic | _ => Finish (Ok tt) end.
Theorem checkpoint_after_panic_refuted : exists code fuel h q h' q' trace,
  q_performing q = false /\ perform_checkpoint code fuel h q = (h', q', trace, CkPanic) /\ q_jobs q' <> [] /\
  forall fuel', perform_checkpoint code fuel' h' q' = (h', q', [], CkDone []).
Proof.
  exists panic_code, 9%nat, demo_heap, (MkQueue [MkJob 0 [] 0; MkJob 1 [] 1] false). do 3 eexists.
  split; [reflexivity|]. split; [reflexivity|]. split; [discriminate|]. intros fuel'. reflexivity.
Qed.
Print Assumptions checkpoint_after_panic_refuted.

(** Jobs that fail, enqueue, and re-enter the checkpoint. *)
Definition demo_code (c : N) : prog :=
  match c with
  | 3 => Enqueue (MkJob 20 [] 1) (Checkpoint (fun errs => match errs with [] => Enqueue (MkJob 21 [] 0) (Finish (Ok tt)) | _ => Finish Panic end))
  | 2 => Finish (Err ETypeError)
  | 1 => HeapStep OpAllocObject (fun _ r => match r with Ok _ => Enqueue (MkJob 22 [] 0) (Finish (Err EUnimplemented)) | _ => Finish Panic end)
  | _ => Finish (Ok tt)
  end.
Example checkpoint_case :
  let '(_, q', trace, o) := perform_checkpoint demo_code 9 demo_heap (MkQueue [MkJob 1 [] 3; MkJob 2 [] 2] false) in
  map jb_tag (started trace) = [1; 2; 20; 21; 22] /\ q' = queue_new /\ o = CkDone [ETypeError; EUnimplemented] /\
  (forall c, only_enqueues (fun j => jb_code j < c) (demo_code c)).
Proof.
  cbn [demo_code]. split; [reflexivity|]. split; [reflexivity|]. split; [reflexivity|].
  intros c. destruct (N.eq_dec c 3) as [->|N3]; [cbn; split; [lia|]; intros [|]; cbn; [split; [lia|done]|done]|].
  destruct (N.eq_dec c 1) as [->|N1]; [cbn; intros _ [| |]; cbn; done|].
  destruct (N.eq_dec c 2) as [->|N2]; [done|].
  replace (demo_code c) with (Finish (Ok tt)); [done|]. destruct c as [|[[[]|[]|]|[[]|[]|]|]]; done.
Qed.

(** ** C17: jobs release exactly the roots they own, however they end. *)
Theorem job_run_releases_roots : forall code ck j h q h' q' trace r,
  job_run code ck j h q = (h', q', trace, PEnd r) ->
  exists h1, exec_prog ck (code (jb_code j)) h q = (h1, q', trace, PEnd r) /\
    (forall i, i ∈ jb_roots j -> get_root h' i = None) /\
    (forall i, i ∉ jb_roots j -> get_root h' i = get_root h1 i).
Proof.
  intros code ck j h q h' q' trace r E. unfold job_run in E.
  destruct (exec_prog ck (code (jb_code j)) h q) as [[[h1 q1] ev1] r1] eqn:E1. destruct r1 as [x|]; [|done].
  injection E as <- <- <- <-. exists h1. split; [done|]. split; intros i Hi; rewrite remove_roots_lookup.
  - by rewrite decide_True.
  - by rewrite decide_False.
Qed.
Print Assumptions job_run_releases_roots.

Theorem job_discard_releases_roots : forall j h,
  (forall i, i ∈ jb_roots j -> get_root (job_discard j h) i = None) /\
  (forall i, i ∉ jb_roots j -> get_root (job_discard j h) i = get_root h i).
Proof.
  intros j h. split; intros i Hi; unfold job_discard; rewrite remove_roots_lookup; [by rewrite decide_True|by rewrite decide_False].
Qed.
Print Assumptions job_discard_releases_roots.

Theorem teardown_releases_roots : forall q h q' h', queue_teardown q h = (q', h') ->
  q_jobs q' = [] /\
  (forall j i, j ∈ q_jobs q -> i ∈ jb_roots j -> get_root h' i = None) /\
  (forall i, (forall j, j ∈ q_jobs q -> i ∉ jb_roots j) -> get_root h' i = get_root h i).
Proof.
  intros q h q' h' [= <- <-]. split; [done|]. split.
  - intros j i Hj Hi. rewrite discard_all_lookup. rewrite decide_True; [done|]. apply list.Exists_exists. by exists j.
  - intros i Hi. rewrite discard_all_lookup. rewrite decide_False; [done|]. intros (j & Hj & Hr)%list.Exists_exists. by apply (Hi j).
Qed.
Print Assumptions teardown_releases_roots.

(** Making a promise job registers one fresh root per captured value, or fails and
    registers none; discarding the job then restores the root table. *)
Theorem new_reaction_job_roots : forall tag code cb arg h h' r, reachable_state h ->
  new_promise_reaction_job tag code cb arg h = (h', r) ->
  match r with
  | Ok j => NoDup (jb_roots j) /\ (forall i, i ∈ jb_roots j -> get_root h i = None) /\
      Forall2 (fun i v => get_root h' i = Some v) (jb_roots j) (arg :: map VObject (opt_list cb)) /\
      (forall i, i ∉ jb_roots j -> get_root h' i = get_root h i) /\
      (forall i, get_root (job_discard j h') i = get_root h i)
  | Err _ => forall i, get_root h' i = get_root h i
  | Panic => False
  end.
Proof.
  intros tag code cb arg h h' r H%reachable_state_ok E. unfold new_promise_reaction_job, mbind in E.
  destruct (job_roots (arg :: map VObject (opt_list cb)) h) as [h1 r1] eqn:E1.
  pose proof (job_roots_spec _ _ _ _ H E1) as K. destruct r1 as [rs|e|]; simplify_eq; auto.
  unfold mret in E. injection E as <- <-. cbn [jb_roots]. destruct K as (K1 & K2 & K3 & K4). repeat split; auto.
  intros i. unfold job_discard. cbn [jb_roots]. rewrite remove_roots_lookup. destruct (decide (i ∈ rs)) as [D|D]; [|by apply K4].
  by rewrite K2.
Qed.
Print Assumptions new_reaction_job_roots.

Theorem new_thenable_job_roots : forall tag code thenable cb resolve reject h h' r, reachable_state h ->
  new_promise_resolve_thenable_job tag code thenable cb resolve reject h = (h', r) ->
  match r with
  | Ok j => NoDup (jb_roots j) /\ (forall i, i ∈ jb_roots j -> get_root h i = None) /\
      Forall2 (fun i v => get_root h' i = Some v) (jb_roots j) [thenable; VObject cb; resolve; reject] /\
      (forall i, i ∉ jb_roots j -> get_root h' i = get_root h i) /\
      (forall i, get_root (job_discard j h') i = get_root h i)
  | Err _ => forall i, get_root h' i = get_root h i
  | Panic => False
  end.
Proof.
  intros tag code thenable cb resolve reject h h' r H%reachable_state_ok E. unfold new_promise_resolve_thenable_job, mbind in E.
  destruct (job_roots [thenable; VObject cb; resolve; reject] h) as [h1 r1] eqn:E1.
  pose proof (job_roots_spec _ _ _ _ H E1) as K. destruct r1 as [rs|e|]; simplify_eq; auto.
  unfold mret in E. injection E as <- <-. cbn [jb_roots]. destruct K as (K1 & K2 & K3 & K4). repeat split; auto.
  intros i. unfold job_discard. cbn [jb_roots]. rewrite remove_roots_lookup. destruct (decide (i ∈ rs)) as [D|D]; [|by apply K4].
  by rewrite K2.
Qed.
Print Assumptions new_thenable_job_roots.

Definition no_checkpoint (h : heap) (q : queue) : heap * queue * list event * outcome := (h, q, [], CkDone []).
Definition reaction_demo : heap * res job := new_promise_reaction_job 1 0 (Some demo_peer) (VObject demo_obj) demo.
Example job_roots_case :
  match snd reaction_demo with
  | Ok j => jb_roots j = [2; 3]%nat /\ get_root (fst reaction_demo) 3 = Some (VObject demo_peer) /\
      get_root (fst (fst (fst (job_run panic_code no_checkpoint j (fst reaction_demo) queue_new)))) 3 = None /\
      get_root (fst (fst (fst (job_run panic_code no_checkpoint j (fst reaction_demo) queue_new)))) 0 = Some (VObject demo_obj)
  | _ => False
  end.
Proof. vm_compute. repeat split. Qed.
