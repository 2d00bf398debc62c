(** What "every job once, in FIFO order" means, on event traces. *)
From stdpp Require Import base list numbers.
From Coq Require Import NArith.
From Verif Require Import VmBase HeapModel HeapHistory JobsModel.

Open Scope N_scope.

(** One job's run: the job, the jobs it enqueued (in order), how it ended. *)
Record job_run_record := JobRun { jr_job : job; jr_enqueued : list job; jr_result : res unit }.
Definition run_events (r : job_run_record) : list event :=
  EvRun (jr_job r) :: map EvEnqueue (jr_enqueued r) ++ [EvEnd (jr_job r) (jr_result r)].

(** The trace consists of complete runs, one after the other; the jobs run are the jobs
    queued at the start followed by the jobs enqueued along the way, in that order. *)
Definition fifo_runs (queued : list job) (runs : list job_run_record) (trace : list event) : Prop :=
  trace = concat (map run_events runs) /\
  map jr_job runs = queued ++ concat (map jr_enqueued runs).

Definition run_error (r : job_run_record) : option vm_error :=
  match jr_result r with Err e => Some e | _ => None end.

(** Jobs started and jobs enqueued in a (possibly unfinished) trace. *)
Definition started (trace : list event) : list job := omap (fun e => match e with EvRun j => Some j | _ => None end) trace.
Definition enqueued (trace : list event) : list job := omap (fun e => match e with EvEnqueue j => Some j | _ => None end) trace.

(** Every job a closure can enqueue, whatever it observes, satisfies [P]. *)
Fixpoint only_enqueues (P : job -> Prop) (p : prog) : Prop :=
  match p with
  | Finish _ => True
  | HeapStep _ k => forall h r, only_enqueues P (k h r)
  | Enqueue j k => P j /\ only_enqueues P k
  | Checkpoint k => forall errs, only_enqueues P (k errs)
  | GetterCall body k => only_enqueues P body /\ forall r, only_enqueues P (k r)
  end.
(** The closure performs no property read through [call_without_host]. *)
Fixpoint hosted (p : prog) : Prop :=
  match p with
  | Finish _ => True
  | HeapStep _ k => forall h r, hosted (k h r)
  | Enqueue _ k => hosted k
  | Checkpoint k => forall errs, hosted (k errs)
  | GetterCall _ _ => False
  end.
