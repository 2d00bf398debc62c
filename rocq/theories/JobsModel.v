(** Jobs, the microtask queue and the VM's microtask checkpoint.
    A job is an opaque Rust closure; here its behaviour is looked up in a code table
    [N -> prog], where [prog] is an interaction tree over everything the closure can do
    to the heap, its host hooks and the queue, choosing each step from the results of
    the previous ones. *)
From stdpp Require Import base decidable list numbers.
From Coq Require Import NArith.
From RecordUpdate Require Import RecordUpdate.
From Verif Require Import VmBase HeapModel HeapObjModel HeapHistory.

Open Scope N_scope.

(** vm-js/src/jobs.rs 169-174 [Job]: the roots it owns and its closure (a code-table
    index). [jb_tag] identifies the job (Rust: its identity as a moved value); the
    [JobKind] is a label nothing here depends on. *)
Record job := MkJob { jb_tag : N; jb_roots : list nat; jb_code : N }.

(** What a job's closure can do. [Checkpoint] is a call of the queue's own checkpoint
    (through [VmHostHooks::as_any_mut]); [GetterCall] is a property read that runs an
    accessor through [Vm::call_without_host] (object_ops.rs 145-168, 314). *)
Inductive prog :=
| Finish (r : res unit)
| HeapStep (o : op) (k : heap -> res unit -> prog)
| Enqueue (j : job) (k : prog)
| Checkpoint (k : list vm_error -> prog)
| GetterCall (body : prog) (k : res unit -> prog).

(** vm-js/src/microtasks.rs 17-21 [MicrotaskQueue] (the realm stored beside each job
    is never read by the code modelled here and is left out). *)
Record queue := MkQueue { q_jobs : list job; q_performing : bool }.
Global Instance eta_queue : Settable queue := settable! MkQueue <q_jobs; q_performing>.
(** microtasks.rs 25-28 [MicrotaskQueue::new] / [Default]. *)
Definition queue_new : queue := MkQueue [] false.
(** microtasks.rs 31-34 [MicrotaskQueue::enqueue_promise_job]. *)
Definition enqueue (j : job) (q : queue) : queue := q <| q_jobs ::= fun l => l ++ [j] |>.

(** Observable events, for stating properties. *)
Inductive event :=
| EvEnqueue (j : job)
| EvRun (j : job)
| EvEnd (j : job) (r : res unit)
| EvLost (j : job).

(** vm-js/src/jobs.rs 220-224 [Job::cleanup_roots]. *)
Fixpoint remove_roots (rs : list nat) (h : heap) : heap :=
  match rs with [] => h | r :: rs => remove_roots rs (fst (remove_root r h)) end.

(** vm-js/src/jobs.rs 245-248 [Job::discard]. *)
Definition job_discard (j : job) (h : heap) : heap := remove_roots (jb_roots j) h.

(** microtasks.rs 91-95 [MicrotaskQueue::teardown]. *)
Fixpoint discard_all (js : list job) (h : heap) : heap :=
  match js with [] => h | j :: js => discard_all js (job_discard j h) end.
Definition queue_teardown (q : queue) (h : heap) : queue * heap :=
  (q <| q_jobs := [] |>, discard_all (q_jobs q) h).

(** How a checkpoint ends. [CkFuel] is the model's step bound running out, not an
    outcome of the code; [CkPanic] is a job's panic unwinding through it. *)
Inductive outcome := CkDone (errs : list vm_error) | CkPanic | CkFuel.

(** The end of a closure: its result, or the bound running out inside it. *)
Inductive ended := PEnd (r : res unit) | PFuel.

(** ** Jobs run by [MicrotaskQueue::perform_microtask_checkpoint] *)
Section queue_level.
Context (code : N -> prog).

(** Running a closure whose host hooks are the queue (microtasks.rs 102-105
    [host_enqueue_promise_job]). [ck] is the checkpoint to use for re-entrant calls.
    [GetterCall]: the embedder's [VmJobContext] decides; here it passes the hooks on. *)
Fixpoint exec_prog (ck : heap -> queue -> heap * queue * list event * outcome) (p : prog)
  (h : heap) (q : queue) : heap * queue * list event * ended :=
  match p with
  | Finish r => (h, q, [], PEnd r)
  | HeapStep o k => let '(h, r) := exec o h in exec_prog ck (k h r) h q
  | Enqueue j k =>
      let '(h, q, ev, r) := exec_prog ck k h (enqueue j q) in (h, q, EvEnqueue j :: ev, r)
  | Checkpoint k =>
      let '(h, q, ev, o) := ck h q in
      match o with
      | CkDone errs => let '(h, q, ev', r) := exec_prog ck (k errs) h q in (h, q, ev ++ ev', r)
      | CkPanic => (h, q, ev, PEnd Panic)
      | CkFuel => (h, q, ev, PFuel)
      end
  | GetterCall body k =>
      let '(h, q, ev, r) := exec_prog ck body h q in
      match r with
      | PEnd Panic => (h, q, ev, PEnd Panic)
      | PEnd r => let '(h, q, ev', r') := exec_prog ck (k r) h q in (h, q, ev ++ ev', r')
      | PFuel => (h, q, ev, PFuel)
      end
  end.

(** vm-js/src/jobs.rs 227-243 [Job::run]: the closure runs under [catch_unwind], then
    its roots are removed, however it ended ([PEnd Panic] is the resumed panic). *)
Definition job_run (ck : heap -> queue -> heap * queue * list event * outcome) (j : job) (h : heap) (q : queue)
  : heap * queue * list event * ended :=
  let '(h, q, ev, r) := exec_prog ck (code (jb_code j)) h q in
  match r with
  | PFuel => (h, q, ev, PFuel)
  | PEnd r => (remove_roots (jb_roots j) h, q, ev, PEnd r)
  end.

(** microtasks.rs 76-80, the drain loop. *)
Fixpoint drain (fuel : nat) (h : heap) (q : queue) (errs : list vm_error)
  : heap * queue * list event * outcome :=
  match fuel with
  | O => (h, q, [], CkFuel)
  | S fuel =>
      match q_jobs q with
      | [] => (h, q <| q_performing := false |>, [], CkDone errs)
      | j :: rest =>
          let ck h q := if q_performing q then (h, q, [], CkDone [])
                        else drain fuel h (q <| q_performing := true |>) [] in
          let '(h, q, ev, r) := job_run ck j h (q <| q_jobs := rest |>) in
          match r with
          | PFuel => (h, q, EvRun j :: ev, CkFuel)
          | PEnd Panic => (h, q, EvRun j :: ev ++ [EvEnd j Panic], CkPanic)
          | PEnd (Ok u) =>
              let '(h, q, ev', o) := drain fuel h q errs in (h, q, EvRun j :: (ev ++ [EvEnd j (Ok u)]) ++ ev', o)
          | PEnd (Err e) =>
              let '(h, q, ev', o) := drain fuel h q (errs ++ [e]) in (h, q, EvRun j :: (ev ++ [EvEnd j (Err e)]) ++ ev', o)
          end
      end
  end.
(** microtasks.rs 70-83 [MicrotaskQueue::perform_microtask_checkpoint]. *)
Definition perform_checkpoint (fuel : nat) (h : heap) (q : queue) : heap * queue * list event * outcome :=
  if q_performing q then (h, q, [], CkDone [])
  else drain fuel h (q <| q_performing := true |>) [].

End queue_level.

(** ** Jobs run by [Vm::perform_microtask_checkpoint] *)
Section vm_level.
Context (code : N -> prog).

(** Running code with hooks [hk] (a queue, or the checkpoint's local host: either way
    jobs go to its end) while the VM's own queue is [vq]. [Checkpoint] is
    [vm.perform_microtask_checkpoint] called by native code; [GetterCall] is
    vm.rs 1170-1181 [Vm::call_without_host]: the VM's queue is moved out (leaving
    [Default]) to serve as hooks, and written back afterwards; whatever the VM's queue
    holds by then is dropped. *)
Fixpoint vexec (ck : heap -> queue -> heap * queue * list event * outcome) (p : prog)
  (h : heap) (vq hk : queue) : heap * queue * queue * list event * ended :=
  match p with
  | Finish r => (h, vq, hk, [], PEnd r)
  | HeapStep o k => let '(h, r) := exec o h in vexec ck (k h r) h vq hk
  | Enqueue j k =>
      let '(h, vq, hk, ev, r) := vexec ck k h vq (enqueue j hk) in (h, vq, hk, EvEnqueue j :: ev, r)
  | Checkpoint k =>
      let '(h, vq, ev, o) := ck h vq in
      match o with
      | CkDone errs => let '(h, vq, hk, ev', r) := vexec ck (k errs) h vq hk in (h, vq, hk, ev ++ ev', r)
      | CkPanic => (h, vq, hk, ev, PEnd Panic)
      | CkFuel => (h, vq, hk, ev, PFuel)
      end
  | GetterCall body k =>
      let '(h, dropped, vq, ev, r) := vexec ck body h queue_new vq in
      let ev := ev ++ map EvLost (q_jobs dropped) in
      match r with
      | PEnd Panic => (h, vq, hk, ev, PEnd Panic)
      | PEnd r => let '(h, vq, hk, ev', r') := vexec ck (k r) h vq hk in (h, vq, hk, ev ++ ev', r')
      | PFuel => (h, vq, hk, ev, PFuel)
      end
  end.

(** [Job::run] again, with these hooks. *)
Definition vjob_run (ck : heap -> queue -> heap * queue * list event * outcome) (j : job) (h : heap) (vq hk : queue)
  : heap * queue * queue * list event * ended :=
  let '(h, vq, hk, ev, r) := vexec ck (code (jb_code j)) h vq hk in
  match r with
  | PFuel => (h, vq, hk, ev, PFuel)
  | PEnd r => (remove_roots (jb_roots j) h, vq, hk, ev, PEnd r)
  end.

(** vm.rs 537-556: the loop of [Vm::perform_microtask_checkpoint]: a fresh local host
    per job, its pending jobs appended to the VM's queue after the job; the first error
    is kept. *)
Fixpoint vdrain (fuel : nat) (h : heap) (vq : queue) (first : list vm_error)
  : heap * queue * list event * outcome :=
  match fuel with
  | O => (h, vq, [], CkFuel)
  | S fuel =>
      match q_jobs vq with
      | [] => (h, vq <| q_performing := false |>, [], CkDone first)
      | j :: rest =>
          let ck h q := if q_performing q then (h, q, [], CkDone [])
                        else vdrain fuel h (q <| q_performing := true |>) [] in
          let '(h, vq, hk, ev, r) := vjob_run ck j h (vq <| q_jobs := rest |>) queue_new in
          let vq' := vq <| q_jobs ::= fun l => l ++ q_jobs hk |> in
          match r with
          | PFuel => (h, vq, EvRun j :: ev, CkFuel)
          | PEnd Panic => (h, vq, EvRun j :: ev ++ [EvEnd j Panic] ++ map EvLost (q_jobs hk), CkPanic)
          | PEnd (Ok u) =>
              let '(h, vq, ev', o) := vdrain fuel h vq' first in (h, vq, EvRun j :: (ev ++ [EvEnd j (Ok u)]) ++ ev', o)
          | PEnd (Err e) =>
              let '(h, vq, ev', o) := vdrain fuel h vq' (match first with [] => [e] | _ => first end) in
              (h, vq, EvRun j :: (ev ++ [EvEnd j (Err e)]) ++ ev', o)
          end
      end
  end.
(** vm.rs 446-566 [Vm::perform_microtask_checkpoint] ([CkDone [e]] is [Err(e)]). *)
Definition vm_checkpoint (fuel : nat) (h : heap) (vq : queue) : heap * queue * list event * outcome :=
  if q_performing vq then (h, vq, [], CkDone [])
  else vdrain fuel h (vq <| q_performing := true |>) [].

(** vm.rs 1137-1162 [Vm::call] of native code with no hooks override in force. *)
Definition vm_call (fuel : nat) (p : prog) (h : heap) (vq : queue) : heap * queue * list event * ended :=
  let '(h, vq, _, ev, r) := vexec (vm_checkpoint fuel) (GetterCall p Finish) h vq queue_new in (h, vq, ev, r).
End vm_level.

(** ** Making jobs *)

(** The root-registration loop of vm-js/src/promise_jobs.rs 75-85, 130-140 and
    builtins.rs 1023-1035, 1207-1219: register each value; on failure remove the ones
    registered so far. *)
Fixpoint add_roots (vs : list value) (acc : list nat) : M (list nat) :=
  match vs with
  | [] => mret acc
  | v :: vs => fun h =>
      match add_root v h with
      | (h, Ok i) => add_roots vs (acc ++ [i]) h
      | (h, Err e) => (remove_roots acc h, Err e)
      | (h, Panic) => (h, Panic)
      end
  end.
(** promise_jobs.rs 55-88 and 119-143 (the two constructors differ only in the values
    captured): the roots of a new job capturing [vs]. *)
Definition job_roots (vs : list value) : M (list nat) :=
  with_scope (push_roots vs ;;; add_roots vs []).
(** promise_jobs.rs 21-88 [new_promise_reaction_job]: [callback] is the handler's
    callback object. *)
Definition new_promise_reaction_job (tag code : N) (callback : option heap_id) (arg : value) : M job :=
  let* rs := job_roots (arg :: map VObject (opt_list callback)) in
  mret (MkJob tag rs code).
(** promise_jobs.rs 96-143 [new_promise_resolve_thenable_job]. *)
Definition new_promise_resolve_thenable_job (tag code : N) (thenable : value) (callback : heap_id)
  (resolve reject : value) : M job :=
  let* rs := job_roots [thenable; VObject callback; resolve; reject] in
  mret (MkJob tag rs code).
(** jobs.rs 189-197 [Job::add_root] (the vector reservation is not modelled). *)
Definition job_add_root (j : job) (v : value) : M job :=
  let* i := add_root v in mret (MkJob (jb_tag j) (jb_roots j ++ [i]) (jb_code j)).
