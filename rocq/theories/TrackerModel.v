(** vm-js/src/promise_rejection_tracker.rs *)
From stdpp Require Import base decidable list numbers.
From Coq Require Import NArith.
From RecordUpdate Require Import RecordUpdate.
From Verif Require Import VmBase HeapModel HeapHistory JobsModel.

(** promise_rejection_tracker.rs 34-49 [AboutToBeNotifiedEntry], [PromiseRejectionTracker].
    The weak set is a duplicate-free list: the code only inserts, removes and tests. *)
Record tracker := MkTracker { tk_about : list (heap_id * nat); tk_outstanding : list heap_id }.
Global Instance eta_tracker : Settable tracker := settable! MkTracker <tk_about; tk_outstanding>.
Definition tracker_new : tracker := MkTracker [] [].

(** 56-74 [on_reject] (the vector reservation is not modelled); [true] if the promise
    was recorded. *)
Definition on_reject (p : heap_id) (t : tracker) (h : heap) : tracker * heap * res bool :=
  match add_root (VObject p) h with
  | (h, Ok i) => (t <| tk_about ::= fun l => l ++ [(p, i)] |>, h, Ok true)
  | (h, Err _) => (t, h, Ok false)
  | (h, Panic) => (t, h, Panic)
  end.

(** 25-32 [PromiseRejectionHandleAction]. *)
Inductive action := ActNone | ActQueue (p : heap_id).

(** [position] + [remove]: the list split at the first entry for [p]. *)
Fixpoint take_entry (p : heap_id) (l : list (heap_id * nat)) : option (nat * list (heap_id * nat)) :=
  match l with
  | [] => None
  | e :: l =>
      if bool_decide (fst e = p) then Some (snd e, l)
      else match take_entry p l with Some (i, l') => Some (i, e :: l') | None => None end
  end.
(** 77-99 [on_handle]. *)
Definition on_handle (p : heap_id) (t : tracker) (h : heap) : tracker * heap * action :=
  match take_entry p (tk_about t) with
  | Some (i, l) => (t <| tk_about := l |>, fst (remove_root i h), ActNone)
  | None =>
      if bool_decide (p ∈ tk_outstanding t)
      then (t <| tk_outstanding ::= filter (fun x => x <> p) |>, h, ActQueue p)
      else (t, h, ActNone)
  end.

(** 105-146 [drain_about_to_be_notified] (release build, reservations not modelled): the
    batch's promises and roots. *)
Record batch := MkBatch { bt_promises : list heap_id; bt_roots : list nat }.
Definition drain_about (t : tracker) : tracker * batch :=
  (t <| tk_about := [] |>, MkBatch (map fst (tk_about t)) (map snd (tk_about t))).
(** 152-166 [after_unhandledrejection_dispatch]. *)
Definition after_dispatch (p : heap_id) (handled : bool) (t : tracker) : tracker :=
  if handled then t
  else t <| tk_outstanding ::= fun l => if bool_decide (p ∈ l) then l else p :: l |>.
(** 184-189 [AboutToBeNotifiedBatch::teardown]. *)
Definition batch_teardown (b : batch) (h : heap) : heap := remove_roots (bt_roots b) h.

(** Histories of tracker calls; drained batches are kept in order until torn down. *)
Inductive tevent :=
| TReject (p : heap_id)
| THandle (p : heap_id)
| TDrain
| TDispatch (p : heap_id) (handled : bool)
| TTeardown (n : nat)
| THeap (o : op).
Inductive tout := OutReject (recorded : bool) | OutHandle (a : action) | OutBatch (ps : list heap_id) | OutNone.
Global Instance action_dec : EqDecision action.
Proof. solve_decision. Defined.
Global Instance tout_dec : EqDecision tout.
Proof. solve_decision. Defined.
Record tstate := TState { ts_tracker : tracker; ts_heap : heap; ts_batches : list batch }.
Definition tstep (e : tevent) (s : tstate) : tstate * tout :=
  match e with
  | TReject p =>
      let '(t, h, r) := on_reject p (ts_tracker s) (ts_heap s) in
      (TState t h (ts_batches s), OutReject (match r with Ok b => b | _ => false end))
  | THandle p =>
      let '(t, h, a) := on_handle p (ts_tracker s) (ts_heap s) in (TState t h (ts_batches s), OutHandle a)
  | TDrain =>
      let '(t, b) := drain_about (ts_tracker s) in
      (TState t (ts_heap s) (ts_batches s ++ [b]), OutBatch (bt_promises b))
  | TDispatch p b => (TState (after_dispatch p b (ts_tracker s)) (ts_heap s) (ts_batches s), OutNone)
  | TTeardown n =>
      match ts_batches s !! n with
      | Some b => (TState (ts_tracker s) (batch_teardown b (ts_heap s)) (delete n (ts_batches s)), OutNone)
      | None => (s, OutNone)
      end
  | THeap o => (TState (ts_tracker s) (fst (exec o (ts_heap s))) (ts_batches s), OutNone)
  end.
Fixpoint trun (es : list tevent) (s : tstate) : tstate * list tout :=
  match es with
  | [] => (s, [])
  | e :: es => let '(s, o) := tstep e s in let '(s, os) := trun es s in (s, o :: os)
  end.
