(** What the rejection tracker is expected to do, in terms of the history of events. *)
From stdpp Require Import base decidable list numbers.
From Verif Require Import VmBase HeapModel HeapHistory JobsModel TrackerModel.

(** Promises rejected in a history, in order. *)
Definition rejects (es : list tevent) : list heap_id :=
  omap (fun e => match e with TReject p => Some p | _ => None end) es.
(** No drain in this part of the history. *)
Definition no_drain (es : list tevent) : Prop := TDrain ∉ es.
(** [p] was rejected and not handled since. *)
Definition unhandled (p : heap_id) (es : list tevent) : Prop :=
  exists es1 es2, es = es1 ++ TReject p :: es2 /\ THandle p ∉ es2.

(** Roots the tracker and its batches hold, with the promise each denotes. *)
Definition held (s : tstate) : list (heap_id * nat) :=
  tk_about (ts_tracker s) ++ concat (map (fun b => zip (bt_promises b) (bt_roots b)) (ts_batches s)).
(** Heap calls in between leave the held roots alone. *)
Fixpoint respects (es : list tevent) (s : tstate) : Prop :=
  match es with
  | [] => True
  | e :: es =>
      (match e with THeap o => forall x, x ∈ held s -> touches_root (snd x) o = false | _ => True end) /\
      respects es (fst (tstep e s))
  end.
Definition no_heap (es : list tevent) : Prop := forall o, THeap o ∉ es.

Definition queued (p : heap_id) (os : list tout) : nat :=
  length (filter (fun o => o = OutHandle (ActQueue p)) os).
Definition reported (p : heap_id) (es : list tevent) : nat :=
  length (omap (fun e => match e with TDispatch x false => if bool_decide (x = p) then Some tt else None | _ => None end) es).
