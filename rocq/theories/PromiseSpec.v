(** What promise histories are expected to do, in terms of their host effects. *)
From stdpp Require Import base decidable list numbers.
From Verif Require Import VmBase HeapModel HeapHistory PromiseModel.

(** The jobs scheduled, as (reaction, argument); the reaction pairs built by [then];
    the tracker calls (false: reject, true: handle). *)
Definition jobs (es : list effect) : list (promise_reaction * value) :=
  omap (fun e => match e with EfJob r v _ => Some (r, v) | _ => None end) es.
Definition registered (es : list effect) : list (promise_reaction * promise_reaction) :=
  omap (fun e => match e with EfReg f r => Some (f, r) | _ => None end) es.
Definition tracked (es : list effect) : list (heap_id * bool) :=
  omap (fun e => match e with EfTrack p b => Some (p, b) | _ => None end) es.

Definition is_then (c : pcall) : bool := match c with CallThen _ _ => true | _ => false end.
(** The other heap calls of a history leave [p] alone. *)
Definition leaves_alone (p : heap_id) (c : pcall) : Prop :=
  match c with CallHeap o => p ∉ op_writes o | _ => True end.

(** What a settled promise owes: each registered pair's reaction of the right kind, in
    registration order, with the settlement value. *)
Definition owed (st : promise_state) (v : value) (regs : list (promise_reaction * promise_reaction))
  : list (promise_reaction * value) :=
  match st with
  | Pending => []
  | Fulfilled => map (fun t => (fst t, v)) regs
  | Rejected => map (fun t => (snd t, v)) regs
  end.

(** The same notions for the engine's internal record. *)
Definition rjobs (es : list record_effect) : list (reaction_record * value) :=
  omap (fun e => match e with ReJob r v _ => Some (r, v) | _ => None end) es.
Definition rregistered (es : list record_effect) : list (reaction_record * reaction_record) :=
  omap (fun e => match e with ReReg f r => Some (f, r) | _ => None end) es.
Definition rtracked (es : list record_effect) : list (heap_id * bool) :=
  omap (fun e => match e with ReTrack p b => Some (p, b) | _ => None end) es.
Definition rowed (st : record_state) (regs : list (reaction_record * reaction_record)) : list (reaction_record * value) :=
  match st with
  | RPending => []
  | RFulfilled v => map (fun t => (fst t, v)) regs
  | RRejected v => map (fun t => (snd t, v)) regs
  end.

(** A promise as its allocation leaves it. *)
Definition fresh_promise (q : js_promise) : Prop :=
  pr_state q = Pending /\ pr_fulfill q = Some [] /\ pr_reject q = Some [] /\ pr_handled q = false.
(** A reject handler was registered in this part of the history. *)
Definition reject_handler_registered (es : list record_effect) : Prop :=
  exists f r, (f, r) ∈ rregistered es /\ is_Some (rr_handler r).
