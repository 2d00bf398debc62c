(** Promise abstract operations on heap promises (vm-js/src/builtins.rs), the engine's
    internal promise record (vm-js/src/promise.rs) and the unhandled-rejection tracker. *)
From stdpp Require Import base decidable list numbers.
From Coq Require Import NArith.
From RecordUpdate Require Import RecordUpdate.
From Verif Require Import VmBase HeapModel HeapObjModel ObjectOpsModel HeapHistory JobsModel.

Open Scope N_scope.

(** ** Host effects of a promise operation *)
(** [EfJob]: a reaction job handed to [host_enqueue_promise_job] with its argument and the
    roots it owns; [EfTrack]: a call of [host_promise_rejection_tracker]; [EfReg] marks
    the point where [then] has built its pair of reactions (not an effect of the code). *)
Inductive effect :=
| EfReg (f r : promise_reaction)
| EfJob (r : promise_reaction) (arg : value) (roots : list nat)
| EfTrack (p : heap_id) (handle : bool).

Definition PM (A : Type) := heap -> heap * list effect * res A.
Definition pret {A} (a : A) : PM A := fun h => (h, [], Ok a).
Definition pbind {A B} (m : PM A) (k : A -> PM B) : PM B := fun h =>
  match m h with
  | (h, es, Ok a) => let '(h, es', r) := k a h in (h, es ++ es', r)
  | (h, es, Err e) => (h, es, Err e)
  | (h, es, Panic) => (h, es, Panic)
  end.
Definition plift {A} (m : M A) : PM A := fun h => let '(h, r) := m h in (h, [], r).
Definition pemit (e : effect) : PM unit := fun h => (h, [e], Ok tt).
Notation "'let!' x := m 'in' k" := (pbind m (fun x => k)) (at level 200, x binder, right associativity).
Notation "m ;!; k" := (pbind m (fun _ => k)) (at level 100, right associativity).

(** The parts of [Vm] these operations read: intrinsic prototypes, the native call id of
    resolving functions, the current realm; and the realm the host's
    [host_make_job_callback] records for a callback. *)
Record vm_env := VmEnv {
  ve_promise_prototype : heap_id; ve_function_prototype : heap_id; ve_resolving_call : N;
  ve_realm : option N; ve_callback_realm : heap_id -> option N }.

Definition already_resolved_units : js_string := [97; 108; 114; 101; 97; 100; 121; 82; 101; 115; 111; 108; 118; 101; 100].
Definition resolve_units : js_string := [114; 101; 115; 111; 108; 118; 101].
Definition reject_units : js_string := [114; 101; 106; 101; 99; 116].

(** vm-js/src/builtins.rs 94-103 [set_function_job_realm_to_current]. *)
Definition set_function_job_realm_to_current (c : vm_env) (f : heap_id) : M unit :=
  match ve_realm c with Some r => set_function_job_realm f r | None => mret tt end.

(** builtins.rs 905-920 and 922-936: one resolving function. *)
Definition make_resolving_function (c : vm_env) (promise env : heap_id) (is_reject : bool) : M heap_id :=
  let* name := alloc_string (if is_reject then reject_units else resolve_units) in
  let* f := alloc_native_function (ve_resolving_call c) None name 1 [] None in
  set_function_job_realm_to_current c f ;;;
  object_set_prototype f (Some (ve_function_prototype c)) ;;;
  set_function_data f (FDPromiseResolvingFunction promise is_reject) ;;;
  set_function_closure_env f (Some env) ;;;
  mret f.
(** builtins.rs 879-937 [create_promise_resolving_functions]. *)
Definition create_promise_resolving_functions (c : vm_env) (promise : heap_id) : M (value * value) :=
  push_root (VObject promise) ;;;
  let* env := env_create None in
  push_env_root env ;;;
  env_create_binding env already_resolved_units true ;;;
  env_initialize_binding env already_resolved_units (VBool false) ;;;
  let* resolve := make_resolving_function c promise env false in
  let* reject := make_resolving_function c promise env true in
  mret (VObject resolve, VObject reject).

(** builtins.rs 939-1040 [enqueue_promise_reaction_job] (the job's behaviour and realm are
    not modelled here): the values it roots, and handing the job over. *)
Definition reaction_job_values (r : promise_reaction) (arg : value) : list value :=
  arg :: map (fun j => VObject (jc_callback j)) (opt_list (re_handler r))
  ++ flat_map (fun c => [cap_promise c; cap_resolve c; cap_reject c]) (opt_list (re_capability r)).
Definition enqueue_promise_reaction_job (r : promise_reaction) (arg : value) : PM unit :=
  let! roots := plift (job_roots (reaction_job_values r arg)) in
  pemit (EfJob r arg roots).

(** builtins.rs 1042-1053 [trigger_promise_reactions]. *)
Fixpoint trigger_promise_reactions (rs : list promise_reaction) (arg : value) : PM unit :=
  match rs with
  | [] => pret tt
  | r :: rs => enqueue_promise_reaction_job r arg ;!; trigger_promise_reactions rs arg
  end.

(** builtins.rs 1055-1067 [fulfill_promise]. *)
Definition fulfill_promise (p : heap_id) (v : value) : PM unit :=
  let! rs := plift (promise_settle_and_take_reactions p Fulfilled v) in
  trigger_promise_reactions (fst rs) v.

(** builtins.rs 1069-1094 [reject_promise]. *)
Definition reject_promise (p : heap_id) (v : value) : PM unit :=
  let! q := plift (mread (fun h => get_promise h p)) in
  if negb (bool_decide (pr_state q = Pending)) then pret tt
  else
    let! rs := plift (promise_settle_and_take_reactions p Rejected v) in
    (if pr_handled q then pret tt else pemit (EfTrack p false)) ;!;
    trigger_promise_reactions (snd rs) v.

(** builtins.rs 1460-1471: a handler is kept if it is callable. *)
Definition normalize_handler (c : vm_env) (v : value) : M (option job_callback) :=
  let* callable := mread (fun h => is_callable h v) in
  mret (match v with
        | VObject o => if (callable : bool) then Some (JobCb o (ve_callback_realm c o)) else None
        | _ => None
        end).

(** builtins.rs 1420-1516 [perform_promise_then] on an object ([this] of another type is a
    [TypeError] before anything happens). *)
Definition perform_promise_then (c : vm_env) (p : heap_id) (on_fulfilled on_rejected : value) : PM value :=
  let! is_promise := plift (mget (fun h => match get_promise h p with Ok _ => true | _ => false end)) in
  if negb is_promise then plift (mfail ETypeError) else
  let! q := plift (mread (fun h => get_promise h p)) in
  (if bool_decide (pr_state q = Rejected) && negb (pr_handled q) then pemit (EfTrack p true) else pret tt) ;!;
  plift (promise_set_is_handled p true) ;!;
  let! on_fulfilled := plift (normalize_handler c on_fulfilled) in
  let! on_rejected := plift (normalize_handler c on_rejected) in
  let! derived := plift (alloc_promise_with_prototype (Some (ve_promise_prototype c))) in
  plift (push_root (VObject derived)) ;!;
  let! fs := plift (create_promise_resolving_functions c derived) in
  let cap := PCap (VObject derived) (fst fs) (snd fs) in
  let f := PReaction (Some cap) false on_fulfilled in
  let r := PReaction (Some cap) true on_rejected in
  pemit (EfReg f r) ;!;
  let! q := plift (mread (fun h => get_promise h p)) in
  match pr_state q with
  | Pending => plift (scope_append_reaction p true f) ;!; plift (scope_append_reaction p false r)
  | Fulfilled => enqueue_promise_reaction_job f (default VUndefined (pr_result q))
  | Rejected => enqueue_promise_reaction_job r (default VUndefined (pr_result q))
  end ;!;
  pret (VObject derived).

(** Calls on one promise, between arbitrary other heap calls. *)
Inductive pcall :=
| CallFulfill (v : value)
| CallReject (v : value)
| CallThen (on_fulfilled on_rejected : value)
| CallHeap (o : op).
Definition pexec (c : vm_env) (p : heap_id) (call : pcall) : PM unit :=
  match call with
  | CallFulfill v => fulfill_promise p v
  | CallReject v => reject_promise p v
  | CallThen f r => perform_promise_then c p f r ;!; pret tt
  | CallHeap o => plift (exec o)
  end.
Definition is_ok {A} (r : res A) : bool := match r with Ok _ => true | _ => false end.
(** A history: the final heap, all effects, and whether every promise call succeeded. *)
Fixpoint prun (c : vm_env) (p : heap_id) (cs : list pcall) (h : heap) : heap * list effect * bool :=
  match cs with
  | [] => (h, [], true)
  | call :: cs =>
      let '(h, es, r) := pexec c p call h in
      let '(h, es', ok) := prun c p cs h in
      (h, es ++ es', (match call with CallHeap _ => true | _ => is_ok r end) && ok)
  end.

(** ** The engine's internal promise record (vm-js/src/promise.rs) *)
(** promise.rs 98-103 [PromiseReactionRecord]. *)
Record reaction_record := RRecord { rr_is_reject : bool; rr_handler : option job_callback }.
(** promise.rs 171-186 [PromiseRecordState], [PromiseInner]. *)
Inductive record_state := RPending | RFulfilled (v : value) | RRejected (v : value).
Record promise_record := PRecord {
  rp_handle : option heap_id; rp_state : record_state; rp_handled : bool;
  rp_fulfill : list reaction_record; rp_reject : list reaction_record }.
Global Instance eta_promise_record : Settable promise_record :=
  settable! PRecord <rp_handle; rp_state; rp_handled; rp_fulfill; rp_reject>.
(** promise.rs 199-223 [Promise::pending], [Promise::fulfilled]. *)
Definition record_pending (handle : option heap_id) : promise_record := PRecord handle RPending false [] [].
Definition record_fulfilled (v : value) : promise_record := PRecord None (RFulfilled v) true [] [].

Inductive record_effect :=
| ReReg (f r : reaction_record)
| ReJob (r : reaction_record) (arg : value) (roots : list nat)
| ReTrack (p : heap_id) (handle : bool).

(** [host_enqueue_promise_job(new_promise_reaction_job(heap, reaction, arg)?, None)]. *)
Definition record_enqueue (r : reaction_record) (arg : value) (h : heap) : heap * list record_effect * res unit :=
  match job_roots (arg :: map (fun j => VObject (jc_callback j)) (opt_list (rr_handler r))) h with
  | (h, Ok roots) => (h, [ReJob r arg roots], Ok tt)
  | (h, Err e) => (h, [], Err e)
  | (h, Panic) => (h, [], Panic)
  end.
(** promise.rs 253-255: the loop over reactions. *)
Fixpoint record_enqueue_all (rs : list reaction_record) (arg : value) (h : heap) : heap * list record_effect * res unit :=
  match rs with
  | [] => (h, [], Ok tt)
  | r :: rs =>
      match record_enqueue r arg h with
      | (h, es, Ok _) => let '(h, es', x) := record_enqueue_all rs arg h in (h, es ++ es', x)
      | (h, es, x) => (h, es, x)
      end
  end.
(** [if let Some(handle) = handle { host.host_promise_rejection_tracker(..) }]. *)
Definition record_track (handle : option heap_id) (b : bool) : list record_effect :=
  match handle with Some p => [ReTrack p b] | None => [] end.

(** promise.rs 230-258 [Promise::reject]. *)
Definition record_reject (reason : value) (p : promise_record) (h : heap)
  : promise_record * heap * list record_effect * res unit :=
  match rp_state p with
  | RPending =>
      let p' := p <| rp_state := RRejected reason |> <| rp_reject := [] |> in
      let es := if rp_handled p then [] else record_track (rp_handle p) false in
      let '(h, es', x) := record_enqueue_all (rp_reject p) reason h in
      (p', h, es ++ es', x)
  | _ => (p, h, [], Ok tt)
  end.

(** promise.rs 108-119 [is_callable] (an object that is not a function reports
    [NotCallable], which becomes [None]). *)
Definition record_handler (c : vm_env) (v : value) (h : heap) : res (option job_callback) :=
  match v with
  | VObject o =>
      let? x := get_heap_object h o in
      Ok (match x with HFunction _ => Some (JobCb o (ve_callback_realm c o)) | _ => None end)
  | _ => Ok None
  end.

(** promise.rs 260-303 [Promise::then_without_result] (with [normalize_promise_then_handlers],
    126-148), which [await_value] (333-343) calls. *)
Definition record_then (c : vm_env) (on_fulfilled on_rejected : value) (p : promise_record) (h : heap)
  : promise_record * heap * list record_effect * res unit :=
  match record_handler c on_fulfilled h, record_handler c on_rejected h with
  | Ok hf, Ok hr =>
      let f := RRecord false hf in
      let r := RRecord true hr in
      let first := match hr with Some _ => negb (rp_handled p) | None => false end in
      let es := if first then match rp_state p with RRejected _ => record_track (rp_handle p) true | _ => [] end else [] in
      let p := if first then p <| rp_handled := true |> else p in
      match rp_state p with
      | RPending =>
          (p <| rp_fulfill ::= fun l => l ++ [f] |> <| rp_reject ::= fun l => l ++ [r] |>, h, es ++ [ReReg f r], Ok tt)
      | RFulfilled v => let '(h, es', x) := record_enqueue f v h in (p, h, es ++ [ReReg f r] ++ es', x)
      | RRejected v => let '(h, es', x) := record_enqueue r v h in (p, h, es ++ [ReReg f r] ++ es', x)
      end
  | Err e, _ => (p, h, [], Err e)
  | Panic, _ => (p, h, [], Panic)
  | _, Err e => (p, h, [], Err e)
  | _, Panic => (p, h, [], Panic)
  end.
(** promise.rs 321-343 [promise_resolve], [await_value] on a plain value. *)
Definition await_plain (c : vm_env) (v on_fulfilled on_rejected : value) (h : heap) :=
  record_then c on_fulfilled on_rejected (record_fulfilled v) h.

Inductive rcall := RcReject (v : value) | RcThen (on_fulfilled on_rejected : value) | RcHeap (o : op).
Definition rexec (c : vm_env) (call : rcall) (p : promise_record) (h : heap)
  : promise_record * heap * list record_effect * res unit :=
  match call with
  | RcReject v => record_reject v p h
  | RcThen f r => record_then c f r p h
  | RcHeap o => let '(h, r) := exec o h in (p, h, [], r)
  end.
Fixpoint rrun (c : vm_env) (cs : list rcall) (p : promise_record) (h : heap)
  : promise_record * heap * list record_effect * bool :=
  match cs with
  | [] => (p, h, [], true)
  | call :: cs =>
      let '(p, h, es, r) := rexec c call p h in
      let '(p, h, es', ok) := rrun c cs p h in
      (p, h, es ++ es', (match call with RcHeap _ => true | _ => is_ok r end) && ok)
  end.
