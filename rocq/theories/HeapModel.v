(** Model of the vm-js garbage-collected heap: slot table, tracing, mark/sweep,
    byte accounting, allocation, root sets and scopes (vm-js/src/heap.rs). *)
From stdpp Require Import base decidable list numbers.
From Coq Require Import NArith ZArith.
From RecordUpdate Require Import RecordUpdate.
From Verif Require Import VmBase.

Open Scope N_scope.

(* ------------------------------------------------------------------ *)
(** * Heap state *)

(** vm-js/src/heap.rs 3659-3664 [Slot]; host slots are two u64 (31-41). *)
Record slot := Slot {
  sl_gen : N;
  sl_value : option heap_object;
  sl_host : option (N * N);
  sl_bytes : N }.
Global Instance eta_slot : Settable _ :=
  settable! Slot <sl_gen; sl_value; sl_host; sl_bytes>.

(** vm-js/src/heap.rs 3666-3675 [Slot::new]. *)
Definition slot_new : slot := Slot 0 None None 0.

(** [mem::size_of] of the Rust types whose sizes enter the byte accounting.  The
    model is parametric in them: theorems hold for every layout. *)
Record layout := Layout {
  sz_slot : N; sz_heap_id : N; sz_value : N; sz_env : N;
  sz_opt_value : N; sz_opt_env : N; sz_registry_entry : N;
  sz_property_entry : N; sz_env_binding : N; sz_object_env : N;
  sz_promise : N; sz_reaction : N }.

(** Capacities of the heap-internal vectors (heap.rs 77-111).  Simplification:
    [try_reserve_exact] is modelled as giving exactly the requested capacity, and
    the system allocator as never failing. *)
Record caps := Caps {
  c_slots : N; c_marks : N; c_free : N; c_work : N;
  c_roots : N; c_env_roots : N;
  c_proots : N; c_proots_free : N;
  c_peroots : N; c_peroots_free : N;
  c_registry : N }.
Global Instance eta_caps : Settable _ :=
  settable! Caps <c_slots; c_marks; c_free; c_work; c_roots; c_env_roots;
                  c_proots; c_proots_free; c_peroots; c_peroots_free; c_registry>.

(** vm-js/src/heap.rs 66-70 [SymbolRegistryEntry]. *)
Record registry_entry := REntry { rg_key : heap_id; rg_sym : heap_id }.

(** vm-js/src/heap.rs 77-111 [Heap] with [HeapLimits] (43-56) and the layout
    constants.  Vectors used as stacks are lists: [h_free], [h_proots_free] and
    [h_peroots_free] have their top at the head; [h_roots] and [h_env_roots]
    grow at the end, as in the code. *)
Record heap := Heap {
  h_layout : layout;
  h_max_bytes : N;
  h_gc_threshold : N;
  h_used : N;
  h_gc_runs : N;
  h_slots : list slot;
  h_marks : list nat;
  h_free : list nat;
  h_next_symbol : N;
  h_roots : list value;
  h_env_roots : list heap_id;
  h_proots : list (option value);
  h_proots_free : list nat;
  h_peroots : list (option heap_id);
  h_peroots_free : list nat;
  h_registry : list registry_entry;
  h_caps : caps }.
Global Instance eta_heap : Settable _ :=
  settable! Heap <h_layout; h_max_bytes; h_gc_threshold; h_used; h_gc_runs; h_slots;
    h_marks; h_free; h_next_symbol; h_roots; h_env_roots; h_proots; h_proots_free;
    h_peroots; h_peroots_free; h_registry; h_caps>.

Definition caps0 : caps := Caps 0 0 0 0 0 0 0 0 0 0 0.

(** vm-js/src/heap.rs 171-195 [Heap::new]. *)
Definition heap_new (ly : layout) (max_bytes gc_threshold : N) : heap :=
  Heap ly max_bytes gc_threshold 0 0 [] [] [] 1 [] [] [] [] [] [] [] caps0.

(* ------------------------------------------------------------------ *)
(** * State-and-error monad for [&mut Heap] methods *)

Definition M (A : Type) : Type := heap -> heap * res A.
Definition mret {A} (a : A) : M A := fun h => (h, Ok a).
Definition mfail {A} (e : vm_error) : M A := fun h => (h, Err e).
Definition mpanic {A} : M A := fun h => (h, Panic).
(** The [?] operator and sequencing. *)
Definition mbind {A B} (m : M A) (k : A -> M B) : M B := fun h =>
  match m h with
  | (h', Ok a) => k a h'
  | (h', Err e) => (h', Err e)
  | (h', Panic) => (h', Panic)
  end.
Notation "'let*' x := m 'in' k" := (mbind m (fun x => k))
  (at level 200, x pattern, m at level 100, k at level 200).
Notation "m ;;; k" := (mbind m (fun _ => k)) (at level 199, right associativity).
(** Borrowing the heap immutably. *)
Definition mget {A} (f : heap -> A) : M A := fun h => (h, Ok (f h)).
(** A fallible [&self] method used inside a [&mut self] method. *)
Definition mread {A} (f : heap -> res A) : M A := fun h => (h, f h).
Definition mmodify (f : heap -> heap) : M unit := fun h => (f h, Ok tt).

(** [Result] combinators for [&self] methods. *)
Definition rbind {A B} (m : res A) (k : A -> res B) : res B :=
  match m with Ok a => k a | Err e => Err e | Panic => Panic end.
Notation "'let?' x := m 'in' k" := (rbind m (fun x => k))
  (at level 200, x pattern, m at level 100, k at level 200).
(** [.ok_or(e)] (Rust core). *)
Definition ok_or {A} (o : option A) (e : vm_error) : res A :=
  match o with Some a => Ok a | None => Err e end.

(* ------------------------------------------------------------------ *)
(** * Tracing: the handles each [Trace] impl reports, in order *)

Definition opt_list {A} (o : option A) : list A :=
  match o with Some a => [a] | None => [] end.

(** vm-js/src/heap.rs 3965-3973 [Tracer::trace_value]. *)
Definition trace_value (v : value) : list heap_id :=
  match v with
  | VUndefined | VNull | VBool _ | VNumber _ | VBigInt _ => []
  | VString s => [s]
  | VSymbol s => [s]
  | VObject o => [o]
  end.
Definition trace_values (vs : list value) : list heap_id := flat_map trace_value vs.
Definition trace_opt_value (v : option value) : list heap_id := trace_values (opt_list v).

(** vm-js/src/property.rs 23-30. *)
Definition trace_key (k : property_key) : list heap_id :=
  match k with
  | PKString s => trace_value (VString s)
  | PKSymbol s => trace_value (VSymbol s)
  end.
(** vm-js/src/property.rs 54-77. *)
Definition trace_kind (k : property_kind) : list heap_id :=
  match k with
  | PData v _ => trace_value v
  | PAccessor g s => trace_value g ++ trace_value s
  end.
Definition trace_desc (d : property_descriptor) : list heap_id := trace_kind (pd_kind d).
(** vm-js/src/heap.rs 3941-3946. *)
Definition trace_entry (e : property_entry) : list heap_id :=
  trace_key (pe_key e) ++ trace_desc (pe_desc e).
(** vm-js/src/heap.rs 3794-3803 (and 3839-3843 for plain objects). *)
Definition trace_base (o : object_base) : list heap_id :=
  opt_list (ob_prototype o) ++ flat_map trace_entry (ob_properties o).
(** vm-js/src/function.rs 304-354. *)
Definition trace_fn_data (d : function_data) : list heap_id :=
  match d with
  | FDNone => []
  | FDPromiseCapabilityExecutor => []
  | FDPromiseResolvingFunction p _ => trace_value (VObject p)
  | FDPromiseFinallyHandler a b _ => trace_value a ++ trace_value b
  | FDPromiseFinallyThunk v _ => trace_value v
  end.
Definition trace_function (f : js_function) : list heap_id :=
  trace_base (fn_base f) ++ trace_value (VString (fn_name f))
  ++ trace_fn_data (fn_data f)
  ++ opt_list (fn_bound_target f)
  ++ trace_opt_value (fn_bound_this f)
  ++ trace_opt_value (fn_bound_new_target f)
  ++ trace_values (default [] (fn_bound_args f))
  ++ trace_values (default [] (fn_native_slots f))
  ++ opt_list (fn_realm f)
  ++ opt_list (fn_closure_env f).
(** vm-js/src/env.rs 216-223. *)
Definition trace_binding (b : env_binding) : list heap_id :=
  opt_list (eb_name b) ++ trace_value (eb_value b).
(** vm-js/src/env.rs 179-204. *)
Definition trace_env_record (e : env_record) : list heap_id :=
  match e with
  | EnvDeclarative outer bs this nt =>
      opt_list outer ++ flat_map trace_binding bs ++ trace_opt_value this ++ trace_opt_value nt
  | EnvObject outer o _ => opt_list outer ++ trace_value (VObject o)
  end.
(** vm-js/src/promise.rs 66-72. *)
Definition trace_capability (c : promise_capability) : list heap_id :=
  trace_value (cap_promise c) ++ trace_value (cap_resolve c) ++ trace_value (cap_reject c).
(** vm-js/src/jobs.rs 482-486. *)
Definition trace_job_callback (j : job_callback) : list heap_id :=
  trace_value (VObject (jc_callback j)).
(** vm-js/src/promise.rs 87-96. *)
Definition trace_reaction (r : promise_reaction) : list heap_id :=
  flat_map trace_capability (opt_list (re_capability r))
  ++ flat_map trace_job_callback (opt_list (re_handler r)).
(** vm-js/src/heap.rs 3905-3922. *)
Definition trace_promise (p : js_promise) : list heap_id :=
  trace_base (pr_base p) ++ trace_opt_value (pr_result p)
  ++ flat_map trace_reaction (default [] (pr_fulfill p))
  ++ flat_map trace_reaction (default [] (pr_reject p)).
(** vm-js/src/heap.rs 3687-3712 ([HeapObject], [JsString], [JsSymbol]). *)
Definition trace_object (o : heap_object) : list heap_id :=
  match o with
  | HString _ => []
  | HSymbol _ d => opt_list d
  | HObject b => trace_base b
  | HFunction f => trace_function f
  | HEnv e => trace_env_record e
  | HPromise p => trace_promise p
  end.

(* ------------------------------------------------------------------ *)
(** * Validation *)

(** vm-js/src/heap.rs 2355-2365 [Heap::validate] and 3992-4005
    [Tracer::validate] (identical in release builds). *)
Definition validate_in (slots : list slot) (id : heap_id) : option nat :=
  match slots !! hid_index id with
  | None => None
  | Some s =>
      if negb (sl_gen s =? hid_gen id) then None
      else match sl_value s with
           | None => None
           | Some _ => Some (hid_index id)
           end
  end.
Definition validate (h : heap) (id : heap_id) : option nat := validate_in (h_slots h) id.

(** vm-js/src/heap.rs 2346-2349 [Heap::get_heap_object]. *)
Definition get_heap_object (h : heap) (id : heap_id) : res heap_object :=
  let? idx := ok_or (validate h id) EInvalidHandle in
  match h_slots h !! idx with
  | None => Panic
  | Some s => ok_or (sl_value s) EInvalidHandle
  end.

(* ------------------------------------------------------------------ *)
(** * Mark and sweep *)

(** vm-js/src/heap.rs 3979-3990 [Tracer::trace_heap_id]. The state is (marks,
    worklist); the worklist's top is its head. *)
Definition trace_heap_id (slots : list slot) (st : list nat * list heap_id) (id : heap_id)
  : list nat * list heap_id :=
  match validate_in slots id with
  | None => st
  | Some idx =>
      match st.1 !! idx with
      | Some 0%nat => (<[idx := 1%nat]> st.1, id :: st.2)
      | _ => st
      end
  end.
Definition trace_ids (slots : list slot) (ids : list heap_id) (st : list nat * list heap_id) :=
  fold_left (trace_heap_id slots) ids st.

(** vm-js/src/heap.rs 404-418: [while let Some(id) = tracer.pop_work()]. [None]
    when the fuel runs out (shown impossible for the fuel [collect] gives it). *)
Fixpoint mark_loop (fuel : nat) (slots : list slot) (st : list nat * list heap_id)
  : option (list nat) :=
  match fuel with
  | O => None
  | S fuel =>
      match st.2 with
      | [] => Some st.1
      | id :: wl =>
          match validate_in slots id with
          | None => mark_loop fuel slots (st.1, wl)
          | Some idx =>
              if bool_decide (st.1 !! idx = Some 2%nat) then mark_loop fuel slots (st.1, wl)
              else
                let marks := <[idx := 2%nat]> st.1 in
                match slots !! idx ≫= sl_value with
                | None => mark_loop fuel slots (marks, wl)
                | Some obj => mark_loop fuel slots (trace_ids slots (trace_object obj) (marks, wl))
                end
          end
      end
  end.

(** The handles in the heap's own root sets, in the order collect scans them
    (vm-js/src/heap.rs 386-402). *)
Definition heap_root_ids (h : heap) : list heap_id :=
  trace_values (h_roots h) ++ h_env_roots h
  ++ trace_values (omap id (h_proots h)) ++ omap id (h_peroots h)
  ++ flat_map (fun e => [rg_key e; rg_sym e]) (h_registry h).

(** vm-js/src/heap.rs 421-441: the sweep loop over slot index [idx].  [None]
    models the index panic if [marks] is shorter than [slots]. *)
Fixpoint sweep (idx : nat) (slots : list slot) (marks : list nat) (used : N) (free : list nat)
  : option (list slot * list nat * N * list nat) :=
  match slots with
  | [] => Some ([], marks, used, free)
  | s :: slots' =>
      match marks with
      | [] => None
      | m :: marks' =>
          let dead := match sl_value s with
                      | None => false
                      | Some _ => Nat.eqb m 0
                      end in
          let s' := if dead then Slot (wrapping_succ32 (sl_gen s)) None None 0 else s in
          let used' := if dead then sat_sub used (sl_bytes s) else used in
          let free' := if dead then trunc32 idx :: free else free in
          match sweep (S idx) slots' marks' used' free' with
          | None => None
          | Some (ss, ms, u, f) => Some (s' :: ss, 0%nat :: ms, u, f)
          end
      end
  end.

(** vm-js/src/heap.rs 355-446 [Heap::collect_garbage_with_extra_roots].
    [extra] are the handles of the extra value and environment roots, which are
    traced first. *)
Definition collect_with (extra : list heap_id) (h : heap) : option heap :=
  let st := trace_ids (h_slots h) (extra ++ heap_root_ids h) (h_marks h, []) in
  match mark_loop (S (length (h_slots h) + length st.2)) (h_slots h) st with
  | None => None
  | Some marks =>
      match sweep 0 (h_slots h) marks (h_used h) (h_free h) with
      | None => None
      | Some (ss, ms, u, f) =>
          Some (h <| h_gc_runs := h_gc_runs h + 1 |> <| h_slots := ss |>
                  <| h_marks := ms |> <| h_used := u |> <| h_free := f |>)
      end
  end.

(** vm-js/src/heap.rs 351-353 [Heap::collect_garbage]. *)
Definition collect_garbage : M unit := fun h =>
  match collect_with [] h with
  | Some h' => (h', Ok tt)
  | None => (h, Panic)
  end.

(* ------------------------------------------------------------------ *)
(** * Byte accounting *)

(** vm-js/src/heap.rs 259-324 [Heap::estimated_total_bytes]. *)
Definition estimated_total_bytes (h : heap) : N :=
  let c := h_caps h in
  let l := h_layout h in
  let t := sat_add 0 (h_used h) in
  let t := sat_add t (sat_mul (c_slots c) (sz_slot l)) in
  let t := sat_add t (c_marks c) in
  let t := sat_add t (sat_mul (c_free c) 4) in
  let t := sat_add t (sat_mul (c_work c) (sz_heap_id l)) in
  let t := sat_add t (sat_mul (c_roots c) (sz_value l)) in
  let t := sat_add t (sat_mul (c_env_roots c) (sz_env l)) in
  let t := sat_add t (sat_mul (c_proots c) (sz_opt_value l)) in
  let t := sat_add t (sat_mul (c_proots_free c) 4) in
  let t := sat_add t (sat_mul (c_peroots c) (sz_opt_env l)) in
  let t := sat_add t (sat_mul (c_peroots_free c) 4) in
  sat_add t (sat_mul (c_registry c) (sz_registry_entry l)).

(** vm-js/src/heap.rs 4024-4036 [grown_capacity]; the loop doubles [cap], which
    starts at 1 or more, so 65 rounds reach [required] or overflow. *)
Fixpoint double_until (fuel : nat) (cap required : N) : N :=
  match fuel with
  | O => usize_max
  | S fuel =>
      if required <=? cap then cap
      else if usize_max <? cap * 2 then usize_max
      else double_until fuel (cap * 2) required
  end.
Definition grown_capacity (current required : N) : N :=
  if required <=? current then current
  else double_until 65 (N.max current 1) required.

(** vm-js/src/heap.rs 4038-4050 [vec_capacity_growth_bytes]. *)
Definition vec_growth_bytes (elem_size current required : N) : N :=
  if elem_size =? 0 then 0
  else
    let new_capacity := grown_capacity current required in
    if new_capacity =? usize_max then usize_max
    else sat_mul (sat_sub new_capacity current) elem_size.

(** vm-js/src/heap.rs 4052-4068 [reserve_vec_to_len]: the new capacity. *)
Definition reserve_cap (current required : N) : res N :=
  if required <=? current then Ok current
  else
    let desired := grown_capacity current required in
    if desired =? usize_max then Err EOutOfMemory else Ok desired.

(** vm-js/src/heap.rs 2378-2408 [Heap::ensure_can_allocate_with_extra_roots]. *)
Definition ensure_can_allocate_with (additional : heap -> N) (extra : list heap_id) : M unit :=
  fun h =>
    let after := sat_add (estimated_total_bytes h) (additional h) in
    let collected := if h_gc_threshold h <? after then collect_with extra h else Some h in
    match collected with
    | None => (h, Panic)
    | Some h' =>
        let after := sat_add (estimated_total_bytes h') (additional h') in
        if h_max_bytes h' <? after then (h', Err EOutOfMemory) else (h', Ok tt)
    end.
(** vm-js/src/heap.rs 2367-2369 [Heap::ensure_can_allocate]. *)
Definition ensure_can_allocate (bytes : N) : M unit :=
  ensure_can_allocate_with (fun _ => bytes) [].

(** vm-js/src/heap.rs 2410-2421 [Heap::update_slot_bytes]. *)
Definition update_slot_bytes (idx : nat) (new_bytes : N) : M unit := fun h =>
  match h_slots h !! idx with
  | None => (h, Panic)
  | Some s =>
      let old := sl_bytes s in
      let used := if old <=? new_bytes
                  then sat_add (h_used h) (new_bytes - old)
                  else sat_sub (h_used h) (old - new_bytes) in
      (h <| h_used := used |> <| h_slots := <[idx := s <| sl_bytes := new_bytes |>]> (h_slots h) |>,
       Ok tt)
  end.

(** Length of a list as a [usize]. Simplification: Rust's [Vec] guarantees
    lengths below [isize::MAX], so [len + 1] is not checked for overflow. *)
Definition nlen {A} (l : list A) : N := N.of_nat (length l).

(** vm-js/src/heap.rs 2508-2532 [Heap::additional_bytes_for_new_slot]. *)
Definition additional_bytes_for_new_slot (h : heap) : N :=
  let n := nlen (h_slots h) + 1 in
  let c := h_caps h in
  let l := h_layout h in
  let b := sat_add 0 (vec_growth_bytes (sz_slot l) (c_slots c) n) in
  let b := sat_add b (vec_growth_bytes 1 (c_marks c) n) in
  let b := sat_add b (vec_growth_bytes 4 (c_free c) n) in
  sat_add b (vec_growth_bytes (sz_heap_id l) (c_work c) n).

(** vm-js/src/heap.rs 2500-2506 [Heap::additional_bytes_for_heap_alloc]. *)
Definition additional_bytes_for_heap_alloc (payload : N) (h : heap) : N :=
  match h_free h with
  | [] => sat_add payload (additional_bytes_for_new_slot h)
  | _ => payload
  end.

(** vm-js/src/heap.rs 2534-2542 [Heap::reserve_for_new_slot]. *)
Definition reserve_for_new_slot : M unit := fun h =>
  let n := nlen (h_slots h) + 1 in
  match reserve_cap (c_slots (h_caps h)) n with
  | Ok a =>
      let h := h <| h_caps ::= set c_slots (fun _ => a) |> in
      match reserve_cap (c_marks (h_caps h)) n with
      | Ok b =>
          let h := h <| h_caps ::= set c_marks (fun _ => b) |> in
          match reserve_cap (c_free (h_caps h)) n with
          | Ok c =>
              let h := h <| h_caps ::= set c_free (fun _ => c) |> in
              match reserve_cap (c_work (h_caps h)) n with
              | Ok d => (h <| h_caps ::= set c_work (fun _ => d) |>, Ok tt)
              | _ => (h, Err EOutOfMemory)
              end
          | _ => (h, Err EOutOfMemory)
          end
      | _ => (h, Err EOutOfMemory)
      end
  | _ => (h, Err EOutOfMemory)
  end.

(** vm-js/src/heap.rs 2427-2436, the slot choice of [alloc_unchecked]. *)
Definition take_slot : M nat := fun h =>
  match h_free h with
  | idx :: free => (h <| h_free := free |>, Ok idx)
  | [] =>
      match reserve_for_new_slot h with
      | (h, Ok _) =>
          (h <| h_slots := h_slots h ++ [slot_new] |> <| h_marks := h_marks h ++ [0%nat] |>,
           Ok (length (h_slots h)))
      | (h, Err e) => (h, Err e)
      | (h, Panic) => (h, Panic)
      end
  end.

(** vm-js/src/heap.rs 2438-2453, storing the object in the chosen slot. *)
Definition store_new (idx : nat) (obj : heap_object) (new_bytes : N) : M heap_id := fun h =>
  match h_slots h !! idx with
  | None => (h, Panic)
  | Some s =>
      let h := h <| h_slots := <[idx := Slot (sl_gen s) (Some obj) None new_bytes]> (h_slots h) |>
                 <| h_used := sat_add (h_used h) new_bytes |> in
      if two32 <=? N.of_nat idx then (h, Err EOutOfMemory)
      else (h, Ok (HId idx (sl_gen s)))
  end.

(** vm-js/src/heap.rs 2423-2454 [Heap::alloc_unchecked]. *)
Definition alloc_unchecked (obj : heap_object) (new_bytes : N) : M heap_id :=
  ensure_can_allocate_with (additional_bytes_for_heap_alloc new_bytes) [] ;;;
  let* idx := take_slot in
  store_new idx obj new_bytes.

(* ------------------------------------------------------------------ *)
(** * Persistent roots *)

(** vm-js/src/heap.rs 2544-2557. *)
Definition additional_bytes_for_new_proot (h : heap) : N :=
  let n := nlen (h_proots h) + 1 in
  let b := sat_add 0 (vec_growth_bytes (sz_opt_value (h_layout h)) (c_proots (h_caps h)) n) in
  sat_add b (vec_growth_bytes 4 (c_proots_free (h_caps h)) n).
(** vm-js/src/heap.rs 2559-2568. *)
Definition reserve_for_new_proot : M unit := fun h =>
  let n := nlen (h_proots h) + 1 in
  match reserve_cap (c_proots (h_caps h)) n with
  | Ok a =>
      let h := h <| h_caps ::= set c_proots (fun _ => a) |> in
      match reserve_cap (c_proots_free (h_caps h)) n with
      | Ok b => (h <| h_caps ::= set c_proots_free (fun _ => b) |>, Ok tt)
      | _ => (h, Err EOutOfMemory)
      end
  | _ => (h, Err EOutOfMemory)
  end.

(** vm-js/src/heap.rs 455-480 [Heap::add_root]. *)
Definition add_root (v : value) : M nat := fun h =>
  match h_proots_free h with
  | idx :: free =>
      let h := h <| h_proots_free := free |> in
      match h_proots h !! idx with
      | None => (h, Panic)
      | Some _ => (h <| h_proots := <[idx := Some v]> (h_proots h) |>, Ok (trunc32 idx))
      end
  | [] =>
      (ensure_can_allocate_with additional_bytes_for_new_proot (trace_value v) ;;;
       reserve_for_new_proot ;;;
       fun h =>
         let idx := length (h_proots h) in
         (h <| h_proots := h_proots h ++ [Some v] |>, Ok (trunc32 idx))) h
  end.

(** vm-js/src/heap.rs 483-488 [Heap::get_root]. *)
Definition get_root (h : heap) (id : nat) : option value :=
  match h_proots h !! id with Some (Some v) => Some v | _ => None end.

(** vm-js/src/heap.rs 493-509 [Heap::set_root] (release build). *)
Definition set_root (id : nat) (v : value) : M unit := fun h =>
  match h_proots h !! id with
  | Some (Some _) => (h <| h_proots := <[id := Some v]> (h_proots h) |>, Ok tt)
  | _ => (h, Ok tt)
  end.

(** vm-js/src/heap.rs 512-526 [Heap::remove_root] (release build). *)
Definition remove_root (id : nat) : M unit := fun h =>
  match h_proots h !! id with
  | Some (Some _) =>
      (h <| h_proots := <[id := None]> (h_proots h) |>
         <| h_proots_free := id :: h_proots_free h |>, Ok tt)
  | _ => (h, Ok tt)
  end.

(* ------------------------------------------------------------------ *)
(** * Scopes and stack roots *)

(** vm-js/src/heap.rs 239-241 [Heap::truncate_stack_roots]. *)
Definition truncate_stack_roots (n : nat) : M unit :=
  mmodify (fun h => h <| h_roots := take n (h_roots h) |>).

(** vm-js/src/heap.rs 199-207 [Heap::scope], 2871-2879 [Scope::reborrow] and
    2783-2791 [Drop for Scope]: run [m] in a scope that is dropped on every exit. *)
Definition with_scope {A} (m : M A) : M A := fun h =>
  let n := length (h_roots h) in
  let k := length (h_env_roots h) in
  match m h with
  | (h', r) => (h' <| h_roots := take n (h_roots h') |>
                   <| h_env_roots := take k (h_env_roots h') |>, r)
  end.

(** vm-js/src/heap.rs 2809-2846 [Scope::push_roots_with_extra_roots]; also
    220-236 [Heap::push_stack_root] (one value, no extra roots). *)
Definition push_roots_with (values : list value) (extra : list heap_id) : M unit := fun h =>
  match values with
  | [] => (h, Ok tt)
  | _ =>
      let new_len := nlen (h_roots h) + nlen values in
      let growth := vec_growth_bytes (sz_value (h_layout h)) (c_roots (h_caps h)) new_len in
      let push : M unit := mmodify (fun h => h <| h_roots := h_roots h ++ values |>) in
      if growth =? 0 then push h
      else
        (ensure_can_allocate_with (fun _ => growth) (trace_values values ++ extra) ;;;
         (fun h => match reserve_cap (c_roots (h_caps h)) new_len with
                   | Ok c => (h <| h_caps ::= set c_roots (fun _ => c) |>, Ok tt)
                   | _ => (h, Err EOutOfMemory)
                   end) ;;;
         push) h
  end.
(** vm-js/src/heap.rs 2804-2806 [Scope::push_roots], 2798-2802 [Scope::push_root]. *)
Definition push_roots (values : list value) : M unit := push_roots_with values [].
Definition push_root (v : value) : M unit := push_roots [v].

(** vm-js/src/heap.rs 2848-2868 [Scope::push_env_root]. *)
Definition push_env_root (env : heap_id) : M unit := fun h =>
  let new_len := nlen (h_env_roots h) + 1 in
  let growth := vec_growth_bytes (sz_env (h_layout h)) (c_env_roots (h_caps h)) new_len in
  let push : M unit := mmodify (fun h => h <| h_env_roots := h_env_roots h ++ [env] |>) in
  if growth =? 0 then push h
  else
    (ensure_can_allocate_with (fun _ => growth) [env] ;;;
     (fun h => match reserve_cap (c_env_roots (h_caps h)) new_len with
               | Ok c => (h <| h_caps ::= set c_env_roots (fun _ => c) |>, Ok tt)
               | _ => (h, Err EOutOfMemory)
               end) ;;;
     push) h.

(** vm-js/src/heap.rs 2570-2594: env root table growth. *)
Definition additional_bytes_for_new_peroot (h : heap) : N :=
  let n := nlen (h_peroots h) + 1 in
  let b := sat_add 0 (vec_growth_bytes (sz_opt_env (h_layout h)) (c_peroots (h_caps h)) n) in
  sat_add b (vec_growth_bytes 4 (c_peroots_free (h_caps h)) n).
Definition reserve_for_new_peroot : M unit := fun h =>
  let n := nlen (h_peroots h) + 1 in
  match reserve_cap (c_peroots (h_caps h)) n with
  | Ok a =>
      let h := h <| h_caps ::= set c_peroots (fun _ => a) |> in
      match reserve_cap (c_peroots_free (h_caps h)) n with
      | Ok b => (h <| h_caps ::= set c_peroots_free (fun _ => b) |>, Ok tt)
      | _ => (h, Err EOutOfMemory)
      end
  | _ => (h, Err EOutOfMemory)
  end.

(** vm-js/src/heap.rs 529-552 [Heap::add_env_root]. *)
Definition add_env_root (env : heap_id) : M nat :=
  with_scope
    (push_env_root env ;;;
     fun h =>
       match h_peroots_free h with
       | idx :: free =>
           let h := h <| h_peroots_free := free |> in
           match h_peroots h !! idx with
           | None => (h, Panic)
           | Some _ => (h <| h_peroots := <[idx := Some env]> (h_peroots h) |>, Ok (trunc32 idx))
           end
       | [] =>
           (ensure_can_allocate_with additional_bytes_for_new_peroot [] ;;;
            reserve_for_new_peroot ;;;
            fun h =>
              let idx := length (h_peroots h) in
              (h <| h_peroots := h_peroots h ++ [Some env] |>, Ok (trunc32 idx))) h
       end).

(** vm-js/src/heap.rs 555-560 [Heap::get_env_root]. *)
Definition get_env_root (h : heap) (id : nat) : option heap_id :=
  match h_peroots h !! id with Some (Some v) => Some v | _ => None end.

(** vm-js/src/heap.rs 565-584 [Heap::set_env_root] (release build). *)
Definition set_env_root (id : nat) (v : heap_id) : M unit := fun h =>
  match h_peroots h !! id with
  | Some (Some _) => (h <| h_peroots := <[id := Some v]> (h_peroots h) |>, Ok tt)
  | _ => (h, Ok tt)
  end.

(** vm-js/src/heap.rs 587-602 [Heap::remove_env_root] (release build). *)
Definition remove_env_root (id : nat) : M unit := fun h =>
  match h_peroots h !! id with
  | Some (Some _) =>
      (h <| h_peroots := <[id := None]> (h_peroots h) |>
         <| h_peroots_free := id :: h_peroots_free h |>, Ok tt)
  | _ => (h, Ok tt)
  end.
