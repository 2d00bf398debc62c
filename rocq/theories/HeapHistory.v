(** Histories of heap API calls: the states an embedder can bring the heap into.

    [op] lists the operations of [Heap] and [Scope] (vm-js/src/heap.rs,
    object_ops.rs, function_properties.rs) that change the heap; [OpScope] is a
    block run inside a scope that is dropped at the end.  A failing call leaves
    the heap in whatever state it reached, and the history goes on.  User code
    called by a getter or setter is the rest of the history. *)
From stdpp Require Import base decidable list numbers.
From Coq Require Import NArith ZArith.
From Verif Require Import VmBase HeapModel HeapObjModel HeapSpec ObjectOpsModel.

Open Scope N_scope.

Inductive op : Type :=
| OpCollect
| OpPushRoots (vs : list value)
| OpPushEnvRoot (e : heap_id)
| OpScope (body : list op)
| OpAddRoot (v : value) | OpSetRoot (i : nat) (v : value) | OpRemoveRoot (i : nat)
| OpAddEnvRoot (e : heap_id) | OpSetEnvRoot (i : nat) (e : heap_id) | OpRemoveEnvRoot (i : nat)
| OpAllocString (u : js_string)
| OpNewSymbol (d : option heap_id)
| OpSymbolFor (k : heap_id)
| OpAllocObject
| OpAllocObjectWith (p : option heap_id) (ps : list property_entry)
| OpAllocArray (n : N)
| OpAllocPromise (p : option heap_id)
| OpAllocNative (call : N) (construct : option N) (name : heap_id) (len : N) (slots : list value) (env : option heap_id)
| OpAllocEcma (code : N) (c : bool) (name : heap_id) (len tm : N) (strict : bool) (env : option heap_id)
| OpAllocUser (code : N) (name : heap_id) (len : N)
| OpAllocBound (target : heap_id) (this : value) (args : list value) (name : heap_id) (len : N)
| OpSetFunctionName (f : heap_id) (n : property_key) (p : option js_string)
| OpSetFunctionLength (f : heap_id) (len : N)
| OpMakeConstructor (f : heap_id)
| OpSetBoundThis (f : heap_id) (v : value)
| OpSetBoundNewTarget (f : heap_id) (v : value)
| OpSetRealm (f : heap_id) (r : heap_id)
| OpSetJobRealm (f : heap_id) (r : N)
| OpSetData (f : heap_id) (d : function_data)
| OpSetClosureEnv (f : heap_id) (e : option heap_id)
| OpSetHostSlots (o : heap_id) (hs : option (N * N))
| OpDefineProperty (o : heap_id) (k : property_key) (d : property_descriptor)
| OpDeleteRaw (o : heap_id) (k : property_key)
| OpSetExisting (o : heap_id) (k : property_key) (v : value)
| OpSetPrototype (o : heap_id) (p : option heap_id)
| OpSetExtensible (o : heap_id) (b : bool)
| OpDefineOwn (o : heap_id) (k : property_key) (p : descriptor_patch)
| OpDefineOrThrow (o : heap_id) (k : property_key) (p : descriptor_patch)
| OpCreateData (o : heap_id) (k : property_key) (v : value)
| OpCreateDataOrThrow (o : heap_id) (k : property_key) (v : value)
| OpDelete (o : heap_id) (k : property_key)
| OpDeleteOrThrow (o : heap_id) (k : property_key)
| OpSet (o : heap_id) (k : property_key) (v receiver : value)
| OpEnvCreate (outer : option heap_id)
| OpEnvAlloc (outer : option heap_id) (bs : list env_binding)
| OpEnvAllocObject (o : heap_id) (outer : option heap_id) (w : bool)
| OpEnvCreateBinding (e : heap_id) (name : js_string) (mutable : bool)
| OpEnvInitialize (e : heap_id) (name : js_string) (v : value)
| OpEnvSet (e : heap_id) (name : js_string) (v : value)
| OpEnvInitializeSym (e : heap_id) (sym : N) (v : value)
| OpEnvSetSym (e : heap_id) (sym : N) (v : value)
| OpPromiseSetHandled (p : heap_id) (b : bool)
| OpPromiseFulfill (p : heap_id) (v : value)
| OpPromiseReject (p : heap_id) (v : value)
| OpPromiseSetState (p : heap_id) (st : promise_state) (r : option value)
| OpPromiseSettle (p : heap_id) (st : promise_state) (v : value)
| OpPromiseReact (p : heap_id) (is_fulfill : bool) (r : promise_reaction).

(** The call stops at a getter or setter call. *)
Definition stop_call : call_fn := fun _ _ _ => mfail EUnimplemented.

Definition void {A} (m : M A) : M unit := m ;;; mret tt.

(** One call, as the corresponding model function. *)
Fixpoint exec (o : op) : M unit :=
  match o with
  | OpCollect => collect_garbage
  | OpPushRoots vs => push_roots vs
  | OpPushEnvRoot e => push_env_root e
  | OpScope body =>
      with_scope
        ((fix run (os : list op) : M unit :=
            match os with
            | [] => mret tt
            | o :: os => fun h => run os (fst (exec o h))
            end) body)
  | OpAddRoot v => void (add_root v)
  | OpSetRoot i v => set_root i v
  | OpRemoveRoot i => remove_root i
  | OpAddEnvRoot e => void (add_env_root e)
  | OpSetEnvRoot i e => set_env_root i e
  | OpRemoveEnvRoot i => remove_env_root i
  | OpAllocString u => void (alloc_string u)
  | OpNewSymbol d => void (new_symbol d)
  | OpSymbolFor k => void (symbol_for k)
  | OpAllocObject => void alloc_object
  | OpAllocObjectWith p ps => void (alloc_object_with_properties p ps)
  | OpAllocArray n => void (alloc_array n)
  | OpAllocPromise p => void (alloc_promise_with_prototype p)
  | OpAllocNative call construct name len slots env => void (alloc_native_function call construct name len slots env)
  | OpAllocEcma code c name len tm strict env => void (alloc_ecma_function code c name len tm strict env)
  | OpAllocUser code name len => void (alloc_user_function code name len)
  | OpAllocBound target this args name len => void (alloc_bound_function target this args name len)
  | OpSetFunctionName f n p => set_function_name f n p
  | OpSetFunctionLength f len => set_function_length f len
  | OpMakeConstructor f => void (make_constructor f)
  | OpSetBoundThis f v => set_function_bound_this f v
  | OpSetBoundNewTarget f v => set_function_bound_new_target f v
  | OpSetRealm f r => set_function_realm f r
  | OpSetJobRealm f r => set_function_job_realm f r
  | OpSetData f d => set_function_data f d
  | OpSetClosureEnv f e => set_function_closure_env f e
  | OpSetHostSlots o hs => object_set_host_slots o hs
  | OpDefineProperty o k d => define_property o k d
  | OpDeleteRaw o k => void (object_delete_own_property o k)
  | OpSetExisting o k v => object_set_existing_data_property_value o k v
  | OpSetPrototype o p => object_set_prototype o p
  | OpSetExtensible o b => object_set_extensible o b
  | OpDefineOwn o k p => void (define_own_property o k p)
  | OpDefineOrThrow o k p => define_property_or_throw o k p
  | OpCreateData o k v => void (create_data_property o k v)
  | OpCreateDataOrThrow o k v => create_data_property_or_throw o k v
  | OpDelete o k => void (ordinary_delete o k)
  | OpDeleteOrThrow o k => delete_property_or_throw o k
  | OpSet o k v receiver => void (ordinary_set stop_call o k v receiver)
  | OpEnvCreate outer => void (env_create outer)
  | OpEnvAlloc outer bs => void (alloc_declarative_env_record outer bs)
  | OpEnvAllocObject o outer w => void (alloc_object_env_record o outer w)
  | OpEnvCreateBinding e name m => env_create_binding e name m
  | OpEnvInitialize e name v => env_initialize_binding e name v
  | OpEnvSet e name v => env_set_mutable_binding e name v
  | OpEnvInitializeSym e s v => env_initialize_symbol_binding e s v
  | OpEnvSetSym e s v => env_set_mutable_symbol_binding e s v
  | OpPromiseSetHandled p b => promise_set_is_handled p b
  | OpPromiseFulfill p v => promise_fulfill p v
  | OpPromiseReject p v => promise_reject p v
  | OpPromiseSetState p st r => promise_set_state_and_result p st r
  | OpPromiseSettle p st v => void (promise_settle_and_take_reactions p st v)
  | OpPromiseReact p f r => scope_append_reaction p f r
  end.

(** The heap after a history, whatever each call returned. *)
Fixpoint run (os : list op) (h : heap) : heap :=
  match os with
  | [] => h
  | o :: os => run os (fst (exec o h))
  end.

(** States an embedder can reach. *)
Definition reachable_state (h : heap) : Prop :=
  exists ly max_bytes gc_threshold os, limits_ok ly max_bytes /\ h = run os (heap_new ly max_bytes gc_threshold).

(** Handles a call mentions. *)
Definition values_handles (vs : list value) : list heap_id :=
  flat_map (fun v => match v with VString s | VSymbol s | VObject s => [s] | _ => [] end) vs.
Definition key_handles (k : property_key) : list heap_id := match k with PKString s | PKSymbol s => [s] end.
Definition desc_handles (d : property_descriptor) : list heap_id :=
  values_handles (match pd_kind d with PData v _ => [v] | PAccessor g s => [g; s] end).
Definition patch_handles (p : descriptor_patch) : list heap_id :=
  values_handles (opt_list (pp_value p) ++ opt_list (pp_get p) ++ opt_list (pp_set p)).
Definition reaction_handles (r : promise_reaction) : list heap_id :=
  map jc_callback (opt_list (re_handler r))
  ++ values_handles (flat_map (fun c => [cap_promise c; cap_resolve c; cap_reject c]) (opt_list (re_capability r))).
Definition binding_handles (b : env_binding) : list heap_id := opt_list (eb_name b) ++ values_handles [eb_value b].
Definition fndata_handles (d : function_data) : list heap_id :=
  match d with
  | FDPromiseResolvingFunction p _ => [p]
  | FDPromiseFinallyHandler a b _ => values_handles [a; b]
  | FDPromiseFinallyThunk v _ => values_handles [v]
  | _ => []
  end.

Definition op_handles (o : op) : list heap_id :=
  match o with
  | OpCollect | OpScope _ | OpRemoveRoot _ | OpRemoveEnvRoot _ | OpAllocString _ | OpAllocObject | OpAllocArray _ => []
  | OpPushRoots vs => values_handles vs
  | OpPushEnvRoot e | OpAddEnvRoot e | OpSetEnvRoot _ e => [e]
  | OpAddRoot v | OpSetRoot _ v => values_handles [v]
  | OpNewSymbol d => opt_list d
  | OpSymbolFor k => [k]
  | OpAllocObjectWith p ps => opt_list p ++ flat_map (fun e => key_handles (pe_key e) ++ desc_handles (pe_desc e)) ps
  | OpAllocPromise p => opt_list p
  | OpAllocNative _ _ name _ slots env => name :: values_handles slots ++ opt_list env
  | OpAllocEcma _ _ name _ _ _ env => name :: opt_list env
  | OpAllocUser _ name _ => [name]
  | OpAllocBound target this args name _ => name :: target :: values_handles (this :: args)
  | OpSetFunctionName f n _ => f :: key_handles n
  | OpSetFunctionLength f _ | OpMakeConstructor f => [f]
  | OpSetBoundThis f v | OpSetBoundNewTarget f v => f :: values_handles [v]
  | OpSetRealm f r => [f; r]
  | OpSetJobRealm f _ => [f]
  | OpSetData f d => f :: fndata_handles d
  | OpSetClosureEnv f e => f :: opt_list e
  | OpSetHostSlots o _ => [o]
  | OpDefineProperty o k d => o :: key_handles k ++ desc_handles d
  | OpDeleteRaw o k => o :: key_handles k
  | OpSetExisting o k v => o :: key_handles k ++ values_handles [v]
  | OpSetPrototype o p => o :: opt_list p
  | OpSetExtensible o _ => [o]
  | OpDefineOwn o k p | OpDefineOrThrow o k p => o :: key_handles k ++ patch_handles p
  | OpCreateData o k v | OpCreateDataOrThrow o k v => o :: key_handles k ++ values_handles [v]
  | OpDelete o k | OpDeleteOrThrow o k => o :: key_handles k
  | OpSet o k v r => o :: key_handles k ++ values_handles [v; r]
  | OpEnvCreate outer => opt_list outer
  | OpEnvAlloc outer bs => opt_list outer ++ flat_map binding_handles bs
  | OpEnvAllocObject o outer _ => o :: opt_list outer
  | OpEnvCreateBinding e _ _ => [e]
  | OpEnvInitialize e _ v | OpEnvSet e _ v | OpEnvInitializeSym e _ v | OpEnvSetSym e _ v => e :: values_handles [v]
  | OpPromiseSetHandled p _ => [p]
  | OpPromiseFulfill p v | OpPromiseReject p v | OpPromiseSettle p _ v => p :: values_handles [v]
  | OpPromiseSetState p _ r => p :: values_handles (opt_list r)
  | OpPromiseReact p _ r => p :: reaction_handles r
  end.

(** The embedder's discipline: a handle is passed to a call only while its object
    is live ([set_function_name] needs more: its name must be on the root stack). *)
Definition pinned (h : heap) (id : heap_id) : Prop :=
  (exists v, v ∈ h_roots h /\ value_has v id) \/ id ∈ h_env_roots h.
Fixpoint disciplined (o : op) (h : heap) : Prop :=
  match o with
  | OpScope body =>
      (fix all (os : list op) (h : heap) : Prop :=
         match os with [] => True | o :: os => disciplined o h /\ all os (fst (exec o h)) end) body h
  | OpSetFunctionName f n _ => live h f /\ forall id, id ∈ key_handles n -> pinned h id
  | o => forall id, id ∈ op_handles o -> live h id
  end.
Fixpoint disciplined_history (os : list op) (h : heap) : Prop :=
  match os with [] => True | o :: os => disciplined o h /\ disciplined_history os (fst (exec o h)) end.
Definition disciplined_state (h : heap) : Prop :=
  exists ly max_bytes gc_threshold os, limits_ok ly max_bytes /\
    disciplined_history os (heap_new ly max_bytes gc_threshold) /\ h = run os (heap_new ly max_bytes gc_threshold).

(** The operations that change root [i] (a value root or an environment root). *)
Fixpoint touches_root (i : nat) (o : op) : bool :=
  match o with
  | OpScope body => existsb (touches_root i) body
  | OpSetRoot j _ | OpRemoveRoot j => Nat.eqb i j
  | _ => false
  end.
Fixpoint touches_env_root (i : nat) (o : op) : bool :=
  match o with
  | OpScope body => existsb (touches_env_root i) body
  | OpSetEnvRoot j _ | OpRemoveEnvRoot j => Nat.eqb i j
  | _ => false
  end.

(** The objects a call may change; every other object keeps its contents. *)
Fixpoint op_writes (o : op) : list heap_id :=
  match o with
  | OpScope body => flat_map op_writes body
  | OpSetFunctionName f _ _ | OpSetFunctionLength f _ | OpMakeConstructor f | OpSetBoundThis f _ | OpSetBoundNewTarget f _
  | OpSetRealm f _ | OpSetJobRealm f _ | OpSetData f _ | OpSetClosureEnv f _ => [f]
  | OpSetHostSlots o _ | OpDefineProperty o _ _ | OpDeleteRaw o _ | OpSetExisting o _ _ | OpSetPrototype o _
  | OpSetExtensible o _ | OpDefineOwn o _ _ | OpDefineOrThrow o _ _ | OpCreateData o _ _ | OpCreateDataOrThrow o _ _
  | OpDelete o _ | OpDeleteOrThrow o _ => [o]
  | OpSet _ _ _ receiver => values_handles [receiver]
  | OpEnvCreateBinding e _ _ | OpEnvInitialize e _ _ | OpEnvSet e _ _ | OpEnvInitializeSym e _ _ | OpEnvSetSym e _ _ => [e]
  | OpPromiseSetHandled p _ | OpPromiseFulfill p _ | OpPromiseReject p _ | OpPromiseSetState p _ _
  | OpPromiseSettle p _ _ | OpPromiseReact p _ _ => [p]
  | _ => []
  end.
