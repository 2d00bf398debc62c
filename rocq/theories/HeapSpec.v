(** What "live", "refers to", "rooted" and "reachable" mean, stated without the
    collector: one rule per field of each kind of heap object.  Used by the
    theorems of HeapProperties.v. *)
From stdpp Require Import base decidable list numbers.
From Coq Require Import NArith ZArith.
From Verif Require Import VmBase HeapModel.

Open Scope N_scope.

(** The handle [id] currently denotes the object [o] (with host slots [hs]). *)
Definition live_with (h : heap) (id : heap_id) (o : heap_object) (hs : option (N * N)) : Prop :=
  exists s, h_slots h !! hid_index id = Some s /\ sl_gen s = hid_gen id
            /\ sl_value s = Some o /\ sl_host s = hs.
Definition live_as (h : heap) (id : heap_id) (o : heap_object) : Prop :=
  exists hs, live_with h id o hs.
Definition live (h : heap) (id : heap_id) : Prop := exists o, live_as h id o.

(** The handle carried by a value. *)
Inductive value_has : value -> heap_id -> Prop :=
| vh_string s : value_has (VString s) s
| vh_symbol s : value_has (VSymbol s) s
| vh_object o : value_has (VObject o) o.

Inductive key_has : property_key -> heap_id -> Prop :=
| kh_string s : key_has (PKString s) s
| kh_symbol s : key_has (PKSymbol s) s.

Inductive desc_has : property_descriptor -> heap_id -> Prop :=
| dh_data e c v w id : value_has v id -> desc_has (PDesc e c (PData v w)) id
| dh_get e c g s id : value_has g id -> desc_has (PDesc e c (PAccessor g s)) id
| dh_set e c g s id : value_has s id -> desc_has (PDesc e c (PAccessor g s)) id.

Inductive base_has : object_base -> heap_id -> Prop :=
| bh_proto b id : ob_prototype b = Some id -> base_has b id
| bh_key b e id : e ∈ ob_properties b -> key_has (pe_key e) id -> base_has b id
| bh_desc b e id : e ∈ ob_properties b -> desc_has (pe_desc e) id -> base_has b id.

Inductive fndata_has : function_data -> heap_id -> Prop :=
| fd_resolving p r : fndata_has (FDPromiseResolvingFunction p r) p
| fd_handler_f a b r id : value_has a id -> fndata_has (FDPromiseFinallyHandler a b r) id
| fd_handler_c a b r id : value_has b id -> fndata_has (FDPromiseFinallyHandler a b r) id
| fd_thunk v t id : value_has v id -> fndata_has (FDPromiseFinallyThunk v t) id.

Inductive function_has : js_function -> heap_id -> Prop :=
| fh_base f id : base_has (fn_base f) id -> function_has f id
| fh_name f : function_has f (fn_name f)
| fh_data f id : fndata_has (fn_data f) id -> function_has f id
| fh_target f id : fn_bound_target f = Some id -> function_has f id
| fh_this f v id : fn_bound_this f = Some v -> value_has v id -> function_has f id
| fh_newtarget f v id : fn_bound_new_target f = Some v -> value_has v id -> function_has f id
| fh_args f l v id : fn_bound_args f = Some l -> v ∈ l -> value_has v id -> function_has f id
| fh_slots f l v id : fn_native_slots f = Some l -> v ∈ l -> value_has v id -> function_has f id
| fh_realm f id : fn_realm f = Some id -> function_has f id
| fh_env f id : fn_closure_env f = Some id -> function_has f id.

Inductive env_has : env_record -> heap_id -> Prop :=
| eh_outer_d o bs t n : env_has (EnvDeclarative (Some o) bs t n) o
| eh_name o bs t n b id : b ∈ bs -> eb_name b = Some id -> env_has (EnvDeclarative o bs t n) id
| eh_value o bs t n b id : b ∈ bs -> value_has (eb_value b) id -> env_has (EnvDeclarative o bs t n) id
| eh_this o bs t n id : value_has t id -> env_has (EnvDeclarative o bs (Some t) n) id
| eh_nt o bs t n id : value_has n id -> env_has (EnvDeclarative o bs t (Some n)) id
| eh_outer_o o b w : env_has (EnvObject (Some o) b w) o
| eh_object o b w : env_has (EnvObject o b w) b.

Inductive reaction_has : promise_reaction -> heap_id -> Prop :=
| rh_promise r c id : re_capability r = Some c -> value_has (cap_promise c) id -> reaction_has r id
| rh_resolve r c id : re_capability r = Some c -> value_has (cap_resolve c) id -> reaction_has r id
| rh_reject r c id : re_capability r = Some c -> value_has (cap_reject c) id -> reaction_has r id
| rh_handler r j : re_handler r = Some j -> reaction_has r (jc_callback j).

Inductive promise_has : js_promise -> heap_id -> Prop :=
| ph_base p id : base_has (pr_base p) id -> promise_has p id
| ph_result p v id : pr_result p = Some v -> value_has v id -> promise_has p id
| ph_fulfill p l r id : pr_fulfill p = Some l -> r ∈ l -> reaction_has r id -> promise_has p id
| ph_reject p l r id : pr_reject p = Some l -> r ∈ l -> reaction_has r id -> promise_has p id.

(** [object_has o id]: the object [o] stores the handle [id] in some field. *)
Inductive object_has : heap_object -> heap_id -> Prop :=
| oh_symbol n id : object_has (HSymbol n (Some id)) id
| oh_object b id : base_has b id -> object_has (HObject b) id
| oh_function f id : function_has f id -> object_has (HFunction f) id
| oh_env e id : env_has e id -> object_has (HEnv e) id
| oh_promise p id : promise_has p id -> object_has (HPromise p) id.

(** Handles held by the heap's root sets: the scope stacks, the persistent root
    tables and the symbol registry. *)
Inductive rooted (h : heap) : heap_id -> Prop :=
| rt_stack v id : v ∈ h_roots h -> value_has v id -> rooted h id
| rt_env_stack id : id ∈ h_env_roots h -> rooted h id
| rt_persistent v id : Some v ∈ h_proots h -> value_has v id -> rooted h id
| rt_persistent_env id : Some id ∈ h_peroots h -> rooted h id
| rt_registry_key e : e ∈ h_registry h -> rooted h (rg_key e)
| rt_registry_sym e : e ∈ h_registry h -> rooted h (rg_sym e).

(** Reachable from the roots and from the handles in [extra]. *)
Inductive reachable (h : heap) (extra : list heap_id) : heap_id -> Prop :=
| reach_extra id : id ∈ extra -> live h id -> reachable h extra id
| reach_root id : rooted h id -> live h id -> reachable h extra id
| reach_step id o id' : reachable h extra id -> live_as h id o -> object_has o id' -> live h id' ->
                        reachable h extra id'.

(** Payload bytes of one object: what the object owns besides its slot. *)
Definition base_payload (l : layout) (b : object_base) : N :=
  nlen (ob_properties b) * sz_property_entry l.
Definition opt_count {A} (o : option (list A)) : N :=
  match o with Some l => nlen l | None => 0 end.
Definition payload_bytes (l : layout) (o : heap_object) : N :=
  match o with
  | HString u => nlen u * 2
  | HSymbol _ _ => 0
  | HObject b => base_payload l b
  | HFunction f => (opt_count (fn_bound_args f) + opt_count (fn_native_slots f)) * sz_value l
                   + base_payload l (fn_base f)
  | HEnv (EnvDeclarative _ bs _ _) => nlen bs * sz_env_binding l
  | HEnv (EnvObject _ _ _) => sz_object_env l
  | HPromise p => sz_promise l + base_payload l (pr_base p)
                  + (opt_count (pr_fulfill p) + opt_count (pr_reject p)) * sz_reaction l
  end.

(** Payload of everything the slot table holds. *)
Definition live_payload (h : heap) : N :=
  foldr (fun s acc => match sl_value s with
                      | Some o => payload_bytes (h_layout h) o + acc
                      | None => acc
                      end) 0 (h_slots h).

(** The heap's footprint without saturation: payload plus every internal vector
    at its capacity. *)
Definition total_bytes (h : heap) : N :=
  let c := h_caps h in let l := h_layout h in
  h_used h
  + (c_slots c * sz_slot l + c_marks c * 1 + c_free c * 4 + c_work c * sz_heap_id l)
  + (c_roots c * sz_value l + c_env_roots c * sz_env l)
  + (c_proots c * sz_opt_value l + c_proots_free c * 4)
  + (c_peroots c * sz_opt_env l + c_peroots_free c * 4)
  + c_registry c * sz_registry_entry l.

(** Layouts and limits the theorems quantify over: every element size is
    positive, the byte limit is below [usize::MAX] and too small for a table
    with 2^32 entries. *)
Definition limits_ok (l : layout) (max_bytes : N) : Prop :=
  0 < sz_heap_id l /\ 0 < sz_value l /\ 0 < sz_env l /\ 0 < sz_registry_entry l /\
  max_bytes < usize_max /\
  max_bytes < two32 * sz_slot l /\ max_bytes < two32 * sz_opt_value l /\
  max_bytes < two32 * sz_opt_env l.

(** No dangling reference: every handle the root sets hold, and every handle
    stored in a live object, denotes a live object. *)
Definition no_dangling (h : heap) : Prop :=
  (forall id, rooted h id -> live h id) /\
  (forall id o id', live_as h id o -> object_has o id' -> live h id').
