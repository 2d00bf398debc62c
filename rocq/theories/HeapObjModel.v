(** Model of the object-level operations of the vm-js heap: strings, symbols and
    the symbol registry, property tables, prototypes, environments, promises,
    functions (vm-js/src/heap.rs, property.rs, env.rs, function_properties.rs). *)
From stdpp Require Import base decidable list numbers.
From Coq Require Import NArith ZArith.
From RecordUpdate Require Import RecordUpdate.
From Verif Require Import VmBase HeapModel.

Open Scope N_scope.

Global Instance eta_base : Settable _ :=
  settable! OBase <ob_prototype; ob_extensible; ob_properties; ob_kind>.
Global Instance eta_entry : Settable _ := settable! PEntry <pe_key; pe_desc>.
Global Instance eta_desc : Settable _ := settable! PDesc <pd_enumerable; pd_configurable; pd_kind>.
Global Instance eta_patch : Settable _ :=
  settable! PPatch <pp_enumerable; pp_configurable; pp_value; pp_writable; pp_get; pp_set>.
Global Instance eta_function : Settable _ :=
  settable! JsFunction <fn_call; fn_construct; fn_name; fn_length; fn_this_mode; fn_is_strict;
    fn_base; fn_data; fn_bound_target; fn_bound_this; fn_bound_new_target; fn_bound_args;
    fn_native_slots; fn_realm; fn_job_realm; fn_closure_env>.
Global Instance eta_promise : Settable _ :=
  settable! JsPromise <pr_base; pr_state; pr_result; pr_fulfill; pr_reject; pr_handled>.
Global Instance eta_binding : Settable _ :=
  settable! EBinding <eb_symbol; eb_name; eb_value; eb_mutable; eb_initialized; eb_strict>.

(* ------------------------------------------------------------------ *)
(** * Sizes *)

(** vm-js/src/string.rs [JsString::heap_size_bytes_for_len]. *)
Definition string_bytes (n : N) : N := sat_mul n 2.
(** vm-js/src/heap.rs 3757-3766, 3826-3828. *)
Definition props_bytes (l : layout) (count : N) : N := sat_mul count (sz_property_entry l).
(** vm-js/src/function.rs 277-301. *)
Definition function_bytes (l : layout) (bound_args native_slots props : N) : N :=
  let b := sat_mul bound_args (sz_value l) in
  let n := sat_mul native_slots (sz_value l) in
  sat_add (sat_add b n) (props_bytes l props).
(** vm-js/src/env.rs 157-166. *)
Definition env_bytes (l : layout) (count : N) : N := sat_mul count (sz_env_binding l).
(** vm-js/src/heap.rs 3882-3902. *)
Definition promise_bytes (l : layout) (props fulfill reject : N) : N :=
  sat_add (sat_add (sat_add (sz_promise l) (sat_mul props (sz_property_entry l)))
                   (sat_mul fulfill (sz_reaction l)))
          (sat_mul reject (sz_reaction l)).

Definition opt_len {A} (o : option (list A)) : N := nlen (default [] o).

(** vm-js/src/function.rs 269-274 [JsFunction::heap_size_bytes] and the
    corresponding size of the other kinds, as a function of the object. *)
Definition function_size (l : layout) (f : js_function) : N :=
  function_bytes l (opt_len (fn_bound_args f)) (opt_len (fn_native_slots f))
                 (nlen (ob_properties (fn_base f))).
(** vm-js/src/heap.rs 3875-3881 [JsPromise::heap_size_bytes]. *)
Definition promise_size (l : layout) (p : js_promise) : N :=
  promise_bytes l (nlen (ob_properties (pr_base p))) (opt_len (pr_fulfill p)) (opt_len (pr_reject p)).

(* ------------------------------------------------------------------ *)
(** * Reading objects *)

(** vm-js/src/heap.rs 734-739 [Heap::get_string]. *)
Definition get_string (h : heap) (s : heap_id) : res js_string :=
  let? o := get_heap_object h s in
  match o with HString u => Ok u | _ => Err EInvalidHandle end.

(** vm-js/src/heap.rs 742-747 [Heap::get_symbol_description]. *)
Definition get_symbol_description (h : heap) (s : heap_id) : res (option heap_id) :=
  let? o := get_heap_object h s in
  match o with HSymbol _ d => Ok d | _ => Err EInvalidHandle end.

(** vm-js/src/heap.rs 605-613, 665-680 [Heap::is_valid_object], [is_valid_string],
    [is_valid_symbol], [is_valid_env]. *)
Definition is_valid_object (h : heap) (o : heap_id) : bool :=
  match get_heap_object h o with
  | Ok (HObject _) | Ok (HFunction _) | Ok (HPromise _) => true
  | _ => false
  end.
Definition is_valid_string (h : heap) (s : heap_id) : bool :=
  match get_heap_object h s with Ok (HString _) => true | _ => false end.
Definition is_valid_symbol (h : heap) (s : heap_id) : bool :=
  match get_heap_object h s with Ok (HSymbol _ _) => true | _ => false end.
Definition is_valid_env (h : heap) (e : heap_id) : bool :=
  match get_heap_object h e with Ok (HEnv _) => true | _ => false end.

(** The [ObjectBase] of an object, function or promise. *)
Definition base_of (o : heap_object) : option object_base :=
  match o with
  | HObject b => Some b
  | HFunction f => Some (fn_base f)
  | HPromise p => Some (pr_base p)
  | _ => None
  end.
(** Writing the [ObjectBase] of an object, function or promise. *)
Definition set_base (o : heap_object) (b : object_base) : heap_object :=
  match o with
  | HObject _ => HObject b
  | HFunction f => HFunction (f <| fn_base := b |>)
  | HPromise p => HPromise (p <| pr_base := b |>)
  | o => o
  end.

(** vm-js/src/heap.rs 763-770 [Heap::get_object_base]. *)
Definition get_object_base (h : heap) (o : heap_id) : res object_base :=
  let? obj := get_heap_object h o in
  ok_or (base_of obj) EInvalidHandle.

(** Writing a heap object in place: [get_heap_object_mut] (heap.rs 2351-2354)
    followed by an assignment that keeps slot generation, bytes and host slots. *)
Definition update_object (id : heap_id) (f : heap_object -> res heap_object) : M unit := fun h =>
  match validate h id with
  | None => (h, Err EInvalidHandle)
  | Some idx =>
      match h_slots h !! idx with
      | None => (h, Panic)
      | Some s =>
          match sl_value s with
          | None => (h, Err EInvalidHandle)
          | Some o =>
              match f o with
              | Ok o' => (h <| h_slots := <[idx := s <| sl_value := Some o' |>]> (h_slots h) |>, Ok tt)
              | Err e => (h, Err e)
              | Panic => (h, Panic)
              end
          end
      end
  end.
(** vm-js/src/heap.rs 772-778 [Heap::get_object_base_mut] plus an update. *)
Definition update_base (id : heap_id) (f : object_base -> res object_base) : M unit :=
  update_object id (fun o =>
    match base_of o with
    | None => Err EInvalidHandle
    | Some b => let? b' := f b in Ok (set_base o b')
    end).

(* ------------------------------------------------------------------ *)
(** * Property keys *)

(** vm-js/src/property.rs 143-157 [Heap::property_key_eq]. *)
Definition property_key_eq (h : heap) (a b : property_key) : bool :=
  match a, b with
  | PKString a, PKString b =>
      match get_string h a, get_string h b with
      | Ok x, Ok y => bool_decide (x = y)
      | _, _ => false
      end
  | PKSymbol a, PKSymbol b => bool_decide (a = b)
  | _, _ => false
  end.

(** vm-js/src/heap.rs 1043-1053 [Heap::property_key_is_length]. *)
Definition length_units : js_string := [108; 101; 110; 103; 116; 104].
Definition property_key_is_length (h : heap) (k : property_key) : bool :=
  match k with
  | PKString s => match get_string h s with Ok u => bool_decide (u = length_units) | _ => false end
  | PKSymbol _ => false
  end.

(** The digit loop shared by vm-js/src/heap.rs 1478-1503
    [Heap::string_to_array_index] and property.rs 159-200 [Heap::array_index].
    The u64 [checked_mul]/[checked_add] cannot overflow because the accumulator
    is at most [u32::MAX] at the top of each round. *)
Fixpoint digits_loop (units : list N) (n : N) : option N :=
  match units with
  | [] => Some n
  | u :: us =>
      if negb ((48 <=? u) && (u <=? 57)) then None
      else let n := n * 10 + (u - 48) in
           if u32_max <? n then None else digits_loop us n
  end.
Definition units_to_array_index (units : js_string) : option N :=
  match units with
  | [] => None
  | u0 :: rest =>
      if (1 <? nlen units) && (u0 =? 48) then None
      else match digits_loop units 0 with
           | None => None
           | Some n => if n =? u32_max then None else Some n
           end
  end.
(** vm-js/src/heap.rs 1478-1503 [Heap::string_to_array_index]. *)
Definition string_to_array_index (h : heap) (s : heap_id) : option N :=
  match get_string h s with Ok u => units_to_array_index u | _ => None end.
(** vm-js/src/property.rs 166-200 [Heap::array_index]. *)
Definition array_index (h : heap) (k : property_key) : option N :=
  match k with PKString s => string_to_array_index h s | PKSymbol _ => None end.

(* ------------------------------------------------------------------ *)
(** * Arrays *)

(** vm-js/src/heap.rs 3768-3773 [ObjectBase::array_length]. *)
Definition base_array_length (b : object_base) : option N :=
  match ob_kind b with KArray n => Some n | KOrdinary => None end.

(** vm-js/src/heap.rs 3775-3790 [ObjectBase::set_array_length] (release build:
    the debug assertions are no-ops). *)
Definition base_set_array_length (b : object_base) (new_len : N) : object_base :=
  match ob_kind b with
  | KOrdinary => b
  | KArray _ =>
      let b := b <| ob_kind := KArray new_len |> in
      match ob_properties b with
      | e :: es =>
          match pd_kind (pe_desc e) with
          | PData _ w =>
              b <| ob_properties :=
                (e <| pe_desc := (pe_desc e) <| pd_kind := PData (VNumber (f64_of_N new_len)) w |> |>) :: es |>
          | PAccessor _ _ => b
          end
      | [] => b
      end
  end.

(** vm-js/src/heap.rs 4008-4022 [array_length_from_f64]; identical to
    object_ops.rs 657-674 [array_length_from_value] on numbers. *)
Definition array_length_from_f64 (n : f64) : option N :=
  if negb (f64_is_finite n) then None
  else if f64_ltb_zero n then None
  else match f64_int_mag n with
       | None => None
       | Some m => if u32_max <? m then None else Some m
       end.

(** vm-js/src/heap.rs 1055-1062 [Heap::object_is_array], [Heap::array_length]. *)
Definition object_is_array (h : heap) (o : heap_id) : res bool :=
  let? b := get_object_base h o in
  Ok (match base_array_length b with Some _ => true | None => false end).
Definition array_length (h : heap) (o : heap_id) : res N :=
  let? b := get_object_base h o in
  ok_or (base_array_length b) EInvariantViolation.

(** vm-js/src/heap.rs 1065-1080 [Heap::array_length_key]. *)
Definition array_length_entry (h : heap) (o : heap_id) : res property_entry :=
  let? b := get_object_base h o in
  match base_array_length b with
  | None => Err EInvariantViolation
  | Some _ =>
      match ob_properties b with
      | [] => Err EInvariantViolation
      | e :: _ => if property_key_is_length h (pe_key e) then Ok e else Err EInvariantViolation
      end
  end.
Definition array_length_key (h : heap) (o : heap_id) : res property_key :=
  let? e := array_length_entry h o in Ok (pe_key e).
(** vm-js/src/heap.rs 1082-1102 [Heap::array_length_writable]. *)
Definition array_length_writable (h : heap) (o : heap_id) : res bool :=
  let? e := array_length_entry h o in
  match pd_kind (pe_desc e) with PData _ w => Ok w | PAccessor _ _ => Err EInvariantViolation end.

(** vm-js/src/heap.rs 1104-1111 [Heap::array_set_length]. *)
Definition heap_array_set_length (o : heap_id) (new_len : N) : M unit :=
  update_base o (fun b =>
    match base_array_length b with
    | None => Err EInvariantViolation
    | Some _ => Ok (base_set_array_length b new_len)
    end).

(** vm-js/src/heap.rs 1113-1150 [Heap::array_set_length_writable]. *)
Definition array_set_length_writable (o : heap_id) (w : bool) : M unit :=
  let* _ := mread (fun h => array_length_entry h o) in
  update_base o (fun b =>
    match ob_properties b with
    | [] => Err EInvariantViolation
    | e :: es =>
        match pd_kind (pe_desc e) with
        | PData v _ =>
            Ok (b <| ob_properties :=
                  (e <| pe_desc := (pe_desc e) <| pd_kind := PData v w |> |>) :: es |>)
        | PAccessor _ _ => Err EInvariantViolation
        end
    end).

(* ------------------------------------------------------------------ *)
(** * Allocation entry points *)

(** vm-js/src/heap.rs 2891-2937 [Scope::alloc_string_from_utf8 / _code_units /
    _u16_vec] (they differ only in where the code units come from). *)
Definition alloc_string (units : js_string) : M heap_id :=
  ensure_can_allocate (string_bytes (nlen units)) ;;;
  alloc_unchecked (HString units) (string_bytes (nlen units)).

(** vm-js/src/heap.rs 2945-2963 [Scope::new_symbol]. *)
Definition new_symbol (description : option heap_id) : M heap_id :=
  with_scope
    (match description with
     | Some d => push_root (VString d)
     | None => mret tt
     end ;;;
     ensure_can_allocate 0 ;;;
     let* id := mget h_next_symbol in
     mmodify (fun h => h <| h_next_symbol := (id + 1) mod 2 ^ 64 |>) ;;;
     alloc_unchecked (HSymbol id description) 0).

(** vm-js/src/heap.rs 2975-2981 [Scope::alloc_object]; [JsObject::new] 3809-3813. *)
Definition base_new (proto : option heap_id) : object_base := OBase proto true [] KOrdinary.
Definition alloc_object : M heap_id :=
  let* l := mget h_layout in
  ensure_can_allocate (props_bytes l 0) ;;;
  alloc_unchecked (HObject (base_new None)) (props_bytes l 0).

(** The values rooted for a list of properties (heap.rs 3001-3015). *)
Definition desc_values (d : property_descriptor) : list value :=
  match pd_kind d with
  | PData v _ => [v]
  | PAccessor g s => [g; s]
  end.
Definition entry_values (e : property_entry) : list value :=
  key_value (pe_key e) :: desc_values (pe_desc e).

(** vm-js/src/heap.rs 2984-3024 [Scope::alloc_object_with_properties]. *)
Definition alloc_object_with_properties (proto : option heap_id) (props : list property_entry)
  : M heap_id :=
  with_scope
    (push_roots (map VObject (opt_list proto) ++ flat_map entry_values props) ;;;
     let* l := mget h_layout in
     ensure_can_allocate (props_bytes l (nlen props)) ;;;
     alloc_unchecked (HObject (OBase proto true props KOrdinary)) (props_bytes l (nlen props))).

(** vm-js/src/heap.rs 3039-3085 [Scope::alloc_array]. *)
Definition alloc_array (len : N) : M heap_id :=
  if u32_max <? len then mfail EUnimplemented else
  with_scope
    (let* length_key := alloc_string length_units in
     push_root (VString length_key) ;;;
     let* l := mget h_layout in
     let props := [PEntry (PKString length_key)
                          (PDesc false false (PData (VNumber (f64_of_N len)) true))] in
     ensure_can_allocate (props_bytes l 1) ;;;
     alloc_unchecked (HObject (OBase None true props (KArray len))) (props_bytes l 1)).

(** vm-js/src/heap.rs 3093-3109 [Scope::alloc_promise_with_prototype]; [JsPromise::new]
    3863-3873. *)
Definition promise_new (proto : option heap_id) : js_promise :=
  JsPromise (base_new proto) Pending None (Some []) (Some []) false.
Definition alloc_promise_with_prototype (proto : option heap_id) : M heap_id :=
  with_scope
    (match proto with Some p => push_root (VObject p) | None => mret tt end ;;;
     let* l := mget h_layout in
     ensure_can_allocate (promise_bytes l 0 0 0) ;;;
     alloc_unchecked (HPromise (promise_new proto)) (promise_bytes l 0 0 0)).

(* ------------------------------------------------------------------ *)
(** * Prototypes *)

(** vm-js/src/heap.rs 823-825 [Heap::object_prototype]. *)
Definition object_prototype (h : heap) (o : heap_id) : res (option heap_id) :=
  let? b := get_object_base h o in Ok (ob_prototype b).

(** vm-js/src/heap.rs 20-23. *)
Definition max_prototype_chain : nat := N.to_nat 10000.

(** vm-js/src/heap.rs 845-863, the walk over the candidate prototype's chain.
    [fuel] is [MAX_PROTOTYPE_CHAIN - steps]; [visited] the [HashSet]. *)
Fixpoint proto_walk (fuel : nat) (h : heap) (obj : heap_id) (visited : list heap_id)
  (current : option heap_id) : res unit :=
  match current with
  | None => Ok tt
  | Some p =>
      match fuel with
      | O => Err EPrototypeChainTooDeep
      | S fuel =>
          if bool_decide (p ∈ visited) then Err EPrototypeCycle
          else if bool_decide (p = obj) then Err EPrototypeCycle
          else let? next := object_prototype h p in
               proto_walk fuel h obj (p :: visited) next
      end
  end.

(** vm-js/src/heap.rs 829-868 [Heap::object_set_prototype]. *)
Definition object_set_prototype (obj : heap_id) (proto : option heap_id) : M unit :=
  let* _ := mread (fun h => get_object_base h obj) in
  if bool_decide (proto = Some obj) then mfail EPrototypeCycle else
  mread (fun h => proto_walk max_prototype_chain h obj [] proto) ;;;
  update_base obj (fun b => Ok (b <| ob_prototype := proto |>)).

(** vm-js/src/heap.rs 884-894 [object_is_extensible], [object_set_extensible]. *)
Definition object_is_extensible (h : heap) (o : heap_id) : res bool :=
  let? b := get_object_base h o in Ok (ob_extensible b).
Definition object_set_extensible (o : heap_id) (e : bool) : M unit :=
  update_base o (fun b => Ok (b <| ob_extensible := e |>)).

(* ------------------------------------------------------------------ *)
(** * Own properties *)

Fixpoint find_entry (h : heap) (k : property_key) (ps : list property_entry)
  : option property_descriptor :=
  match ps with
  | [] => None
  | e :: es => if property_key_eq h (pe_key e) k then Some (pe_desc e) else find_entry h k es
  end.
(** [properties.iter().position(|e| self.property_key_eq(&e.key, key))]. *)
Fixpoint position (h : heap) (k : property_key) (ps : list property_entry) : option nat :=
  match ps with
  | [] => None
  | e :: es => if property_key_eq h (pe_key e) k then Some 0%nat else S <$> position h k es
  end.

(** vm-js/src/heap.rs 897-909 [Heap::object_get_own_property]. *)
Definition object_get_own_property (h : heap) (o : heap_id) (k : property_key)
  : res (option property_descriptor) :=
  let? b := get_object_base h o in Ok (find_entry h k (ob_properties b)).

(** Payload size of an object after its property table has [count] entries
    (the [TargetKind] match in heap.rs 985-1001 and 2259-2274). *)
Definition size_with_props (l : layout) (o : heap_object) (count : N) : N :=
  match o with
  | HObject _ => props_bytes l count
  | HFunction f => function_bytes l (opt_len (fn_bound_args f)) (opt_len (fn_native_slots f)) count
  | HPromise p => promise_bytes l count (opt_len (pr_fulfill p)) (opt_len (pr_reject p))
  | _ => 0
  end.

Definition remove_nth {A} (i : nat) (l : list A) : list A := take i l ++ drop (S i) l.

(** vm-js/src/heap.rs 911-1041 [Heap::object_delete_own_property]. *)
Definition object_delete_own_property (o : heap_id) (k : property_key) : M bool := fun h =>
  match validate h o with
  | None => (h, Err EInvalidHandle)
  | Some idx =>
      match h_slots h !! idx with
      | None => (h, Panic)
      | Some s =>
          match sl_value s with
          | None => (h, Err EInvalidHandle)
          | Some obj =>
              match base_of obj with
              | None => (h, Err EInvalidHandle)
              | Some b =>
                  match position h k (ob_properties b) with
                  | None => (h, Ok false)
                  | Some i =>
                      let bytes := size_with_props (h_layout h) obj (nlen (ob_properties b) - 1) in
                      (update_base o (fun b => Ok (b <| ob_properties ::= remove_nth i |>)) ;;;
                       update_slot_bytes idx bytes ;;;
                       mret true) h
                  end
              end
          end
      end
  end.

(** vm-js/src/heap.rs 2176-2243: what [Heap::define_property] reads before it
    mutates anything: the slot index, the position of an existing entry, the
    object and its base. *)
Definition define_target (o : heap_id) (k : property_key) (h : heap)
  : res (nat * heap_object * object_base * option nat * N) :=
  match validate h o with
  | None => Err EInvalidHandle
  | Some idx =>
      match h_slots h !! idx with
      | None => Panic
      | Some s =>
          match sl_value s with
          | None => Err EInvalidHandle
          | Some obj =>
              match base_of obj with
              | None => Err EInvalidHandle
              | Some b => Ok (idx, obj, b, position h k (ob_properties b), sl_bytes s)
              end
          end
      end
  end.

(** Array length carried by plain objects only (heap.rs 2193-2236: functions and
    promises report [None]). *)
Definition target_array_len (o : heap_object) : option N :=
  match o with HObject b => base_array_length b | _ => None end.

(** vm-js/src/heap.rs 2245-2267: the new internal array length, if the key is an
    array's [length]. *)
Definition define_new_length (is_length : bool) (array_len : option N) (existing : option nat)
  (d : property_descriptor) : res (option N) :=
  match array_len with
  | Some _ =>
      if is_length then
        if negb (bool_decide (existing = Some 0%nat)) then Err EInvariantViolation
        else match pd_kind d with
             | PData (VNumber n) _ =>
                 match array_length_from_f64 n with
                 | Some m => Ok (Some m)
                 | None => Err EInvariantViolation
                 end
             | _ => Err EInvariantViolation
             end
      else Ok None
  | None => Ok None
  end.

(** vm-js/src/heap.rs 2321-2343: the two array-length updates at the end. *)
Definition define_array_fixup (o : heap_id) (is_array : bool) (new_length : option N)
  (key_index : option N) : M unit :=
  match new_length with
  | Some n => update_base o (fun b => Ok (base_set_array_length b n))
  | None => mret tt
  end ;;;
  match key_index with
  | Some i =>
      if is_array then
        update_base o (fun b =>
          match base_array_length b with
          | Some cur =>
              let n := (i + 1) mod two32 in
              if cur <? n then Ok (base_set_array_length b n) else Ok b
          | None => Ok b
          end)
      else mret tt
  | None => mret tt
  end.

(** vm-js/src/heap.rs 2140-2344 [Heap::define_property] (private; no rooting). *)
Definition heap_define_property (o : heap_id) (k : property_key) (d : property_descriptor) : M unit :=
  let* is_length := mget (fun h => property_key_is_length h k) in
  let* key_index := mget (fun h => array_index h k) in
  let* target := mread (define_target o k) in
  let '(idx, obj, b, existing, old_bytes) := target in
  let array_len := target_array_len obj in
  let* new_length := mread (fun _ => define_new_length is_length array_len existing d) in
  match existing with
  | Some i =>
      update_base o (fun b => Ok (b <| ob_properties ::= alter (fun e => e <| pe_desc := d |>) i |>))
  | None =>
      let* l := mget h_layout in
      let new_bytes := size_with_props l obj (nlen (ob_properties b) + 1) in
      ensure_can_allocate (sat_sub new_bytes old_bytes) ;;;
      update_base o (fun b => Ok (b <| ob_properties ::= (fun ps => ps ++ [PEntry k d]) |>)) ;;;
      update_slot_bytes idx new_bytes
  end ;;;
  define_array_fixup o (match array_len with Some _ => true | None => false end) new_length key_index.

(** vm-js/src/heap.rs 3110-3142 [Scope::define_property]. *)
Definition define_property (o : heap_id) (k : property_key) (d : property_descriptor) : M unit :=
  with_scope
    (push_roots (VObject o :: key_value k :: desc_values d) ;;;
     heap_define_property o k d).

(** vm-js/src/heap.rs 1168-1231 [Heap::object_set_existing_data_property_value]. *)
Definition object_set_existing_data_property_value (o : heap_id) (k : property_key) (v : value)
  : M unit :=
  let* is_length := mget (fun h => property_key_is_length h k) in
  let* key_index := mget (fun h => array_index h k) in
  let* b := mread (fun h => get_object_base h o) in
  let* pos := mget (fun h => position h k (ob_properties b)) in
  match pos with
  | None => mfail EPropertyNotFound
  | Some i =>
      update_base o (fun b =>
        if is_length && (match base_array_length b with Some _ => true | None => false end) then
          match v with
          | VNumber n =>
              match array_length_from_f64 n with
              | Some m => Ok (base_set_array_length b m)
              | None => Err ETypeError
              end
          | _ => Err ETypeError
          end
        else
          match ob_properties b !! i with
          | None => Err EPropertyNotFound
          | Some e =>
              match pd_kind (pe_desc e) with
              | PAccessor _ _ => Err EPropertyNotData
              | PData _ w =>
                  let b := b <| ob_properties ::=
                     alter (fun e => e <| pe_desc := (pe_desc e) <| pd_kind := PData v w |> |>) i |> in
                  match key_index, base_array_length b with
                  | Some ix, Some cur =>
                      let n := (ix + 1) mod two32 in
                      if cur <? n then Ok (base_set_array_length b n) else Ok b
                  | _, _ => Ok b
                  end
              end
          end)
  end.

(** vm-js/src/heap.rs 1307-1334 [Heap::get_property], the prototype walk. *)
Fixpoint get_property_walk (fuel : nat) (h : heap) (k : property_key) (visited : list heap_id)
  (current : option heap_id) : res (option property_descriptor) :=
  match current with
  | None => Ok None
  | Some o =>
      match fuel with
      | O => Err EPrototypeChainTooDeep
      | S fuel =>
          if bool_decide (o ∈ visited) then Err EPrototypeCycle
          else
            let? d := object_get_own_property h o k in
            match d with
            | Some d => Ok (Some d)
            | None =>
                let? next := object_prototype h o in
                get_property_walk fuel h k (o :: visited) next
            end
      end
  end.
(** vm-js/src/heap.rs 1307-1336 [Heap::get_property]. *)
Definition get_property (h : heap) (o : heap_id) (k : property_key)
  : res (option property_descriptor) :=
  get_property_walk max_prototype_chain h k [] (Some o).
(** vm-js/src/heap.rs 1338-1340 [Heap::has_property]. *)
Definition has_property (h : heap) (o : heap_id) (k : property_key) : res bool :=
  let? d := get_property h o k in
  Ok (match d with Some _ => true | None => false end).
(** vm-js/src/heap.rs 1347-1363 [Heap::get]. *)
Definition heap_get (h : heap) (o : heap_id) (k : property_key) : res value :=
  let? d := get_property h o k in
  match d with
  | None => Ok VUndefined
  | Some d =>
      match pd_kind d with
      | PData v _ => Ok v
      | PAccessor VUndefined _ => Ok VUndefined
      | PAccessor _ _ => Err EUnimplemented
      end
  end.

(** vm-js/src/heap.rs 1837-1849 [Heap::ordinary_delete]. *)
Definition heap_ordinary_delete (o : heap_id) (k : property_key) : M bool :=
  let* cur := mread (fun h => object_get_own_property h o k) in
  match cur with
  | None => mret true
  | Some d =>
      if negb (pd_configurable d) then mret false
      else object_delete_own_property o k ;;; mret true
  end.

(** Stable sort by an [N] key ([slice::sort_by_key], Rust core: the result of a
    stable sort is unique, so insertion sort computes the same list). *)
Fixpoint insert_by {A} (key : A -> N) (x : A) (l : list A) : list A :=
  match l with
  | [] => [x]
  | y :: ys => if key x <=? key y then x :: l else y :: insert_by key x ys
  end.
Fixpoint sort_by {A} (key : A -> N) (l : list A) : list A :=
  match l with
  | [] => []
  | x :: xs => insert_by key x (sort_by key xs)
  end.

(** vm-js/src/heap.rs 1413-1476 [Heap::own_property_keys] and 1852-1898
    [Heap::ordinary_own_property_keys] (the same order, built in a different
    loop structure; the fallible reservations are not modelled). *)
Definition keys_of_props (h : heap) (ps : list property_entry) : list property_key :=
  let keys := map pe_key ps in
  let idx := omap (fun k => (fun n => (n, k)) <$> array_index h k) keys in
  let strs := filter (fun k => match k with
                               | PKString _ => bool_decide (array_index h k = None)
                               | PKSymbol _ => false end = true) keys in
  let syms := filter (fun k => match k with PKSymbol _ => true | _ => false end = true) keys in
  map snd (sort_by fst idx) ++ strs ++ syms.
Definition own_property_keys (h : heap) (o : heap_id) : res (list property_key) :=
  let? b := get_object_base h o in Ok (keys_of_props h (ob_properties b)).

(* ------------------------------------------------------------------ *)
(** * Symbol registry *)

(** [Ord for JsString] (string.rs 76-80): lexicographic on code units. *)
Fixpoint units_compare (a b : list N) : comparison :=
  match a, b with
  | [], [] => Eq
  | [], _ :: _ => Lt
  | _ :: _, [] => Gt
  | x :: a, y :: b => match x ?= y with Eq => units_compare a b | c => c end
  end.

(** vm-js/src/heap.rs 2478-2498 [Heap::symbol_registry_binary_search]:
    [inl i] is [Ok(i)], [inr i] is [Err(i)]. Fuel: [high - low] strictly decreases. *)
Fixpoint registry_search (fuel : nat) (h : heap) (key : js_string) (low high : nat)
  : res (nat + nat) :=
  match fuel with
  | O => Panic
  | S fuel =>
      if Nat.ltb low high then
        let mid := (low + (high - low) / 2)%nat in
        match h_registry h !! mid with
        | None => Panic
        | Some e =>
            let? mid_key := get_string h (rg_key e) in
            match units_compare mid_key key with
            | Lt => registry_search fuel h key (S mid) high
            | Gt => registry_search fuel h key low mid
            | Eq => Ok (inl mid)
            end
        end
      else Ok (inr low)
  end.
Definition symbol_registry_binary_search (h : heap) (key : js_string) : res (nat + nat) :=
  registry_search (S (length (h_registry h))) h key 0 (length (h_registry h)).

(** vm-js/src/heap.rs 2456-2461 [Heap::symbol_registry_get]. *)
Definition symbol_registry_get (h : heap) (key : js_string) : res (option heap_id) :=
  let? r := symbol_registry_binary_search h key in
  match r with
  | inl i => match h_registry h !! i with Some e => Ok (Some (rg_sym e)) | None => Panic end
  | inr _ => Ok None
  end.

(** vm-js/src/heap.rs 2596-2599 [Heap::additional_bytes_for_symbol_registry_insert]. *)
Definition additional_bytes_for_registry (additional : N) (h : heap) : N :=
  vec_growth_bytes (sz_registry_entry (h_layout h)) (c_registry (h_caps h))
                   (nlen (h_registry h) + additional).

(** vm-js/src/heap.rs 2463-2476, 2601-2610 [Heap::symbol_registry_insert]. *)
Definition symbol_registry_insert (key sym : heap_id) : M unit :=
  ensure_can_allocate_with (additional_bytes_for_registry 1) [] ;;;
  (fun h => match reserve_cap (c_registry (h_caps h)) (nlen (h_registry h) + 1) with
            | Ok c => (h <| h_caps ::= set c_registry (fun _ => c) |>, Ok tt)
            | _ => (h, Err EOutOfMemory)
            end) ;;;
  let* contents := mread (fun h => get_string h key) in
  let* r := mread (fun h => symbol_registry_binary_search h contents) in
  match r with
  | inl _ => mret tt
  | inr i => mmodify (fun h => h <| h_registry := take i (h_registry h) ++ REntry key sym
                                                  :: drop i (h_registry h) |>)
  end.

(** vm-js/src/heap.rs 1792-1824 [Heap::symbol_for]. *)
Definition symbol_for (key : heap_id) : M heap_id :=
  let* contents := mread (fun h => get_string h key) in
  let* found := mread (fun h => symbol_registry_get h contents) in
  match found with
  | Some sym => mret sym
  | None =>
      ensure_can_allocate_with
        (fun h => sat_add (sat_add 0 (additional_bytes_for_heap_alloc 0 h))
                          (additional_bytes_for_registry 1 h))
        (trace_value (VString key)) ;;;
      with_scope
        (push_root (VString key) ;;;
         let* sym := new_symbol (Some key) in
         push_root (VSymbol sym) ;;;
         symbol_registry_insert key sym ;;;
         mret sym)
  end.

(* ------------------------------------------------------------------ *)
(** * Environment records *)

(** vm-js/src/heap.rs 780-785, 810-815 [get_env], [get_declarative_env]. *)
Definition get_env (h : heap) (e : heap_id) : res env_record :=
  let? o := get_heap_object h e in
  match o with HEnv r => Ok r | _ => Err EInvalidHandle end.
Definition get_declarative_bindings (h : heap) (e : heap_id) : res (list env_binding) :=
  let? r := get_env h e in
  match r with EnvDeclarative _ bs _ _ => Ok bs | EnvObject _ _ _ => Err EUnimplemented end.

(** vm-js/src/heap.rs 1931-1933 [Heap::env_outer]; env.rs 169-174. *)
Definition env_outer (h : heap) (e : heap_id) : res (option heap_id) :=
  let? r := get_env h e in
  match r with EnvDeclarative o _ _ _ => Ok o | EnvObject o _ _ => Ok o end.

(** Mutating the bindings of a declarative record (heap.rs 817-822
    [get_declarative_env_mut]). *)
Definition update_bindings (e : heap_id) (f : list env_binding -> res (list env_binding)) : M unit :=
  update_object e (fun o =>
    match o with
    | HEnv (EnvDeclarative outer bs this nt) =>
        let? bs' := f bs in Ok (HEnv (EnvDeclarative outer bs' this nt))
    | HEnv (EnvObject _ _ _) => Err EUnimplemented
    | _ => Err EInvalidHandle
    end).

(** vm-js/src/env.rs 33-47 [find_binding_index]; names are given as code units
    ([name.encode_utf16()]). *)
Fixpoint find_binding_index (h : heap) (bs : list env_binding) (name : js_string)
  : res (option nat) :=
  match bs with
  | [] => Ok None
  | b :: bs =>
      match eb_name b with
      | None => let? r := find_binding_index h bs name in Ok (S <$> r)
      | Some n =>
          let? s := get_string h n in
          if bool_decide (s = name) then Ok (Some 0%nat)
          else let? r := find_binding_index h bs name in Ok (S <$> r)
      end
  end.

(** vm-js/src/heap.rs 1936-1943 [Heap::env_has_binding]. *)
Definition env_has_binding (h : heap) (e : heap_id) (name : js_string) : res bool :=
  let? bs := get_declarative_bindings h e in
  let? r := find_binding_index h bs name in
  Ok (match r with Some _ => true | None => false end).

(** Initialising one binding: heap.rs 1953-1974 and env.rs 82-99. *)
Definition initialize_binding (b : env_binding) (v : value) : res env_binding :=
  if eb_initialized b then Err EUnimplemented
  else Ok (b <| eb_value := v |> <| eb_initialized := true |>).
(** Assigning one binding: heap.rs 2017-2042 and env.rs 101-121. *)
Definition assign_binding (b : env_binding) (v : value) : res env_binding :=
  if negb (eb_initialized b) then Err (EThrow VNull)
  else if negb (eb_mutable b) then Err (EThrow VUndefined)
  else Ok (b <| eb_value := v |>).
(** Reading one binding: heap.rs 1986-1998 and env.rs 64-80. *)
Definition read_binding (b : env_binding) : res value :=
  if negb (eb_initialized b) then Err (EThrow VNull) else Ok (eb_value b).

Definition update_binding_at (i : nat) (f : env_binding -> res env_binding) (bs : list env_binding)
  : res (list env_binding) :=
  match bs !! i with
  | None => Err EUnimplemented
  | Some b => let? b' := f b in Ok (<[i := b']> bs)
  end.

(** vm-js/src/heap.rs 1945-1975 [Heap::env_initialize_binding]. *)
Definition env_initialize_binding (e : heap_id) (name : js_string) (v : value) : M unit :=
  let* bs := mread (fun h => get_declarative_bindings h e) in
  let* r := mread (fun h => find_binding_index h bs name) in
  match r with
  | None => mfail EUnimplemented
  | Some i => update_bindings e (update_binding_at i (fun b => initialize_binding b v))
  end.
(** vm-js/src/heap.rs 1977-1999 [Heap::env_get_binding_value]. *)
Definition env_get_binding_value (h : heap) (e : heap_id) (name : js_string) : res value :=
  let? bs := get_declarative_bindings h e in
  let? r := find_binding_index h bs name in
  match r with
  | None => Err EUnimplemented
  | Some i => match bs !! i with None => Err EUnimplemented | Some b => read_binding b end
  end.
(** vm-js/src/heap.rs 2001-2043 [Heap::env_set_mutable_binding]. *)
Definition env_set_mutable_binding (e : heap_id) (name : js_string) (v : value) : M unit :=
  let* bs := mread (fun h => get_declarative_bindings h e) in
  let* r := mread (fun h => find_binding_index h bs name) in
  match r with
  | None => mfail EUnimplemented
  | Some i => update_bindings e (update_binding_at i (fun b => assign_binding b v))
  end.

(** [slice::binary_search_by_key] (Rust core) on a slice sorted by distinct
    keys: [inl i] is the position of the key, [inr i] where to insert it.
    Simplification: computed by a left-to-right scan; on sorted slices with
    distinct keys (an invariant proved below) the answer is unique. *)
Fixpoint search_key {A} (key : A -> N) (k : N) (l : list A) : nat + nat :=
  match l with
  | [] => inr 0%nat
  | x :: xs =>
      if key x =? k then inl 0%nat
      else if k <? key x then inr 0%nat
      else match search_key key k xs with inl i => inl (S i) | inr i => inr (S i) end
  end.

(** vm-js/src/heap.rs 2045-2077 and env.rs 49-121: the symbol-keyed API. *)
Definition symbol_binding_index (bs : list env_binding) (sym : N) : option nat :=
  match search_key eb_symbol sym bs with inl i => Some i | inr _ => None end.
Definition env_has_symbol_binding (h : heap) (e : heap_id) (sym : N) : res bool :=
  let? bs := get_declarative_bindings h e in
  Ok (match symbol_binding_index bs sym with Some _ => true | None => false end).
Definition env_get_symbol_binding_value (h : heap) (e : heap_id) (sym : N) : res value :=
  let? bs := get_declarative_bindings h e in
  match symbol_binding_index bs sym with
  | None => Err EUnimplemented
  | Some i => match bs !! i with None => Err EUnimplemented | Some b => read_binding b end
  end.
Definition env_initialize_symbol_binding (e : heap_id) (sym : N) (v : value) : M unit :=
  update_bindings e (fun bs =>
    match symbol_binding_index bs sym with
    | None => Err EUnimplemented
    | Some i => update_binding_at i (fun b => initialize_binding b v) bs
    end).
Definition env_set_mutable_symbol_binding (e : heap_id) (sym : N) (v : value) : M unit :=
  update_bindings e (fun bs =>
    match symbol_binding_index bs sym with
    | None => Err EUnimplemented
    | Some i => update_binding_at i (fun b => assign_binding b v) bs
    end).

Definition insert_at {A} (i : nat) (x : A) (l : list A) : list A := take i l ++ x :: drop i l.

(** vm-js/src/heap.rs 2079-2138 [Heap::env_add_binding]. *)
Definition env_add_binding (e : heap_id) (b : env_binding) : M unit := fun h =>
  match validate h e with
  | None => (h, Err EInvalidHandle)
  | Some idx =>
      match h_slots h !! idx with
      | None => (h, Panic)
      | Some s =>
          match sl_value s with
          | Some (HEnv (EnvDeclarative _ bs _ _)) =>
              let new_bytes := env_bytes (h_layout h) (nlen bs + 1) in
              (ensure_can_allocate (sat_sub new_bytes (sl_bytes s)) ;;;
               update_bindings e (fun bs =>
                 match search_key eb_symbol (eb_symbol b) bs with
                 | inl _ => Err EUnimplemented
                 | inr i => Ok (insert_at i b bs)
                 end) ;;;
               update_slot_bytes idx new_bytes) h
          | Some (HEnv (EnvObject _ _ _)) => (h, Err EUnimplemented)
          | _ => (h, Err EInvalidHandle)
          end
      end
  end.

(** [buf.windows(2).any(|p| p[0].symbol == p[1].symbol)] (heap.rs 3358-3363). *)
Fixpoint has_adjacent_dup {A} (key : A -> N) (l : list A) : bool :=
  match l with
  | x :: (y :: _) as xs => (key x =? key y) || has_adjacent_dup key xs
  | _ => false
  end.

Definition binding_values (b : env_binding) : list value :=
  map VString (opt_list (eb_name b)) ++ [eb_value b].

(** vm-js/src/heap.rs 3310-3372 [Scope::alloc_declarative_env_record]. *)
Definition alloc_declarative_env_record (outer : option heap_id) (bindings : list env_binding)
  : M heap_id :=
  with_scope
    (let* ok := mget (fun h => match outer with Some o => is_valid_env h o | None => true end) in
     if negb ok then mfail EInvalidHandle else
     match outer with
     | Some o =>
         push_roots_with (flat_map binding_values bindings) [o] ;;; push_env_root o
     | None => push_roots (flat_map binding_values bindings)
     end ;;;
     let* l := mget h_layout in
     let bytes := env_bytes l (nlen bindings) in
     ensure_can_allocate bytes ;;;
     let sorted := sort_by eb_symbol bindings in
     if has_adjacent_dup eb_symbol sorted then mfail EUnimplemented
     else alloc_unchecked (HEnv (EnvDeclarative outer sorted None None)) bytes).

(** vm-js/src/heap.rs 3379-3417 [Scope::alloc_object_env_record]. *)
Definition alloc_object_env_record (binding_object : heap_id) (outer : option heap_id) (w : bool)
  : M heap_id :=
  with_scope
    (let* ok := mget (fun h => is_valid_object h binding_object
                               && match outer with Some o => is_valid_env h o | None => true end) in
     if negb ok then mfail EInvalidHandle else
     match outer with
     | Some o => push_roots_with [VObject binding_object] [o] ;;; push_env_root o
     | None => push_roots [VObject binding_object]
     end ;;;
     let* l := mget h_layout in
     ensure_can_allocate (sz_object_env l) ;;;
     alloc_unchecked (HEnv (EnvObject outer binding_object w)) (sz_object_env l)).

(** vm-js/src/heap.rs 3419-3431 [Scope::env_create]. *)
Definition env_create (outer : option heap_id) : M heap_id :=
  with_scope
    (match outer with Some o => push_env_root o | None => mret tt end ;;;
     let* l := mget h_layout in
     ensure_can_allocate (env_bytes l 0) ;;;
     alloc_unchecked (HEnv (EnvDeclarative outer [] None None)) (env_bytes l 0)).

(** vm-js/src/heap.rs 3433-3485 [Scope::env_create_mutable_binding] and
    [env_create_immutable_binding] ([mutable] is the only difference). *)
Definition env_create_binding (e : heap_id) (name : js_string) (mutable : bool) : M unit :=
  let* dup := mread (fun h => env_has_binding h e name) in
  if (dup : bool) then mfail EUnimplemented else
  with_scope
    (push_env_root e ;;;
     let* name_id := alloc_string name in
     push_root (VString name_id) ;;;
     env_add_binding e (EBinding (pack_id name_id) (Some name_id) VUndefined mutable false false)).

(* ------------------------------------------------------------------ *)
(** * Promises *)

(** vm-js/src/heap.rs 1505-1533 [get_promise], [promise_state],
    [promise_result], [promise_is_handled]. *)
Definition get_promise (h : heap) (p : heap_id) : res js_promise :=
  let? o := get_heap_object h p in
  match o with HPromise p => Ok p | _ => Err EInvalidHandle end.
Definition heap_promise_state (h : heap) (p : heap_id) : res promise_state :=
  let? p := get_promise h p in Ok (pr_state p).
Definition heap_promise_result (h : heap) (p : heap_id) : res (option value) :=
  let? p := get_promise h p in Ok (pr_result p).

Definition update_promise (p : heap_id) (f : js_promise -> res js_promise) : M unit :=
  update_object p (fun o =>
    match o with
    | HPromise p => let? p' := f p in Ok (HPromise p')
    | _ => Err EInvalidHandle
    end).

(** vm-js/src/heap.rs 1536-1539 [promise_set_is_handled]. *)
Definition promise_set_is_handled (p : heap_id) (b : bool) : M unit :=
  update_promise p (fun p => Ok (p <| pr_handled := b |>)).

(** vm-js/src/heap.rs 1585-1604: the state change itself. *)
Definition promise_set_fields (p : js_promise) (st : promise_state) (r : option value) : js_promise :=
  match st with
  | Pending =>
      p <| pr_state := Pending |> <| pr_result := None |>
        <| pr_fulfill := Some (default [] (pr_fulfill p)) |>
        <| pr_reject := Some (default [] (pr_reject p)) |>
  | _ =>
      p <| pr_state := st |> <| pr_result := r |> <| pr_fulfill := None |> <| pr_reject := None |>
  end.

(** vm-js/src/heap.rs 1568-1612 [Heap::promise_set_state_and_result]. *)
Definition promise_set_state_and_result (p : heap_id) (st : promise_state) (r : option value) : M unit :=
  update_promise p (fun p => Ok (promise_set_fields p st r)) ;;;
  let* bytes := mread (fun h => let? q := get_promise h p in Ok (promise_size (h_layout h) q)) in
  update_slot_bytes (hid_index p) bytes.

(** vm-js/src/heap.rs 1660-1667 [Heap::promise_fulfill], [Heap::promise_reject]. *)
Definition promise_fulfill (p : heap_id) (v : value) : M unit :=
  promise_set_state_and_result p Fulfilled (Some v).
Definition promise_reject (p : heap_id) (v : value) : M unit :=
  promise_set_state_and_result p Rejected (Some v).

(** vm-js/src/heap.rs 1619-1657 [Heap::promise_settle_and_take_reactions]. *)
Definition promise_settle_and_take_reactions (p : heap_id) (st : promise_state) (r : value)
  : M (list promise_reaction * list promise_reaction) :=
  if bool_decide (st = Pending) then mfail EUnimplemented else
  let* q := mread (fun h => get_promise h p) in
  if negb (bool_decide (pr_state q = Pending)) then mret ([], [])
  else
    update_promise p (fun q => Ok (q <| pr_state := st |> <| pr_result := Some r |>
                                     <| pr_fulfill := None |> <| pr_reject := None |>)) ;;;
    let* bytes := mread (fun h => let? q := get_promise h p in Ok (promise_size (h_layout h) q)) in
    update_slot_bytes (hid_index p) bytes ;;;
    mret (default [] (pr_fulfill q), default [] (pr_reject q)).

(** vm-js/src/heap.rs 1689-1783 [Heap::promise_append_reaction]. *)
Definition promise_append_reaction (p : heap_id) (is_fulfill : bool) (r : promise_reaction) : M unit :=
  fun h =>
  match validate h p with
  | None => (h, Err EInvalidHandle)
  | Some idx =>
      match h_slots h !! idx with
      | None => (h, Panic)
      | Some s =>
          match sl_value s with
          | Some (HPromise q) =>
              if negb (bool_decide (pr_state q = Pending)) then (h, Err EInvalidHandle)
              else
                let nf := opt_len (pr_fulfill q) + (if is_fulfill then 1 else 0) in
                let nr := opt_len (pr_reject q) + (if is_fulfill then 0 else 1) in
                let new_bytes := promise_bytes (h_layout h) (nlen (ob_properties (pr_base q))) nf nr in
                (ensure_can_allocate (sat_sub new_bytes (sl_bytes s)) ;;;
                 update_promise p (fun q =>
                   if is_fulfill then
                     match pr_fulfill q with
                     | None => Err EInvalidHandle
                     | Some l => Ok (q <| pr_fulfill := Some (l ++ [r]) |>)
                     end
                   else
                     match pr_reject q with
                     | None => Err EInvalidHandle
                     | Some l => Ok (q <| pr_reject := Some (l ++ [r]) |>)
                     end) ;;;
                 update_slot_bytes idx new_bytes) h
          | _ => (h, Err EInvalidHandle)
          end
      end
  end.

(** Roots pushed for a reaction (heap.rs 3156-3171). *)
Definition reaction_values (r : promise_reaction) : list value :=
  map (fun j => VObject (jc_callback j)) (opt_list (re_handler r))
  ++ flat_map (fun c => [cap_promise c; cap_resolve c; cap_reject c]) (opt_list (re_capability r)).

(** vm-js/src/heap.rs 3145-3209 [Scope::promise_append_fulfill_reaction],
    [Scope::promise_append_reject_reaction]. *)
Definition scope_append_reaction (p : heap_id) (is_fulfill : bool) (r : promise_reaction) : M unit :=
  with_scope
    (push_roots (VObject p :: reaction_values r) ;;;
     promise_append_reaction p is_fulfill r).

(* ------------------------------------------------------------------ *)
(** * Functions *)

(** vm-js/src/function.rs 156-181 [JsFunction::new_with_handlers]; the other
    constructors (183-268) set one or two more fields. *)
Definition function_new (call : call_handler) (construct : option construct_handler)
  (name : heap_id) (length : N) : js_function :=
  JsFunction call construct name length 2 false (base_new None) FDNone
             None None None None None None None None.

(** vm-js/src/heap.rs 1899-1929 [set_function_name_metadata],
    [set_function_length_metadata]. *)
Definition update_function (f : heap_id) (g : js_function -> js_function) : M unit :=
  update_object f (fun o => match o with HFunction f => Ok (HFunction (g f)) | _ => Err EInvalidHandle end).

(** Code units of the ASCII names used as keys. *)
Definition name_units : js_string := [110; 97; 109; 101].
Definition constructor_units : js_string := [99; 111; 110; 115; 116; 114; 117; 99; 116; 111; 114].
Definition prototype_units : js_string := [112; 114; 111; 116; 111; 116; 121; 112; 101].

(** vm-js/src/function_properties.rs 115-179 [compute_function_name]. *)
Definition compute_function_name (name : property_key) (prefix : option js_string) : M heap_id :=
  match prefix, name with
  | None, PKString n => mret n
  | _, _ =>
      let* base := mread (fun h =>
        match name with
        | PKString s => get_string h s
        | PKSymbol sym =>
            let? d := get_symbol_description h sym in
            let? du := match d with Some d => get_string h d | None => Ok [] end in
            Ok ([91] ++ du ++ [93])
        end) in
      alloc_string (match prefix with Some p => p ++ [32] | None => [] end ++ base)
  end.

(** vm-js/src/function_properties.rs 12-41 [set_function_name]. *)
Definition set_function_name (f : heap_id) (name : property_key) (prefix : option js_string) : M unit :=
  with_scope
    (push_root (VObject f) ;;;
     let* computed := compute_function_name name prefix in
     push_root (VString computed) ;;;
     let* name_key := alloc_string name_units in
     define_property f (PKString name_key) (PDesc false true (PData (VString computed) false)) ;;;
     update_function f (fun f => f <| fn_name := computed |>)).

(** vm-js/src/function_properties.rs 50-74 [set_function_length]. *)
Definition set_function_length (f : heap_id) (len : N) : M unit :=
  with_scope
    (push_root (VObject f) ;;;
     let* length_key := alloc_string length_units in
     define_property f (PKString length_key)
       (PDesc false true (PData (VNumber (f64_of_N len)) false)) ;;;
     update_function f (fun f => f <| fn_length := len |>)).

(** vm-js/src/function_properties.rs 82-113 [make_constructor]. *)
Definition make_constructor (f : heap_id) : M heap_id :=
  with_scope
    (push_root (VObject f) ;;;
     let* prototype := alloc_object in
     push_root (VObject prototype) ;;;
     let* constructor_key := alloc_string constructor_units in
     define_property prototype (PKString constructor_key)
       (PDesc false true (PData (VObject f) true)) ;;;
     let* prototype_key := alloc_string prototype_units in
     define_property f (PKString prototype_key)
       (PDesc false false (PData (VObject prototype) true)) ;;;
     mret prototype).

(** vm-js/src/heap.rs 3237-3308 [Scope::alloc_native_function_with_slots_and_env]
    and the wrappers 3212-3235. *)
Definition alloc_native_function (call : N) (construct : option N) (name : heap_id) (len : N)
  (slots : list value) (env : option heap_id) : M heap_id :=
  with_scope
    (match env with
     | Some e =>
         push_roots_with [VString name] (trace_values slots ++ [e]) ;;;
         push_roots_with slots [e] ;;;
         push_env_root e
     | None =>
         push_roots_with [VString name] (trace_values slots) ;;;
         push_roots slots
     end ;;;
     let native := match slots with [] => None | _ => Some slots end in
     let func := function_new (CNative call) (KNative <$> construct) name len
                   <| fn_native_slots := native |> <| fn_closure_env := env |> in
     let* l := mget h_layout in
     ensure_can_allocate (function_size l func) ;;;
     let* f := alloc_unchecked (HFunction func) (function_size l func) in
     set_function_name f (PKString name) None ;;;
     set_function_length f len ;;;
     match construct with
     | Some _ => make_constructor f ;;; mret f
     | None => mret f
     end).

(** vm-js/src/heap.rs 3488-3536 [Scope::alloc_ecma_function]. *)
Definition alloc_ecma_function (code : N) (constructable : bool) (name : heap_id) (len : N)
  (this_mode : N) (strict : bool) (env : option heap_id) : M heap_id :=
  with_scope
    (match env with
     | Some e => push_roots_with [VString name] [e] ;;; push_env_root e
     | None => push_root (VString name)
     end ;;;
     let func := function_new (CEcma code) (if constructable then Some (KEcma code) else None) name len
                   <| fn_this_mode := this_mode |> <| fn_is_strict := strict |>
                   <| fn_closure_env := env |> in
     let* l := mget h_layout in
     ensure_can_allocate (function_size l func) ;;;
     let* f := alloc_unchecked (HFunction func) (function_size l func) in
     set_function_name f (PKString name) None ;;;
     set_function_length f len ;;;
     if constructable then make_constructor f ;;; mret f else mret f).

(** vm-js/src/heap.rs 3544-3585 [Scope::alloc_bound_function_raw]. *)
Definition alloc_bound_function_raw (call : call_handler) (construct : option construct_handler)
  (name : heap_id) (len : N) (target : heap_id) (this : value) (args : option (list value)) : M heap_id :=
  with_scope
    (push_roots (VString name :: VObject target :: this :: default [] args) ;;;
     let func := function_new call construct name len
                   <| fn_bound_target := Some target |> <| fn_bound_this := Some this |>
                   <| fn_bound_args := args |> in
     let* l := mget h_layout in
     ensure_can_allocate (function_size l func) ;;;
     alloc_unchecked (HFunction func) (function_size l func)).

(** vm-js/src/heap.rs 3617-3655 [Scope::alloc_bound_function]. *)
Definition alloc_bound_function (target : heap_id) (this : value) (args : list value)
  (name : heap_id) (len : N) : M heap_id :=
  let* tf := mread (fun h => let? o := get_heap_object h target in
                             match o with HFunction f => Ok f | _ => Err ENotCallable end) in
  alloc_bound_function_raw (fn_call tf) (fn_construct tf) name len target this
    (match args with [] => None | _ => Some args end).

(** vm-js/src/heap.rs 3588-3615 [Scope::alloc_user_function]. *)
Definition alloc_user_function (code : N) (name : heap_id) (len : N) : M heap_id :=
  with_scope
    (push_root (VString name) ;;;
     let func := function_new (CUser code) None name len in
     let* l := mget h_layout in
     ensure_can_allocate (function_size l func) ;;;
     let* f := alloc_unchecked (HFunction func) (function_size l func) in
     set_function_name f (PKString name) None ;;;
     set_function_length f len ;;;
     mret f).

(** vm-js/src/heap.rs 626-663 [object_set_host_slots], [object_clear_host_slots]. *)
Definition object_set_host_slots (o : heap_id) (hs : option (N * N)) : M unit := fun h =>
  match validate h o with
  | None => (h, Err EInvalidHandle)
  | Some idx =>
      match h_slots h !! idx with
      | None => (h, Panic)
      | Some s =>
          match sl_value s with
          | Some (HObject _) | Some (HFunction _) =>
              (h <| h_slots := <[idx := s <| sl_host := hs |>]> (h_slots h) |>, Ok tt)
          | _ => (h, Err EInvalidHandle)
          end
      end
  end.

(** vm-js/src/heap.rs 2696-2770: the crate-internal setters of function fields. *)
Definition set_function_bound_this (f : heap_id) (v : value) : M unit :=
  update_function f (fun f => f <| fn_bound_this := Some v |>).
Definition set_function_bound_new_target (f : heap_id) (v : value) : M unit :=
  update_function f (fun f => f <| fn_bound_new_target := Some v |>).
Definition set_function_realm (f : heap_id) (r : heap_id) : M unit :=
  update_function f (fun f => f <| fn_realm := Some r |>).
Definition set_function_job_realm (f : heap_id) (r : N) : M unit :=
  update_function f (fun f => f <| fn_job_realm := Some r |>).
Definition set_function_data (f : heap_id) (d : function_data) : M unit :=
  update_function f (fun f => f <| fn_data := d |>).
Definition set_function_closure_env (f : heap_id) (e : option heap_id) : M unit :=
  update_function f (fun f => f <| fn_closure_env := e |>).
