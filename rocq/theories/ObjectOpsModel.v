(** Model of the object internal methods (vm-js/src/object_ops.rs): ordinary and
    array [[DefineOwnProperty]], [[Get]], [[Set]], [[Delete]]. *)
From stdpp Require Import base decidable list numbers.
From Coq Require Import NArith ZArith.
From RecordUpdate Require Import RecordUpdate.
From Verif Require Import VmBase HeapModel HeapObjModel.

Open Scope N_scope.

(** vm-js/src/value.rs 132-162 [Value::same_value]. *)
Definition same_value (h : heap) (a b : value) : bool :=
  match a, b with
  | VUndefined, VUndefined => true
  | VNull, VNull => true
  | VBool a, VBool b => Bool.eqb a b
  | VNumber a, VNumber b =>
      if f64_is_nan a && f64_is_nan b then true
      else if f64_is_zero a && f64_is_zero b then f64_bits a =? f64_bits b
      else f64_eqb a b
  | VBigInt a, VBigInt b => bool_decide (a = b)
  | VString a, VString b =>
      match get_string h a, get_string h b with
      | Ok x, Ok y => bool_decide (x = y)
      | _, _ => false
      end
  | VSymbol a, VSymbol b => bool_decide (a = b)
  | VObject a, VObject b => bool_decide (a = b)
  | _, _ => false
  end.

Definition is_some {A} (o : option A) : bool := match o with Some _ => true | None => false end.

(** vm-js/src/property.rs 89-122 [PropertyDescriptorPatch]. *)
Definition patch_is_empty (p : descriptor_patch) : bool :=
  negb (is_some (pp_enumerable p)) && negb (is_some (pp_configurable p))
  && negb (is_some (pp_value p)) && negb (is_some (pp_writable p))
  && negb (is_some (pp_get p)) && negb (is_some (pp_set p)).
Definition patch_is_data (p : descriptor_patch) : bool := is_some (pp_value p) || is_some (pp_writable p).
Definition patch_is_accessor (p : descriptor_patch) : bool := is_some (pp_get p) || is_some (pp_set p).
Definition patch_is_generic (p : descriptor_patch) : bool := negb (patch_is_data p) && negb (patch_is_accessor p).
Definition patch_validate (p : descriptor_patch) : res unit :=
  if patch_is_data p && patch_is_accessor p then Err EInvalidPatch else Ok tt.
(** [PropertyDescriptorPatch::default()]. *)
Definition patch_default : descriptor_patch := PPatch None None None None None None.

(** The roots pushed for a patch (object_ops.rs 43-66, 103-125, 509-530). *)
Definition patch_values (p : descriptor_patch) : list value :=
  opt_list (pp_value p) ++ opt_list (pp_get p) ++ opt_list (pp_set p).

(** vm-js/src/object_ops.rs 798-845 [apply_descriptor_patch]. *)
Definition apply_descriptor_patch (cur : property_descriptor) (p : descriptor_patch) : property_descriptor :=
  let e := default (pd_enumerable cur) (pp_enumerable p) in
  let c := default (pd_configurable cur) (pp_configurable p) in
  if patch_is_generic p then PDesc e c (pd_kind cur)
  else
    match pd_kind cur, patch_is_accessor p with
    | PData v w, false => PDesc e c (PData (default v (pp_value p)) (default w (pp_writable p)))
    | PAccessor g s, true => PDesc e c (PAccessor (default g (pp_get p)) (default s (pp_set p)))
    | PData _ _, true => PDesc e c (PAccessor (default VUndefined (pp_get p)) (default VUndefined (pp_set p)))
    | PAccessor _ _, false => PDesc e c (PData (default VUndefined (pp_value p)) (default false (pp_writable p)))
    end.

(** vm-js/src/object_ops.rs 694-722: the descriptor of a property that did not exist. *)
Definition fresh_descriptor (p : descriptor_patch) : property_descriptor :=
  let e := default false (pp_enumerable p) in
  let c := default false (pp_configurable p) in
  if patch_is_accessor p
  then PDesc e c (PAccessor (default VUndefined (pp_get p)) (default VUndefined (pp_set p)))
  else PDesc e c (PData (default VUndefined (pp_value p)) (default false (pp_writable p))).

(** vm-js/src/object_ops.rs 729-787: is the change rejected by the current
    (existing) descriptor? *)
Definition patch_rejected (h : heap) (cur : property_descriptor) (p : descriptor_patch) : bool :=
  (negb (pd_configurable cur)
   && (bool_decide (pp_configurable p = Some true)
       || match pp_enumerable p with Some e => negb (Bool.eqb e (pd_enumerable cur)) | None => false end))
  || (negb (pd_configurable cur) && negb (patch_is_generic p)
      && match pd_kind cur with
         | PData _ _ => patch_is_accessor p
         | PAccessor _ _ => patch_is_data p
         end)
  || (negb (patch_is_generic p)
      && match pd_kind cur, pd_configurable cur with
         | PData v w, false =>
             patch_is_data p && negb w
             && (bool_decide (pp_writable p = Some true)
                 || match pp_value p with Some nv => negb (same_value h nv v) | None => false end)
         | PAccessor g s, false =>
             patch_is_accessor p
             && (match pp_get p with Some ng => negb (same_value h ng g) | None => false end
                 || match pp_set p with Some ns => negb (same_value h ns s) | None => false end)
         | _, _ => false
         end).

(** vm-js/src/object_ops.rs 684-796 [validate_and_apply_property_descriptor]
    (always called with an object). *)
Definition validate_and_apply (o : heap_id) (k : property_key) (extensible : bool) (p : descriptor_patch)
  (current : option property_descriptor) : M bool :=
  mread (fun _ => patch_validate p) ;;;
  match current with
  | None =>
      if negb extensible then mret false
      else define_property o k (fresh_descriptor p) ;;; mret true
  | Some cur =>
      if patch_is_empty p then mret true
      else
        let* rejected := mget (fun h => patch_rejected h cur p) in
        if (rejected : bool) then mret false
        else define_property o k (apply_descriptor_patch cur p) ;;; mret true
  end.

(** vm-js/src/object_ops.rs 35-75 [Scope::ordinary_define_own_property]. The
    roots stay pushed in the caller's scope. *)
Definition ordinary_define_own_property (o : heap_id) (k : property_key) (p : descriptor_patch) : M bool :=
  mread (fun _ => patch_validate p) ;;;
  push_roots (VObject o :: key_value k :: patch_values p) ;;;
  let* current := mread (fun h => object_get_own_property h o k) in
  let* extensible := mread (fun h => object_is_extensible h o) in
  validate_and_apply o k extensible p current.

(** vm-js/src/object_ops.rs 410-423 [Scope::ordinary_delete]. *)
Definition ordinary_delete (o : heap_id) (k : property_key) : M bool :=
  push_roots [VObject o; key_value k] ;;;
  heap_ordinary_delete o k.

(** vm-js/src/object_ops.rs 665-682 [array_length_from_value]. *)
Definition array_length_from_value (v : value) : option N :=
  match v with VNumber n => array_length_from_f64 n | _ => None end.

(** [u32::checked_add(1)]. *)
Definition checked_succ32 (n : N) : option N := if n =? u32_max then None else Some (n + 1).

(** vm-js/src/object_ops.rs 607-662: the deletion loop of [array_set_length] over
    the reversed own keys, including the restoration on failure. *)
Fixpoint array_delete_loop (o : heap_id) (length_key : property_key) (old_len new_len : N)
  (new_writable : bool) (keys : list property_key) : M bool :=
  match keys with
  | [] =>
      (if new_writable then mret tt else array_set_length_writable o false) ;;;
      mret true
  | k :: keys =>
      let* ix := mget (fun h => array_index h k) in
      match ix with
      | None => array_delete_loop o length_key old_len new_len new_writable keys
      | Some index =>
          if index <? new_len then
            (if new_writable then mret tt else array_set_length_writable o false) ;;;
            mret true
          else if old_len <=? index then
            array_delete_loop o length_key old_len new_len new_writable keys
          else
            let* ok := ordinary_delete o k in
            if (ok : bool) then array_delete_loop o length_key old_len new_len new_writable keys
            else
              match checked_succ32 index with
              | None => mfail EInvariantViolation
              | Some restore_len =>
                  let* ok := ordinary_define_own_property o length_key
                    (patch_default <| pp_value := Some (VNumber (f64_of_N restore_len)) |>) in
                  if negb (ok : bool) then mfail EInvariantViolation
                  else
                    (if new_writable then mret tt else array_set_length_writable o false) ;;;
                    mret false
              end
      end
  end.

(** vm-js/src/object_ops.rs 566-662 [Scope::array_set_length]. *)
Definition array_set_length (o : heap_id) (length_key : property_key) (p : descriptor_patch) : M bool :=
  match pp_value p with
  | None => ordinary_define_own_property o length_key p
  | Some v =>
      match array_length_from_value v with
      | None => mret false
      | Some new_len =>
          let* old_len := mread (fun h => array_length h o) in
          if old_len <=? new_len then
            ordinary_define_own_property o length_key
              (p <| pp_value := Some (VNumber (f64_of_N new_len)) |>)
          else
            let* w := mread (fun h => array_length_writable h o) in
            if negb (w : bool) then mret false
            else
              let new_writable := negb (bool_decide (pp_writable p = Some false)) in
              let p' := (if new_writable then p else p <| pp_writable := Some true |>)
                          <| pp_value := Some (VNumber (f64_of_N new_len)) |> in
              let* ok := ordinary_define_own_property o length_key p' in
              if negb (ok : bool) then mret false
              else
                let* keys := mread (fun h => own_property_keys h o) in
                array_delete_loop o length_key old_len new_len new_writable (rev keys)
      end
  end.

(** vm-js/src/object_ops.rs 502-564 [Scope::array_define_own_property]. *)
Definition array_define_own_property (o : heap_id) (k : property_key) (p : descriptor_patch) : M bool :=
  mread (fun _ => patch_validate p) ;;;
  push_roots (VObject o :: key_value k :: patch_values p) ;;;
  let* is_length := mget (fun h => property_key_is_length h k) in
  if (is_length : bool) then
    let* length_key := mread (fun h => array_length_key h o) in
    array_set_length o length_key p
  else
    let* ix := mget (fun h => array_index h k) in
    match ix with
    | Some index =>
        let* old_len := mread (fun h => array_length h o) in
        let* ok := (if old_len <=? index then mread (fun h => array_length_writable h o) else mret true) in
        if negb (ok : bool) then mret false
        else
          let* succeeded := ordinary_define_own_property o k p in
          if negb (succeeded : bool) then mret false
          else
            (if old_len <=? index then
               match checked_succ32 index with
               | None => mfail EInvariantViolation
               | Some new_len => heap_array_set_length o new_len
               end
             else mret tt) ;;;
            mret true
    | None => ordinary_define_own_property o k p
    end.

(** vm-js/src/object_ops.rs 77-91 [Scope::define_own_property]. *)
Definition define_own_property (o : heap_id) (k : property_key) (p : descriptor_patch) : M bool :=
  let* arr := mread (fun h => object_is_array h o) in
  if (arr : bool) then array_define_own_property o k p else ordinary_define_own_property o k p.

(** vm-js/src/object_ops.rs 93-137 [Scope::define_property_or_throw]. *)
Definition define_property_or_throw (o : heap_id) (k : property_key) (p : descriptor_patch) : M unit :=
  with_scope
    (push_roots (VObject o :: key_value k :: patch_values p) ;;;
     let* ok := define_own_property o k p in
     if (ok : bool) then mret tt else mfail ETypeError).

(** vm-js/src/object_ops.rs 430-460 [Scope::create_data_property]. *)
Definition data_patch (v : value) : descriptor_patch :=
  PPatch (Some true) (Some true) (Some v) (Some true) None None.
Definition create_data_property (o : heap_id) (k : property_key) (v : value) : M bool :=
  with_scope
    (push_roots [VObject o; key_value k; v] ;;;
     define_own_property o k (data_patch v)).
(** vm-js/src/object_ops.rs 463-474 [Scope::create_data_property_or_throw]. *)
Definition create_data_property_or_throw (o : heap_id) (k : property_key) (v : value) : M unit :=
  let* ok := create_data_property o k v in
  if (ok : bool) then mret tt else mfail ETypeError.

(** vm-js/src/object_ops.rs 477-500 [Scope::delete_property_or_throw]. *)
Definition delete_property_or_throw (o : heap_id) (k : property_key) : M unit :=
  with_scope
    (push_roots [VObject o; key_value k] ;;;
     let* ok := ordinary_delete o k in
     if (ok : bool) then mret tt else mfail ETypeError).

(** vm-js/src/heap.rs 679-687 [Heap::is_callable]: objects stored as functions. *)
Definition is_callable (h : heap) (v : value) : res bool :=
  match v with
  | VObject o =>
      let? x := get_heap_object h o in
      Ok (match x with HFunction _ => true | _ => false end)
  | _ => Ok false
  end.

(** Calling into user code ([Vm::call_without_host] and its variants) is a
    parameter of the two operations below: callee, receiver, arguments. *)
Definition call_fn := value -> value -> list value -> M value.

(** vm-js/src/object_ops.rs 144-167 [Scope::ordinary_get] (and its two variants
    172-231, which differ only in how the getter is called). *)
Definition ordinary_get (call : call_fn) (o : heap_id) (k : property_key) (receiver : value) : M value :=
  let* d := mread (fun h => get_property h o k) in
  match d with
  | None => mret VUndefined
  | Some d =>
      match pd_kind d with
      | PData v _ => mret v
      | PAccessor VUndefined _ => mret VUndefined
      | PAccessor g _ =>
          let* c := mread (fun h => is_callable h g) in
          if negb (c : bool) then mfail ETypeError else call g receiver []
      end
  end.

(** vm-js/src/object_ops.rs 234-317 [Scope::ordinary_set] (and the variant 321-408). *)
Definition ordinary_set (call : call_fn) (o : heap_id) (k : property_key) (v receiver : value) : M bool :=
  push_roots [VObject o; key_value k; v; receiver] ;;;
  let* d := mread (fun h => get_property h o k) in
  let d := default (PDesc true true (PData VUndefined true)) d in
  match pd_kind d with
  | PData _ w =>
      if negb w then mret false
      else
        match receiver with
        | VObject r =>
            let* ex := mread (fun h => object_get_own_property h r k) in
            match ex with
            | Some ex =>
                match pd_kind ex with
                | PAccessor _ _ => mret false
                | PData _ rw =>
                    if negb rw then mret false
                    else define_own_property r k (patch_default <| pp_value := Some v |>)
                end
            | None => create_data_property r k v
            end
        | _ => mret false
        end
  | PAccessor _ VUndefined => mret false
  | PAccessor _ s =>
      let* c := mread (fun h => is_callable h s) in
      if negb (c : bool) then mfail ETypeError
      else call s receiver [v] ;;; mret true
  end.
