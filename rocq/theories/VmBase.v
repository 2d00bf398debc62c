(** Shared data model of the vm-js crate: numbers, strings, handles, values,
    property descriptors, heap objects, errors.

    Every definition cites the Rust source it models (paths relative to /repo). *)
From stdpp Require Import base decidable list numbers.
From Coq Require Import NArith ZArith.

Open Scope N_scope.

(* ------------------------------------------------------------------ *)
(** * Machine integers *)

(** [u32::MAX as u64] / number of [u32] values. *)
Definition two32 : N := 2 ^ 32.
Definition u32_max : N := two32 - 1.
(** [usize::MAX] on the 64-bit targets the crate supports. *)
Definition usize_max : N := 2 ^ 64 - 1.

(** [usize::saturating_add] (Rust core). *)
Definition sat_add (a b : N) : N := N.min (a + b) usize_max.
(** [usize::saturating_sub] (Rust core); [N.sub] is already truncated at 0. *)
Definition sat_sub (a b : N) : N := a - b.
(** [usize::saturating_mul] (Rust core); also the value of
    [checked_mul(..).unwrap_or(usize::MAX)]. *)
Definition sat_mul (a b : N) : N := N.min (a * b) usize_max.

(** [idx as u32] for a [usize] index (Rust core: truncation). *)
Definition trunc32 (idx : nat) : nat := N.to_nat (N.of_nat idx mod two32).

(** [u32::wrapping_add(1)] (Rust core). *)
Definition wrapping_succ32 (g : N) : N := (g + 1) mod two32.

(* ------------------------------------------------------------------ *)
(** * IEEE-754 doubles, represented by their bit pattern ([f64::to_bits]) *)

Record f64 := F64 { f64_bits : N }.

Global Instance f64_eq_dec : EqDecision f64.
Proof. solve_decision. Defined.

(** Fields of the binary64 encoding. *)
Definition f64_neg (x : f64) : bool := N.testbit (f64_bits x) 63.
Definition f64_exp (x : f64) : N := (f64_bits x / 2 ^ 52) mod 2 ^ 11.
Definition f64_frac (x : f64) : N := f64_bits x mod 2 ^ 52.

(** [f64::is_nan] (Rust core). *)
Definition f64_is_nan (x : f64) : bool :=
  (f64_exp x =? 2047) && negb (f64_frac x =? 0).
(** [f64::is_finite] (Rust core). *)
Definition f64_is_finite (x : f64) : bool := negb (f64_exp x =? 2047).
(** [x == 0.0] (Rust core): both zeros. *)
Definition f64_is_zero (x : f64) : bool := (f64_exp x =? 0) && (f64_frac x =? 0).

(** Significand and exponent of a finite double: value = (-1)^neg * m * 2^e. *)
Definition f64_mant (x : f64) : N :=
  if f64_exp x =? 0 then f64_frac x else 2 ^ 52 + f64_frac x.
Definition f64_pow (x : f64) : Z :=
  if f64_exp x =? 0 then (-1074)%Z else (Z.of_N (f64_exp x) - 1075)%Z.

(** [a == b] on f64 (Rust core, IEEE equality): NaN is unequal to everything,
    the two zeros are equal, otherwise distinct bit patterns are distinct values. *)
Definition f64_eqb (a b : f64) : bool :=
  if f64_is_nan a || f64_is_nan b then false
  else if f64_is_zero a && f64_is_zero b then true
  else f64_bits a =? f64_bits b.

(** [x < 0.0] (Rust core). *)
Definition f64_ltb_zero (x : f64) : bool :=
  f64_neg x && negb (f64_is_zero x) && negb (f64_is_nan x).

(** The magnitude of a finite double as an integer, if it is one
    ([n.fract() == 0.0], Rust core). *)
Definition f64_int_mag (x : f64) : option N :=
  if negb (f64_is_finite x) then None
  else match f64_pow x with
       | Z0 => Some (f64_mant x)
       | Zpos p => Some (f64_mant x * 2 ^ Npos p)
       | Zneg p =>
           if f64_mant x mod 2 ^ Npos p =? 0
           then Some (f64_mant x / 2 ^ Npos p) else None
       end.

(** [n as f64] for an integer [n < 2^53] (Rust core: exact). *)
Definition f64_of_N (n : N) : f64 :=
  if n =? 0 then F64 0
  else let e := N.log2 n in
       F64 ((1023 + e) * 2 ^ 52 + (n * 2 ^ (52 - e) - 2 ^ 52)).

(* ------------------------------------------------------------------ *)
(** * Handles, strings, BigInts, values *)

(** vm-js/src/handle.rs 17-35 [HeapId]: packed (index: u32, generation: u32).
    Kept unpacked here; [pack_id] below is the packed u64. *)
Record heap_id := HId { hid_index : nat; hid_gen : N }.

Global Instance heap_id_eq_dec : EqDecision heap_id.
Proof. solve_decision. Defined.

(** vm-js/src/handle.rs 20-22 [HeapId::from_parts]. *)
Definition pack_id (i : heap_id) : N :=
  N.lor (N.of_nat (hid_index i)) (N.shiftl (hid_gen i) 32).
(** vm-js/src/handle.rs 25-34 [HeapId::index], [HeapId::generation]. *)
Definition unpack_index (raw : N) : N := raw mod two32.
Definition unpack_gen (raw : N) : N := (N.shiftr raw 32) mod two32.

(** vm-js/src/string.rs 8-11 [JsString]: UTF-16 code units (the cached hash
    [hash64] is a function of the units and is not modelled). *)
Definition js_string := list N.

(** vm-js/src/value.rs 8-12 [JsBigInt]. *)
Record js_bigint := BigInt { bi_neg : bool; bi_mag : N }.
Global Instance js_bigint_eq_dec : EqDecision js_bigint.
Proof. solve_decision. Defined.

(** vm-js/src/value.rs 104-122 [Value]. *)
Inductive value :=
| VUndefined
| VNull
| VBool (b : bool)
| VNumber (n : f64)
| VBigInt (b : js_bigint)
| VString (s : heap_id)
| VSymbol (s : heap_id)
| VObject (o : heap_id).
Global Instance value_eq_dec : EqDecision value.
Proof. solve_decision. Defined.

(** vm-js/src/property.rs 8-11 [PropertyKey]. *)
Inductive property_key := PKString (s : heap_id) | PKSymbol (s : heap_id).
Global Instance property_key_eq_dec : EqDecision property_key.
Proof. solve_decision. Defined.

(** The [Value] a key is rooted as (repeated inline in heap.rs, object_ops.rs). *)
Definition key_value (k : property_key) : value :=
  match k with PKString s => VString s | PKSymbol s => VSymbol s end.

(** vm-js/src/property.rs 62-65 [PropertyKind]. *)
Inductive property_kind :=
| PData (v : value) (writable : bool)
| PAccessor (get set : value).
Global Instance property_kind_eq_dec : EqDecision property_kind.
Proof. solve_decision. Defined.

(** vm-js/src/property.rs 34-38 [PropertyDescriptor]. *)
Record property_descriptor := PDesc {
  pd_enumerable : bool;
  pd_configurable : bool;
  pd_kind : property_kind }.
Global Instance property_descriptor_eq_dec : EqDecision property_descriptor.
Proof. solve_decision. Defined.

(** vm-js/src/property.rs 81-88 [PropertyDescriptorPatch]. *)
Record descriptor_patch := PPatch {
  pp_enumerable : option bool;
  pp_configurable : option bool;
  pp_value : option value;
  pp_writable : option bool;
  pp_get : option value;
  pp_set : option value }.

(** vm-js/src/heap.rs 3935-3938 [PropertyEntry]. *)
Record property_entry := PEntry { pe_key : property_key; pe_desc : property_descriptor }.
Global Instance property_entry_eq_dec : EqDecision property_entry.
Proof. solve_decision. Defined.

(** vm-js/src/heap.rs 3925-3933 [ObjectKind], [ArrayObject]. *)
Inductive object_kind := KOrdinary | KArray (len : N).
Global Instance object_kind_eq_dec : EqDecision object_kind.
Proof. solve_decision. Defined.

(** vm-js/src/heap.rs 3714-3720 [ObjectBase]. *)
Record object_base := OBase {
  ob_prototype : option heap_id;
  ob_extensible : bool;
  ob_properties : list property_entry;
  ob_kind : object_kind }.

(** vm-js/src/function.rs 41-53 [CallHandler], [ConstructHandler]; the payloads
    (table ids, compiled code references) carry no GC handles. *)
Inductive call_handler := CNative (id : N) | CEcma (id : N) | CUser (code : N).
Inductive construct_handler := KNative (id : N) | KEcma (id : N).

(** vm-js/src/function.rs 55-79 [FunctionData]. *)
Inductive function_data :=
| FDNone
| FDPromiseCapabilityExecutor
| FDPromiseResolvingFunction (promise : heap_id) (is_reject : bool)
| FDPromiseFinallyHandler (on_finally constructor : value) (is_reject : bool)
| FDPromiseFinallyThunk (v : value) (is_throw : bool).

(** vm-js/src/function.rs 87-141 [JsFunction] ([this_mode]/[is_strict] carry no
    handles; kept as numbers/booleans). *)
Record js_function := JsFunction {
  fn_call : call_handler;
  fn_construct : option construct_handler;
  fn_name : heap_id;
  fn_length : N;
  fn_this_mode : N;
  fn_is_strict : bool;
  fn_base : object_base;
  fn_data : function_data;
  fn_bound_target : option heap_id;
  fn_bound_this : option value;
  fn_bound_new_target : option value;
  fn_bound_args : option (list value);
  fn_native_slots : option (list value);
  fn_realm : option heap_id;
  fn_job_realm : option N;
  fn_closure_env : option heap_id }.

(** vm-js/src/env.rs 206-214 [EnvBinding]. *)
Record env_binding := EBinding {
  eb_symbol : N;
  eb_name : option heap_id;
  eb_value : value;
  eb_mutable : bool;
  eb_initialized : bool;
  eb_strict : bool }.

(** vm-js/src/env.rs 6-12, 125-150 [EnvRecord]. *)
Inductive env_record :=
| EnvDeclarative (outer : option heap_id) (bindings : list env_binding)
                 (this_value new_target : option value)
| EnvObject (outer : option heap_id) (binding_object : heap_id) (with_environment : bool).

(** vm-js/src/promise.rs 38-44 [PromiseState]. *)
Inductive promise_state := Pending | Fulfilled | Rejected.
Global Instance promise_state_eq_dec : EqDecision promise_state.
Proof. solve_decision. Defined.

(** vm-js/src/promise.rs 56-64 [PromiseCapability]. *)
Record promise_capability := PCap { cap_promise : value; cap_resolve : value; cap_reject : value }.

(** vm-js/src/jobs.rs 339-347 [JobCallback] (callback object, realm; the host
    payload is opaque and carries no GC handles). *)
Record job_callback := JobCb { jc_callback : heap_id; jc_realm : option N }.

(** vm-js/src/promise.rs 77-85 [PromiseReaction]. *)
Record promise_reaction := PReaction {
  re_capability : option promise_capability;
  re_is_reject : bool;
  re_handler : option job_callback }.

(** vm-js/src/heap.rs 3846-3861 [JsPromise]. *)
Record js_promise := JsPromise {
  pr_base : object_base;
  pr_state : promise_state;
  pr_result : option value;
  pr_fulfill : option (list promise_reaction);
  pr_reject : option (list promise_reaction);
  pr_handled : bool }.

(** vm-js/src/heap.rs 3678-3685 [HeapObject]. *)
Inductive heap_object :=
| HString (s : js_string)
| HSymbol (id : N) (description : option heap_id)
| HObject (o : object_base)
| HFunction (f : js_function)
| HEnv (e : env_record)
| HPromise (p : js_promise).

(** vm-js/src/error.rs 8-81 [VmError] (the constructors the modelled code can
    return; message texts are reduced to the constructor, except where the
    caller distinguishes them). *)
Inductive vm_error :=
| EOutOfMemory
| EInvariantViolation
| EInvalidHandle
| EPrototypeCycle
| EPrototypeChainTooDeep
| EUnimplemented
| EInvalidPatch
| EPropertyNotFound
| EPropertyNotData
| ETypeError
| ENotCallable
| EThrow (v : value).

(** Outcome of a Rust call: [Ok], [Err], or a panic (index out of bounds,
    or a loop that our explicit fuel did not cover). *)
Inductive res (A : Type) := Ok (a : A) | Err (e : vm_error) | Panic.
Arguments Ok {A} a. Arguments Err {A} e. Arguments Panic {A}.
