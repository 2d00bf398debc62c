(** Vocabulary for the heap properties: which calls allocate and what they create. *)
From stdpp Require Import base decidable list numbers.
From Coq Require Import NArith ZArith.
From Verif Require Import VmBase HeapModel HeapObjModel HeapSpec ObjectOpsModel HeapHistory.

Open Scope N_scope.

(** The calls that return a new handle. *)
Definition allocates (o : op) : option (M heap_id) :=
  match o with
  | OpAllocString u => Some (alloc_string u)
  | OpNewSymbol d => Some (new_symbol d)
  | OpAllocObject => Some alloc_object
  | OpAllocObjectWith p ps => Some (alloc_object_with_properties p ps)
  | OpAllocArray n => Some (alloc_array n)
  | OpAllocPromise p => Some (alloc_promise_with_prototype p)
  | OpAllocNative call construct name len slots env => Some (alloc_native_function call construct name len slots env)
  | OpAllocEcma code c name len tm strict env => Some (alloc_ecma_function code c name len tm strict env)
  | OpAllocUser code name len => Some (alloc_user_function code name len)
  | OpAllocBound target this args name len => Some (alloc_bound_function target this args name len)
  | OpEnvCreate outer => Some (env_create outer)
  | OpEnvAlloc outer bs => Some (alloc_declarative_env_record outer bs)
  | OpEnvAllocObject o outer w => Some (alloc_object_env_record o outer w)
  | _ => None
  end.

(** What the new handle denotes. *)
Definition allocated (o : op) (new : heap_object) : Prop :=
  match o with
  | OpAllocString u => new = HString u
  | OpNewSymbol d => exists n, new = HSymbol n d
  | OpAllocObject => new = HObject (OBase None true [] KOrdinary)
  | OpAllocObjectWith p ps => new = HObject (OBase p true ps KOrdinary)
  | OpAllocArray n => exists key, new = HObject (OBase None true
      [PEntry (PKString key) (PDesc false false (PData (VNumber (f64_of_N n)) true))] (KArray n))
  | OpAllocPromise p => new = HPromise (JsPromise (OBase p true [] KOrdinary) Pending None (Some []) (Some []) false)
  | OpAllocNative _ _ _ _ _ _ | OpAllocEcma _ _ _ _ _ _ _ | OpAllocUser _ _ _ => exists f, new = HFunction f
  | OpAllocBound target this args name len => exists f, new = HFunction f /\ fn_bound_target f = Some target
      /\ fn_bound_this f = Some this /\ fn_bound_args f = (match args with [] => None | _ => Some args end)
  | OpEnvCreate outer => new = HEnv (EnvDeclarative outer [] None None)
  | OpEnvAlloc outer bs => exists bs', bs' ≡ₚ bs /\ new = HEnv (EnvDeclarative outer bs' None None)
  | OpEnvAllocObject o outer w => new = HEnv (EnvObject outer o w)
  | _ => False
  end.

(** Allocate an empty string and collect it, [n] times. *)
Fixpoint churn (n : nat) : list op :=
  match n with O => [] | S n => OpAllocString [] :: OpCollect :: churn n end.
