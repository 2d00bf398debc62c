(** What a declarative scope holds, stated without the binding table's own lookup. *)
From stdpp Require Import base decidable list numbers sorting.
From Coq Require Import NArith ZArith.
From Verif Require Import VmBase HeapModel HeapObjModel HeapSpec HeapHistory.

Open Scope N_scope.

(** A variable: its value, whether it may be assigned, whether it has been initialised. *)
Record cell := Cell { c_value : value; c_mutable : bool; c_init : bool }.

(** The environment [e] is a declarative scope made by [env_create] and
    [env_create_*_binding]; [V] lists its variables. *)
Definition binding_is (h : heap) (b : env_binding) (p : js_string * cell) : Prop :=
  exists id, eb_name b = Some id /\ live_as h id (HString (fst p)) /\ eb_symbol b = pack_id id /\
    snd p = Cell (eb_value b) (eb_mutable b) (eb_initialized b).
Definition scope_view (h : heap) (e : heap_id) (V : list (js_string * cell)) : Prop :=
  exists outer bs this nt, live_as h e (HEnv (EnvDeclarative outer bs this nt)) /\ Forall2 (binding_is h) bs V.

Definition scope_names (V : list (js_string * cell)) : list js_string := map fst V.
(** The variable called [name], and the scope after giving it a new state. *)
Definition put_cell (name : js_string) (c : cell) (V : list (js_string * cell)) : list (js_string * cell) :=
  map (fun p => if decide (fst p = name) then (name, c) else p) V.

(** [c] is a call that initialises or assigns the variable [name] of [e]; the
    symbol-keyed entry points may address any of them. *)
Fixpoint writes_variable (e : heap_id) (name : js_string) (c : op) : Prop :=
  match c with
  | OpScope body => (fix any (cs : list op) := match cs with [] => False | c :: cs => writes_variable e name c \/ any cs end) body
  | OpEnvInitialize e' n _ | OpEnvSet e' n _ => e' = e /\ n = name
  | OpEnvInitializeSym e' _ _ | OpEnvSetSym e' _ _ => e' = e
  | _ => False
  end.
(** [c] declares [name] in [e]. *)
Fixpoint declares_variable (e : heap_id) (name : js_string) (c : op) : Prop :=
  match c with
  | OpScope body => (fix any (cs : list op) := match cs with [] => False | c :: cs => declares_variable e name c \/ any cs end) body
  | OpEnvCreateBinding e' n _ => e' = e /\ n = name
  | _ => False
  end.

(** What may happen to a variable: its mutability is fixed, it stays initialised, a
    constant keeps its value once initialised, and nothing changes without a write. *)
Definition cell_kept (written : Prop) (c c' : cell) : Prop :=
  c_mutable c' = c_mutable c /\ (c_init c = true -> c_init c' = true) /\
  (c_init c = true -> c_mutable c = false -> c' = c) /\ (~ written -> c' = c).
(** What may happen to a scope: no name is declared twice, no variable is lost, and
    names appear only by declaration. *)
Definition scope_kept (written declared : js_string -> Prop) (V V' : list (js_string * cell)) : Prop :=
  NoDup (scope_names V') /\
  (forall name c, (name, c) ∈ V -> exists c', (name, c') ∈ V' /\ cell_kept (written name) c c') /\
  (forall name, name ∈ scope_names V' -> name ∈ scope_names V \/ declared name).

(** Bindings in strictly increasing order of their symbols. *)
Definition sorted_bindings (bs : list env_binding) : Prop :=
  StronglySorted (fun a b => eb_symbol a < eb_symbol b) bs.
(** The contract of [slice::binary_search_by_key]: [inl i] finds the key, [inr i] is
    where it can be inserted keeping the slice sorted. *)
Definition search_contract (k : N) (bs : list env_binding) (r : nat + nat) : Prop :=
  match r with
  | inl i => exists b, bs !! i = Some b /\ eb_symbol b = k
  | inr i => (i <= length bs)%nat /\ (forall j b, bs !! j = Some b -> (j < i)%nat -> eb_symbol b < k) /\
             (forall j b, bs !! j = Some b -> (i <= j)%nat -> k < eb_symbol b)
  end.

(** [e] was returned by [env_create] and any disciplined history followed; it is still
    live and fewer than 2^32 collections have run. *)
Definition scope_state (h : heap) (e : heap_id) : Prop :=
  exists h0 outer h1 cs, disciplined_state h0 /\ (forall o, outer = Some o -> live h0 o) /\
    env_create outer h0 = (h1, Ok e) /\ disciplined_history cs h1 /\ h = run cs h1 /\ live h e /\ h_gc_runs h < two32.
