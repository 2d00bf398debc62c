(** Vocabulary for the module-loading properties. *)
From stdpp Require Import base decidable list numbers.
From Verif Require Import RustStr ModuleModel LoadModel.

(** How often, and how, the promise of load [k] has been settled. *)
Definition settlements (s : lstate) (k : nat) : list outcome :=
  omap (fun e => if bool_decide (fst e = k) then Some (snd e) else None) (ls_log s).

(** A host that completes each hook call once and whose hook does not fail. *)
Definition well_behaved (a : haction) : Prop := match a with HRepeat _ _ | HFail => False | _ => True end.
(** A host that completes each hook call at most once; its hook may fail. *)
Definition no_repeat (a : haction) : Prop := match a with HRepeat _ _ => False | _ => True end.

(** The modules a module depends on, through any number of imports. *)
Inductive depends (g : graph) : nat -> nat -> Prop :=
| dep_refl m : depends g m m
| dep_step m r q m' m'' : g !! m = Some r -> q ∈ mr_requested r -> imported r q = Some m' -> depends g m' m'' -> depends g m m''.
(** Everything [root] depends on is present and has all its requests loaded. *)
Definition fully_loaded (g : graph) (root : nat) : Prop :=
  forall m, depends g root m -> exists r, g !! m = Some r /\ mr_status r = StUnlinked /\ forall q, q ∈ mr_requested r -> exists m', imported r q = Some m'.

(** Nothing is running. *)
Definition idle (s : lstate) : Prop := ls_control s = CHost /\ ls_stack s = [].
(** No hook call of load [k] is waiting for its completion. *)
Definition none_outstanding (s : lstate) (k : nat) : Prop := forall t, t ∈ ls_tokens s -> tk_load t <> k.
