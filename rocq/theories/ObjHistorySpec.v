(** What a history of calls may do to one object. *)
From stdpp Require Import base decidable list numbers.
From Coq Require Import NArith.
From Verif Require Import VmBase HeapModel HeapObjModel HeapSpec HeapHistory KeySpec ObjSpec.

Open Scope N_scope.

(** * Histories *)

(** [P] holds of every call of a history, in the state in which it is made. *)
Fixpoint each (P : op -> heap -> Prop) (c : op) (h : heap) : Prop :=
  match c with
  | OpScope body =>
      (fix all (cs : list op) (h : heap) : Prop :=
         match cs with [] => True | c :: cs => each P c h /\ all cs (fst (exec c h)) end) body h
  | c => P c h
  end.
Fixpoint each_call (P : op -> heap -> Prop) (cs : list op) (h : heap) : Prop :=
  match cs with [] => True | c :: cs => each P c h /\ each_call P cs (fst (exec c h)) end.

(** The string handles given to the internal methods are strings. *)
Definition typed_call (c : op) (h : heap) : Prop :=
  match c with
  | OpDefineOwn _ k p | OpDefineOrThrow _ k p => good_key (abs_key h k) /\ patch_good (abs_patch h p)
  | OpCreateData _ k x | OpCreateDataOrThrow _ k x | OpSet _ k x _ => good_key (abs_key h k) /\ ~ stale (abs_value h x)
  | OpDelete _ k | OpDeleteOrThrow _ k => good_key (abs_key h k)
  | _ => True
  end.
(** Object [o] is written only by [[DefineOwnProperty]], [[Set]], [[Delete]] and
    [[PreventExtensions]] (and what is built on them), not by the unchecked entry
    points for engine internals. *)
Definition internal_method (o : heap_id) (c : op) (_ : heap) : Prop :=
  o ∈ op_writes c ->
  match c with
  | OpDefineOwn _ _ _ | OpDefineOrThrow _ _ _ | OpCreateData _ _ _ | OpCreateDataOrThrow _ _ _ | OpDelete _ _ | OpDeleteOrThrow _ _ => True
  | OpSet _ _ _ receiver => receiver = VObject o
  | OpSetExtensible _ b => b = false
  | _ => False
  end.
(** ... or its prototype and extensibility are set, in any way. *)
Definition table_method (o : heap_id) (c : op) (h : heap) : Prop :=
  match c with OpSetPrototype _ _ | OpSetExtensible _ _ => True | _ => internal_method o c h end.
(** The call did not run out of memory. *)
Definition no_oom (c : op) (h : heap) : Prop := snd (exec c h) <> Err EOutOfMemory.

(** An array whose length is above every index present. *)
Definition bounded_array (h : heap) (o : heap_id) : Prop :=
  exists v n w es, well_formed h o v /\ array_shape v n w es /\ array_bounded n es.
