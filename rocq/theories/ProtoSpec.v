(** Specification: prototype chains. *)
From stdpp Require Import base decidable list numbers.
From Coq Require Import NArith.
From Verif Require Import VmBase HeapModel HeapObjModel ObjSpec.

(** The prototype of [a] is [b]. *)
Definition proto_link (h : heap) (a b : heap_id) : Prop :=
  exists v, abs_object h a = Some v /\ ao_prototype v = Some b.
(** [chain h a l]: starting at [a] and following prototypes visits [l], and then
    there is no prototype. *)
Inductive chain (h : heap) : heap_id -> list heap_id -> Prop :=
| ch_last a : (forall b, ~ proto_link h a b) -> chain h a [a]
| ch_next a b l : proto_link h a b -> chain h b l -> chain h a (a :: l).

(** Every prototype chain ends, and visits no object twice. *)
Definition acyclic (h : heap) : Prop := forall a, exists l, chain h a l /\ NoDup l.

(** The own property [k] of the first object of [l] that has it. *)
Fixpoint nearest (h : heap) (l : list heap_id) (k : akey) : option adesc :=
  match l with
  | [] => None
  | a :: l => match abs_object h a ≫= fun v => own v k with Some d => Some d | None => nearest h l k end
  end.
(** Every member of [l] is an object. *)
Definition objects (h : heap) (l : list heap_id) : Prop := forall a, a ∈ l -> exists v, abs_object h a = Some v.
