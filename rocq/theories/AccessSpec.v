(** Specification: [[Get]], [[HasProperty]] and [[Set]] of ordinary objects
    (ECMA-262 10.1.7 to 10.1.9), over the abstract objects of ObjSpec. *)
From stdpp Require Import base decidable list numbers.
From Coq Require Import NArith.
From Verif Require Import VmBase HeapModel HeapObjModel HeapSpec ObjectOpsModel ObjSpec ProtoSpec.

Open Scope N_scope.

(** The handle denotes a function. *)
Definition function_object (h : heap) (f : heap_id) : Prop := exists b, live_as h f (HFunction b).
(** [g] can be called. *)
Definition callable (h : heap) (g : aval) (f : heap_id) : Prop := g = AObj f /\ function_object h f.

(** What [[Get]] does, given the nearest property on the chain. *)
Inductive get_outcome := GValue (x : aval) | GCall (getter : heap_id) | GTypeError.
Inductive get_spec (h : heap) : option adesc -> get_outcome -> Prop :=
| gs_absent : get_spec h None (GValue AUndefined)
| gs_data d x w : a_kind d = AData x w -> get_spec h (Some d) (GValue x)
| gs_no_getter d s : a_kind d = AAccessor AUndefined s -> get_spec h (Some d) (GValue AUndefined)
| gs_getter d g s f : a_kind d = AAccessor g s -> callable h g f -> get_spec h (Some d) (GCall f)
| gs_bad_getter d g s : a_kind d = AAccessor g s -> g <> AUndefined -> (forall f, ~ callable h g f) -> get_spec h (Some d) GTypeError.

(** What [[Set]] does, given the nearest property on the chain of the object and the
    receiver ([None]: not an object). *)
Inductive set_outcome := SRefused | SDefine (p : apatch) | SCall (setter : heap_id) | STypeError.
Definition assignable (nearest : option adesc) : Prop :=
  match nearest with None => True | Some d => exists y, a_kind d = AData y true end.
Inductive set_spec (h : heap) (k : akey) (x : aval) : option adesc -> option aobj -> set_outcome -> Prop :=
| ss_no_setter d g r : a_kind d = AAccessor g AUndefined -> set_spec h k x (Some d) r SRefused
| ss_setter d g s f r : a_kind d = AAccessor g s -> callable h s f -> set_spec h k x (Some d) r (SCall f)
| ss_bad_setter d g s r : a_kind d = AAccessor g s -> s <> AUndefined -> (forall f, ~ callable h s f) -> set_spec h k x (Some d) r STypeError
| ss_readonly d y r : a_kind d = AData y false -> set_spec h k x (Some d) r SRefused
| ss_primitive nr : assignable nr -> set_spec h k x nr None SRefused
| ss_receiver_accessor nr v d g s : assignable nr -> own v k = Some d -> a_kind d = AAccessor g s -> set_spec h k x nr (Some v) SRefused
| ss_receiver_readonly nr v d y : assignable nr -> own v k = Some d -> a_kind d = AData y false -> set_spec h k x nr (Some v) SRefused
| ss_update nr v d y : assignable nr -> own v k = Some d -> a_kind d = AData y true ->
    set_spec h k x nr (Some v) (SDefine (APatch None None (Some x) None None None))
| ss_create nr v : assignable nr -> own v k = None ->
    set_spec h k x nr (Some v) (SDefine (APatch (Some true) (Some true) (Some x) (Some true) None None)).

(** Every object still there is as it was. *)
Definition same_objects (h h' : heap) : Prop := forall id, live h id -> live h' id -> abs_object h' id = abs_object h id.

(** The view of the receiver. *)
Definition receiver_view (h : heap) (recv : value) : option aobj := match recv with VObject r => abs_object h r | _ => None end.
(** The outcome [r] of defining [p], and the object after it. *)
Definition patch_result (v : aobj) (k : akey) (p : apatch) (r : res bool) (v' : aobj) : Prop :=
  (exists ok, r = Ok ok /\ define_spec v k p ok v') \/ (r = Err EOutOfMemory /\ define_oom v k p v').
(** What a call of [[Set]] with outcome [t] does: [call] is how user code is called. *)
Definition set_effect (call : call_fn) (h : heap) (k : akey) (x recv : value) (h' : heap) (r : res bool) (t : set_outcome) : Prop :=
  match t with
  | SRefused => r = Ok false /\ same_objects h h'
  | STypeError => r = Err ETypeError /\ same_objects h h'
  | SCall f => exists h1, same_objects h h1 /\ (call (VObject f) recv [x] ;;; mret true) h1 = (h', r)
  | SDefine p => exists rc v v', recv = VObject rc /\ well_formed h rc v /\ well_formed h' rc v' /\ patch_result v k p r v' /\
      (h_gc_runs h' < h_gc_runs h + two32 -> forall id, id <> rc -> live h id -> live h' id -> abs_object h' id = abs_object h id)
  end.
