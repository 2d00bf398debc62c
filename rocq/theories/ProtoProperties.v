(** Properties of vm-js prototypes (C13).

    [disciplined_state h]: [h] is the heap after some finite sequence of heap API
    calls, each given live handles.  [proto_link], [chain], [acyclic], [nearest]
    and [objects] are defined in ProtoSpec over the abstract objects of ObjSpec.
    [object_set_prototype_unchecked], which the code declares unsafe, is not one
    of the calls. *)
From stdpp Require Import base decidable list numbers sets.
From Coq Require Import NArith ZArith Lia.
From Verif Require Import VmBase HeapModel HeapObjModel HeapSpec HeapHistory HeapApiProofs ObjSpec ObjHistoryProofs ObjApiProofs ProtoSpec ProtoProofs ProtoApiProofs HeapHistoryProofs.

Open Scope N_scope.

(** No history of calls creates a prototype cycle: from every object, following
    prototypes ends, and meets no object twice. *)
Theorem prototype_chains_finite : forall h, disciplined_state h -> h_gc_runs h < two32 -> acyclic h.
Proof. apply state_acyclic. Qed.
Print Assumptions prototype_chains_finite.
Example prototype_chains_finite_example :
  disciplined_state pc_heap /\ h_gc_runs pc_heap < two32 /\ chain pc_heap pc_c [pc_c; pc_b; pc_a].
Proof. split; [apply pc_disciplined|]. split; [vm_compute; reflexivity|]. apply pc_is_chain. Qed.

(** Setting a prototype: refused with a cycle error exactly if the object is among
    the first 10000 objects of the new prototype's chain, refused as too deep if it
    is not and the chain is longer than that; refusals change nothing.  Otherwise
    the object has the new prototype and nothing else changes. *)
Theorem set_prototype_spec : forall h o v p l, disciplined_state h -> abs_object h o = Some v ->
  match p with Some q => chain h q l | None => l = [] end -> objects h l ->
  if decide (o ∈ take (N.to_nat 10000) l) then object_set_prototype o p h = (h, Err EPrototypeCycle) else
  if decide (length l <= N.to_nat 10000)%nat then
    exists h', object_set_prototype o p h = (h', Ok tt) /\
      abs_object h' o = Some (AObject p (ao_extensible v) (ao_array v) (ao_props v)) /\
      forall a, a <> o -> abs_object h' a = abs_object h a
  else object_set_prototype o p h = (h, Err EPrototypeChainTooDeep).
Proof. intros h o v p l D. apply set_prototype_exact. by apply reachable_state_ok, disciplined_reachable. Qed.
Print Assumptions set_prototype_spec.
Example set_prototype_spec_example : objects pc_heap [pc_c; pc_b; pc_a] /\
  snd (object_set_prototype pc_a (Some pc_c) pc_heap) = Err EPrototypeCycle /\
  snd (object_set_prototype pc_b None pc_heap) = Ok tt.
Proof. split; [apply pc_objects|]. split; vm_compute; reflexivity. Qed.

(** Property lookup finds the own property of the nearest object on the chain that
    has it: the answer is right whenever the lookup meets it within 10000 objects,
    or the whole chain is no longer than that; otherwise it is refused as too
    deep.  It never reports a cycle. *)
Theorem get_property_nearest : forall h o l k, chain h o l -> objects h l -> good_key (abs_key h k) ->
  match nearest h (take (N.to_nat 10000) l) (abs_key h k) with
  | Some d => nearest h l (abs_key h k) = Some d /\ exists d', get_property h o k = Ok (Some d') /\ abs_desc h d' = d
  | None => if decide (length l <= N.to_nat 10000)%nat then nearest h l (abs_key h k) = None /\ get_property h o k = Ok None
            else get_property h o k = Err EPrototypeChainTooDeep
  end.
Proof.
  intros h o l k C Ho Hk.
  assert (W := get_walk_spec (N.to_nat 10000) h k l o [] C Ho (fun a _ => not_elem_of_nil a) Hk).
  assert (K : forall n d, nearest h (take n l) (abs_key h k) = Some d -> nearest h l (abs_key h k) = Some d).
  { clear. induction l as [|a l IH]; intros n d; [by rewrite take_nil|]. destruct n as [|n]; [done|]. cbn [take nearest].
    destruct (_ ≫= _); [done|]. apply IH. }
  destruct (nearest h (take _ l) _) as [d|] eqn:E; [split; [by eapply K|done]|].
  unfold get_property, max_prototype_chain. rewrite W. destruct (decide _) as [Hl|Hl]; [|done]. split; [|done].
  by rewrite take_ge in E by done.
Qed.
Print Assumptions get_property_nearest.
Example get_property_nearest_example : chain pc_heap pc_c pc_chain /\ objects pc_heap pc_chain /\
  nearest pc_heap pc_chain (AKStr [120]) = Some (ADesc true true (AData (anum 3) true)) /\
  nearest pc_heap pc_chain (AKStr [121]) = Some (ADesc true true (AData (anum 2) true)) /\
  heap_get pc_heap pc_c (PKString pc_y) = Ok (VNumber (f64_of_N 2)) /\ heap_get pc_heap pc_c (PKString pc_x) = Ok (VNumber (f64_of_N 3)).
Proof. split; [apply pc_is_chain|]. split; [apply pc_objects|]. repeat split; vm_compute; reflexivity. Qed.

(** On reachable heaps the chain exists, so every lookup has an answer. *)
Theorem get_property_total : forall h o v k, disciplined_state h -> h_gc_runs h < two32 -> abs_object h o = Some v ->
  good_key (abs_key h k) -> exists l, chain h o l /\ (objects h l -> (length l <= N.to_nat 10000)%nat ->
    exists d, get_property h o k = Ok d /\ abs_desc h <$> d = nearest h l (abs_key h k)).
Proof.
  intros h o v k D Hr Ev Hk. destruct (state_acyclic h D Hr o) as (l & C & _). exists l. split; [done|]. intros Ho Hl.
  pose proof (get_property_nearest h o l k C Ho Hk) as G. destruct (nearest h (take _ l) _) as [d|].
  - destruct G as [-> (d' & E & <-)]. by exists (Some d').
  - rewrite decide_True in G by done. destruct G as [-> E]. by exists None.
Qed.
Print Assumptions get_property_total.
