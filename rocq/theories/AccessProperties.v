(** Properties of vm-js property access (C66).

    [disciplined_state h]: [h] is the heap after some finite sequence of heap API
    calls, each given live handles.  [chain h o l]: the prototype chain of [o] is
    [l].  [nearest h l k]: the own property [k] of the first object of [l] that has
    it.  [get_spec] and [set_spec] are ECMA-262 10.1.8.1 and 10.1.9.2 (AccessSpec).
    Chains longer than 10000 objects are refused by the code (C13). *)
From stdpp Require Import base decidable list numbers sets.
From Coq Require Import NArith ZArith Lia.
From Verif Require Import VmBase HeapModel HeapObjModel HeapSpec ObjectOpsModel HeapHistory HeapHistoryProofs HeapApiProofs HeapInvProofs HeapSafeOps
  ObjSpec ObjViewProofs ObjTopProofs ObjHistoryProofs ObjApiProofs ProtoSpec ProtoProofs ProtoApiProofs HeapGcProofs HeapSafeProofs HeapSafeOps3 HeapFrameProofs ObjEssentialProofs
  AccessSpec AccessProofs.

Open Scope N_scope.

(** [[Get]] returns the value of the nearest property, or calls its getter on the
    receiver, exactly as specified, and changes nothing itself. *)
Theorem get_follows_specification : forall call h o k receiver l,
  disciplined_state h -> chain h o l -> objects h l -> (length l <= N.to_nat 10000)%nat -> good_key (abs_key h k) ->
  exists out, get_spec h (nearest h l (abs_key h k)) out /\
    match out with
    | GValue x => exists y, ordinary_get call o k receiver h = (h, Ok y) /\ abs_value h y = x
    | GCall f => ordinary_get call o k receiver h = call (VObject f) receiver [] h
    | GTypeError => ordinary_get call o k receiver h = (h, Err ETypeError)
    end.
Proof. intros call h o k receiver l D. apply get_exact. by apply disciplined_no_dangling. Qed.
Print Assumptions get_follows_specification.

(** [[HasProperty]]. *)
Theorem has_property_spec : forall h o k l, chain h o l -> objects h l -> (length l <= N.to_nat 10000)%nat -> good_key (abs_key h k) ->
  has_property h o k = Ok (bool_decide (nearest h l (abs_key h k) <> None)).
Proof.
  intros h o k l C Ho Hl Hk. destruct (found h o l k C Ho Hl Hk) as (d & E & <-). unfold has_property. rewrite E. cbn.
  by destruct d.
Qed.
Print Assumptions has_property_spec.

(** [[Set]] of [x] on [o] with any receiver: refused, refused with a TypeError, a
    setter call, or a definition on the receiver, exactly as specified; the
    definition follows C09.  Running out of memory before that changes nothing. *)
Theorem set_follows_specification : forall call h o k x receiver l h' r,
  disciplined_state h -> chain h o l -> objects h l -> (length l <= N.to_nat 10000)%nat ->
  (forall id, id ∈ o :: key_handles k ++ values_handles [x; receiver] -> live h id) ->
  good_key (abs_key h k) -> ~ stale (abs_value h x) ->
  (forall rc, receiver = VObject rc -> exists v, well_formed h rc v) ->
  ordinary_set call o k x receiver h = (h', r) ->
  (r = Err EOutOfMemory /\ same_objects h h') \/
  exists t, set_spec h (abs_key h k) (abs_value h x) (nearest h l (abs_key h k)) (receiver_view h receiver) t /\
    set_effect call h (abs_key h k) x receiver h' r t.
Proof.
  intros call h o k x receiver l h' r D C Ho Hl L Hk Hx Hr. apply (set_exact call h o k x receiver l h' r); auto.
  - apply reachable_state_ok, disciplined_reachable, D.
  - by apply disciplined_no_dangling.
Qed.
Print Assumptions set_follows_specification.

(** What was set is what is read: after a successful [[Set]] that reached no
    setter, [[Get]] of the same key on the (ordinary) receiver gives the value, whatever
    the collector did meanwhile. *)
Theorem get_after_set : forall call call' h o k x rc v l h' k' receiver',
  disciplined_state h -> chain h o l -> objects h l -> (length l <= N.to_nat 10000)%nat ->
  (forall id, id ∈ o :: key_handles k ++ values_handles [x; VObject rc] -> live h id) ->
  good_key (abs_key h k) -> ~ stale (abs_value h x) -> well_formed h rc v -> ao_array v = None ->
  assignable (nearest h l (abs_key h k)) ->
  ordinary_set call o k x (VObject rc) h = (h', Ok true) -> abs_key h' k' = abs_key h k ->
  exists y, ordinary_get call' rc k' receiver' h' = (h', Ok y) /\ abs_value h' y = abs_value h x.
Proof.
  intros call call' h o k x rc v l h' k' receiver' D C Ho Hl L Hk Hx W Ha As E Ek.
  destruct (set_follows_specification call h o k x (VObject rc) l h' (Ok true) D C Ho Hl L Hk Hx) as [[? _]|(t & S & Ef)]; [intros rc' [= <-]; by exists v|done|done|].
  assert (Ht : exists p, t = SDefine p /\ ap_value p = Some (abs_value h x) /\ ~ ap_accessor p).
  { destruct W as [Wv _]. cbn [receiver_view] in S. rewrite Wv in S.
    assert (No : forall d g s, nearest h l (abs_key h k) = Some d -> a_kind d <> AAccessor g s).
    { intros d g s En Hd. rewrite En in As. destruct As as [y Hy]. congruence. }
    inversion S; subst; first [by destruct Ef as [? _] | (eexists; split; [done|]; split; [done|]; by intros [?|?]) | (exfalso; eapply No; eauto; fail)]. }
  destruct Ht as (p & -> & Hp & Hna). destruct Ef as (rc' & v1 & v' & [= <-] & [W1 _] & [W' _] & Q & _).
  assert (v1 = v) as -> by (destruct W as [W _]; congruence).
  destruct Q as [(ok & [= <-] & Sp)|[? _]]; [|done]. destruct Sp as [_ Sp|n w es Sh]; [|by rewrite (ar_len _ _ _ _ Sh) in Ha].
  inversion Sp; subst. destruct (merged_value (own v (abs_key h k)) p _ Hp Hna) as [w Hw].
  eapply (get_own_data call' h' rc); [exact W'|by rewrite Ek| |exact Hw]. rewrite Ek. unfold own at 1. cbn [ao_props with_props].
  rewrite alookup_aput. by rewrite decide_True.
Qed.
Print Assumptions get_after_set.

(** Three objects in a chain (ProtoApiProofs): "x" is on [pc_b] and [pc_a], "y" on
    [pc_a] only.  Setting "y" on [pc_c] makes an own property. *)
Example access_case : let no_call : call_fn := fun _ _ _ => mfail EUnimplemented in
  let h' := fst (ordinary_set no_call pc_c (PKString pc_y) VNull (VObject pc_c) pc_heap) in
  chain pc_heap pc_c pc_chain /\ objects pc_heap pc_chain /\
  (forall id, id ∈ pc_c :: key_handles (PKString pc_y) ++ values_handles [VNull; VObject pc_c] -> live pc_heap id) /\
  (exists v, well_formed pc_heap pc_c v /\ ao_array v = None) /\ assignable (nearest pc_heap pc_chain (abs_key pc_heap (PKString pc_y))) /\
  snd (ordinary_get no_call pc_c (PKString pc_y) VNull pc_heap) = Ok (VNumber (f64_of_N 2)) /\
  snd (ordinary_set no_call pc_c (PKString pc_y) VNull (VObject pc_c) pc_heap) = Ok true /\
  snd (ordinary_get no_call pc_c (PKString pc_y) VNull h') = Ok VNull /\ snd (ordinary_get no_call pc_b (PKString pc_y) VNull h') = Ok (VNumber (f64_of_N 2)).
Proof.
  split; [apply pc_is_chain|]. split; [apply pc_objects|]. split.
  { intros id Hid. apply liveb_live. vm_compute in Hid. repeat (apply elem_of_cons in Hid as [->|Hid]; [vm_compute; reflexivity|]). by apply elem_of_nil in Hid. }
  split. { destruct (abs_object pc_heap pc_c) as [v|] eqn:E; [|vm_compute in E; discriminate E]. exists v. vm_compute in E. injection E as <-. split; [|done].
    split; [vm_compute; reflexivity|by left]. }
  split; [vm_compute; by eexists|]. repeat split; vm_compute; reflexivity.
Qed.
