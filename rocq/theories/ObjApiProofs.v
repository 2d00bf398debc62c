(** The object theorems in terms of reachable heaps, and the example heaps. *)
From stdpp Require Import base decidable list numbers sets.
From Coq Require Import NArith ZArith Lia.
From RecordUpdate Require Import RecordUpdate.
From Verif Require Import VmBase HeapModel HeapObjModel HeapSpec HeapGcProofs HeapInvProofs HeapObjProofs
  ObjectOpsModel ObjectOpsProofs HeapTidyProofs HeapSafeProofs HeapSafeOps HeapSafeOps2 HeapSafeOps3 HeapHistory HeapHistoryProofs
  HeapFrameProofs HeapApiSpec HeapApiProofs
  KeySpec KeyProofs ObjSpec ObjHistorySpec ObjViewProofs ObjDefineProofs ObjOpsProofs ObjArrayProofs ObjTopProofs ObjEssentialProofs ObjHistoryProofs.

Open Scope N_scope.

Lemma get_own_reads h o v k : abs_object h o = Some v -> good_key (abs_key h k) ->
  exists d, object_get_own_property h o k = Ok d /\ abs_desc h <$> d = own v (abs_key h k).
Proof.
  intros (b & Hb & ->)%abs_object_Some Hg. unfold object_get_own_property. rewrite Hb. eexists. split; [done|]. by apply find_entry_abs.
Qed.

Lemma other_views o h h' id : frame o h h' -> heap_ok h -> no_dangling h -> no_dangling h' -> evolves h h' -> h_gc_runs h' < h_gc_runs h + two32 ->
  id <> o -> live h o -> live h id -> live h' id -> abs_object h' id = abs_object h id.
Proof.
  intros F H N N' V Hr Hne Lo [x Lx] L'. apply (view_kept h h' id x); auto.
  apply (frame_live o h h'); auto. intros Hi. apply Hne.
  destruct Lo as (y & hs & s & A1 & A2 & _), Lx as (hs' & s' & B1 & B2 & _). rewrite Hi in B1. assert (s' = s) by congruence. subst s'.
  destruct id, o; cbn in *; congruence.
Qed.

Section call.
  Context (h : heap) (o : heap_id) (v : aobj) (c : op).
  Hypothesis Hd : disciplined_state h.
  Hypothesis Hc : disciplined c h.
  Hypothesis W : well_formed h o v.
  Lemma call_ready : ready h o v.
  Proof. constructor; [apply reachable_state_ok, disciplined_reachable, Hd|by apply disciplined_no_dangling|done]. Qed.
  Lemma call_frames : (forall h' r, exec c h = (h', r) -> frame o h h') -> h_gc_runs (fst (exec c h)) < h_gc_runs h + two32 ->
    forall id, id <> o -> live h id -> live (fst (exec c h)) id -> abs_object (fst (exec c h)) id = abs_object h id.
  Proof.
    intros F Hr id Hne L L'. destruct call_ready as [H N _]. destruct (safe_exec c h H N Hc) as [N' _]. destruct (exec_evolves c h H) as [H' V].
    apply (other_views o); auto; [|by eapply ready_live, call_ready]. by apply (F _ (snd (exec c h))), surjective_pairing.
  Qed.
End call.

(** A call on [o] that refines [Q] in the sense of [top], seen from outside. *)
Lemma top_outside {A} (m : M A) (Q : res A -> aobj -> Prop) h o v c h' r : ready h o v -> disciplined_state h -> disciplined c h ->
  fst (exec c h) = fst (m h) -> top o v h m Q -> (forall r v', Q r v' -> keeps_shape (oomed r) v v') ->
  m h = (h', r) -> h_gc_runs h' < h_gc_runs h + two32 ->
  (r <> Err EOutOfMemory -> live h' o) /\
  (live h' o -> exists v', well_formed h' o v' /\ (Q r v' \/ r = Err EOutOfMemory /\ v' = v)) /\
  (forall id, id <> o -> live h id -> live h' id -> abs_object h' id = abs_object h id).
Proof.
  intros R Hd Hc Ee T Hk E Hr. destruct (T _ _ E) as [F T']. split; [|split].
  - intros Hn. destruct T' as [(v' & V & _)|[? _]]; [|done]. apply abs_object_Some in V as (b & (x & Hx & _)%get_object_base_Ok & _). by exists x.
  - intros L. destruct T' as [(v' & V & K & Hq)|[-> K]].
    + exists v'. split; [|by left]. apply wf_shaped; auto. eapply shaped_kept; [by eapply ready_shaped|by eapply Hk].
    + destruct (K L) as [V K']. exists v. split; [|by right]. apply wf_shaped; auto. by eapply ready_shaped.
  - rewrite E in Ee. cbn in Ee. subst h'. apply (call_frames h o v c); auto; [apply R|]. intros h1 r1 E1. rewrite E1 in F. done.
Qed.

Lemma disciplined_define h o k p : (forall x, x ∈ o :: key_handles k ++ patch_handles p -> live h x) -> disciplined (OpDefineOwn o k p) h.
Proof. cbn. auto. Qed.

(** *** New arrays *)
Lemma new_array n h h' id : heap_ok h -> no_dangling h -> alloc_array n h = (h', Ok id) -> h_gc_runs h' < h_gc_runs h + two32 ->
  exists v, well_formed h' id v /\ array_shape v n true [].
Proof.
  intros H N E Hr.
  assert (L : live h' id) by (eapply (allocates_safe (OpAllocArray n)); eauto; intros x Hx; by apply elem_of_nil in Hx).
  assert (N' : no_dangling h').
  { assert (D : disciplined (OpAllocArray n) h) by (intros x Hx; by apply elem_of_nil in Hx).
    destruct (safe_exec _ _ H N D) as [N' _]. cbn [exec] in N'. rewrite void_fst, E in N'. done. }
  unfold alloc_array in E. destruct (u32_max <? n) eqn:Hn; [discriminate E|]. apply N.ltb_ge in Hn.
  assert (Hn' : n < 2 ^ 32) by (change (2 ^ 32) with (u32_max + 1); lia).
  unfold with_scope in E. unfold mbind at 1 in E. destruct (alloc_string length_units h) as [h1 r1] eqn:E1.
  destruct (good_alloc_string _ _ _ _ H E1) as (H1 & _ & V1).
  destruct r1 as [s|e|]; try discriminate E.
  match type of E with context [(push_root (VString s) ;;; ?k)] => set (rest := (push_root (VString s) ;;; k)) in E end.
  destruct (rest h1) as [h3 r3] eqn:E3. injection E as E ->.
  assert (Es : h_slots h3 = h_slots h') by (by rewrite <- E).
  assert (G : good rest).
  { unfold rest. apply good_bind; [auto with good|]. intros _.
    apply good_layout. intros l. apply goodl_bind; [auto with good|]. intros _. apply goodl_alloc. by right. }
  destruct (G _ _ _ H1 E3) as (H3 & _ & V3). pose proof (ev_runs _ _ V1). pose proof (ev_runs _ _ V3).
  assert (Er : h_gc_runs h3 = h_gc_runs h') by (by rewrite <- E).
  assert (L3 : live h3 id) by (by apply (live_slots h' h3)).
  set (obj := HObject (OBase None true [PEntry (PKString s) (PDesc false false (PData (VNumber (f64_of_N n)) true))] (KArray n))).
  assert (M : makes rest (fun x => x = obj)).
  { unfold rest. mk. mkl. apply makesl_alloc; [by right|done]. }
  destruct (M h1 h3 id H1 E3 L3) as (x & Lx & ->); [lia|].
  assert (Lx' : live_as h' id obj). { unfold live_as, live_with in *. by rewrite <- Es. }
  assert (Ls : live h' s). { eapply (proj2 N'); [exact Lx'|]. apply trace_object_in. cbn. set_solver. }
  assert (L1 : live_as h1 s (HString length_units)).
  { destruct (allocates_makes (OpAllocString length_units) _ eq_refl h h1 s H E1) as (y & Hy & Hy'); [|lia|by rewrite Hy' in Hy].
    apply (allocates_safe (OpAllocString length_units) _ h h1 s eq_refl H N); [|done]. intros x Hx. by apply elem_of_nil in Hx. }
  assert (Gs : get_string h' s = Ok length_units).
  { rewrite (get_string_slots h3 h') by done. rewrite (evolves_string h1 h3); auto; [by rewrite (get_string_live_as _ _ _ L1)|lia|by eexists|].
    by apply (live_slots h' h3). }
  assert (Sh : array_shape (abs_base h' (OBase None true [PEntry (PKString s) (PDesc false false (PData (VNumber (f64_of_N n)) true))] (KArray n))) n true []).
  { constructor; [done|done| |].
    - cbn -[f64_is_nan f64_of_N]. unfold abs_entry, abs_key. cbn -[f64_is_nan f64_of_N]. rewrite Gs. unfold abs_desc. cbn -[f64_is_nan f64_of_N].
      assert (Hn'' : n < 2 ^ 53) by (etrans; [exact Hn'|done]). by rewrite (proj1 (f64_of_N_ok n Hn'')).
    - cbn. constructor; [by intros ?%elem_of_nil|constructor]. }
  eexists. split; [|exact Sh]. split.
  - apply abs_object_Some. eexists. split; [|done]. apply get_object_base_Ok. by exists obj.
  - right. split; [by eexists _, _, _|]. eexists. by apply get_heap_object_Ok.
Qed.

Lemma length_value_fun x m m' : length_value x m -> length_value x m' -> m' = m.
Proof. intros (f & -> & _ & _ & A & _) (g & [= <-] & _ & _ & B & _). congruence. Qed.
Lemma shrink_deletes_tail v n es p x m ok v' : array_shape v n true es -> array_bounded n es ->
  ap_value p = Some x -> length_value x m -> m < n -> ~ rejects (ao_extensible v) (Some (alength n true)) (with_value p (anum m)) ->
  define_spec v akey_length p ok v' ->
  exists stop w' es', array_shape v' stop w' es' /\ m <= stop /\ (ok = true <-> stop = m) /\
    (forall k d, (k, d) ∈ es' <-> (k, d) ∈ es /\ forall i, akey_index k i -> i < stop) /\
    (stop = m \/ exists k d, (k, d) ∈ es /\ akey_index k (stop - 1) /\ a_configurable d = false) /\
    (forall k d i, (k, d) ∈ es -> akey_index k i -> stop <= i -> a_configurable d = true).
Proof.
  intros Sh B Hx Hm Hlt Hrej S. pose proof (define_spec_shape False _ _ _ _ _ S) as [_ K]. destruct (K _ _ _ Sh) as (n2 & w2 & es2 & Sh2 & _).
  destruct S as [Ha S|n' w' es' Sh' S]; [by rewrite (ar_len _ _ _ _ Sh) in Ha|].
  destruct (array_shape_fun _ _ _ _ _ _ _ Sh Sh') as (-> & -> & ->).
  destruct S as [Hk|Hk|j Hj|j Hj|j Hj|Hk Hv|Hk Hv|x' Hk Hv Hno|x' m' Hk Hv Hm' Hor|x' m' Hk Hv Hm' Hle|x' m' stop es' Hk Hv Hm' Hlt' _ _ Hcut [Hsub Hkeep]];
    try done; try (by destruct (length_not_index j)); try (rewrite Hx in Hv; injection Hv as <-); try congruence.
  - by destruct (Hno m).
  - pose proof (length_value_fun _ _ _ Hm Hm') as ->. destruct Hor as [[_ ?]|?]; done.
  - pose proof (length_value_fun _ _ _ Hm Hm') as ->. lia.
  - pose proof (length_value_fun _ _ _ Hm Hm') as ->. destruct Hcut as (C1 & C2 & C3).
    exists stop, w2, es2. pose proof (ar_len _ _ _ _ Sh2) as L2. pose proof (ar_props _ _ _ _ Sh2) as P2. cbn in L2, P2. unfold alength in P2.
    injection L2 as <-. injection P2 as Ew Ees. subst w2 es2. split; [done|]. split; [done|]. split; [by rewrite bool_decide_eq_true|].
    split; [|split].
    + intros k d. split.
      * intros Hin. assert (Hes : (k, d) ∈ es) by (eapply elem_of_submseteq; [exact Hin|by apply sublist_submseteq]). split; [done|].
        intros i Hi. destruct (decide (i < stop)); [done|]. exfalso. apply (proj1 (Hkeep k d Hes) Hin). exists i. split; [done|].
        split; [lia|]. by eapply B.
      * intros [Hes Hall]. apply (Hkeep k d Hes). intros (i & Hi & Hr). specialize (Hall i Hi). lia.
    + destruct C3 as [->|(k & d & i & Hin & Hi & _ & -> & _ & Hc)]; [by left|]. right. exists k, d. replace (i + 1 - 1) with i by lia. done.
    + intros k d i Hin Hi Hs. apply (C2 k d i Hin Hi). split; [done|]. by eapply B.
Qed.

(** *** Example heaps *)
(** An array with elements "0", "1", ..., the second of which is not configurable. *)
Definition ex_arr : heap_id := HId 1 0.
Definition ex_length : heap_id := HId 2 0.
Definition ex_elem (n : nat) : heap_id := HId (3 + n) 0.
Definition elem_patch (configurable : bool) : descriptor_patch :=
  PPatch (Some true) (Some configurable) (Some (VNumber (f64_of_N 7))) (Some true) None None.
Definition length_patch (n : N) : descriptor_patch := PPatch None None (Some (VNumber (f64_of_N n))) None None None.
Definition ex_add (configurable : bool) (n : nat) : list op :=
  [OpAllocString [48 + N.of_nat n]; OpAddRoot (VString (ex_elem n)); OpDefineOwn ex_arr (PKString (ex_elem n)) (elem_patch configurable)].
Definition ex_new : list op := [OpAllocArray 0; OpAddRoot (VObject ex_arr); OpAllocString length_units; OpAddRoot (VString ex_length)].
Definition ex_ops : list op := ex_new ++ ex_add true 0 ++ ex_add false 1 ++ ex_add true 2.
Definition ex_heap : heap := run ex_ops demo_heap.
Lemma ex_disciplined : disciplined_state ex_heap.
Proof. exists demo_layout, 1000000, 1000000, ex_ops. split; [apply demo_limits|]. split; [|done]. apply disc_b_ok. vm_compute. reflexivity. Qed.
Definition ex_elems : list (akey * adesc) :=
  [(AKStr [48], ADesc true true (AData (anum 7) true)); (AKStr [49], ADesc true false (AData (anum 7) true)); (AKStr [50], ADesc true true (AData (anum 7) true))].
Definition ex_view : aobj := AObject None true (Some 3) ((akey_length, alength 3 true) :: ex_elems).
Lemma ex_shape : array_shape ex_view 3 true ex_elems.
Proof. constructor; [done|done|done|]. apply (bool_decide_unpack _). vm_compute. reflexivity. Qed.
Lemma ex_well_formed : well_formed ex_heap ex_arr ex_view.
Proof.
  split; [vm_compute; reflexivity|]. right. split; [eexists _, _, _; apply ex_shape|]. 
  destruct (get_heap_object ex_heap ex_arr) as [[| |b| | |]| |] eqn:E; vm_compute in E; try discriminate E. by exists b.
Qed.

(** A heap of 5500 bytes, nearly full. *)
Definition full_ops : list op :=
  ex_new ++ concat (map (ex_add true) (seq 0 9)) ++ [OpAllocString (replicate 800 97); OpAddRoot (VString (HId 12 0))].
Definition full_heap : heap := run full_ops (heap_new demo_layout 5500 5500).
Lemma full_disciplined : disciplined_state full_heap.
Proof.
  exists demo_layout, 5500, 5500, full_ops. split; [repeat split; vm_compute; reflexivity|]. split; [|done]. apply disc_b_ok. vm_compute. reflexivity.
Qed.

Lemma unbounded h o v n w es k d i : abs_object h o = Some v -> array_shape v n w es -> (k, d) ∈ es -> akey_index k i -> n <= i -> ~ bounded_array h o.
Proof.
  intros V Sh Hin Hi Hn (v' & n' & w' & es' & [V' _] & Sh' & B). assert (v' = v) by congruence. subst v'.
  destruct (array_shape_fun _ _ _ _ _ _ _ Sh Sh') as (-> & -> & ->). specialize (B k d i Hin Hi). lia.
Qed.
Definition seven (n : nat) : akey * adesc := (AKStr [48 + N.of_nat n], ADesc true true (AData (anum 7) true)).
Definition full_view : aobj := AObject None true (Some 9) ((akey_length, alength 9 true) :: map seven (seq 0 9)).
Definition cut_view : aobj := AObject None true (Some 0) ((akey_length, alength 0 true) :: map seven (seq 0 7)).
Lemma full_bounded : bounded_array full_heap ex_arr.
Proof.
  exists full_view, 9, true, (map seven (seq 0 9)). split; [|split].
  - split; [vm_compute; reflexivity|]. right. split.
    + exists 9, true, (map seven (seq 0 9)). constructor; [done|done|done|]. apply (bool_decide_unpack _). vm_compute. reflexivity.
    + destruct (get_heap_object full_heap ex_arr) as [[| |b| | |]| |] eqn:E; vm_compute in E; try discriminate E. by exists b.
  - constructor; [done|done|done|]. apply (bool_decide_unpack _). vm_compute. reflexivity.
  - assert (A : forall n, (n < 9)%nat -> akey_index (fst (seven n)) (N.of_nat n)).
    { intros n Hn. do 9 (destruct n as [|n]; [vm_compute; done|]). lia. }
    intros k d i Hin Hi. apply elem_of_list_fmap in Hin as (n & En & Hn%elem_of_list_In%in_seq).
    pose proof (A n ltac:(lia)) as Hs. rewrite <- En in Hs. cbn in Hs. rewrite (akey_index_fun _ _ _ Hi Hs). lia.
Qed.
Lemma full_cut : abs_object (fst (exec (OpDefineOwn ex_arr (PKString ex_length) (length_patch 0)) full_heap)) ex_arr = Some cut_view.
Proof. vm_compute. reflexivity. Qed.
Lemma cut_unbounded h o : abs_object h o = Some cut_view -> ~ bounded_array h o.
Proof.
  intros V. apply (unbounded _ _ cut_view 0 true (map seven (seq 0 7)) (AKStr [48]) (snd (seven 0)) 0); [done|..].
  - constructor; [done|done|done|]. apply (bool_decide_unpack _). vm_compute. reflexivity.
  - cbn. left.
  - by vm_compute.
  - done.
Qed.
Lemma ex_bounded : bounded_array ex_heap ex_arr.
Proof.
  exists ex_view, 3, true, ex_elems. split; [apply ex_well_formed|]. split; [apply ex_shape|].
  assert (A : akey_index (AKStr [48]) 0 /\ akey_index (AKStr [49]) 1 /\ akey_index (AKStr [50]) 2) by (by vm_compute).
  destruct A as (A0 & A1 & A2). intros k d i Hin Hi. unfold ex_elems in Hin.
  repeat (apply elem_of_cons in Hin as [[= -> ->]|Hin]; [first [rewrite (akey_index_fun _ _ _ Hi A0)|rewrite (akey_index_fun _ _ _ Hi A1)|rewrite (akey_index_fun _ _ _ Hi A2)]; lia|]).
  by apply elem_of_nil in Hin.
Qed.
Definition raw_view : aobj := AObject None true (Some 0) ((akey_length, alength 0 true) :: ex_elems).
Lemma raw_unbounded : ~ bounded_array (fst (exec (OpSetExisting ex_arr (PKString ex_length) (VNumber (f64_of_N 0))) ex_heap)) ex_arr.
Proof.
  apply (unbounded _ _ raw_view 0 true ex_elems (AKStr [48]) (ADesc true true (AData (anum 7) true)) 0).
  - vm_compute. reflexivity.
  - constructor; [done|done|done|]. apply (bool_decide_unpack _). vm_compute. reflexivity.
  - left.
  - by vm_compute.
  - done.
Qed.

(** Deciders for the examples. *)
Definition staleb (a : aval) : bool := match a with AStale _ => true | _ => false end.
Definition good_keyb (k : akey) : bool := match k with AKStale _ => false | _ => true end.
Definition opt_goodb (a : option aval) : bool := match a with Some x => negb (staleb x) | None => true end.
Definition typed_callb (c : op) (h : heap) : bool :=
  match c with
  | OpDefineOwn _ k p | OpDefineOrThrow _ k p => good_keyb (abs_key h k) &&
      (opt_goodb (ap_value (abs_patch h p)) && opt_goodb (ap_get (abs_patch h p)) && opt_goodb (ap_set (abs_patch h p)))
  | OpCreateData _ k x | OpCreateDataOrThrow _ k x | OpSet _ k x _ => good_keyb (abs_key h k) && negb (staleb (abs_value h x))
  | OpDelete _ k | OpDeleteOrThrow _ k => good_keyb (abs_key h k)
  | _ => true
  end.
Lemma opt_goodb_ok a : opt_goodb a = true -> forall x, a = Some x -> ~ stale x.
Proof. intros H x -> Hs. destruct x; try destruct Hs. discriminate H. Qed.
Lemma good_keyb_ok k : good_keyb k = true -> good_key k.
Proof. by destruct k. Qed.
Lemma staleb_ok a : negb (staleb a) = true -> ~ stale a.
Proof. intros H Hs. destruct a; try destruct Hs. discriminate H. Qed.
Lemma typed_callb_ok c h : typed_callb c h = true -> typed_call c h.
Proof.
  destruct c; cbn [typed_callb typed_call]; try done; rewrite ?andb_true_iff; intros H;
    repeat match goal with H : _ /\ _ |- _ => destruct H end; repeat split; try apply opt_goodb_ok; auto using good_keyb_ok, staleb_ok.
Qed.
Fixpoint each_callb (P : op -> heap -> bool) (cs : list op) (h : heap) : bool :=
  match cs with [] => true | OpScope _ :: _ => false | c :: cs => P c h && each_callb P cs (fst (exec c h)) end.
Lemma each_callb_ok (P : op -> heap -> bool) (Q : op -> heap -> Prop) cs h : (forall c h, P c h = true -> Q c h) -> each_callb P cs h = true -> each_call Q cs h.
Proof.
  intros HP. revert h. induction cs as [|c cs IH]; intros h Hb; [done|].
  assert (Hc : P c h && each_callb P cs (fst (exec c h)) = true /\ each Q c h = Q c h) by (destruct c; done).
  destruct Hc as [[H1 H2]%andb_true_iff Hq]. cbn [each_call]. rewrite Hq. auto.
Qed.
Definition no_oomb (c : op) (h : heap) : bool := match snd (exec c h) with Err EOutOfMemory => false | _ => true end.
Lemma no_oomb_ok c h : no_oomb c h = true -> no_oom c h.
Proof. unfold no_oomb, no_oom. intros Hb E. by rewrite E in Hb. Qed.
