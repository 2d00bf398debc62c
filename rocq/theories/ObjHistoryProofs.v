(** Essential invariants and array bounds over histories. *)
From stdpp Require Import base decidable list numbers sets sorting.
From Coq Require Import NArith ZArith Lia.
From RecordUpdate Require Import RecordUpdate.
From Verif Require Import VmBase HeapModel HeapObjModel HeapSpec HeapGcProofs HeapInvProofs HeapObjProofs
  ObjectOpsModel ObjectOpsProofs HeapTidyProofs HeapSafeProofs HeapSafeOps HeapSafeOps2 HeapSafeOps3 HeapHistory HeapHistoryProofs
  HeapFrameProofs HeapApiProofs
  KeySpec KeyProofs ObjSpec ObjHistorySpec ObjViewProofs ObjDefineProofs ObjOpsProofs ObjArrayProofs ObjTopProofs ObjEssentialProofs.

Open Scope N_scope.

(** *** Shape and bounds of arrays *)
Definition bounded (v : aobj) : Prop := forall n w es, array_shape v n w es -> array_bounded n es.

Lemma array_shape_fun v n w es n' w' es' : array_shape v n w es -> array_shape v n' w' es' -> n' = n /\ w' = w /\ es' = es.
Proof.
  intros S S'. pose proof (ar_props _ _ _ _ S) as H. rewrite (ar_props _ _ _ _ S') in H. pose proof (ar_len _ _ _ _ S) as L. rewrite (ar_len _ _ _ _ S') in L.
  injection L as ->. unfold alength in H. simplify_eq. done.
Qed.
Lemma fst_aput k d ps x : x ∈ map fst (aput k d ps) <-> x = k \/ x ∈ map fst ps.
Proof. induction ps as [|[j e] ps IH]; cbn; [set_solver|]. destruct (decide (j = k)) as [->|]; cbn; set_solver. Qed.
Lemma nodup_aput k d ps : NoDup (map fst ps) -> NoDup (map fst (aput k d ps)).
Proof.
  induction ps as [|[j e] ps IH]; cbn; [intros; repeat constructor; set_solver|]. intros [H1 H2]%NoDup_cons.
  destruct (decide (j = k)) as [->|]; cbn; constructor; auto. rewrite fst_aput. set_solver.
Qed.
Lemma in_aput k d ps k' d' : (k', d') ∈ aput k d ps -> k' = k \/ (k', d') ∈ ps.
Proof. induction ps as [|[j e] ps IH]; cbn; [set_solver|]. destruct (decide (j = k)) as [->|]; set_solver. Qed.
Lemma sublist_fst (ps qs : list (akey * adesc)) x : ps `sublist_of` qs -> x ∈ map fst ps -> x ∈ map fst qs.
Proof.
  intros Hs Hi. apply elem_of_list_fmap in Hi as (y & -> & Hi). apply elem_of_list_fmap. exists y. split; [done|].
  eapply elem_of_submseteq; [exact Hi|by apply sublist_submseteq].
Qed.
Lemma shape_nodup v n w es : array_shape v n w es -> NoDup (map fst es) /\ akey_length ∉ map fst es.
Proof. intros Sh. pose proof (ar_nodup _ _ _ _ Sh) as H. rewrite (ar_props _ _ _ _ Sh) in H. cbn in H. by apply NoDup_cons in H as [? ?]. Qed.
Lemma shape_sub v n w es m w' es' : array_shape v n w es -> m < 2 ^ 32 -> es' `sublist_of` es -> array_shape (array_with v m w' es') m w' es'.
Proof.
  intros Sh Hm Hs. destruct (shape_nodup _ _ _ _ Sh) as [H1 H2]. eapply array_with_shape; eauto; [by eapply sublist_nodup_fst|].
  intros H. apply H2. by eapply sublist_fst.
Qed.

Lemma array_define_bounded v n w es k p ok v' : array_shape v n w es -> array_define_spec v n w es k p ok v' ->
  exists n' w' es', array_shape v' n' w' es' /\ (array_bounded n es -> array_bounded n' es').
Proof.
  intros Sh H. destruct (shape_nodup _ _ _ _ Sh) as [H1 H2]. inversion H; simplify_eq; try (by eauto 8).
  - exists n, w, (aput k (merged (own v k) p) es). split.
    + eapply array_with_shape; eauto; [apply Sh|by apply nodup_aput|]. rewrite fst_aput. intros [?|?]; done.
    + intros B k' d i [->|Hi]%in_aput Hx; [by destruct (H3 i)|eauto].
  - assert (Hkl : k <> akey_length) by (intros ->; by eapply length_not_index). assert (Hi32 : i < 2 ^ 32 - 1) by apply H0. pose proof (ar_range _ _ _ _ Sh).
    exists (N.max n (i + 1)), w, (aput k (merged (own v k) p) es). split.
    + eapply array_with_shape; eauto; [lia|by apply nodup_aput|]. rewrite fst_aput. intros [?|?]; done.
    + intros B k' d j [->|Hj]%in_aput Hx; [rewrite (akey_index_fun _ _ _ Hx H0); lia|]. specialize (B _ _ _ Hj Hx). lia.
  - eexists _, _, _. split; [by eapply shape_sub; [|apply Sh|]|done].
  - assert (n0 < 2 ^ 32) by (destruct H4 as (f & _ & _ & _ & _ & ?); done).
    eexists _, _, _. split; [by eapply shape_sub|]. intros B k' d j Hj Hx. specialize (B _ _ _ Hj Hx). lia.
  - assert (n0 < 2 ^ 32) by (destruct H4 as (f & _ & _ & _ & _ & ?); done). destruct H8 as (Hc1 & _ & Hc2). destruct H9 as [Hs Hg].
    pose proof (ar_range _ _ _ _ Sh).
    eexists _, _, _. split; [eapply shape_sub; eauto|].
    + destruct Hc2 as [->|(k' & d & i & _ & _ & Hi & -> & _)]; lia.
    + intros B k' d j Hj Hx. assert (Hj' : (k', d) ∈ es) by (eapply elem_of_submseteq; [exact Hj|by apply sublist_submseteq]).
      specialize (B _ _ _ Hj' Hx). destruct (decide (j < stop)); [done|]. exfalso. apply (Hg _ _ Hj') in Hj. apply Hj. exists j. split; [done|]. lia.
Qed.

Definition keeps_shape (oom : Prop) (v v' : aobj) : Prop :=
  (ao_array v = None -> ao_array v' = None) /\
  forall n w es, array_shape v n w es -> exists n' w' es', array_shape v' n' w' es' /\ (~ oom -> array_bounded n es -> array_bounded n' es').
Lemma keeps_shape_refl P v : keeps_shape P v v.
Proof. split; [done|]. intros n w es Sh. exists n, w, es. auto. Qed.
Lemma define_spec_shape P v k p ok v' : define_spec v k p ok v' -> keeps_shape P v v'.
Proof.
  intros [Ha H|n w es Sh H]; split.
  - by destruct H.
  - intros n w es Sh. rewrite (ar_len _ _ _ _ Sh) in Ha. done.
  - rewrite (ar_len _ _ _ _ Sh). done.
  - intros n1 w1 es1 Sh1. destruct (array_shape_fun _ _ _ _ _ _ _ Sh Sh1) as (-> & -> & ->).
    destruct (array_define_bounded _ _ _ _ _ _ _ _ Sh H) as (n' & w' & es' & S' & B). exists n', w', es'. auto.
Qed.
Lemma define_oom_shape (P : Prop) v k p v' : P -> define_oom v k p v' -> keeps_shape P v v'.
Proof.
  intros HP [|n es x m es' Sh _ _ Hm _ _ Hs _]; [apply keeps_shape_refl|]. split; [by rewrite (ar_len _ _ _ _ Sh)|].
  intros n1 w1 es1 Sh1. destruct (array_shape_fun _ _ _ _ _ _ _ Sh Sh1) as (-> & -> & ->).
  assert (m < 2 ^ 32) by (destruct Hm as (f & _ & _ & _ & _ & ?); done).
  exists m, true, es'. split; [by eapply shape_sub|done].
Qed.
Lemma delete_shape P v k ok v' : delete_spec v k ok v' -> keeps_shape P v v'.
Proof.
  intros [|d|d Hd Hc]; [apply keeps_shape_refl..|]. split; [done|]. intros n w es Sh. exists n, w, (aremove k es).
  assert (Hk : k <> akey_length). { intros ->. rewrite (own_length _ _ _ _ Sh) in Hd. injection Hd as <-. done. }
  assert (with_props v (aremove k (ao_props v)) = array_with v n w (aremove k es)) as ->.
  { unfold with_props, array_with. rewrite (ar_props _ _ _ _ Sh), aremove_cons_ne by done. by rewrite (ar_len _ _ _ _ Sh). }
  split; [eapply shape_sub; eauto using aremove_sub; apply Sh|]. intros _ B k' d' i Hi. apply (B k' d').
  eapply elem_of_submseteq; [exact Hi|apply sublist_submseteq, aremove_sub].
Qed.
Lemma prevent_shape P v : keeps_shape P v (with_extensible v false).
Proof. split; [done|]. intros n w es [A B C D]. exists n, w, es. split; [by constructor|done]. Qed.

(** *** Liveness and contents across calls *)
Lemma evolves_kept s s' k : sl_gen s < two32 -> sl_gen s' = (sl_gen s + k) mod two32 -> sl_gen s' = sl_gen s -> k < two32 ->
  k = 0.
Proof.
  clear. intros Hg Hk E Hl. rewrite E in Hk. destruct (decide (sl_gen s + k < two32)); [rewrite N.mod_small in Hk by done; lia|].
  replace (sl_gen s + k) with (sl_gen s + k - two32 + 1 * two32) in Hk by lia. rewrite N.mod_add in Hk by done.
  rewrite N.mod_small in Hk by lia. lia.
Qed.
Lemma evolves_same h h' id x x' : heap_ok h -> evolves h h' -> h_gc_runs h' < h_gc_runs h + two32 -> live_as h id x -> live_as h' id x' -> same_kind x x'.
Proof.
  intros H V Hr (hs & s & A1 & A2 & A3 & _) (hs' & s' & B1 & B2 & B3 & _).
  destruct (ev_slots _ _ V _ _ A1) as (s1 & k & C1 & C2 & C3 & C4). assert (s1 = s') by congruence. subst s1.
  pose proof (so_gen _ _ (hk_slots h H _ _ A1)) as Hg. pose proof (ev_runs _ _ V).
  assert (k = 0) as -> by (apply (evolves_kept s s'); auto; [congruence|lia]).
  destruct (C4 eq_refl x A3) as (o2 & D1 & D2). congruence.
Qed.
Lemma evolves_between h h1 h2 o : heap_ok h -> evolves h h1 -> evolves h1 h2 -> h_gc_runs h2 < h_gc_runs h + two32 ->
  live h o -> live h2 o -> live h1 o.
Proof.
  intros H V1 V2 Hr (x & hs & s & A1 & A2 & A3 & _) (x' & hs' & s' & B1 & B2 & B3 & _).
  destruct (ev_slots _ _ V1 _ _ A1) as (s1 & k & C1 & C2 & C3 & C4).
  destruct (ev_slots _ _ V2 _ _ C1) as (s2 & k' & D1 & D2 & D3 & _). assert (s2 = s') by congruence. subst s2.
  pose proof (so_gen _ _ (hk_slots h H _ _ A1)) as Hg. pose proof (ev_runs _ _ V1). pose proof (ev_runs _ _ V2).
  assert (k + k' = 0) as Hk.
  { apply (evolves_kept s s'); auto; [|congruence|lia]. rewrite D3, C3, N.add_mod_idemp_l by done. f_equal. lia. }
  assert (k = 0) as -> by lia. destruct (C4 eq_refl x A3) as (o2 & E1 & _). exists o2, (sl_host s1), s1. split; [done|]. split; [|done].
  rewrite C3, N.add_0_r, N.mod_small by done. congruence.
Qed.
Lemma evolves_string h h' s : heap_ok h -> evolves h h' -> h_gc_runs h' < h_gc_runs h + two32 -> live h s -> live h' s -> get_string h' s = get_string h s.
Proof.
  intros H V Hr [x Hx] [x' Hx']. pose proof (evolves_same _ _ _ _ _ H V Hr Hx Hx') as K.
  rewrite (get_string_live_as _ _ _ Hx), (get_string_live_as _ _ _ Hx'). destruct x as [| | | |[]|], x' as [| | | |[]|]; cbn in K; try done; by subst.
Qed.
(** An object that keeps its contents keeps its view. *)
Lemma view_kept h h' o x : heap_ok h -> no_dangling h -> no_dangling h' -> evolves h h' -> h_gc_runs h' < h_gc_runs h + two32 ->
  live_as h o x -> live_as h' o x -> abs_object h' o = abs_object h o.
Proof.
  intros H N1 N2 V Hr L1 L2. unfold abs_object. destruct (base_of x) as [b|] eqn:Hb.
  - rewrite (proj2 (get_object_base_Ok h o b)), (proj2 (get_object_base_Ok h' o b)) by eauto. f_equal. apply abs_base_ext.
    intros s Hs. apply (object_has_base _ _ _ Hb) in Hs. apply evolves_string; auto; [by apply (proj2 N1 _ _ _ L1)|by apply (proj2 N2 _ _ _ L2)].
  - assert (Hno : forall h0, live_as h0 o x -> match get_object_base h0 o with Ok b => False | _ => True end).
    { intros h0 L. destruct (get_object_base h0 o) as [b| |] eqn:E; [|done..]. apply get_object_base_Ok in E as (y & Hy & Hyb).
      rewrite (live_as_fun _ _ _ _ Hy L) in Hyb. congruence. }
    pose proof (Hno h L1). pose proof (Hno h' L2). by destruct (get_object_base h o), (get_object_base h' o).
Qed.

(** *** One call *)
Definition oomed {A} (r : res A) : Prop := r = Err EOutOfMemory.
Lemma define_result_shape v k p r v' : define_result v k p r v' -> keeps_shape (oomed r) v v'.
Proof.
  intros [(ok & _ & H)|[(_ & _ & ->)|(-> & H)]]; [by eapply define_spec_shape|apply keeps_shape_refl|by eapply define_oom_shape].
Qed.
Lemma delete_result_shape v k r v' : delete_result v k r v' -> keeps_shape (oomed r) v v'.
Proof. intros [(ok & _ & H)|(_ & ->)]; [by eapply delete_shape|apply keeps_shape_refl]. Qed.
Lemma set_result_shape v k x r v' : set_result v k x r v' -> keeps_shape (oomed r) v v'.
Proof. intros [[-> _]|[[_ H]|[_ H]]]; [apply keeps_shape_refl|by eapply define_result_shape..]. Qed.
Lemma or_throw_shape (Q : res bool -> aobj -> Prop) v r v' : (forall r v', Q r v' -> keeps_shape (oomed r) v v') -> or_throw Q r v' -> keeps_shape (oomed r) v v'.
Proof.
  intros H [[-> Hq]|[[-> Hq]|[(e & -> & Hq)|[-> Hq]]]]; apply H in Hq; destruct Hq as [K1 K2]; split; auto; intros n w es Sh;
    destruct (K2 n w es Sh) as (n' & w' & es' & S' & B); exists n', w', es'; (split; [done|]); intros Hn; apply B; unfold oomed in *; congruence.
Qed.

Definition stepped (oom : Prop) (h' : heap) (o : heap_id) (v : aobj) : Prop :=
  exists v', well_formed h' o v' /\ essential v v' /\ keeps_shape oom v v'.
Lemma shaped_kept P v v' : shaped v -> keeps_shape P v v' -> shaped v'.
Proof. intros [Ha|(n & w & es & Sh)] [K1 K2]; [left; auto|]. right. destruct (K2 _ _ _ Sh) as (n' & w' & es' & S' & _). eauto. Qed.
Lemma wf_shaped h o v : abs_object h o = Some v -> shaped v -> (ao_array v <> None -> exists b, live_as h o (HObject b)) -> well_formed h o v.
Proof.
  intros V [Ha|Hs] K; [split; auto|]. split; [done|]. right. split; [done|]. destruct Hs as (n & w & es & Sh).
  destruct K as (b & Hb); [by rewrite (ar_len _ _ _ _ Sh)|]. exists b. by apply get_heap_object_Ok.
Qed.
Lemma top_step {A} (m : M A) (Q : res A -> aobj -> Prop) h o v : ready h o v -> top o v h m Q ->
  (forall r v', Q r v' -> essential v v') -> (forall r v', Q r v' -> keeps_shape (oomed r) v v') ->
  live (fst (m h)) o -> stepped (oomed (snd (m h))) (fst (m h)) o v.
Proof.
  intros R T He Hk L. destruct (m h) as [h' r] eqn:E. destruct (T _ _ E) as [_ [(v' & V & K & Hq)|[Hr K]]]; cbn in L |- *.
  - exists v'. split; [|split; [by eapply He|by eapply Hk]]. apply wf_shaped; auto. eapply shaped_kept; [by eapply ready_shaped|by eapply Hk].
  - destruct (K L) as [V K']. exists v. split; [apply wf_shaped; auto; by eapply ready_shaped|]. split; [apply essential_refl|apply keeps_shape_refl].
Qed.
Lemma void_snd {A} (m : M A) h : oomed (snd (void m h)) <-> oomed (snd (m h)).
Proof. unfold void, mbind. destruct (m h) as [h1 [a|e|]]; cbn; unfold oomed; split; congruence. Qed.
Lemma stepped_iff P P' h o v : (P <-> P') -> stepped P h o v -> stepped P' h o v.
Proof.
  intros HP (v' & W & E & K1 & K2). exists v'. split; [done|]. split; [done|]. split; [done|]. intros n w es Sh.
  destruct (K2 n w es Sh) as (n' & w' & es' & S' & B). exists n', w', es'. split; [done|]. intros Hn. apply B. tauto.
Qed.

Lemma unwritten_step c h o v : heap_ok h -> no_dangling h -> no_dangling (fst (exec c h)) -> o ∉ op_writes c ->
  h_gc_runs (fst (exec c h)) < h_gc_runs h + two32 -> well_formed h o v -> live (fst (exec c h)) o ->
  stepped (oomed (snd (exec c h))) (fst (exec c h)) o v.
Proof.
  intros H N N' Hw Hr W L. destruct (exec c h) as [h' r] eqn:E. cbn [fst snd] in *.
  destruct (good_exec c _ _ _ H E) as (H' & _ & V). destruct (fr_exec c _ _ _ H E) as [_ K].
  pose proof (ready_live h o v (Build_ready _ _ _ H N W)) as [x Lx]. destruct L as [x' Lx'].
  assert (x' = x) as -> by (eapply (keeps_live _ h h' o x x'); eauto).
  exists v. split; [|split; [apply essential_refl|apply keeps_shape_refl]]. destruct W as [W1 W2]. split; [by rewrite (view_kept h h' o x)|].
  destruct W2 as [?|[? (b & Hb)]]; [by left|]. right. split; [done|]. exists b. apply get_heap_object_Ok in Hb. rewrite (live_as_fun _ _ _ _ Lx Hb) in Lx'.
  by apply get_heap_object_Ok.
Qed.

Lemma handles_key k : key_handles k = trace_key k.
Proof. by destruct k. Qed.
Lemma handles_values vs : values_handles vs = trace_values vs.
Proof. done. Qed.
Lemma handles_patch p : patch_handles p = trace_values (patch_values p).
Proof. done. Qed.

Lemma call_step c h o v : (forall body, c <> OpScope body) -> heap_ok h -> no_dangling h -> disciplined c h -> typed_call c h -> internal_method o c h ->
  h_gc_runs (fst (exec c h)) < h_gc_runs h + two32 -> well_formed h o v -> live (fst (exec c h)) o ->
  stepped (oomed (snd (exec c h))) (fst (exec c h)) o v.
Proof.
  intros Hns H N D Ty Im Hr W L. destruct (safe_exec c h H N D) as [N' _].
  destruct (decide (o ∈ op_writes c)) as [Hw|Hw]; [|by apply unwritten_step]. specialize (Im Hw).
  pose proof (Build_ready h o v H N W) as R.
  destruct c; try (by destruct Im); cbn [exec typed_call disciplined op_writes] in *; try (by destruct (Hns body));
    try (apply elem_of_list_singleton in Hw; subst o0).
  - subst b. eapply top_step; [done|by apply top_set_extensible|..|done].
    + intros r v' [_ ->]. apply prevent_essential.
    + intros r v' [_ ->]. apply prevent_shape.
  - rewrite void_fst in *. eapply stepped_iff; [symmetry; apply void_snd|]. cbn [op_handles] in D. rewrite handles_key, handles_patch in D.
    eapply top_step; [done|apply top_define_own; auto; try (intros x Hx; apply D; set_solver); apply Ty|..|done]; [apply define_result_essential|apply define_result_shape].
  - cbn [op_handles] in D. rewrite handles_key, handles_patch in D.
    eapply top_step; [done|apply top_define_or_throw; auto; try (intros x Hx; apply D; set_solver); apply Ty|..|done].
    + intros r v'. apply or_throw_any. apply define_result_essential.
    + intros r v'. apply or_throw_shape. apply define_result_shape.
  - rewrite void_fst in *. eapply stepped_iff; [symmetry; apply void_snd|]. cbn [op_handles] in D. rewrite handles_key, handles_values in D.
    eapply top_step; [done|apply top_create_data; auto; try (intros x Hx; apply D; set_solver); apply Ty|..|done]; [apply define_result_essential|apply define_result_shape].
  - cbn [op_handles] in D. rewrite handles_key, handles_values in D.
    eapply top_step; [done|apply top_or_throw, top_create_data; auto; try (intros x Hx; apply D; set_solver); apply Ty|..|done].
    + intros r v'. apply or_throw_any. apply define_result_essential.
    + intros r v'. apply or_throw_shape. apply define_result_shape.
  - rewrite void_fst in *. eapply stepped_iff; [symmetry; apply void_snd|]. cbn [op_handles] in D. rewrite handles_key in D.
    eapply top_step; [done|apply top_delete; auto; intros x Hx; apply D; set_solver|..|done]; [apply delete_result_essential|apply delete_result_shape].
  - cbn [op_handles] in D. rewrite handles_key in D.
    eapply top_step; [done|apply top_delete_or_throw; auto; intros x Hx; apply D; set_solver|..|done].
    + intros r v'. apply or_throw_any. apply delete_result_essential.
    + intros r v'. apply or_throw_shape. apply delete_result_shape.
  - subst receiver. rewrite void_fst in *. eapply stepped_iff; [symmetry; apply void_snd|]. cbn [op_handles] in D.
    rewrite handles_key, handles_values, !trace_values_cons in D.
    eapply top_step; [done|apply top_set; auto; try (intros x Hx; apply D; cbn in Hx |- *; set_solver); try apply Ty|..|done].
    + apply D. left.
    + apply set_result_essential.
    + apply set_result_shape.
Qed.

(** *** Histories *)
Lemma stepped_trans (P Q R : Prop) h' h'' o v : (~ R -> ~ P /\ ~ Q) -> stepped P h' o v -> (forall v', well_formed h' o v' -> stepped Q h'' o v') -> stepped R h'' o v.
Proof.
  intros HR (v' & W & E & K1 & K2) H2. destruct (H2 v' W) as (v'' & W2 & E2 & L1 & L2). exists v''. split; [done|].
  split; [by eapply essential_trans|]. split; [auto|]. intros n w es Sh. destruct (K2 _ _ _ Sh) as (n1 & w1 & es1 & S1 & B1).
  destruct (L2 _ _ _ S1) as (n2 & w2 & es2 & S2 & B2). exists n2, w2, es2. split; [done|]. intros Hn. destruct (HR Hn). auto.
Qed.

(** What one call of a history needs. *)
Definition fair (o : heap_id) (c : op) (h : heap) : Prop := each typed_call c h /\ each (internal_method o) c h.
Definition step_ok (o : heap_id) (c : op) : Prop := forall h v, heap_ok h -> no_dangling h -> disciplined c h -> fair o c h ->
  h_gc_runs (fst (exec c h)) < h_gc_runs h + two32 -> well_formed h o v -> live (fst (exec c h)) o ->
  stepped (~ each no_oom c h) (fst (exec c h)) o v.

Lemma exec_evolves c h : heap_ok h -> heap_ok (fst (exec c h)) /\ evolves h (fst (exec c h)).
Proof. intros H. destruct (exec c h) as [h' r] eqn:E. by destruct (good_exec c _ _ _ H E) as (? & _ & ?). Qed.

Lemma run_step o cs : Forall (step_ok o) cs -> forall h v, heap_ok h -> no_dangling h -> disciplined_history cs h ->
  each_call typed_call cs h -> each_call (internal_method o) cs h ->
  h_gc_runs (run cs h) < h_gc_runs h + two32 -> well_formed h o v -> live (run cs h) o ->
  stepped (~ each_call no_oom cs h) (run cs h) o v.
Proof.
  induction 1 as [|c cs Hc _ IH]; intros h v H N D Ty Im Hr W L.
  { exists v. split; [done|]. split; [apply essential_refl|apply keeps_shape_refl]. }
  cbn [run each_call disciplined_history] in *. destruct D as [D1 D2], Ty as [T1 T2], Im as [I1 I2].
  destruct (exec_evolves c h H) as [H1 V1]. destruct (good_run cs _ H1) as [H2 V2]. destruct (safe_exec c h H N D1) as [N1 _].
  pose proof (ev_runs _ _ V1). pose proof (ev_runs _ _ V2).
  assert (L1 : live (fst (exec c h)) o).
  { eapply (evolves_between h _ (run cs (fst (exec c h)))); eauto. eapply ready_live. by constructor. }
  eapply (stepped_trans (~ each no_oom c h) (~ each_call no_oom cs (fst (exec c h)))).
  - intros Hn. split; intros Hx; apply Hn; intros [? ?]; done.
  - apply Hc; auto; [done|]. lia.
  - intros v' W'. apply IH; auto. lia.
Qed.

Lemma each_scope P body h : each P (OpScope body) h = each_call P body h.
Proof. cbn. revert h. induction body as [|c cs IH]; intros h; [done|]. cbn. by rewrite IH. Qed.
Lemma disciplined_scope body h : disciplined (OpScope body) h = disciplined_history body h.
Proof. cbn. revert h. induction body as [|c cs IH]; intros h; [done|]. cbn. by rewrite IH. Qed.
Lemma each_single P c h : (forall body, c <> OpScope body) -> each P c h = P c h.
Proof. intros Hns. destruct c; try done. by destruct (Hns body). Qed.

Lemma all_steps o c : step_ok o c.
Proof.
  induction c as [body IH|c Hns] using op_ind'; intros h v H N D [Ty Im] Hr W L.
  - rewrite each_scope in *. rewrite disciplined_scope in D. rewrite exec_scope_state in *. set (h' := _ <| h_env_roots := _ |>) in *.
    assert (Es : h_slots h' = h_slots (run body h)) by done. apply (live_slots _ _ _ Es) in L.
    destruct (run_step o body IH h v H N D Ty Im Hr W L) as (v' & [V W'] & E & K). exists v'. split; [|done].
    split; [by rewrite (slots_view _ _ _ Es)|]. destruct W' as [?|[? (b & Hb)]]; [by left|right; split; [done|]]. exists b.
    apply get_heap_object_Ok. apply get_heap_object_Ok in Hb. unfold live_as, live_with in *. by rewrite Es.
  - rewrite each_single in * by done. eapply stepped_iff; [|by apply call_step]. unfold no_oom, oomed.
    destruct (snd (exec c h)) as [| []|]; split; intros Hx; try done; try (by exfalso; apply Hx); by intros Hy; apply Hy.
Qed.
Lemma history_step o cs h v : heap_ok h -> no_dangling h -> disciplined_history cs h ->
  each_call typed_call cs h -> each_call (internal_method o) cs h ->
  h_gc_runs (run cs h) < h_gc_runs h + two32 -> well_formed h o v -> live (run cs h) o ->
  stepped (~ each_call no_oom cs h) (run cs h) o v.
Proof. apply run_step. apply Forall_forall. intros c _. apply all_steps. Qed.
