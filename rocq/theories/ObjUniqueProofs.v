(** No two own keys of an object are equal, over every history. *)
From stdpp Require Import base decidable list numbers sets sorting.
From Coq Require Import NArith ZArith Lia.
From RecordUpdate Require Import RecordUpdate.
From Verif Require Import VmBase HeapModel HeapObjModel HeapSpec HeapGcProofs HeapInvProofs HeapObjProofs
  ObjectOpsModel ObjectOpsProofs HeapTidyProofs HeapSafeProofs HeapSafeOps HeapSafeOps2 HeapSafeOps3 HeapHistory HeapHistoryProofs
  HeapFrameProofs HeapApiProofs
  KeySpec KeyProofs ObjSpec ObjHistorySpec ObjViewProofs ObjDefineProofs ObjOpsProofs ObjArrayProofs ObjTopProofs ObjEssentialProofs ObjHistoryProofs ObjApiProofs.

Open Scope N_scope.

Definition distinct (v : aobj) : Prop := NoDup (map fst (ao_props v)).
Definition keeps_distinct (v v' : aobj) : Prop := distinct v -> distinct v'.
Lemma define_spec_distinct v k p ok v' : define_spec v k p ok v' -> keeps_distinct v v'.
Proof.
  intros H. pose proof (define_spec_shape False _ _ _ _ _ H) as [_ K]. destruct H as [Ha H|n w es Sh H]; intros D.
  - destruct H; [done|]. by apply nodup_aput.
  - destruct (K _ _ _ Sh) as (n' & w' & es' & S' & _). apply S'.
Qed.
Lemma define_oom_distinct v k p v' : define_oom v k p v' -> keeps_distinct v v'.
Proof.
  intros H. pose proof (define_oom_shape True _ _ _ _ I H) as [_ K]. destruct H as [|n es x m es' Sh]; intros D; [done|].
  destruct (K _ _ _ Sh) as (n' & w' & es2 & S' & _). apply S'.
Qed.
Lemma delete_distinct v k ok v' : delete_spec v k ok v' -> keeps_distinct v v'.
Proof. intros [|d|d Hd Hc]; intros D; [done..|]. eapply sublist_nodup_fst; [apply aremove_sub|done]. Qed.
Lemma define_result_distinct v k p r v' : define_result v k p r v' -> keeps_distinct v v'.
Proof. intros [(ok & _ & H)|[(_ & _ & ->)|(-> & H)]]; [by eapply define_spec_distinct|by intros ?|by eapply define_oom_distinct]. Qed.
Lemma delete_result_distinct v k r v' : delete_result v k r v' -> keeps_distinct v v'.
Proof. intros [(ok & _ & H)|(_ & ->)]; [by eapply delete_distinct|by intros ?]. Qed.
Lemma set_result_distinct v k x r v' : set_result v k x r v' -> keeps_distinct v v'.
Proof. intros [[-> _]|[[_ H]|[_ H]]]; [by intros ?|by eapply define_result_distinct..]. Qed.
Lemma or_throw_distinct (Q : res bool -> aobj -> Prop) v r v' : (forall r v', Q r v' -> keeps_distinct v v') -> or_throw Q r v' -> keeps_distinct v v'.
Proof. intros H [[-> Hq]|[[-> Hq]|[(e & -> & Hq)|[-> Hq]]]]; by apply H in Hq. Qed.

Definition distinct_step (h' : heap) (o : heap_id) (v : aobj) : Prop := exists v', well_formed h' o v' /\ keeps_distinct v v'.
Lemma top_distinct {A} (m : M A) (Q : res A -> aobj -> Prop) h o v : ready h o v -> top o v h m Q ->
  (forall r v', Q r v' -> keeps_shape (oomed r) v v') -> (forall r v', Q r v' -> keeps_distinct v v') ->
  live (fst (m h)) o -> distinct_step (fst (m h)) o v.
Proof.
  intros R T Hk He L. destruct (m h) as [h' r] eqn:E. destruct (T _ _ E) as [_ [(v' & V & K & Hq)|[Hr K]]]; cbn in L |- *.
  - exists v'. split; [|by eapply He]. apply wf_shaped; auto. eapply shaped_kept; [by eapply ready_shaped|by eapply Hk].
  - destruct (K L) as [V K']. exists v. split; [apply wf_shaped; auto; by eapply ready_shaped|by intros ?].
Qed.
Definition with_prototype (v : aobj) (p : option heap_id) : aobj := AObject p (ao_extensible v) (ao_array v) (ao_props v).
Lemma proto_shape P v p : keeps_shape P v (with_prototype v p).
Proof. split; [done|]. intros n w es [A B C D]. exists n, w, es. split; [by constructor|done]. Qed.
Lemma extensible_shape P v e : keeps_shape P v (with_extensible v e).
Proof. split; [done|]. intros n w es [A B C D]. exists n, w, es. split; [by constructor|done]. Qed.
Lemma top_set_prototype h o v p : ready h o v -> top o v h (object_set_prototype o p) (fun r v' => v' = v \/ r = Ok tt /\ v' = with_prototype v p).
Proof.
  intros R h' r E. unfold object_set_prototype in E. unfold mbind at 1, mread at 1 in E. destruct (rd_wf _ _ _ R) as [V _].
  pose proof V as (b & Hgb & Ev)%abs_object_Some. rewrite Hgb in E. pose proof Hgb as (x & Hx & Hb)%get_object_base_Ok.
  assert (Same : forall r0 : res unit, h' = h -> frame o h h' /\ ((exists v', abs_object h' o = Some v' /\ (ao_array v' <> None -> exists b0, live_as h' o (HObject b0)) /\ (v' = v \/ r0 = Ok tt /\ v' = with_prototype v p)) \/ False)).
  { intros r0 ->. split; [apply frame_refl|]. left. exists v. split; [done|]. split; [|by left]. intros Hk. by apply (ready_kind _ _ _ R). }
  case_bool_decide.
  { injection E as <- <-. destruct (Same (Err EPrototypeCycle) eq_refl) as [F [S|[]]]. split; [done|]. by left. }
  unfold mbind, mread in E. destruct (proto_walk _ _ _ _ _) as [u|e|] eqn:Ew.
  2: { injection E as <- <-. destruct (Same (Err e) eq_refl) as [F [S|[]]]. split; [done|]. by left. }
  2: { injection E as <- <-. destruct (Same Panic eq_refl) as [F [S|[]]]. split; [done|]. by left. }
  clear Same. unfold update_base in E.
  match type of E with update_object o ?g h = _ => destruct (update_object_spec o g h (rd_ok _ _ _ R)) as
    [(e0 & E1 & He)|(y & y' & h1 & Hy & Ey & E1 & U)] end.
  { intros y y'. destruct (base_of y) eqn:Hy; [|done]. cbn. intros [= <-]. eapply set_base_like; eauto. split; [|done]. unfold base_kind_eq. cbn. by destruct (ob_kind o0). }
  { apply update_base_np. done. }
  - exfalso. destruct He as [[_ Hd]|(y & Hy & Ey)]; [destruct Hd; by exists x|].
    rewrite (live_as_fun _ _ _ _ Hy Hx), Hb in Ey. done.
  - rewrite E1 in E. injection E as <- <-. rewrite (live_as_fun _ _ _ _ Hy Hx) in *. rewrite Hb in Ey. cbn in Ey. injection Ey as <-.
    split; [by eapply frame_ustep|]. left. exists (with_prototype v p).
    assert (Hb' : base_of (set_base x (b <| ob_prototype := p |>)) = Some (b <| ob_prototype := p |>)) by (by destruct x).
    split; [|split; [|by right]].
    + apply abs_object_Some. eexists. split.
      * apply get_object_base_Ok. eexists. split; [apply U|]. exact Hb'.
      * rewrite Ev. rewrite (abs_base_ext h h1); [done|]. intros s Hs. eapply ustep_string; eauto.
    + intros Hk. destruct (ready_kind _ _ _ R Hk) as (b0 & Hb0). pose proof (live_as_fun _ _ _ _ Hx Hb0) as ->. eexists. apply U.
Qed.
Lemma unwritten_distinct c h o v : heap_ok h -> no_dangling h -> no_dangling (fst (exec c h)) -> o ∉ op_writes c ->
  h_gc_runs (fst (exec c h)) < h_gc_runs h + two32 -> well_formed h o v -> live (fst (exec c h)) o ->
  distinct_step (fst (exec c h)) o v.
Proof.
  intros H N N' Hw Hr W L. destruct (exec c h) as [h' r] eqn:E. cbn [fst snd] in *.
  destruct (good_exec c _ _ _ H E) as (H' & _ & V). destruct (fr_exec c _ _ _ H E) as [_ K].
  pose proof (ready_live h o v (Build_ready _ _ _ H N W)) as [x Lx]. destruct L as [x' Lx'].
  assert (x' = x) as -> by (eapply (keeps_live _ h h' o x x'); eauto).
  exists v. split; [|by intros ?]. destruct W as [W1 W2]. split; [by rewrite (view_kept h h' o x)|].
  destruct W2 as [?|[? (b & Hb)]]; [by left|]. right. split; [done|]. exists b. apply get_heap_object_Ok in Hb. rewrite (live_as_fun _ _ _ _ Lx Hb) in Lx'.
  by apply get_heap_object_Ok.
Qed.

Lemma call_distinct c h o v : (forall body, c <> OpScope body) -> heap_ok h -> no_dangling h -> disciplined c h -> typed_call c h -> table_method o c h ->
  h_gc_runs (fst (exec c h)) < h_gc_runs h + two32 -> well_formed h o v -> live (fst (exec c h)) o ->
  distinct_step (fst (exec c h)) o v.
Proof.
  intros Hns H N D Ty Im Hr W L. destruct (safe_exec c h H N D) as [N' _].
  destruct (decide (o ∈ op_writes c)) as [Hw|Hw]; [|by apply unwritten_distinct].
  assert (Im' : match c with OpSetPrototype _ _ | OpSetExtensible _ _ => True | _ => internal_method o c h end) by (destruct c; apply Im).
  pose proof (Build_ready h o v H N W) as R.
  destruct c; try (by destruct (Im' Hw)); try specialize (Im' Hw); clear Im; rename Im' into Im; cbn [exec typed_call disciplined op_writes] in *; try (by destruct (Hns body));
    try (apply elem_of_list_singleton in Hw; subst o0).
  - eapply top_distinct; [done|by apply top_set_prototype|..|done].
    + intros r v' [->|[_ ->]]; [apply keeps_shape_refl|apply proto_shape].
    + intros r v' [->|[_ ->]]; by intros ?.
  - eapply top_distinct; [done|by apply top_set_extensible|..|done].
    + intros r v' [_ ->]. apply extensible_shape.
    + intros r v' [_ ->]. by intros ?.
  - rewrite void_fst in *.  cbn [op_handles] in D. rewrite handles_key, handles_patch in D.
    eapply top_distinct; [done|apply top_define_own; auto; try (intros x Hx; apply D; set_solver); apply Ty|..|done]; [apply define_result_shape|apply define_result_distinct].
  - cbn [op_handles] in D. rewrite handles_key, handles_patch in D.
    eapply top_distinct; [done|apply top_define_or_throw; auto; try (intros x Hx; apply D; set_solver); apply Ty|..|done].
    + intros r v'. apply or_throw_shape. apply define_result_shape.
    + intros r v'. apply or_throw_distinct. apply define_result_distinct.
  - rewrite void_fst in *.  cbn [op_handles] in D. rewrite handles_key, handles_values in D.
    eapply top_distinct; [done|apply top_create_data; auto; try (intros x Hx; apply D; set_solver); apply Ty|..|done]; [apply define_result_shape|apply define_result_distinct].
  - cbn [op_handles] in D. rewrite handles_key, handles_values in D.
    eapply top_distinct; [done|apply top_or_throw, top_create_data; auto; try (intros x Hx; apply D; set_solver); apply Ty|..|done].
    + intros r v'. apply or_throw_shape. apply define_result_shape.
    + intros r v'. apply or_throw_distinct. apply define_result_distinct.
  - rewrite void_fst in *.  cbn [op_handles] in D. rewrite handles_key in D.
    eapply top_distinct; [done|apply top_delete; auto; intros x Hx; apply D; set_solver|..|done]; [apply delete_result_shape|apply delete_result_distinct].
  - cbn [op_handles] in D. rewrite handles_key in D.
    eapply top_distinct; [done|apply top_delete_or_throw; auto; intros x Hx; apply D; set_solver|..|done].
    + intros r v'. apply or_throw_shape. apply delete_result_shape.
    + intros r v'. apply or_throw_distinct. apply delete_result_distinct.
  - subst receiver. rewrite void_fst in *.  cbn [op_handles] in D.
    rewrite handles_key, handles_values, !trace_values_cons in D.
    eapply top_distinct; [done|apply top_set; auto; try (intros x Hx; apply D; cbn in Hx |- *; set_solver); try apply Ty|..|done].
    + apply D. left.
    + apply set_result_shape.
    + apply set_result_distinct.
Qed.


Definition distinct_ok (o : heap_id) (c : op) : Prop := forall h v, heap_ok h -> no_dangling h -> disciplined c h -> each typed_call c h -> each (table_method o) c h ->
  h_gc_runs (fst (exec c h)) < h_gc_runs h + two32 -> well_formed h o v -> live (fst (exec c h)) o ->
  distinct_step (fst (exec c h)) o v.
Lemma run_distinct o cs : Forall (distinct_ok o) cs -> forall h v, heap_ok h -> no_dangling h -> disciplined_history cs h ->
  each_call typed_call cs h -> each_call (table_method o) cs h ->
  h_gc_runs (run cs h) < h_gc_runs h + two32 -> well_formed h o v -> live (run cs h) o ->
  distinct_step (run cs h) o v.
Proof.
  induction 1 as [|c cs Hc _ IH]; intros h v H N D Ty Im Hr W L.
  { exists v. split; [done|by intros ?]. }
  cbn [run each_call disciplined_history] in *. destruct D as [D1 D2], Ty as [T1 T2], Im as [I1 I2].
  destruct (exec_evolves c h H) as [H1 V1]. destruct (good_run cs _ H1) as [H2 V2]. destruct (safe_exec c h H N D1) as [N1 _].
  pose proof (ev_runs _ _ V1). pose proof (ev_runs _ _ V2).
  assert (L1 : live (fst (exec c h)) o).
  { eapply (evolves_between h _ (run cs (fst (exec c h)))); eauto. eapply ready_live. by constructor. }
  destruct (Hc h v) as (v1 & W1 & K1); auto; [lia|].
  destruct (IH (fst (exec c h)) v1) as (v2 & W2 & K2); auto; [lia|]. exists v2. split; [done|]. intros ?. auto.
Qed.
Lemma all_distinct o c : distinct_ok o c.
Proof.
  induction c as [body IH|c Hns] using op_ind'; intros h v H N D Ty Im Hr W L.
  - rewrite each_scope in *. rewrite disciplined_scope in D. rewrite exec_scope_state in *. set (h' := _ <| h_env_roots := _ |>) in *.
    assert (Es : h_slots h' = h_slots (run body h)) by done. apply (live_slots _ _ _ Es) in L.
    destruct (run_distinct o body IH h v H N D Ty Im Hr W L) as (v' & [V W'] & K). exists v'. split; [|done].
    split; [by rewrite (slots_view _ _ _ Es)|]. destruct W' as [?|[? (b & Hb)]]; [by left|right; split; [done|]]. exists b.
    apply get_heap_object_Ok. apply get_heap_object_Ok in Hb. unfold live_as, live_with in *. by rewrite Es.
  - rewrite each_single in * by done. by apply call_distinct.
Qed.
Lemma history_distinct o cs h v : heap_ok h -> no_dangling h -> disciplined_history cs h ->
  each_call typed_call cs h -> each_call (table_method o) cs h ->
  h_gc_runs (run cs h) < h_gc_runs h + two32 -> well_formed h o v -> live (run cs h) o ->
  distinct_step (run cs h) o v.
Proof. apply run_distinct. apply Forall_forall. intros c _. apply all_distinct. Qed.

(** The keys returned are those of the view. *)
Lemma own_keys_view h o v ks : abs_object h o = Some v -> own_property_keys h o = Ok ks -> map (abs_key h) ks ≡ₚ map fst (ao_props v).
Proof.
  intros (b & Hb & ->)%abs_object_Some. unfold own_property_keys. rewrite Hb. intros [= <-].
  destruct (keys_of_props_order h (ob_properties b)) as (ixs & strs & syms & E & P & _). rewrite P, map_map.
  cbn [abs_base ao_props]. by rewrite map_map.
Qed.
Lemma distinct_keys h o v ks : abs_object h o = Some v -> distinct v -> own_property_keys h o = Ok ks -> NoDup (map (abs_key h) ks).
Proof. intros V D E. by rewrite (own_keys_view h o v ks V E). Qed.
Lemma wf_distinct_array h o v : well_formed h o v -> ao_array v <> None -> distinct v.
Proof. intros [_ [?|[(n & w & es & Sh) _]]] Ha; [done|]. apply Sh. Qed.
(** A new object has no properties. *)
Lemma new_object h h' o : heap_ok h -> no_dangling h -> alloc_object h = (h', Ok o) -> h_gc_runs h' < h_gc_runs h + two32 ->
  abs_object h' o = Some (AObject None true None []).
Proof.
  intros H N E Hr.
  assert (L : live h' o) by (eapply (allocates_safe OpAllocObject); eauto; intros x Hx; by apply elem_of_nil in Hx).
  destruct (allocates_makes OpAllocObject _ eq_refl h h' o H E L Hr) as (x & Lx & Hx). cbn in Hx.
  subst x. apply abs_object_Some. eexists. split; [apply get_object_base_Ok; eexists; split; [exact Lx|done]|done].
Qed.
Lemma own_keys_live h o ks : own_property_keys h o = Ok ks -> live h o.
Proof.
  unfold own_property_keys. destruct (get_object_base h o) as [b| |] eqn:E; [|done..]. intros _.
  apply get_object_base_Ok in E as (x & Hx & _). by exists x.
Qed.
