(** Array [[DefineOwnProperty]] on abstract arrays. *)
From stdpp Require Import base decidable list numbers sets sorting.
From Coq Require Import NArith ZArith Lia.
From RecordUpdate Require Import RecordUpdate.
From Verif Require Import VmBase HeapModel HeapObjModel HeapSpec HeapGcProofs HeapInvProofs HeapObjProofs
  ObjectOpsModel ObjectOpsProofs HeapTidyProofs HeapSafeProofs HeapSafeOps HeapSafeOps2 HeapSafeOps3 HeapHistory HeapHistoryProofs
  KeySpec KeyProofs ObjSpec ObjViewProofs ObjDefineProofs ObjOpsProofs.

Open Scope N_scope.

Lemma st_view_base h0 o X v h b : st h0 o X v h -> get_object_base h o = Ok b -> v = abs_base h b.
Proof. intros S E. pose proof (st_view _ _ _ _ _ S) as V. unfold abs_object in V. rewrite E in V. congruence. Qed.
Lemma base_live h0 o X v h b s : st h0 o X v h -> get_object_base h o = Ok b -> base_has b s -> live h s.
Proof.
  intros S (x & Hx & Hb)%get_object_base_Ok Hs. apply (proj2 (st_nd _ _ _ _ _ S) _ _ _ Hx). by eapply object_has_base.
Qed.
Lemma base_key_live h0 o X v h b k s : st h0 o X v h -> get_object_base h o = Ok b -> k ∈ map pe_key (ob_properties b) -> s ∈ trace_key k -> live h s.
Proof.
  intros S Eb Hk Hs. eapply base_live; eauto. apply trace_base_in. unfold trace_base. apply elem_of_app. right.
  apply elem_of_list_fmap in Hk as (e & -> & He). apply elem_of_list_In, in_flat_map. exists e. split; [by apply elem_of_list_In|].
  apply elem_of_list_In. unfold trace_entry. apply elem_of_app. by left.
Qed.

(** *** Reading the length entry *)
Lemma array_entry_st h0 o X v n w es h : st h0 o X v h -> array_shape v n w es -> exists b e ps,
  get_object_base h o = Ok b /\ ob_kind b = KArray n /\ ob_properties b = e :: ps /\ abs_key h (pe_key e) = akey_length
  /\ abs_desc h (pe_desc e) = alength n w /\ array_length_entry h o = Ok e /\ map (abs_entry h) ps = es /\ head_key h o = Some (pe_key e).
Proof.
  intros S Sh. destruct (st_base _ _ _ _ _ S) as (b & Eb & Ev & _). pose proof (ar_len _ _ _ _ Sh) as Hl. pose proof (ar_props _ _ _ _ Sh) as Hp.
  rewrite Ev in Hl, Hp. cbn in Hl, Hp. destruct (ob_kind b) as [|m] eqn:Hk; [done|]. simplify_eq. destruct (ob_properties b) as [|e ps] eqn:Hb; [done|].
  cbn in Hp. unfold abs_entry in Hp at 1. assert (Hek : abs_key h (pe_key e) = akey_length) by congruence.
  exists b, e, ps. repeat split; auto; try congruence.
  - unfold array_length_entry. rewrite Eb. cbn. unfold base_array_length. rewrite Hk, Hb, key_is_length_abs, bool_decide_true by done. done.
  - unfold head_key. rewrite Eb, Hk. unfold hd_key. by rewrite Hb.
Qed.
Lemma array_length_st h0 o X v n w es h : st h0 o X v h -> array_shape v n w es -> array_length h o = Ok n.
Proof.
  intros S Sh. destruct (array_entry_st _ _ _ _ _ _ _ _ S Sh) as (b & e & ps & Eb & Hk & _). unfold array_length. rewrite Eb. cbn.
  unfold base_array_length. by rewrite Hk.
Qed.
Lemma array_writable_st h0 o X v n w es h : st h0 o X v h -> array_shape v n w es -> array_length_writable h o = Ok w.
Proof.
  intros S Sh. destruct (array_entry_st _ _ _ _ _ _ _ _ S Sh) as (b & e & ps & Eb & Hk & _ & _ & Hd & He & _). unfold array_length_writable.
  rewrite He. cbn. apply abs_desc_length in Hd. by rewrite Hd.
Qed.

Lemma tri_set_writable h0 o X v n w es w' : array_shape v n w es ->
  tri h0 o X v (array_set_length_writable o w') (fun r v' => r = Ok tt /\ v' = array_with v n w' es).
Proof.
  intros Sh. unfold array_set_length_writable. apply tri_at. intros h S.
  destruct (array_entry_st _ _ _ _ _ _ _ _ S Sh) as (_ & e & _ & _ & _ & _ & _ & _ & He & _).
  eapply tria_read; [exact He|]. revert S. apply tri_at. clear h e He. apply tri_update_base.
  - intros b b'. destruct (ob_properties b) as [|e es0] eqn:E; [done|]. destruct (pd_kind (pe_desc e)); [|done]. intros [= <-].
    split; [unfold base_kind_eq; cbn; by destruct (ob_kind b)|]. cbn. by rewrite E.
  - intros b. destruct (ob_properties b) as [|e es0] eqn:E; [done|]. by destruct (pd_kind (pe_desc e)).
  - intros h b S Eb Ev. destruct (array_entry_st _ _ _ _ _ _ _ _ S Sh) as (b0 & e & ps & Eb0 & Hk & Hp & Hke & Hd & _ & Hps & _).
    assert (b0 = b) by congruence. subst b0. rewrite Hp. apply abs_desc_length in Hd. rewrite Hd. cbn. split; [|split; [|split]].
    + intros k. unfold hd_key. cbn. by rewrite Hp.
    + intros s Hs. left. apply trace_base_in. apply trace_base_in in Hs. revert Hs. unfold trace_base. cbn. rewrite Hp. cbn.
      unfold trace_entry. rewrite Hd. cbn. set_solver.
    + done.
    + rewrite Ev. unfold abs_base, array_with. cbn. rewrite Hk. f_equal. unfold abs_entry at 1. cbn. rewrite Hke, Hps. f_equal.
      f_equal. unfold abs_desc, alength. cbn -[abs_value]. rewrite abs_of_N by apply Sh. done.
Qed.

(** *** The deletion loop *)
Definition keys_desc : list akey -> Prop := StronglySorted (fun c c' => forall i j, akey_index c i -> akey_index c' j -> j <= i).
Record loop_inv (n len : N) (es0 es : list (akey * adesc)) (cks : list akey) : Prop := {
  li_sub : es `sublist_of` es0;
  li_gone : forall k d, (k, d) ∈ es0 -> (k, d) ∉ es ->
    a_configurable d = true /\ exists j, akey_index k j /\ n <= j < len /\ forall c i, c ∈ cks -> akey_index c i -> i < j;
  li_todo : forall k d i, (k, d) ∈ es -> akey_index k i -> n <= i < len -> k ∈ cks;
  li_sorted : keys_desc cks;
  li_nodup : NoDup cks }.

Lemma aremove_sub k ps : aremove k ps `sublist_of` ps.
Proof. induction ps as [|[k' d] ps IH]; [done|]. cbn. destruct (decide (k' = k)); by constructor. Qed.
Lemma aremove_in k ps k' d : NoDup (map fst ps) -> (k', d) ∈ aremove k ps <-> (k', d) ∈ ps /\ k' <> k.
Proof.
  induction ps as [|[k1 d1] ps IH]; cbn; intros Hn.
  - rewrite elem_of_nil. tauto.
  - apply NoDup_cons in Hn as [H1 H2]. destruct (decide (k1 = k)) as [->|Hne].
    + rewrite elem_of_cons. split.
      * intros Hi. split; [auto|]. intros ->. apply H1, elem_of_list_fmap. by exists (k, d).
      * intros [[E|Hi] Hne]; [congruence|done].
    + rewrite !elem_of_cons, IH by done. split; [|tauto]. intros [E|[H3 H4]]; [|tauto]. split; [auto|]. congruence.
Qed.
Lemma sublist_nodup_fst (ps qs : list (akey * adesc)) : ps `sublist_of` qs -> NoDup (map fst qs) -> NoDup (map fst ps).
Proof.
  induction 1 as [|[k d] ps qs Hs IH|[k d] ps qs Hs IH]; cbn; [done|..]; intros [H1 H2]%NoDup_cons; auto.
  constructor; auto. intros Hi. apply H1. apply elem_of_list_fmap in Hi as ([k' d'] & -> & Hi). apply elem_of_list_fmap. eexists. split; [done|].
  by eapply elem_of_submseteq, sublist_submseteq.
Qed.
Lemma alookup_in ps k d : NoDup (map fst ps) -> alookup k ps = Some d <-> (k, d) ∈ ps.
Proof.
  induction ps as [|[k1 d1] ps IH]; cbn; intros Hn; [by rewrite elem_of_nil|]. apply NoDup_cons in Hn as [H1 H2].
  rewrite elem_of_cons. destruct (decide (k1 = k)) as [->|Hne].
  - split; [intros [= ->]; by left|]. intros [[= ->]|Hi]; [done|]. destruct H1. apply elem_of_list_fmap. by exists (k, d).
  - rewrite IH by done. split; [tauto|]. intros [[= -> ->]|?]; done.
Qed.
Lemma aremove_cons_ne k k' d ps : k' <> k -> aremove k ((k', d) :: ps) = (k', d) :: aremove k ps.
Proof. intros. cbn. by rewrite decide_False. Qed.

Lemma loop_inv_skip n len es0 es c cks : loop_inv n len es0 es (c :: cks) -> (forall i, akey_index c i -> len <= i) ->
  loop_inv n len es0 es cks.
Proof.
  intros [A B C D E] Hc. constructor; auto.
  - intros k d H1 H2. destruct (B k d H1 H2) as (Hf & j & Hj & Hr & Hall). split; [done|]. exists j. split; [done|]. split; [done|].
    intros c' i Hin. apply Hall. by right.
  - intros k d i H1 H2 H3. pose proof (C k d i H1 H2 H3) as [->|H]%elem_of_cons; [|done]. specialize (Hc i H2). lia.
  - by apply StronglySorted_inv in D as [D _].
  - by apply NoDup_cons in E as [_ E].
Qed.
Lemma loop_inv_delete n len es0 es c i cks d : NoDup (map fst es) -> loop_inv n len es0 es (c :: cks) -> akey_index c i -> n <= i < len ->
  (c, d) ∈ es -> a_configurable d = true -> loop_inv n len es0 (aremove c es) cks.
Proof.
  intros Hnd [A B C D E] Hc Hr Hd Hcf. apply StronglySorted_inv in D as [D D0]. apply NoDup_cons in E as [E0 E].
  rewrite Forall_forall in D0.
  assert (Hlt : forall c' j, c' ∈ cks -> akey_index c' j -> j < i).
  { intros c' j Hin Hj. pose proof (D0 c' Hin i j Hc Hj). destruct (decide (j = i)) as [->|]; [|lia].
    destruct E0. destruct Hc as [-> _], Hj as [-> _]. done. }
  constructor; auto.
  - etrans; [apply aremove_sub|done].
  - intros k d' H1 H2. destruct (decide ((k, d') ∈ es)) as [Hin|Hin].
    + assert (k = c) as ->.
      { destruct (decide (k = c)); [done|]. destruct H2. by apply aremove_in. }
      assert (d' = d) as ->. { apply alookup_in in Hin, Hd; auto. congruence. }
      split; [done|]. exists i. auto.
    + destruct (B k d' H1 Hin) as (Hf & j & Hj & Hrj & Hall). split; [done|]. exists j. split; [done|]. split; [done|].
      intros c' i' H3. apply Hall. by right.
  - intros k d' j H1 H2 H3. apply aremove_in in H1 as [H1 Hne]; [|done]. pose proof (C k d' j H1 H2 H3) as [->|H]%elem_of_cons; done.
Qed.
Lemma loop_inv_stop n len es0 es cks : loop_inv n len es0 es cks -> (forall c i, c ∈ cks -> akey_index c i -> n <= i < len -> False) ->
  cut len n es0 n /\ keeps_below len n es0 es.
Proof.
  intros [A B C D E] Hc. assert (Hno : forall k d i, (k, d) ∈ es -> akey_index k i -> n <= i < len -> False).
  { intros k d i H1 H2 H3. eapply Hc; eauto. }
  split.
  - split; [lia|]. split; [|by left]. intros k d i H1 H2 H3. destruct (decide ((k, d) ∈ es)) as [Hin|Hin]; [by destruct (Hno k d i)|].
    apply (B k d H1 Hin).
  - split; [done|]. intros k d H1. split.
    + intros Hin (i & H2 & H3). by destruct (Hno k d i).
    + intros Hn. destruct (decide ((k, d) ∈ es)) as [Hin|Hin]; [done|]. destruct (B k d H1 Hin) as (_ & j & Hj & Hr & _). destruct Hn. eauto.
Qed.
Lemma loop_inv_blocked n len es0 es c i cks d : loop_inv n len es0 es (c :: cks) -> akey_index c i -> n <= i < len ->
  (c, d) ∈ es -> a_configurable d = false -> cut len n es0 (i + 1) /\ keeps_below len (i + 1) es0 es.
Proof.
  intros [A B C D E] Hc Hr Hd Hcf. apply StronglySorted_inv in D as [D D0]. rewrite Forall_forall in D0.
  assert (Hno : forall k d' j, (k, d') ∈ es -> akey_index k j -> i + 1 <= j < len -> False).
  { intros k d' j H1 H2 H3. pose proof (C k d' j H1 H2 ltac:(lia)) as [->|H]%elem_of_cons.
    - pose proof (akey_index_fun _ _ _ Hc H2). lia.
    - pose proof (D0 k H i j Hc H2). lia. }
  assert (Hin0 : (c, d) ∈ es0) by (by eapply elem_of_submseteq, sublist_submseteq).
  split.
  - split; [lia|]. split.
    + intros k d' j H1 H2 H3. destruct (decide ((k, d') ∈ es)) as [Hin|Hin]; [by destruct (Hno k d' j)|]. apply (B k d' H1 Hin).
    + right. exists c, d, i. repeat split; auto; lia || apply Hc.
  - split; [done|]. intros k d' H1. split.
    + intros Hin (j & H2 & H3). by destruct (Hno k d' j).
    + intros Hn. destruct (decide ((k, d') ∈ es)) as [Hin|Hin]; [done|].
      destruct (B k d' H1 Hin) as (_ & j & Hj & Hrj & Hall). destruct Hn. exists j. split; [done|].
      pose proof (Hall c i ltac:(by left) Hc). lia.
Qed.

Lemma tria_step {A B} h0 o X v h (m : M A) (k : A -> M B) (R : res B -> aobj -> Prop) :
  (forall h1 r1, m h = (h1, r1) -> frame o h h1 /\ stack_ext h h1 /\
     match r1 with
     | Ok a => exists v', tria h0 o X v' h1 (k a) R
     | Err e => exists v', st h0 o X v' h1 /\ R (Err e) v'
     | Panic => exists v', st h0 o X v' h1 /\ R Panic v'
     end) -> tria h0 o X v h (mbind m k) R.
Proof.
  intros H h' r E. unfold mbind in E. destruct (m h) as [h1 r1] eqn:E1. destruct (H h1 r1 eq_refl) as (F & T & Hr).
  destruct r1 as [a|e|].
  - destruct Hr as (v' & Ht). destruct (Ht h' r E) as (F' & T' & v'' & S & HR). split; [by eapply frame_trans|]. split; [by eapply stack_ext_trans|]. eauto.
  - simplify_eq. destruct Hr as (v' & S & HR). eauto 8.
  - simplify_eq. destruct Hr as (v' & S & HR). eauto 8.
Qed.

Lemma position_entry h k ps i : position h k ps = Some i -> exists e, ps !! i = Some e /\ property_key_eq h (pe_key e) k = true.
Proof.
  revert i. induction ps as [|e ps IH]; intros i; [done|]. cbn. destruct (property_key_eq h (pe_key e) k) eqn:E.
  - intros [= <-]. eauto.
  - intros (j & Hj & ->)%fmap_Some. apply IH in Hj as (e' & He & Hk). eauto.
Qed.
Lemma remove_nth_keeps {A} i (l : list A) x y : l !! i = Some x -> y ∈ l -> y <> x -> y ∈ remove_nth i l.
Proof.
  intros Hx Hy Hne. unfold remove_nth. rewrite <- (take_drop_middle l i x Hx) in Hy. rewrite elem_of_app, elem_of_cons in Hy.
  rewrite elem_of_app. naive_solver.
Qed.

Definition oom_cut (n len : N) (es0 es' : list (akey * adesc)) : Prop :=
  es' `sublist_of` es0 /\ forall k d, (k, d) ∈ es0 -> (k, d) ∉ es' -> a_configurable d = true /\ exists j, akey_index k j /\ n <= j < len.

Section Loop.
Context (h0 : heap) (o : heap_id) (X : list heap_id) (v : aobj) (lk : property_key) (n len : N) (neww : bool) (es0 : list (akey * adesc)).
Definition loop_post : res bool -> aobj -> Prop := fun r v' =>
  (exists stop es', r = Ok (bool_decide (stop = n)) /\ cut len n es0 stop /\ keeps_below len stop es0 es' /\ v' = array_with v stop neww es') \/
  (r = Err EOutOfMemory /\ exists es', oom_cut n len es0 es' /\ v' = array_with v n true es').

Lemma loop_finish m es ok : array_shape (array_with v m true es) m true es ->
  loop_post (Ok ok) (array_with v m neww es) ->
  tri h0 o X (array_with v m true es) ((if neww then mret tt else array_set_length_writable o false) ;;; mret ok) loop_post.
Proof.
  intros Sh H. destruct neww eqn:Hn.
  - eapply tri_bind; [apply (tri_ret _ _ _ _ _ (fun r v' => r = Ok tt /\ v' = array_with v m true es)); done|..].
    + intros [] v' [_ ->]. by apply tri_ret.
    + intros e v' [? _]. done.
    + intros v' [? _]. done.
  - eapply tri_bind; [by eapply tri_set_writable|..].
    + intros [] v' [_ ->]. by apply tri_ret.
    + intros e v' [? _]. done.
    + intros v' [? _]. done.
Qed.

Lemma delete_loop : NoDup (akey_length :: map fst es0) -> n < 2 ^ 32 -> len < 2 ^ 32 -> head_key h0 o = Some lk ->
  forall keys h es b, st h0 o X (array_with v n true es) h -> get_object_base h o = Ok b -> (forall k, k ∈ keys -> k ∈ map pe_key (ob_properties b)) ->
  loop_inv n len es0 es (map (abs_key h) keys) ->
  tria h0 o X (array_with v n true es) h (array_delete_loop o lk len n neww keys) loop_post.
Proof.
  intros Hnd0 Hn Hlen Hlk. apply NoDup_cons in Hnd0 as [Hnl Hnd0].
  induction keys as [|k keys IH]; intros h es b S Eb Hkeys Inv; cbn [array_delete_loop].
  all: assert (Sh : forall m, m < 2 ^ 32 -> array_shape (array_with v m true es) m true es).
  1, 3: intros m Hm; constructor; auto; cbn; constructor; [|by eapply sublist_nodup_fst; [apply Inv|]];
    intros Hi; apply Hnl; apply elem_of_list_fmap in Hi as ([k' d'] & E & Hi); cbn in E; subst k';
    apply elem_of_list_fmap; exists (akey_length, d'); split; [done|]; eapply elem_of_submseteq, sublist_submseteq; [done|apply Inv].
  all: assert (Hnde : NoDup (map fst es)) by (by eapply sublist_nodup_fst; [apply Inv|]).
  { revert S. apply tri_at. apply loop_finish; auto. left. exists n, es. rewrite bool_decide_true by done.
    destruct (loop_inv_stop _ _ _ _ _ Inv) as [C1 C2]; [|done]. intros c i Hc. by apply elem_of_nil in Hc. }
  apply tria_get. destruct (array_index h k) as [i|] eqn:Hi.
  2:{ apply (IH h es b); auto; [intros; apply Hkeys; by right|]. eapply loop_inv_skip; [exact Inv|]. intros i Hix. cbn in Hix.
      apply array_index_abs in Hix. congruence. }
  apply array_index_abs in Hi. cbn [map] in Inv. set (c := abs_key h k) in *.
  destruct (N.ltb_spec i n) as [Lt|Ge].
  { revert S. apply tri_at. apply loop_finish; auto. left. exists n, es. rewrite bool_decide_true by done.
    destruct (loop_inv_stop _ _ _ _ _ Inv) as [C1 C2]; [|done].
    intros c' j Hc' Hj Hr. destruct Inv as [_ _ _ D _]. apply StronglySorted_inv in D as [_ D0]. rewrite Forall_forall in D0.
    apply elem_of_cons in Hc' as [->|Hc']; [pose proof (akey_index_fun _ _ _ Hi Hj); lia|]. pose proof (D0 c' Hc' i j Hi Hj). lia. }
  destruct (N.leb_spec len i) as [Le|Lt].
  { apply (IH h es b); auto; [intros; apply Hkeys; by right|]. eapply loop_inv_skip; [exact Inv|]. intros j Hj.
    pose proof (akey_index_fun _ _ _ Hi Hj). lia. }
  assert (Hc : exists d, (c, d) ∈ es).
  { assert (Hk : k ∈ map pe_key (ob_properties b)) by (apply Hkeys; by left). apply elem_of_list_fmap in Hk as (e & -> & He).
    assert (Hin : abs_entry h e ∈ ao_props (array_with v n true es)).
    { rewrite (st_view_base _ _ _ _ _ _ S Eb). cbn. apply elem_of_list_fmap. eauto. }
    cbn in Hin. apply elem_of_cons in Hin as [E|Hin]; [|by eexists].
    exfalso. injection E as E _. apply (length_not_index i). by rewrite <- E. }
  destruct Hc as (d & Hd).
  assert (Hcl : c <> akey_length) by (intros ->; by eapply length_not_index).
  assert (Hown : own (array_with v n true es) c = Some d).
  { erewrite own_elem; [|by apply Sh|done]. by apply alookup_in. }
  apply tria_step. intros h1 r1 E1.
  assert (Hlv : forall x, x ∈ trace_key k -> live h x).
  { intros x Hx. eapply base_key_live; eauto. apply Hkeys. by left. }
  assert (Hgk : good_key (abs_key h k)) by (by eapply akey_index_good).
  assert (Hsh : ao_array (array_with v n true es) <> None -> exists n0 w0 es1, array_shape (array_with v n true es) n0 w0 es1).
  { intros _. exists n, true, es. auto. }
  destruct (delete_at _ _ _ _ _ k _ _ _ S Eb Hlv Hgk Hsh E1) as (F & T & Str & v1 & b1 & S1 & Eb1 & Hres).
  fold c in Hres. split; [done|]. split; [done|].
  destruct Hres as [[(ok & -> & Hdel) Hb1]|(-> & -> & _)].
  2:{ eexists. split; [exact S1|]. right. split; [done|]. exists es. split; [|done]. split; [apply Inv|]. intros k' d' H1 H2.
      destruct (li_gone _ _ _ _ _ Inv k' d' H1 H2) as (? & j & ? & ? & _). eauto. }
  inversion Hdel as [H1 H2 H3|d0 H1 H2 H3 H4|d0 H1 H2 H3 H4]; [congruence|..]; assert (d0 = d) by congruence; subst d0.
  - subst ok v1. exists (array_with v n true es).
    pose proof Hi as [Hie Hilt]. assert (checked_succ32 i = Some (i + 1)) as ->.
    { unfold checked_succ32. destruct (N.eqb_spec i u32_max) as [->|]; [|done]. by change u32_max with (2 ^ 32 - 1) in Hilt; lia. }
    destruct (array_entry_st _ _ _ _ _ _ _ _ S1 (Sh n Hn)) as (b2 & e & ps & Eb2 & _ & Hp2 & Hke & _ & _ & _ & Hh2).
    assert (lk = pe_key e) as Elk. { pose proof (st_head _ _ _ _ _ S1 lk Hlk). congruence. }
    assert (Hi1 : i + 1 < 2 ^ 32) by lia.
    set (pt := patch_default <| pp_value := Some (VNumber (f64_of_N (i + 1))) |>).
    assert (Ept : abs_patch h1 pt = APatch None None (Some (anum (i + 1))) None None None).
    { unfold abs_patch, pt. cbn -[abs_value]. by rewrite abs_of_N. }
    eapply tria_bind.
    + eapply (tria_odop_length _ _ _ _ n true es h1 lk pt (i + 1)); auto.
      * intros x Hx. eapply (base_key_live _ _ _ _ _ b2); eauto. rewrite Hp2, Elk. left.
      * intros x Hx. by apply elem_of_nil in Hx.
      * by rewrite Elk.
      * rewrite Ept. split; [|split]; cbn; try done. intros x [= <-] [].
      * rewrite Ept. intros [_ A]. unfold ap_accessor in A. cbn in A. tauto.
      * by rewrite Ept.
    + rewrite Ept. intros ok v' [(E & Hr & ->)|[(E & Hr & ->)|[E _]]]; [exfalso| |done].
      * inversion Hr; simplify_eq/=; unfold ap_accessor in *; cbn in *; tauto.
      * injection E as ->. cbn [negb]. cbn [or_else pp_writable pt]. rewrite array_with_with. apply loop_finish; [by apply Sh|].
        left. exists (i + 1), es. destruct (loop_inv_blocked n len es0 es c i _ d Inv) as [C1 C2]; [done|lia|done|done|].
        rewrite bool_decide_false by lia. done.
    + intros e' v' [(? & _)|[(? & _)|[[= ->] ->]]]; [done..|]. right. split; [done|]. exists es. split; [|done]. split; [apply Inv|]. intros k' d' H5 H6.
      destruct (li_gone _ _ _ _ _ Inv k' d' H5 H6) as (? & j & ? & ? & _). eauto.
    + intros v' [(? & _)|[(? & _)|[? _]]]; done.
  - subst ok v1. cbn [ao_props array_with] in S1. rewrite aremove_cons_ne in S1 by done.
    change (with_props (array_with v n true es) ?ps) with (AObject (ao_prototype v) (ao_extensible v) (Some n) ps) in S1.
    exists (array_with v n true (aremove c es)).
    assert (Hkeys1 : forall k', k' ∈ keys -> k' ∈ map pe_key (ob_properties b1)).
    { intros k' Hk'. assert (Hk2 : k' ∈ map pe_key (ob_properties b)) by (apply Hkeys; by right).
      destruct Hb1 as [->|(i1 & Hpos & ->)]; [done|]. apply elem_of_list_fmap in Hk2 as (e & -> & He).
      apply elem_of_list_fmap. exists e. split; [done|]. destruct (position_entry _ _ _ _ Hpos) as (e1 & He1 & Hke1).
      eapply remove_nth_keeps; eauto. intros ->. rewrite key_eq_abs in Hke1 by (by eapply akey_index_good). apply bool_decide_eq_true in Hke1.
      pose proof (li_nodup _ _ _ _ _ Inv) as [Hnc _]%NoDup_cons. apply Hnc. unfold c. rewrite <- Hke1. apply elem_of_list_fmap. eauto. }
    apply (IH h1 _ b1); auto.
    assert (map (abs_key h1) keys = map (abs_key h) keys) as ->.
    { apply map_ext_in. intros k' Hk'%elem_of_list_In. apply abs_key_ext. intros s Hs. apply Str.
      eapply base_key_live; eauto. by apply trace_key_in. }
    eapply loop_inv_delete; eauto.
Qed.
End Loop.

(** *** [[ArraySetLength]] *)
Lemma StronglySorted_join {A} (R : A -> A -> Prop) l1 l2 : (forall x y, x ∈ l1 -> y ∈ l2 -> R x y) -> StronglySorted R l1 -> StronglySorted R l2 -> StronglySorted R (l1 ++ l2).
Proof.
  intros Hx H1 H2. induction H1 as [|a l Hs IH Hf]; [done|]. cbn. constructor.
  - apply IH. intros x y Hx' Hy. apply Hx; [by right|done].
  - apply Forall_app. split; [done|]. apply Forall_forall. intros y Hy. apply Hx; [left|done].
Qed.

Lemma elem_of_rev {A} (x : A) l : x ∈ rev l <-> x ∈ l.
Proof. rewrite !elem_of_list_In. symmetry. apply in_rev. Qed.

Lemma StronglySorted_rev {A} (R : A -> A -> Prop) l : StronglySorted R l -> StronglySorted (fun a b => R b a) (rev l).
Proof.
  induction 1 as [|a l Hs IH Hf]; [constructor|]. cbn. apply StronglySorted_join; auto.
  - intros x y Hx Hy. apply elem_of_list_singleton in Hy as ->. rewrite Forall_forall in Hf. apply Hf. by rewrite <- elem_of_rev.
  - repeat constructor.
Qed.

Lemma initial_keys h0 o X v n w es h b : st h0 o X v h -> array_shape v n w es -> get_object_base h o = Ok b ->
  forall m len, loop_inv m len es es (map (abs_key h) (rev (keys_of_props h (ob_properties b)))) /\
  (forall k, k ∈ rev (keys_of_props h (ob_properties b)) -> k ∈ map pe_key (ob_properties b)).
Proof.
  intros S Sh Eb m len. pose proof (keys_of_props_order h (ob_properties b)) as (ixs & strs & syms & Ek & Hp & Hi & Hs & _ & Hstr & _ & Hsym).
  set (ks := keys_of_props h (ob_properties b)) in *.
  assert (Em : map (abs_key h) (map pe_key (ob_properties b)) = map fst (ao_props v)).
  { rewrite (st_view_base _ _ _ _ _ _ S Eb). cbn. rewrite !map_map. done. }
  assert (Hperm : map (abs_key h) ks ≡ₚ map fst (ao_props v)).
  { rewrite <- Em. by apply Permutation_map. }
  split.
  - constructor; auto.
    + intros k d H1 H2. done.
    + intros k d i H1 _ _. rewrite map_rev, elem_of_rev, Hperm. rewrite (ar_props _ _ _ _ Sh). cbn. right. apply elem_of_list_fmap. by exists (k, d).
    + unfold keys_desc. rewrite map_rev. apply (StronglySorted_rev (fun a b => forall i j, akey_index b i -> akey_index a j -> j <= i)).
      rewrite Ek, !map_app. apply StronglySorted_join; [| |apply StronglySorted_join].
      * intros x y Hx Hy i j Hyi Hxj. exfalso. apply elem_of_app in Hy as [Hy|Hy]; apply elem_of_list_fmap in Hy as (k & -> & Hk).
        -- rewrite Forall_forall in Hstr. apply Hstr in Hk as [_ Hk]. apply array_index_abs, array_index_spec in Hyi. by eapply Hk.
        -- rewrite Forall_forall in Hsym. apply Hsym in Hk as (s & ->). destruct Hyi as [? _]. done.
      * clear -Hi Hs. induction Hs as [|[a ka] l Hs IH Hf]; [constructor|]. apply Forall_cons in Hi as [Hi0 Hi].
        cbn. constructor; [by apply IH|]. apply Forall_forall. intros y Hy i j Hyi Hxj. apply elem_of_list_fmap in Hy as (k' & -> & Hk').
        apply elem_of_list_fmap in Hk' as ([a' k''] & -> & Hk'). cbn in *.
        rewrite Forall_forall in Hf, Hi. specialize (Hf _ Hk'). specialize (Hi _ Hk'). cbn in *.
        apply array_index_spec, array_index_abs in Hi0, Hi. rewrite (akey_index_fun _ _ _ Hyi Hi), (akey_index_fun _ _ _ Hxj Hi0). done.
      * intros x y Hx Hy i j Hyi Hxj. exfalso. apply elem_of_list_fmap in Hy as (k & -> & Hk).
        rewrite Forall_forall in Hsym. apply Hsym in Hk as (s & ->). destruct Hyi as [? _]. done.
      * clear -Hstr. induction Hstr as [|k l Hk Hf IH]; [constructor|]. cbn. constructor; [done|]. apply Forall_forall. intros y Hy i j _ Hx. exfalso.
        destruct Hk as [_ Hk]. apply array_index_abs, array_index_spec in Hx. by eapply Hk.
      * clear -Hsym. induction Hsym as [|k l Hk Hf IH]; [constructor|]. cbn. constructor; [done|]. apply Forall_forall. intros y Hy i j _ Hx. exfalso.
        destruct Hk as (s & ->). destruct Hx as [? _]. done.
    + rewrite map_rev. rewrite <- Permutation_rev, Hperm. apply Sh.
  - intros k. rewrite elem_of_rev, Hp. done.
Qed.

Lemma rejects_length_writable ext n p q : ap_enumerable p = ap_enumerable q -> ap_configurable p = ap_configurable q -> ap_get p = ap_get q -> ap_set p = ap_set q ->
  rejects ext (Some (alength n true)) p -> rejects ext (Some (alength n true)) q.
Proof.
  intros E1 E2 E3 E4 H. inversion H; simplify_eq/=.
  - eapply rj_configurable; [done|congruence].
  - eapply rj_enumerable; [done|rewrite <- E1; eassumption|done].
  - eapply rj_to_accessor; [done|done|]. unfold ap_accessor in *. by rewrite <- E3, <- E4.
Qed.

Definition array_oom v n w es ap v' : Prop :=
  v' = v \/ exists x m es', ap_value ap = Some x /\ length_value x m /\ m < n /\ w = true /\ ~ rejects (ao_extensible v) (Some (alength n true)) (with_value ap (anum m)) /\
    oom_cut m n es es' /\ v' = array_with v m true es'.

Lemma array_set_length_at h o X v n w es lk p : st h o X v h -> array_shape v n w es -> head_key h o = Some lk ->
  trace_values (patch_values p) ⊆ X -> patch_good (abs_patch h p) -> ~ patch_mixed (abs_patch h p) ->
  tria h o X v h (array_set_length o lk p) (fun r v' =>
    (exists ok, r = Ok ok /\ array_define_spec v n w es akey_length (abs_patch h p) ok v') \/
    (r = Err EOutOfMemory /\ array_oom v n w es (abs_patch h p) v')).
Proof.
  intros S Sh Hh Hp Hgood Hmix. unfold array_set_length.
  destruct (array_entry_st _ _ _ _ _ _ _ _ S Sh) as (b & e & ps & Eb & _ & Hpb & Hke & _ & _ & _ & Hh2).
  assert (lk = pe_key e) as -> by congruence.
  assert (Llk : forall x, x ∈ trace_key (pe_key e) -> live h x).
  { intros x Hx. eapply base_key_live; eauto. rewrite Hpb. left. }
  assert (Lp : forall x, x ∈ trace_values (patch_values p) -> live h x) by (intros x Hx; eapply st_live; eauto).
  destruct (pp_value p) as [x|] eqn:Hv.
  2:{ assert (Hav : ap_value (abs_patch h p) = None) by (cbn; by rewrite Hv).
      eapply tria_post; [eapply (tria_odop_length h o X v n w es h _ p n); eauto; [apply Sh|by rewrite Hav]|].
      intros r v' [(-> & Hr & ->)|[(-> & Hr & ->)|[-> ->]]].
      - left. eexists. split; [done|]. by apply ads_length_attrs_rejected.
      - left. eexists. split; [done|]. by apply ads_length_attrs.
      - right. split; [done|]. by left. }
  assert (Hav : ap_value (abs_patch h p) = Some (abs_value h x)) by (cbn; by rewrite Hv).
  pose proof (array_length_from_value_spec h x) as Hlv.
  destruct (array_length_from_value x) as [m|].
  2:{ apply tria_ret; [done|]. left. eexists. split; [done|]. eapply ads_length_invalid; eauto. intros m Hm. apply Hlv in Hm. done. }
  assert (Hm : length_value (abs_value h x) m) by (by apply Hlv). assert (Hm32 : m < 2 ^ 32) by (destruct Hm as (f & _ & _ & _ & _ & ?); done).
  eapply tria_read; [by eapply array_length_st|].
  assert (Ewv : forall q, ap_value (abs_patch h q) <> None -> abs_patch h (q <| pp_value := Some (VNumber (f64_of_N m)) |>) = with_value (abs_patch h q) (anum m)).
  { intros q _. unfold abs_patch, with_value. cbn -[abs_value]. by rewrite abs_of_N. }
  assert (Hgm : forall q, patch_good q -> patch_good (with_value q (anum m))).
  { intros q (_ & G2 & G3). split; [|split; [exact G2|exact G3]]. cbn. intros y [= <-] []. }
  assert (Hmx : forall q, ap_value q <> None -> ~ patch_mixed q -> ~ patch_mixed (with_value q (anum m))).
  { intros q Hq Hn [D A]. apply Hn. split; [by left|]. exact A. }
  assert (Lpv : forall q, pp_get q = pp_get p -> pp_set q = pp_set p -> forall y, y ∈ trace_values (patch_values (q <| pp_value := Some (VNumber (f64_of_N m)) |>)) -> live h y).
  { intros q Eg Es y Hy. apply Lp. revert Hy. unfold patch_values, trace_values. cbn. rewrite Eg, Es, !flat_map_app. cbn. set_solver. }
  destruct (N.leb_spec n m) as [Le|Lt].
  { eapply tria_post; [eapply (tria_odop_length h o X v n w es h _ _ m); eauto|].
    - rewrite Ewv by (by rewrite Hav). auto.
    - rewrite Ewv by (by rewrite Hav). apply Hmx; [by rewrite Hav|done].
    - rewrite Ewv by (by rewrite Hav). done.
    - rewrite Ewv by (by rewrite Hav). intros r v' [(-> & Hr & ->)|[(-> & Hr & ->)|[-> ->]]].
      + left. eexists. split; [done|]. eapply ads_length_rejected; eauto.
      + left. eexists. split; [done|]. by eapply ads_length_grow.
      + right. split; [done|]. by left. }
  eapply tria_read; [by eapply array_writable_st|]. destruct w; cbn [negb].
  2:{ apply tria_ret; [done|]. left. eexists. split; [done|]. eapply ads_length_rejected; eauto. }
  set (neww := negb (bool_decide (pp_writable p = Some false))).
  set (q := if neww then p else p <| pp_writable := Some true |>).
  assert (Hq : abs_patch h q = APatch (ap_enumerable (abs_patch h p)) (ap_configurable (abs_patch h p)) (ap_value (abs_patch h p))
                 (if neww then ap_writable (abs_patch h p) else Some true) (ap_get (abs_patch h p)) (ap_set (abs_patch h p))).
  { unfold q. destruct neww; done. }
  assert (Hqv : ap_value (abs_patch h q) <> None) by (rewrite Hq; cbn -[abs_patch]; by rewrite Hav).
  assert (Hqg : patch_good (abs_patch h q)) by (rewrite Hq; apply Hgood).
  assert (Hqm : ~ patch_mixed (abs_patch h q)).
  { rewrite Hq. intros [_ A]. apply Hmix. split; [left; by rewrite Hav|exact A]. }
  assert (Hrej : forall ext, rejects ext (Some (alength n true)) (with_value (abs_patch h q) (anum m)) <-> rejects ext (Some (alength n true)) (with_value (abs_patch h p) (anum m))).
  { intros ext. rewrite Hq. split; apply rejects_length_writable; done. }
  assert (Hqw : or_else (pp_writable q) true = true).
  { unfold q, neww. case_bool_decide as Hw; cbn; [done|]. destruct (pp_writable p) as [[]|]; done. }
  assert (Hfw : neww = or_else (ap_writable (abs_patch h p)) true).
  { unfold neww. cbn. case_bool_decide as Hw; [by rewrite Hw|]. destruct (pp_writable p) as [[]|]; done. }
  eapply tria_bind.
  - eapply (tria_odop_length h o X v n true es h _ _ m); eauto.
    + apply Lpv; unfold q; by destruct neww.
    + rewrite Ewv by done. auto.
    + rewrite Ewv by done. by apply Hmx.
    + rewrite Ewv by done. done.
  - rewrite Ewv by done. intros ok v' [(E & Hr & ->)|[(E & Hr & ->)|[E _]]]; [| |done]; injection E as ->; cbn [negb].
    { apply tri_ret. left. eexists. split; [done|]. eapply ads_length_rejected; eauto. right. by apply Hrej. }
    cbn [pp_writable set]. change (pp_writable (q <| pp_value := Some (VNumber (f64_of_N m)) |>)) with (pp_writable q). rewrite Hqw.
    rewrite Hrej in Hr. apply tri_at. intros h2 S2.
    assert (Sh2 : array_shape (array_with v m true es) m true es).
    { constructor; auto. cbn. pose proof (ar_nodup _ _ _ _ Sh) as Hnd. rewrite (ar_props _ _ _ _ Sh) in Hnd. exact Hnd. }
    destruct (st_base _ _ _ _ _ S2) as (b2 & Eb2 & _).
    eapply (tria_read _ _ _ _ _ _ (keys_of_props h2 (ob_properties b2))). { unfold own_property_keys. by rewrite Eb2. }
    destruct (initial_keys _ _ _ _ _ _ _ _ _ S2 Sh2 Eb2 m n) as [Inv Hkeys].
    eapply tria_post; [eapply (delete_loop h o X v _ m n neww es); eauto|].
    + pose proof (ar_nodup _ _ _ _ Sh) as Hnd. rewrite (ar_props _ _ _ _ Sh) in Hnd. exact Hnd.
    + apply Sh.
    + intros r v' [(stop & es' & -> & Hcut & Hkb & ->)|(-> & es' & Hoc & ->)].
      * left. eexists. split; [done|]. rewrite Hfw. by eapply ads_length_shrink.
      * right. split; [done|]. right. exists (abs_value h x), m, es'. done.
  - intros e' v' [(? & _)|[(? & _)|[[= ->] ->]]]; [done..|]. right. split; [done|]. by left.
  - intros v' [(? & _)|[(? & _)|[? _]]]; done.
Qed.
