(** [[DefineOwnProperty]], [[Delete]] and [[Set]] step abstract objects as ECMA-262 says. *)
From stdpp Require Import base decidable list numbers sets.
From Coq Require Import NArith ZArith Lia.
From RecordUpdate Require Import RecordUpdate.
From Verif Require Import VmBase HeapModel HeapObjModel HeapSpec HeapGcProofs HeapInvProofs HeapObjProofs
  ObjectOpsModel ObjectOpsProofs HeapTidyProofs HeapSafeProofs HeapSafeOps HeapSafeOps2 HeapSafeOps3 HeapHistory HeapHistoryProofs
  KeySpec KeyProofs ObjSpec ObjViewProofs ObjDefineProofs.

Open Scope N_scope.

(** The descriptor that will be stored. *)
Definition next_desc (cur : option property_descriptor) (p : descriptor_patch) : property_descriptor :=
  match cur with None => fresh_descriptor p | Some c => apply_descriptor_patch c p end.
Lemma next_desc_abs h cur p : ~ patch_mixed (abs_patch h p) -> abs_desc h (next_desc cur p) = merged (abs_desc h <$> cur) (abs_patch h p).
Proof. intros Hm. destruct cur; [by apply apply_merged|apply fresh_merged]. Qed.
Lemma trace_next cur p : trace_desc (next_desc cur p) ⊆ match cur with Some c => trace_desc c | None => [] end ++ trace_values (patch_values p).
Proof.
  destruct cur as [[ce cc ck]|]; destruct p as [pe pc pv pw pg ps]; unfold next_desc, apply_descriptor_patch, fresh_descriptor, patch_values, trace_values;
    rewrite !flat_map_app.
  - destruct (patch_is_generic _).
    + destruct ck; cbn; set_solver.
    + destruct ck, (patch_is_accessor _); cbn; destruct pv, pg, ps; cbn; rewrite ?app_nil_r; set_solver.
  - destruct (patch_is_accessor _); cbn; destruct pv, pg, ps; cbn; rewrite ?app_nil_r; set_solver.
Qed.
Lemma abs_patch_ext h h' p : (forall s, s ∈ trace_values (patch_values p) -> get_string h' s = get_string h s) -> abs_patch h' p = abs_patch h p.
Proof.
  intros Hp. assert (V : forall x, trace_value x ⊆ trace_values (patch_values p) -> abs_value h' x = abs_value h x).
  { intros x Hx. apply abs_value_ext. intros s Hs. by apply Hp, Hx, trace_value_in. }
  destruct p as [pe pc pv pw pg ps]. unfold abs_patch. cbn. f_equal.
  all: match goal with |- _ <$> ?y = _ => destruct y as [z|]; [|done] end; cbn; f_equal; apply V;
    unfold trace_values, patch_values; cbn; rewrite ?flat_map_app; cbn; rewrite ?app_nil_r; set_solver.
Qed.
Lemma st_patch h0 o X v h p : st h0 o X v h -> trace_values (patch_values p) ⊆ X -> abs_patch h p = abs_patch h0 p.
Proof. intros S Hp. apply abs_patch_ext. intros s Hs. by apply (st_str _ _ _ _ _ S), Hp. Qed.
Lemma find_entry_in h k ps d : find_entry h k ps = Some d -> exists e, e ∈ ps /\ pe_desc e = d.
Proof.
  induction ps as [|e ps IH]; [done|]. cbn. destruct (property_key_eq h (pe_key e) k).
  - intros [= <-]. exists e. split; [left|done].
  - intros (e' & He & Hd)%IH. exists e'. split; [by right|done].
Qed.
Lemma base_has_entry b e s : e ∈ ob_properties b -> desc_has (pe_desc e) s -> base_has b s.
Proof.
  intros He Hs. apply trace_base_in. unfold trace_base. rewrite elem_of_app. right.
  apply elem_of_list_In, in_flat_map. exists e. split; [by apply elem_of_list_In|]. apply elem_of_list_In.
  unfold trace_entry. apply elem_of_app. right. by apply trace_desc_in.
Qed.

Definition stored {A} (v : aobj) (D : aobj -> Prop) (P : Prop) (yes no : A) : res A -> aobj -> Prop := fun r v' =>
  (r = Ok no /\ P /\ v' = v) \/ (r = Ok yes /\ ~ P /\ D v') \/ (r = Err EOutOfMemory /\ v' = v).

Definition odop_rest (o : heap_id) (k : property_key) (p : descriptor_patch) : M bool :=
  let* current := mread (fun h => object_get_own_property h o k) in
  let* extensible := mread (fun h => object_is_extensible h o) in
  validate_and_apply o k extensible p current.

Lemma tria_odop_rest o X1 v h1 k p (D : aobj -> Prop) : st h1 o X1 v h1 ->
  trace_key k ⊆ X1 -> trace_values (patch_values p) ⊆ X1 -> good_key (abs_key h1 k) ->
  patch_good (abs_patch h1 p) -> ~ patch_mixed (abs_patch h1 p) ->
  let new := merged (own v (abs_key h1 k)) (abs_patch h1 p) in
  (own v (abs_key h1 k) = Some new -> D v) ->
  (~ rejects (ao_extensible v) (own v (abs_key h1 k)) (abs_patch h1 p) -> forall h2 Y d, trace_key k ⊆ Y -> trace_desc d ⊆ Y ->
     abs_key h2 k = abs_key h1 k -> abs_desc h2 d = new ->
     tri h2 o Y v (heap_define_property o k d) (fun r v' => (r = Ok tt /\ D v') \/ (r = Err EOutOfMemory /\ v' = v))) ->
  tria h1 o X1 v h1 (odop_rest o k p)
    (stored v D (rejects (ao_extensible v) (own v (abs_key h1 k)) (abs_patch h1 p)) true false).
Proof.
  intros S1 Hk1 Hp1 Hg Hgood Hmix new Hsame Hdef. unfold odop_rest.
  assert (L1 : forall x, x ∈ X1 -> live h1 x) by (intros x Hx; by eapply st_live).
  destruct (st_base _ _ _ _ _ S1) as (b & Eb & Ev & Lb & ob & Hob & Hbo).
  set (cur := find_entry h1 k (ob_properties b)).
  assert (Ecur : abs_desc h1 <$> cur = own v (abs_key h1 k)).
  { unfold cur. rewrite find_entry_abs by done. rewrite Ev. done. }
  eapply (tria_read _ _ _ _ _ _ cur). { unfold object_get_own_property. by rewrite Eb. }
  eapply (tria_read _ _ _ _ _ _ (ao_extensible v)). { unfold object_is_extensible. rewrite Eb. cbn. by rewrite Ev. }
  unfold validate_and_apply. eapply tria_read; [by rewrite (patch_validate_abs h1), decide_False by done|].
  assert (Hdefine : ~ rejects (ao_extensible v) (own v (abs_key h1 k)) (abs_patch h1 p) ->
    tria h1 o X1 v h1 (define_property o k (next_desc cur p) ;;; mret true)
      (stored v D (rejects (ao_extensible v) (own v (abs_key h1 k)) (abs_patch h1 p)) true false)).
  { intros Hnr. eapply tria_bind.
    - eapply (tria_define_property_with _ _ _ _ _ _ _ (fun r v' => (r = Ok tt /\ D v') \/ (r = Err EOutOfMemory /\ v' = v)));
        [done| |done|right; done|].
      + intros x Hx. apply trace_next, elem_of_app in Hx as [Hx|Hx]; [|by apply L1, Hp1].
        destruct cur as [c|] eqn:Hc; [|by apply elem_of_nil in Hx]. apply find_entry_in in Hc as (e & He & <-).
        apply Lb. eapply base_has_entry; eauto. by apply trace_desc_in.
      + intros h2 Y HY1 HY2 Ek2 Ed2. apply Hdef; auto. rewrite Ed2, next_desc_abs by done.
        by rewrite Ecur.
    - intros [] v' [[_ HD]|[? ?]]; [|done]. apply tri_ret. right. left. done.
    - intros e v' [[? ?]|[[= ->] ->]]; [done|]. right. right. done.
    - intros v' [[? ?]|[? ?]]; done. }
  unfold next_desc in Hdefine. destruct cur as [c|] eqn:Hc; cbn in Ecur.
  - destruct (patch_is_empty p) eqn:Hem.
    + destruct (patch_empty_abs h1 p (abs_desc h1 c) Hem) as [Hm1 Hm2]. rewrite <- Ecur.
      apply tria_ret; [done|]. right. left. split; [done|]. split; [by rewrite Ecur in Hm2 |- * || apply Hm2|].
      apply Hsame. rewrite <- Ecur. unfold new. rewrite <- Ecur. by rewrite Hm1.
    + apply tria_get. pose proof (patch_rejected_spec h1 c p (ao_extensible v)) as Hrj.
      rewrite Ecur in Hrj. specialize (Hrj Hgood Hmix). destruct (patch_rejected h1 c p).
      * apply tria_ret; [done|]. left. split; [done|]. split; [by apply Hrj|done].
      * apply Hdefine. rewrite <- Hrj. done.
  - destruct (ao_extensible v) eqn:Hext; cbn [negb].
    + apply Hdefine. rewrite <- Ecur. intros Hr. by inversion Hr.
    + apply tria_ret; [done|]. left. split; [done|]. split; [|done]. rewrite <- Ecur. by constructor.
Qed.

Lemma tria_odop_with h0 o X v h k p (D : aobj -> Prop) : st h0 o X v h ->
  (forall x, x ∈ trace_key k -> live h x) -> (forall x, x ∈ trace_values (patch_values p) -> live h x) -> good_key (abs_key h k) ->
  patch_good (abs_patch h p) -> ~ patch_mixed (abs_patch h p) ->
  let new := merged (own v (abs_key h k)) (abs_patch h p) in
  (own v (abs_key h k) = Some new -> D v) ->
  (~ rejects (ao_extensible v) (own v (abs_key h k)) (abs_patch h p) -> forall h1 Y d, trace_key k ⊆ Y -> trace_desc d ⊆ Y ->
     abs_key h1 k = abs_key h k -> abs_desc h1 d = new ->
     tri h1 o Y v (heap_define_property o k d) (fun r v' => (r = Ok tt /\ D v') \/ (r = Err EOutOfMemory /\ v' = v))) ->
  tria h0 o X v h (ordinary_define_own_property o k p)
    (stored v D (rejects (ao_extensible v) (own v (abs_key h k)) (abs_patch h p)) true false).
Proof.
  intros S Hk Hp Hg Hgood Hmix new Hsame Hdef. unfold ordinary_define_own_property.
  eapply tria_read; [by rewrite (patch_validate_abs h), decide_False by done|].
  set (vs := VObject o :: key_value k :: patch_values p).
  apply tria_push_then; [done| |right; right; done|].
  { intros x. unfold vs. rewrite !trace_values_cons, trace_key_value. cbn. rewrite elem_of_cons, elem_of_app.
    intros [->|[Hx|Hx]]; [|auto..]. eapply st_live; eauto. apply S. }
  intros h1 S1 Str. set (X1 := X ++ trace_values vs) in *.
  assert (Hk1 : trace_key k ⊆ X1).
  { intros x Hx. unfold X1, vs. rewrite !trace_values_cons, trace_key_value. set_solver. }
  assert (Hp1 : trace_values (patch_values p) ⊆ X1).
  { intros x Hx. unfold X1, vs. rewrite !trace_values_cons. set_solver. }
  assert (L1 : forall x, x ∈ X1 -> live h1 x) by (intros x Hx; by eapply st_live).
  assert (Ek : abs_key h1 k = abs_key h k).
  { apply abs_key_ext. intros s Hs. apply Str, L1, Hk1, trace_key_in, Hs. }
  assert (Ep : abs_patch h1 p = abs_patch h p).
  { apply abs_patch_ext. intros s Hs. apply Str, L1, Hp1, Hs. }
  rewrite <- Ek, <- Ep. apply tria_odop_rest; auto; rewrite ?Ek, ?Ep; auto.
Qed.

(** *** Ordinary objects *)
Lemma tria_odop h0 o X v h k p : st h0 o X v h -> ao_array v = None ->
  (forall x, x ∈ trace_key k -> live h x) -> (forall x, x ∈ trace_values (patch_values p) -> live h x) -> good_key (abs_key h k) ->
  patch_good (abs_patch h p) -> ~ patch_mixed (abs_patch h p) ->
  tria h0 o X v h (ordinary_define_own_property o k p) (fun r v' =>
    (exists ok, r = Ok ok /\ ordinary_define_spec v (abs_key h k) (abs_patch h p) ok v') \/ (r = Err EOutOfMemory /\ v' = v)).
Proof.
  intros S Ha Hk Hp Hg Hgood Hmix.
  eapply tria_post; [eapply (tria_odop_with h0 o X v h k p (fun v' =>
    v' = with_props v (aput (abs_key h k) (merged (own v (abs_key h k)) (abs_patch h p)) (ao_props v)))); auto|].
  - intros E. rewrite aput_same by done. by destruct v.
  - intros _ h1 Y d HY1 HY2 Ek Ed. rewrite <- Ed, <- Ek. apply tri_heap_define; auto. by rewrite Ek.
  - intros r v' [(-> & Hr & ->)|[(-> & Hr & ->)|?]]; auto; left; eexists; split; eauto; by constructor.
Qed.

(** *** Elements and other properties of arrays *)
Lemma own_length v n w es : array_shape v n w es -> own v akey_length = Some (alength n w).
Proof. intros S. unfold own. rewrite (ar_props _ _ _ _ S). cbn. by rewrite decide_True. Qed.
Lemma own_elem v n w es k : array_shape v n w es -> k <> akey_length -> own v k = alookup k es.
Proof. intros S Hk. unfold own. rewrite (ar_props _ _ _ _ S). cbn. by rewrite decide_False. Qed.

Lemma tria_odop_elem h0 o X v n w es h k p : st h0 o X v h -> array_shape v n w es ->
  (forall x, x ∈ trace_key k -> live h x) -> (forall x, x ∈ trace_values (patch_values p) -> live h x) -> good_key (abs_key h k) ->
  patch_good (abs_patch h p) -> ~ patch_mixed (abs_patch h p) -> abs_key h k <> akey_length ->
  tria h0 o X v h (ordinary_define_own_property o k p)
    (stored v (fun v' => let d := merged (own v (abs_key h k)) (abs_patch h p) in
                 (v' = v /\ aput (abs_key h k) d es = es) \/ adef v n w es (abs_key h k) d v')
       (rejects (ao_extensible v) (own v (abs_key h k)) (abs_patch h p)) true false).
Proof.
  intros S Sh Hk Hp Hg Hgood Hmix Hlen. apply tria_odop_with; auto.
  - intros E. left. split; [done|]. apply aput_same. by erewrite <- own_elem.
  - intros _ h1 Y d HY1 HY2 Ek Ed. eapply tri_post; [eapply tri_heap_define_elem; eauto; by rewrite Ek|].
    intros r v' [[-> H]|?]; [|by right]. left. split; [done|]. right. by rewrite <- Ed, <- Ek.
Qed.

(** *** The length of arrays *)
Lemma merged_length ext n w p : ~ rejects ext (Some (alength n w)) p -> ~ ap_accessor p ->
  merged (Some (alength n w)) p = ADesc false false (AData (or_else (ap_value p) (anum n)) (or_else (ap_writable p) w)).
Proof.
  intros Hr Ha. unfold merged, alength. cbn -[decide]. rewrite decide_False by done. f_equal.
  - destruct (ap_enumerable p) as [[|]|] eqn:E; [|done|done]. destruct Hr. by eapply rj_enumerable.
  - destruct (ap_configurable p) as [[|]|] eqn:E; [|done|done]. destruct Hr. by eapply rj_configurable.
Qed.
Lemma merged_length_same n w p : merged (Some (alength n w)) p = alength n w ->
  or_else (ap_value p) (anum n) = anum n /\ or_else (ap_writable p) w = w.
Proof.
  unfold merged, alength. cbn -[decide]. destruct (decide (ap_accessor p)); intros E; [congruence|]. split; congruence.
Qed.
Lemma length_no_accessor ext n w p : ~ rejects ext (Some (alength n w)) p -> ~ ap_accessor p.
Proof. intros Hr Ha. destruct Hr. by eapply rj_to_accessor. Qed.
Lemma abs_value_num h x f : abs_value h x = ANum f -> x = VNumber f.
Proof. destruct x as [| |bb|g|bb|s|s|s]; cbn; try done; [destruct (f64_is_nan g); [done|congruence]|by destruct (get_string h s)]. Qed.
Lemma abs_desc_length h d m w : abs_desc h d = alength m w -> d = PDesc false false (PData (VNumber (f64_of_N m)) w).
Proof.
  destruct d as [e c [x w'|g s]]; unfold abs_desc, alength, anum; cbn; [|done]. intros [= -> -> E ->]. apply abs_value_num in E. by subst.
Qed.

Lemma tria_odop_length h0 o X v n w es h k p m : st h0 o X v h -> array_shape v n w es ->
  (forall x, x ∈ trace_key k -> live h x) -> (forall x, x ∈ trace_values (patch_values p) -> live h x) ->
  abs_key h k = akey_length -> patch_good (abs_patch h p) -> ~ patch_mixed (abs_patch h p) -> m < 2 ^ 32 ->
  or_else (ap_value (abs_patch h p)) (anum n) = anum m ->
  tria h0 o X v h (ordinary_define_own_property o k p)
    (stored v (fun v' => v' = array_with v m (or_else (pp_writable p) w) es)
       (rejects (ao_extensible v) (Some (alength n w)) (abs_patch h p)) true false).
Proof.
  intros S Sh Hk Hp Hkl Hgood Hmix Hm Ho. rewrite <- (own_length _ _ _ _ Sh), <- Hkl.
  pose proof (own_length _ _ _ _ Sh) as Hown. rewrite <- Hkl in Hown.
  apply tria_odop_with; auto; [by rewrite Hkl|..].
  - rewrite Hown. intros E%(inj Some). symmetry in E. apply merged_length_same in E as [E1 E2].
    rewrite Ho in E1. cbn in E2. rewrite E2. injection E1 as E1. apply f64_of_N_inj in E1; [|done|apply Sh]. subst m. by rewrite array_with_same.
  - rewrite Hown. intros Hr h1 Y d HY1 HY2 Ek Ed. pose proof (length_no_accessor _ _ _ _ Hr) as A.
    rewrite (merged_length _ _ _ _ Hr A) in Ed. rewrite Ho in Ed. change (ADesc false false (AData (anum m) ?x)) with (alength m x) in Ed.
    apply abs_desc_length in Ed. rewrite Ed. apply (tri_heap_define_length _ _ _ _ n w es); auto; [by rewrite Ek|by apply array_length_from_of_N].
Qed.

(** *** Deletion *)
Lemma remove_nth_sub {A} i (l : list A) : remove_nth i l `sublist_of` l.
Proof. unfold remove_nth. rewrite <- (take_drop i l) at 3. apply sublist_app; [done|]. rewrite <- (Nat.add_1_r i), <- drop_drop. apply sublist_drop. Qed.
Lemma remove_nth_in {A} i (l : list A) x : x ∈ remove_nth i l -> x ∈ l.
Proof. intros H. by eapply elem_of_submseteq, sublist_submseteq, remove_nth_sub. Qed.
Lemma position_ext h h' k ps : (forall e, e ∈ ps -> property_key_eq h (pe_key e) k = property_key_eq h' (pe_key e) k) -> position h k ps = position h' k ps.
Proof.
  induction ps as [|e ps IH]; [done|]. intros H. cbn. rewrite (H e) by left. destruct (property_key_eq h' (pe_key e) k); [done|].
  rewrite IH; [done|]. intros e' He'. apply H. by right.
Qed.
Lemma delete_rest h0 o X v h1 k h' r b : st h0 o X v h1 -> get_object_base h1 o = Ok b ->
  good_key (abs_key h1 k) -> (ao_array v <> None -> exists n w es, array_shape v n w es) -> heap_ordinary_delete o k h1 = (h', r) ->
  frame o h1 h' /\ stack_ext h1 h' /\ (forall s, live h' s -> live h1 s /\ get_string h' s = get_string h1 s) /\
  exists v' b', st h0 o X v' h' /\ get_object_base h' o = Ok b' /\
    (((exists ok, r = Ok ok /\ delete_spec v (abs_key h1 k) ok v') /\
      (ob_properties b' = ob_properties b \/ exists i, position h1 k (ob_properties b) = Some i /\ ob_properties b' = remove_nth i (ob_properties b))) \/
     (r = Err EOutOfMemory /\ v' = v /\ ob_properties b' = ob_properties b)).
Proof.
  intros S1 Eb1 Hg Harr E.
  assert (Ev : v = abs_base h1 b).
  { pose proof (st_view _ _ _ _ _ S1) as V. unfold abs_object in V. rewrite Eb1 in V. congruence. }
  unfold heap_ordinary_delete in E. unfold mbind at 1, mread in E. unfold object_get_own_property in E. rewrite Eb1 in E. cbn [rbind] in E.
  pose proof (find_entry_abs h1 k (ob_properties b)) as Hf. specialize (Hf Hg).
  change (map (abs_entry h1) (ob_properties b)) with (ao_props (abs_base h1 b)) in Hf. rewrite <- Ev in Hf. fold (own v (abs_key h1 k)) in Hf.
  destruct (find_entry h1 k (ob_properties b)) as [d|] eqn:Hfe; cbn in Hf, E.
  2:{ unfold mret in E. simplify_eq. split; [apply frame_refl|]. split; [apply stack_ext_refl|]. split; [done|]. eexists _, b. split; [exact S1|]. split; [done|].
      left. split; [|by left]. eexists. split; [done|]. by constructor. }
  destruct (pd_configurable d) eqn:Hcf; cbn [negb] in E.
  2:{ unfold mret in E. simplify_eq. split; [apply frame_refl|]. split; [apply stack_ext_refl|]. split; [done|]. eexists _, b. split; [exact S1|]. split; [done|].
      left. split; [|by left]. eexists. split; [done|]. by eapply dls_kept. }
  unfold mbind at 1 in E. destruct (delete_own_spec o k h1 (st_ok _ _ _ _ _ S1)) as [[_ Hno]|(ob & b2 & Hob & Hb2 & Hc)]; [by destruct (Hno b)|].
  assert (b2 = b) as ->.
  { apply get_object_base_Ok in Eb1 as (x & Hx & Hb). rewrite (live_as_fun _ _ _ _ Hx Hob) in Hb. congruence. }
  rewrite position_find in Hfe. destruct Hc as [[Hp _]|(i & h2 & Hp & E2 & U)]; rewrite Hp in Hfe; [done|].
  rewrite E2 in E. unfold mret in E. injection E as <- <-. set (b' := b <| ob_properties ::= remove_nth i |>) in *.
  assert (Hlive : forall y, base_has b' y -> live h1 y).
  { intros y Hy. apply (proj2 (st_nd _ _ _ _ _ S1) _ _ _ Hob). eapply object_has_base; [done|].
    apply trace_base_in. apply trace_base_in in Hy. unfold trace_base in *. cbn in Hy.
    apply elem_of_app in Hy as [Hy|Hy]; apply elem_of_app; [by left|right]. apply elem_of_list_In, in_flat_map in Hy as (e & He & Hy).
    apply elem_of_list_In, in_flat_map. exists e. split; [|done]. apply elem_of_list_In. apply elem_of_list_In in He. by eapply remove_nth_in. }
  destruct (st_ustep _ _ _ _ _ _ _ _ _ S1 U Hb2) as [S2 T2]; auto.
  { unfold b', base_kind_eq. cbn. by destruct (ob_kind b). }
  { intros Hka k'. destruct Harr as (n & w & es & Sh). { rewrite Ev. cbn. by destruct (ob_kind b). }
    pose proof (ar_props _ _ _ _ Sh) as Hps. rewrite Ev in Hps. cbn in Hps. unfold hd_key, b'. cbn.
    destruct (ob_properties b) as [|e es0] eqn:Hpb; [done|]. destruct i as [|i]; [|done]. exfalso.
    cbn in Hps. injection Hps as Hps0 Hps1. cbn in Hfe. simplify_eq. cbn in Hps0. unfold abs_desc, alength in Hps1. congruence. }
  assert (Str2 : forall s, get_string h2 s = get_string h1 s).
  { intros s. eapply (ustep_string _ _ _ b b'); eauto. by destruct ob. }
  assert (Lv2 : forall s, live h2 s -> live h1 s) by (intros s Hs; eapply ustep_live; eauto).
  split; [by eapply frame_ustep|]. split; [done|].
  split; [intros s Hs; split; [auto|by rewrite Str2]|].
  exists (abs_base h1 b'), b'. split; [done|]. split.
  { apply get_object_base_Ok. exists (set_base ob b'). split; [apply U|]. by destruct ob. }
  left. split.
  - exists true. split; [done|].
    assert (Ea : abs_base h1 b' = with_props v (aremove (abs_key h1 k) (ao_props v))).
    { rewrite Ev. unfold abs_base, with_props, b'. cbn. rewrite <- position_remove by done. by rewrite Hp. }
    rewrite Ea. by eapply dls_deleted.
  - right. exists i. done.
Qed.

Lemma delete_at h0 o X v h k h' r b : st h0 o X v h -> get_object_base h o = Ok b -> (forall x, x ∈ trace_key k -> live h x) ->
  good_key (abs_key h k) -> (ao_array v <> None -> exists n w es, array_shape v n w es) -> ordinary_delete o k h = (h', r) ->
  frame o h h' /\ stack_ext h h' /\ (forall s, live h' s -> get_string h' s = get_string h s) /\
  exists v' b', st h0 o X v' h' /\ get_object_base h' o = Ok b' /\
    (((exists ok, r = Ok ok /\ delete_spec v (abs_key h k) ok v') /\
      (ob_properties b' = ob_properties b \/ exists i, position h k (ob_properties b) = Some i /\ ob_properties b' = remove_nth i (ob_properties b))) \/
     (r = Err EOutOfMemory /\ v' = v /\ ob_properties b' = ob_properties b)).
Proof.
  intros S Eb Hlk Hg Harr E. unfold ordinary_delete in E. unfold mbind at 1 in E.
  destruct (push_roots [VObject o; key_value k] h) as [h1 r1] eqn:E1.
  assert (HL : forall x, x ∈ trace_values [VObject o; key_value k] -> live h x).
  { intros x. rewrite !trace_values_cons, trace_key_value. cbn. rewrite app_nil_r. intros [->|Hx]%elem_of_cons; [|auto].
    eapply st_live; eauto. apply S. }
  destruct (push_enter _ h h1 r1 (st_ok _ _ _ _ _ S) (st_nd _ _ _ _ _ S) HL E1) as (H1 & N1 & T1 & F1 & Hr & Str & Vw & Lv & Rt).
  assert (RX : forall x, x ∈ X -> stack_rooted h1 x).
  { intros x Hx. eapply stack_rooted_ext; [exact T1|]. by apply (st_root _ _ _ _ _ S). }
  assert (LX : forall x, x ∈ X -> live h1 x).
  { intros x Hx. by apply N1, stack_rooted_rooted, RX. }
  pose proof (st_in _ _ _ _ _ S) as Ho.
  assert (S1 : st h0 o X v h1).
  { constructor; auto.
    - intros x Hx. rewrite Str by auto. by apply (st_str _ _ _ _ _ S).
    - rewrite Vw by auto. apply (st_view _ _ _ _ _ S).
    - intros Hk. destruct (st_kind _ _ _ _ _ S Hk) as (b0 & Hb). exists b0. auto.
    - intros k' Hh. pose proof (st_head _ _ _ _ _ S k' Hh) as Hh'. unfold head_key in Hh' |- *. rewrite Eb in Hh'.
      apply get_object_base_Ok in Eb as (x & Hx & Hb). rewrite (proj2 (get_object_base_Ok h1 o b)); [done|]. exists x. auto. }
  assert (Eb1 : get_object_base h1 o = Ok b).
  { apply get_object_base_Ok in Eb as (x & Hx & Hb). apply get_object_base_Ok. exists x. split; [|done]. apply Lv; auto. }
  destruct Hr as [->| ->].
  2:{ simplify_eq. split; [done|]. split; [done|]. split; [done|]. exists v, b. split; [done|]. split; [done|]. right. done. }
  assert (Hlk1 : forall x, x ∈ trace_key k -> live h1 x).
  { intros x Hx. apply N1, stack_rooted_rooted, Rt; [done|]. rewrite !trace_values_cons, trace_key_value. set_solver. }
  assert (Ek : abs_key h1 k = abs_key h k).
  { apply abs_key_ext. intros s Hs. by apply Str, Hlk1, trace_key_in. }
  destruct (delete_rest _ _ _ _ _ _ _ _ _ S1 Eb1 ltac:(by rewrite Ek) Harr E) as (F2 & T2 & Str2 & v' & b' & S' & Eb' & Hc).
  split; [eapply frame_trans; [by apply F1|done]|]. split; [by eapply stack_ext_trans|].
  split; [intros s Hs; destruct (Str2 s Hs) as [? ->]; by apply Str|]. exists v', b'. split; [done|]. split; [done|].
  rewrite Ek in Hc. destruct Hc as [[Hok Hpr]|Hc]; [left|by right]. split; [done|]. destruct Hpr as [Hpr|(i & Hp & Hpr)]; [by left|right].
  exists i. split; [|done]. rewrite <- Hp.
  destruct (st_base _ _ _ _ _ S1) as (b0 & Eb0 & _ & Lb & _). assert (b0 = b) as -> by congruence.
  apply position_ext. intros e He. rewrite !key_eq_abs by (by rewrite ?Ek). rewrite Ek. f_equal.
  apply bool_decide_ext. enough (abs_key h (pe_key e) = abs_key h1 (pe_key e)) as -> by done. symmetry. apply abs_key_ext. intros s Hs. apply Str, Lb.
  apply trace_base_in. unfold trace_base.
  apply elem_of_app. right. apply elem_of_list_In, in_flat_map. exists e. split; [by apply elem_of_list_In|]. apply elem_of_list_In.
  unfold trace_entry. apply elem_of_app. left. by apply trace_key_in.
Qed.
