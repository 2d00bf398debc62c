(** The essential invariants hold across every checked change of an abstract object. *)
From stdpp Require Import base decidable list numbers sets sorting.
From Coq Require Import NArith ZArith Lia.
From RecordUpdate Require Import RecordUpdate.
From Verif Require Import VmBase HeapModel HeapObjModel HeapSpec HeapGcProofs HeapInvProofs HeapObjProofs
  ObjectOpsModel ObjectOpsProofs HeapTidyProofs HeapSafeProofs HeapSafeOps HeapSafeOps2 HeapSafeOps3 HeapHistory HeapHistoryProofs
  KeySpec KeyProofs ObjSpec ObjViewProofs ObjDefineProofs ObjOpsProofs ObjArrayProofs ObjTopProofs.

Open Scope N_scope.

Lemma essential_refl v : essential v v.
Proof. constructor; auto. intros k d Hd Hc. exists d. do 3 (split; [done|]). by destruct (a_kind d). Qed.
Lemma essential_trans a b c : essential a b -> essential b c -> essential a c.
Proof.
  intros [A1 A2 A3] [B1 B2 B3]. constructor; auto. intros k d Hd Hc. destruct (A3 k d Hd Hc) as (d' & Hd' & Hc' & He & Hk).
  destruct (B3 k d' Hd' Hc') as (d'' & Hd'' & Hc'' & He' & Hk'). exists d''. split; [done|]. split; [done|]. split; [congruence|].
  destruct (a_kind d), (a_kind d'), (a_kind d''); try done.
  - intros E. destruct (Hk E) as [-> ->]. auto.
  - destruct Hk as [-> ->]. done.
Qed.

Lemma alookup_aput k k' d ps : alookup k' (aput k d ps) = if decide (k' = k) then Some d else alookup k' ps.
Proof.
  induction ps as [|[j e] ps IH]; cbn.
  - destruct (decide (k = k')), (decide (k' = k)); congruence.
  - destruct (decide (j = k)) as [->|Hj]; cbn.
    + destruct (decide (k = k')), (decide (k' = k)); congruence.
    + rewrite IH. destruct (decide (j = k')), (decide (k' = k)); congruence.
Qed.
Lemma alookup_aremove_ne k k' ps : k' <> k -> alookup k' (aremove k ps) = alookup k' ps.
Proof.
  intros Hn. induction ps as [|[j e] ps IH]; [done|]. cbn. destruct (decide (j = k)) as [->|Hj]; cbn.
  - by rewrite decide_False by done.
  - by rewrite IH.
Qed.
Lemma alookup_Some_in k d ps : alookup k ps = Some d -> (k, d) ∈ ps.
Proof. induction ps as [|[j e] ps IH]; [done|]. cbn. destruct (decide (j = k)) as [->|]; [intros [= ->]; left|right; auto]. Qed.
Lemma alookup_nodup k d ps : NoDup (map fst ps) -> (k, d) ∈ ps -> alookup k ps = Some d.
Proof.
  induction ps as [|[j e] ps IH]; [by intros ? ?%elem_of_nil|]. cbn. intros [Hj Hn]%NoDup_cons [[= -> ->]|H]%elem_of_cons; [by rewrite decide_True|].
  rewrite decide_False; auto. intros ->. apply Hj. apply elem_of_list_fmap. by exists (k, d).
Qed.
Lemma alookup_None_in k ps : alookup k ps = None <-> k ∉ map fst ps.
Proof.
  induction ps as [|[j e] ps IH]; cbn; [set_solver|]. destruct (decide (j = k)) as [->|]; [set_solver|]. rewrite IH. set_solver.
Qed.

(** The property as redefined. *)
Lemma merged_fixed ext d p : ~ rejects ext (Some d) p -> a_configurable d = false ->
  let d' := merged (Some d) p in a_configurable d' = false /\ a_enumerable d' = a_enumerable d /\
      match a_kind d, a_kind d' with
      | AAccessor g s, AAccessor g' s' => g' = g /\ s' = s
      | AData x w, AData x' w' => w = false -> x' = x /\ w' = false
      | _, _ => False
      end.
Proof.
  intros Hr Hc. cbn. rewrite Hc. split; [|split].
  - destruct (ap_configurable p) as [[]|] eqn:E; cbn; [|done..]. destruct Hr. by apply rj_configurable.
  - destruct (ap_enumerable p) as [e|] eqn:E; cbn; [|done]. destruct (decide (e = a_enumerable d)); [done|]. destruct Hr. by eapply rj_enumerable.
  - destruct (a_kind d) as [x w|g s] eqn:Hk; cbn.
    + destruct (decide (ap_accessor p)); [destruct Hr; by eapply rj_to_accessor|]. intros ->. split.
      * destruct (ap_value p) as [y|] eqn:E; cbn; [|done]. destruct (decide (y = x)); [done|]. destruct Hr. by eapply rj_value.
      * destruct (ap_writable p) as [[]|] eqn:E; cbn; [|done..]. destruct Hr. by eapply rj_writable.
    + destruct (decide (ap_data p)); [destruct Hr; by eapply rj_to_data|]. split.
      * destruct (ap_get p) as [y|] eqn:E; cbn; [|done]. destruct (decide (y = g)); [done|]. destruct Hr. by eapply rj_get.
      * destruct (ap_set p) as [y|] eqn:E; cbn; [|done]. destruct (decide (y = s)); [done|]. destruct Hr. by eapply rj_set.
Qed.

Lemma fixed_same d : exists d', Some d = Some d' /\ (a_configurable d = false -> a_configurable d' = false) /\ a_enumerable d' = a_enumerable d /\
      match a_kind d, a_kind d' with
      | AAccessor g s, AAccessor g' s' => g' = g /\ s' = s
      | AData x w, AData x' w' => w = false -> x' = x /\ w' = false
      | _, _ => False
      end.
Proof. exists d. do 3 (split; [done|]). by destruct (a_kind d). Qed.

(** A change that redefines [k] and keeps the other keys, or keeps what cannot be deleted. *)
Lemma essential_put v v' k p : ao_extensible v' = ao_extensible v -> ~ rejects (ao_extensible v) (own v k) p ->
  own v' k = Some (merged (own v k) p) -> (forall k', k' <> k -> own v' k' = own v k') -> essential v v'.
Proof.
  intros He Hr Hk Ho. constructor; [congruence|..].
  - intros k' Hx Hn. destruct (decide (k' = k)) as [->|Hd]; [|by rewrite Ho]. destruct Hr. rewrite Hn. by constructor.
  - intros k' d Hd Hc. destruct (decide (k' = k)) as [->|Hne].
    + rewrite Hk. rewrite Hd in Hr |- *. eexists. split; [done|]. by eapply merged_fixed.
    + rewrite Ho by done. destruct (fixed_same d) as (d' & E & H). exists d'. split; [congruence|]. destruct H as [H1 H]. auto.
Qed.
Lemma ordinary_define_essential v k p ok v' : ordinary_define_spec v k p ok v' -> essential v v'.
Proof.
  intros [|Hr]; [apply essential_refl|]. eapply (essential_put _ _ k p); auto.
  - unfold own. cbn. by rewrite alookup_aput, decide_True.
  - intros k' Hk. unfold own. cbn. by rewrite alookup_aput, decide_False.
Qed.
Lemma delete_essential v k ok v' : delete_spec v k ok v' -> essential v v'.
Proof.
  intros [|d|d Hd Hc]; [apply essential_refl..|]. constructor; [done|..].
  - intros k' _ Hn. unfold own. cbn. rewrite alookup_aremove_ne; [done|congruence].
  - intros k' d' Hd' Hc'. unfold own. cbn. rewrite alookup_aremove_ne by congruence. fold (own v k'). rewrite Hd'.
    destruct (fixed_same d') as (d1 & E & H1 & H). exists d1. auto.
Qed.

Lemma own_array_with v n w es m w' es' k : array_shape v n w es -> own (array_with v m w' es') k = if decide (k = akey_length) then Some (alength m w') else alookup k es'.
Proof. intros Sh. unfold own. cbn. destruct (decide (akey_length = k)), (decide (k = akey_length)); congruence. Qed.
Lemma own_shape v n w es k : array_shape v n w es -> own v k = if decide (k = akey_length) then Some (alength n w) else alookup k es.
Proof. intros Sh. rewrite <- (array_with_same v n w es) at 1 by done. by eapply own_array_with. Qed.

Lemma essential_length v n w es m w' es' : array_shape v n w es -> (w = false -> m = n /\ w' = false) -> es' `sublist_of` es ->
  (forall k d, (k, d) ∈ es -> (k, d) ∉ es' -> a_configurable d = true) -> essential v (array_with v m w' es').
Proof.
  intros Sh Hw Hsub Hgone. pose proof (ar_nodup _ _ _ _ Sh) as Hnd. rewrite (ar_props _ _ _ _ Sh) in Hnd. cbn in Hnd. apply NoDup_cons in Hnd as [Hl Hnd].
  assert (Hin : forall k d, (k, d) ∈ es' -> (k, d) ∈ es) by (intros k d Hi; eapply elem_of_submseteq; [exact Hi|by apply sublist_submseteq]).
  constructor; [done|..].
  - intros k _. rewrite (own_shape _ _ _ _ _ Sh), (own_array_with _ _ _ _ _ _ _ _ Sh). destruct (decide (k = akey_length)); [done|].
    rewrite !alookup_None_in. intros Hn Hk. apply Hn. apply elem_of_list_fmap in Hk as ([k' d] & -> & Hk). apply elem_of_list_fmap. exists (k', d). auto.
  - intros k d. rewrite (own_shape _ _ _ _ _ Sh), (own_array_with _ _ _ _ _ _ _ _ Sh). destruct (decide (k = akey_length)).
    + intros [= <-] _. exists (alength m w'). do 3 (split; [done|]). cbn. intros E. destruct (Hw E) as [-> ->]. done.
    + intros Hd Hc. assert (Hd' : (k, d) ∈ es').
      { destruct (decide ((k, d) ∈ es')) as [|Hn]; [done|]. apply alookup_Some_in in Hd. rewrite (Hgone _ _ Hd Hn) in Hc. done. }
      rewrite (alookup_nodup k d es'); [|by eapply sublist_nodup_fst|done]. destruct (fixed_same d) as (d' & E & H1 & H). exists d'. auto.
Qed.
Lemma length_unrejected ext n w p m : ~ rejects ext (Some (alength n w)) p -> w = false ->
  (forall x, ap_value p = Some x -> x = anum m) -> (ap_value p = None -> m = n) -> n < 2 ^ 32 -> m < 2 ^ 32 -> m = n /\ or_else (ap_writable p) w = false.
Proof.
  intros Hr -> Hv Hn L1 L2. split.
  - destruct (ap_value p) as [x|] eqn:E; [|auto]. rewrite (Hv x eq_refl) in E. destruct (decide (m = n)); [done|]. destruct Hr.
    eapply (rj_value _ _ _ (anum n) (anum m)); [done|done|done|]. unfold anum. intros [= Hx]. by apply f64_of_N_inj in Hx.
  - destruct (ap_writable p) as [[]|] eqn:E; [|done..]. destruct Hr. by eapply rj_writable.
Qed.
Lemma array_define_essential v n w es k p ok v' : array_shape v n w es -> array_define_spec v n w es k p ok v' -> essential v v'.
Proof.
  intros Sh H. inversion H; simplify_eq; try apply essential_refl.
  - eapply (essential_put _ _ k p); auto.
    + rewrite (own_array_with _ _ _ _ _ _ _ _ Sh), decide_False by done. by rewrite alookup_aput, decide_True.
    + intros k' Hk'. rewrite (own_array_with _ _ _ _ _ _ _ _ Sh), (own_shape v n w es k') by done. case_decide; [done|]. by rewrite alookup_aput, decide_False.
  - assert (Hkl : k <> akey_length) by (intros ->; by eapply length_not_index).
    (* [length] changes only when it is writable *)
    eapply (essential_trans _ (array_with v n w (aput k (merged (own v k) p) es))).
    + eapply (essential_put _ _ k p); auto.
      * rewrite (own_array_with _ _ _ _ _ _ _ _ Sh), decide_False by done. by rewrite alookup_aput, decide_True.
      * intros k' Hk'. rewrite (own_array_with _ _ _ _ _ _ _ _ Sh), (own_shape v n w es k') by done. case_decide; [done|]. by rewrite alookup_aput, decide_False.
    + assert (Hf : forall j, own (array_with v j w (aput k (merged (own v k) p) es)) akey_length = Some (alength j w)) by done.
      constructor; [done|..].
      * intros k' _. rewrite !(own_array_with _ _ _ _ _ _ _ _ Sh). by destruct (decide _).
      * intros k' d. rewrite !(own_array_with _ _ _ _ _ _ _ _ Sh). destruct (decide _).
        -- intros [= <-] _. eexists. split; [done|]. do 2 (split; [done|]). cbn. intros ->. destruct H1; [|done]. by replace (N.max n (i + 1)) with n by lia.
        -- intros Hd Hc. rewrite Hd. destruct (fixed_same d) as (d' & E & H3 & H4). exists d'. auto.
  - apply (essential_length v n w es); [done| |done|done]. intros Hw. apply (length_unrejected (ao_extensible v) n w p n); auto; try apply Sh. by rewrite H1.
  - assert (n0 < 2 ^ 32) by (destruct H2 as (f & _ & _ & _ & _ & ?); done).
    apply (essential_length v n w es); [done| |done|done]. intros Hw. apply (length_unrejected (ao_extensible v) n w (with_value p (anum n0)) n0); auto; try apply Sh; cbn; congruence.
  - destruct H7 as [Hs Hg]. destruct H6 as (_ & Hc & _). apply (essential_length v n true es); [done|done|done|]. intros k d Hd Hn.
    destruct (decide (a_configurable d = true)) as [|Hf]; [done|]. exfalso. apply Hn, Hg; [done|]. intros (i & Hi & Hl). apply Hf. by eapply Hc.
Qed.
Lemma define_essential v k p ok v' : define_spec v k p ok v' -> essential v v'.
Proof. intros [_ H|n w es Sh H]; [by eapply ordinary_define_essential|by eapply array_define_essential]. Qed.
Lemma define_oom_essential v k p v' : define_oom v k p v' -> essential v v'.
Proof.
  intros [|n es x m es' Sh _ _ _ _ _ Hs Hg]; [apply essential_refl|]. apply (essential_length v n true es); [done|done|done|].
  intros k' d H1 H2. by destruct (Hg _ _ H1 H2).
Qed.
Lemma define_result_essential v k p r v' : define_result v k p r v' -> essential v v'.
Proof. intros [(ok & _ & H)|[(_ & _ & ->)|(_ & H)]]; [by eapply define_essential|apply essential_refl|by eapply define_oom_essential]. Qed.
Lemma delete_result_essential v k r v' : delete_result v k r v' -> essential v v'.
Proof. intros [(ok & _ & H)|(_ & ->)]; [by eapply delete_essential|apply essential_refl]. Qed.
Lemma set_result_essential v k x r v' : set_result v k x r v' -> essential v v'.
Proof. intros [[-> _]|[[_ H]|[_ H]]]; [apply essential_refl|by eapply define_result_essential..]. Qed.
Lemma or_throw_any (Q : res bool -> aobj -> Prop) (P : aobj -> Prop) r v' : (forall r v', Q r v' -> P v') -> or_throw Q r v' -> P v'.
Proof. intros H [[_ Hq]|[[_ Hq]|[(e & _ & Hq)|[_ Hq]]]]; eauto. Qed.
Lemma prevent_essential v : essential v (with_extensible v false).
Proof.
  constructor; [done|done|]. intros k d Hd Hc. change (own (with_extensible v false) k) with (own v k). rewrite Hd.
  destruct (fixed_same d) as (d' & E & H1 & H). exists d'. auto.
Qed.
