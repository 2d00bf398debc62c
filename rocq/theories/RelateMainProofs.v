(** Proofs that the engine's answers follow the rules. *)
From Coq Require Import ZArith Lia.
From stdpp Require Import base decidable numbers sets list.
From Verif Require Import RelateModel RelateSpec RelateProofs RelateRuleProofs.

(** ** The rules *)
Section Rules.
  Context (E : env).

  Section Mono.
    Context (R R' : relation) (HR : forall b s d, R b s d -> R' b s d).
    Lemma sig_fits_mono b s d : sig_fits E R b s d -> sig_fits E R' b s d.
    Proof.
      intros [H1 H2 H3 H4 H5 H6]. split; try done.
      - intros a Ha. destruct (H2 a Ha) as (x & ? & ?). exists x. auto.
      - auto.
      - intros i dt Hi Ha. destruct (H5 i dt Hi Ha) as (st & Hst & Hr).
        exists st. split; [done|]. naive_solver.
      - naive_solver.
    Qed.
    Lemma sigs_fit_mono b ss ds : sigs_fit E R b ss ds -> sigs_fit E R' b ss ds.
    Proof.
      intros H d Hd. destruct (H d Hd) as (s & Hs & Hf). exists s.
      split; [done|by apply sig_fits_mono].
    Qed.
    Lemma shape_fits_mono b s d : shape_fits E R b s d -> shape_fits E R' b s d.
    Proof.
      intros [H1 H2 H3 H4]. split; try (by apply sigs_fit_mono).
      - intros p Hp. destruct (H1 p Hp).
        + eapply fits_prop; eauto.
        + by apply fits_absent.
        + eapply fits_indexed; eauto.
      - intros i Hi. destruct (H2 i Hi).
        + eapply fits_indexer; eauto.
        + eapply fits_known; eauto.
    Qed.
    Lemma rule_mono b s d : rule E R b s d -> rule E R' b s d.
    Proof.
      induction 1.
      - apply rule_same.
      - by apply rule_from_any.
      - by apply rule_to_any.
      - by apply rule_to_unknown.
      - by apply rule_from_never.
      - by apply rule_basic.
      - by eapply rule_to_param.
      - by eapply rule_same_param.
      - by apply rule_to_empty.
      - by eapply rule_from_union.
      - by eapply rule_to_union.
      - by eapply rule_to_inter.
      - by eapply rule_from_inter.
      - eapply rule_from_merged; try done. by apply shape_fits_mono.
      - by eapply rule_from_ref.
      - by eapply rule_to_ref.
      - by eapply rule_from_cond.
      - by eapply rule_to_cond.
      - eapply rule_array; try done. by apply HR.
      - by eapply rule_array_object.
      - eapply rule_array_indexed; try done. by apply HR.
      - eapply rule_tuple; try done. eapply Forall2_impl; [done|]. naive_solver.
      - by eapply rule_tuple_object.
      - eapply rule_tuple_array; try done. eapply Forall_impl; [done|]. naive_solver.
      - eapply rule_callable; try done. by apply sigs_fit_mono.
      - eapply rule_callable_object; try done. by apply sigs_fit_mono.
      - eapply rule_object_callable; try done. by apply sigs_fit_mono.
      - eapply rule_object; try done. by apply shape_fits_mono.
    Qed.
  End Mono.

  Lemma assignable_unfold b s d : assignable_to E b s d -> rule E (assignable_to E) b s d.
  Proof.
    intros (R & HR & H). apply (rule_mono R); [|by apply HR].
    intros b' s' d' H'. by exists R.
  Qed.
  Lemma assignable_fold b s d : rule E (assignable_to E) b s d -> assignable_to E b s d.
  Proof.
    intros H. exists (rule E (assignable_to E)). split; [|done].
    intros b' s' d'. apply rule_mono. apply assignable_unfold.
  Qed.
  Lemma assignable_iff b s d : assignable_to E b s d <-> rule E (assignable_to E) b s d.
  Proof. split; [apply assignable_unfold|apply assignable_fold]. Qed.
End Rules.

Section Answers.
  Context (E : env) (Hwf : well_formed E) (Hfix : fixed_tuples E) (Hne : no_empty E).
  Context (Hix : index_alone E).
  Notation R := (assignable_to E).
  Notation G := (meaning E).

  Lemma meaning_assignable m s d :
    G (Key s d Assignable m) <-> R (m_bivariant m) s d.
  Proof. done. Qed.

  Lemma h_ask off m s d : holds G (ask off m s d) <-> R (m_bivariant m) s d.
  Proof. apply (ask_iff R G meaning_assignable). Qed.

  Lemma object_ok t sh : st_kind E t = KObject sh -> ok_shape E sh.
  Proof.
    intros H. destruct (wf_shape E Hwf t sh) as (H1 & H2 & H3); [by left|]. by split.
  Qed.
  Lemma merged_ok t ms sh : st_kind E t = KInter ms -> st_merge E ms = Some sh -> ok_shape E sh.
  Proof.
    intros H1 H2. destruct (wf_shape E Hwf t sh) as (Ha & Hb & Hc).
    - right. by exists ms.
    - by split.
  Qed.
  Lemma tuple_ok t es : st_kind E t = KTuple es -> fixed es.
  Proof. apply Hfix. Qed.

  (** *** True answers *)
  Lemma special_sound b s d :
    special E (st_kind E s) (st_kind E d) = Some true -> rule E R b s d.
  Proof.
    unfold special. rewrite (wf_strict E Hwf). cbn [negb andb].
    pose proof (Hne s) as Hs. pose proof (Hne d) as Hd.
    destruct (st_kind E s) eqn:Es; try done; destruct (st_kind E d) eqn:Ed; try done;
      cbn; intros H; try discriminate;
      try (apply rule_from_any; assumption);
      try (apply rule_to_any; assumption);
      try (apply rule_to_unknown; assumption);
      try (apply rule_from_never; assumption);
      try (eapply rule_to_param; [eassumption|congruence]);
      try (apply rule_basic; rewrite Es, Ed; constructor; fail).
    injection H as H. apply N.eqb_eq in H. subst.
    eapply rule_same_param; eassumption.
  Qed.

  Lemma structural_sound off m s d :
    holds G (structural E off m (st_kind E s) (st_kind E d)) ->
    rule E R (m_bivariant m) s d.
  Proof.
    pose proof (wf_keys E Hwf) as Hk. pose proof meaning_assignable as HG.
    destruct (st_kind E s) eqn:Es; destruct (st_kind E d) eqn:Ed; cbn [structural];
      try (cbn [holds]; discriminate).
    - cbn [holds]. intros H%Bool.eqb_prop. subst. apply rule_basic. rewrite Es, Ed. constructor.
    - cbn [holds]. intros H%N.eqb_eq. subst. apply rule_basic. rewrite Es, Ed. constructor.
    - cbn [holds]. intros H%N.eqb_eq. subst. apply rule_basic. rewrite Es, Ed. constructor.
    - cbn [holds]. intros H%Z.eqb_eq. subst. apply rule_basic. rewrite Es, Ed. constructor.
    - unfold relate_array. rewrite (if_false_iff R G HG), andb_false_iff, negb_false_iff, h_ask.
      intros [H1 H2]. eapply rule_array; try done. intros ->. destruct H1; congruence.
    - intros H. by destruct (array_to_tuple_iff E _ _ _ _ _ _ (tuple_ok _ _ Ed) H).
    - rewrite (array_to_object_iff E Hk R G HG); [|by eapply object_ok].
      intros [->|(i & Hi & Hik & H)]; [by eapply rule_array_object|].
      eapply rule_array_indexed; [done| |exact Hik|exact H].
      by rewrite <- (Hix d sh i Ed Hi Hik).
    - rewrite (tuple_to_array_iff E R G HG); [|by eapply tuple_ok].
      intros H. by eapply rule_tuple_array.
    - rewrite (tuple_iff E Hk R G HG); [|by eapply tuple_ok..].
      intros H. by eapply rule_tuple.
    - cbn [holds]. rewrite (empty_shape_iff R G HG). intros ->. by eapply rule_tuple_object.
    - rewrite (object_iff E Hk R G HG); [|by eapply object_ok..].
      intros H. by eapply rule_object.
    - unfold relate_object_to_callable. destruct sh as [ps cs ks xs]. cbn [s_props s_constructs s_indexers s_calls].
      destruct ps; [|cbn [holds]; discriminate]. destruct ks; [|cbn [holds]; discriminate].
      destruct xs; [|cbn [holds]; discriminate].
      rewrite (callable_iff E Hk R G HG). cbn [bivariant m_bivariant]. intros H.
      by eapply rule_object_callable.
    - unfold relate_callable_to_object. destruct sh as [ps cs ks xs]. cbn [s_props s_constructs s_indexers s_calls].
      destruct ps; [|cbn [holds]; discriminate]. destruct ks; [|cbn [holds]; discriminate].
      destruct xs; [|cbn [holds]; discriminate].
      rewrite (callable_iff E Hk R G HG). cbn [bivariant m_bivariant]. intros H.
      by eapply rule_callable_object.
    - rewrite (callable_iff E Hk R G HG). intros H. by eapply rule_callable.
  Qed.

  Definition is_union (k : kind) : bool := match k with KUnion _ => true | _ => false end.

  Lemma compound_plain off m s d :
    (match st_kind E s with KCond _ _ | KUnion _ | KInter _ => False | _ => True end) ->
    (match st_kind E d with KCond _ _ | KUnion _ | KInter _ => False | _ => True end) ->
    compound E off m s d = structural E off m (st_kind E s) (st_kind E d).
  Proof.
    unfold compound. destruct (st_kind E s); try done; destruct (st_kind E d); try done.
  Qed.

  Lemma compound_sound off m s d :
    holds G (compound E off m s d) -> rule E R (m_bivariant m) s d.
  Proof.
    pose proof (wf_keys E Hwf) as Hk. pose proof meaning_assignable as HG.
    assert (forall ms, st_kind E s = KUnion ms ->
      holds G (every (fun x => ask off m x d) ms) -> rule E R (m_bivariant m) s d) as Hfu.
    { intros ms Es H. rewrite holds_every in H. eapply rule_from_union; [done|].
      intros x Hx. apply assignable_unfold. specialize (H x Hx). by rewrite h_ask in H. }
    assert (forall ms, st_kind E d = KUnion ms ->
      holds G (some (fun x => ask off m s x) ms) -> rule E R (m_bivariant m) s d) as Htu.
    { intros ms Ed H. rewrite holds_some in H. destruct H as (x & Hx & H).
      rewrite h_ask in H. eapply rule_to_union; [done..|]. by apply assignable_unfold. }
    assert (forall ms, st_kind E d = KInter ms ->
      holds G (every (fun x => ask off m s x) ms) -> rule E R (m_bivariant m) s d) as Hti.
    { intros ms Ed H. rewrite holds_every in H. eapply rule_to_inter; [done|].
      intros x Hx. apply assignable_unfold. specialize (H x Hx). by rewrite h_ask in H. }
    assert (forall ms, st_kind E s = KInter ms ->
      holds G (some (fun x => ask off m x d) ms) -> rule E R (m_bivariant m) s d) as Hfi.
    { intros ms Es H. rewrite holds_some in H. destruct H as (x & Hx & H).
      rewrite h_ask in H. eapply rule_from_inter; [done..|]. by apply assignable_unfold. }
    assert (forall x y, st_kind E s = KCond x y ->
      holds G (both (ask off m x d) (ask off m y d)) -> rule E R (m_bivariant m) s d) as Hfc.
    { intros x y Es H. rewrite holds_both, !h_ask in H. destruct H as [H1 H2].
      eapply rule_from_cond; [done|..]; by apply assignable_unfold. }
    assert (forall x y, st_kind E d = KCond x y ->
      holds G (both (ask off m s x) (ask off m s y)) -> rule E R (m_bivariant m) s d) as Htc.
    { intros x y Es H. rewrite holds_both, !h_ask in H. destruct H as [H1 H2].
      eapply rule_to_cond; [done|..]; by apply assignable_unfold. }
    pose proof (structural_sound off m s d) as Hst.
    unfold compound.
    destruct (st_kind E s) eqn:Es; destruct (st_kind E d) eqn:Ed; intros H;
      try (by eapply Hst); try (by eapply Hfu); try (by eapply Htu); try (by eapply Hti);
      try (by eapply Hfi); try (by eapply Hfc); try (by eapply Htc).
    destruct (st_merge E members) as [shm|] eqn:Hm; [|by eapply Hfi].
    rewrite (object_iff E Hk R G HG) in H;
      [by eapply rule_from_merged|by eapply merged_ok|by eapply object_ok].
  Qed.

  Lemma expansion_some t e : expansion E t = Some e -> st_kind E t = KRef (Some e).
  Proof.
    unfold expansion. destruct (st_kind E t) as [| | | | | | | | | | | | | | | | | | | | | | [x|] | | | |]; try done.
    destruct (x =? t)%N; [done|]. by intros [= <-].
  Qed.
  Lemma expansion_none t e : expansion E t = None -> st_kind E t = KRef (Some e) -> e = t.
  Proof.
    unfold expansion. intros H Ht. rewrite Ht in H.
    destruct (N.eqb_spec e t); [done|done].
  Qed.

  Lemma assignable_sound off m s d :
    holds G (assignable E off m s d) -> rule E R (m_bivariant m) s d.
  Proof.
    unfold assignable. destruct (N.eqb_spec s d) as [->|Hsd].
    { intros _. apply rule_same. }
    destruct (negb (m_skip m) && _).
    { rewrite h_ask. intros H%assignable_unfold.
      assert (rule E R (m_bivariant m) s (st_norm E d)) as H'.
      { destruct (wf_norm E Hwf s) as [Hn|Hn]; [by rewrite Hn in H|].
        by eapply rule_from_ref. }
      destruct (wf_norm E Hwf d) as [Hn|Hn]; [by rewrite Hn in H'|].
      by eapply rule_to_ref. }
    destruct (special E (st_kind E s) (st_kind E d)) as [[]|] eqn:Hsp.
    - intros _. by apply special_sound.
    - cbn [holds]. discriminate.
    - destruct (expansion E s) as [e|] eqn:He.
      { rewrite h_ask. intros H%assignable_unfold.
        eapply rule_from_ref; [by apply expansion_some|done]. }
      destruct (expansion E d) as [e|] eqn:He'.
      { rewrite h_ask. intros H%assignable_unfold.
        eapply rule_to_ref; [by apply expansion_some|done]. }
      apply compound_sound.
  Qed.

  (** *** False answers *)
  Section Plain.
    Context (Hpl : plain E).

    Ltac kinds :=
      match goal with
      | H1 : st_kind E ?x = _, H2 : st_kind E ?x = _ |- _ => rewrite H1 in H2; discriminate
      end.
    Ltac not_plain :=
      exfalso; match goal with
      | H : st_kind E ?x = KParam _ |- _ => pose proof (Hpl x) as Q; rewrite H in Q; exact Q
      | H : st_kind E ?x = KInter _ |- _ => pose proof (Hpl x) as Q; rewrite H in Q; exact Q
      | H : st_kind E ?x = KCond _ _ |- _ => pose proof (Hpl x) as Q; rewrite H in Q; exact Q
      end.
    Ltac no_basic :=
      exfalso; match goal with
      | Hb : basic (st_kind E ?s) (st_kind E ?d), H : st_kind E ?x = _ |- _ =>
          rewrite H in Hb; inversion Hb
      end.

    Lemma union_not x ms : st_kind E x = KUnion ms -> ms <> []
      /\ forall y, y ∈ ms -> st_kind E y ∉ [KAny; KUnknown; KNever].
    Proof. intros H. pose proof (Hpl x) as Q. by rewrite H in Q. Qed.
    Lemma ref_not x e : st_kind E x = KRef (Some e) -> st_kind E e ∉ [KAny; KUnknown; KNever].
    Proof. intros H. pose proof (Hpl x) as Q. by rewrite H in Q. Qed.

    Lemma inv_from_union b s d ms :
      rule E R b s d -> st_kind E s = KUnion ms -> forall x, x ∈ ms -> rule E R b x d.
    Proof.
      intros H. revert ms. induction H; intros us Es w Hw; try kinds; try not_plain;
        try no_basic.
      - eapply rule_to_union; [done..|apply rule_same].
      - by apply rule_to_any.
      - by apply rule_to_unknown.
      - by destruct (Hne d).
      - assert (us = ms) as -> by congruence. auto.
      - eapply rule_to_union; eauto.
      - eapply rule_to_ref; eauto.
    Qed.

    Lemma inv_from_ref b s d e :
      rule E R b s d -> st_kind E s = KRef (Some e) -> rule E R b e d.
    Proof.
      intros H. revert e. induction H; intros w Es; try kinds; try not_plain; try no_basic.
      - eapply rule_to_ref; [done|apply rule_same].
      - by apply rule_to_any.
      - by apply rule_to_unknown.
      - by destruct (Hne d).
      - eapply rule_to_union; eauto.
      - assert (w = e) as -> by congruence. done.
      - eapply rule_to_ref; eauto.
    Qed.

    Lemma inv_to_ref b s d e :
      rule E R b s d -> st_kind E d = KRef (Some e) -> rule E R b s e.
    Proof.
      intros H. revert e. induction H; intros w Ed; try kinds; try not_plain; try no_basic.
      - eapply rule_from_ref; [done|apply rule_same].
      - by apply rule_from_any.
      - by apply rule_from_never.
      - eapply rule_from_union; eauto.
      - eapply rule_from_ref; eauto.
      - assert (w = e) as -> by congruence. done.
    Qed.

    Lemma inv_from_unknown b s d :
      rule E R b s d -> st_kind E s = KUnknown -> st_kind E d = KAny \/ st_kind E d = KUnknown.
    Proof.
      clear Hix. induction 1; intros Es; try kinds; try not_plain; try no_basic; auto.
      - by destruct (Hne d).
      - destruct (union_not _ _ H) as [_ Hu]. specialize (Hu x H0).
        specialize (IHrule Es). set_solver.
      - pose proof (ref_not _ _ H) as Hr. specialize (IHrule Es). set_solver.
    Qed.

    Lemma inv_to_never b s d :
      rule E R b s d -> st_kind E d = KNever -> st_kind E s = KAny \/ st_kind E s = KNever.
    Proof.
      clear Hix. induction 1; intros Ed; try kinds; try not_plain; try no_basic; auto.
      - destruct (union_not _ _ H) as [Hnil Hu]. destruct ms as [|x ms]; [done|].
        specialize (Hu x ltac:(by left)). specialize (H1 x ltac:(by left) Ed). set_solver.
      - pose proof (ref_not _ _ H) as Hr. specialize (IHrule Ed). set_solver.
    Qed.

    Lemma inv_to_union b s d ms :
      rule E R b s d -> st_kind E d = KUnion ms ->
      st_kind E s <> KAny -> st_kind E s <> KNever -> is_union (st_kind E s) = false ->
      expansion E s = None -> exists x, x ∈ ms /\ rule E R b s x.
    Proof.
      intros H. revert ms.
      induction H; intros us Ed Ha Hn Hu He; try kinds; try not_plain; try no_basic;
        try congruence.
      - by rewrite Ed in Hu.
      - by rewrite H in Hu.
      - assert (us = ms) as -> by congruence. by exists x.
      - pose proof (expansion_none _ _ He H) as ->. by apply IHrule.
    Qed.

    Lemma special_none_atoms s d :
      special E (st_kind E s) (st_kind E d) = Some false ->
      st_kind E s = KUnknown \/ st_kind E d = KNever
      \/ (is_composite (st_kind E s) = false /\ is_composite (st_kind E d) = false).
    Proof.
      pose proof (Hpl s) as Qs. pose proof (Hpl d) as Qd.
      unfold special. rewrite (wf_strict E Hwf). cbn [negb andb].
      destruct (st_kind E s) eqn:Es; try done; destruct (st_kind E d) eqn:Ed; try done;
        cbn; auto; try discriminate; by destruct (Hne s).
    Qed.

    Ltac special_tac :=
      unfold special; rewrite (wf_strict E Hwf); cbn [negb andb].

    Lemma structural_complete off m s d :
      rule E R (m_bivariant m) s d ->
      is_union (st_kind E s) = false -> is_union (st_kind E d) = false ->
      expansion E s = None -> expansion E d = None ->
      s = d \/ special E (st_kind E s) (st_kind E d) = Some true
      \/ (special E (st_kind E s) (st_kind E d) = None
          /\ holds G (structural E off m (st_kind E s) (st_kind E d))).
    Proof.
      pose proof (wf_keys E Hwf) as Hk. pose proof meaning_assignable as HG.
      intros H. remember (m_bivariant m) as b eqn:Hb.
      induction H; intros Us Ud Es Ed; try not_plain.
      - by left.
      - right. left. rewrite H. special_tac. pose proof (Hpl d) as Q.
        by destruct (st_kind E d).
      - right. left. rewrite H. special_tac. pose proof (Hpl s) as Q.
        by destruct (st_kind E s).
      - right. left. rewrite H. special_tac. pose proof (Hpl s) as Q.
        by destruct (st_kind E s).
      - right. left. rewrite H. special_tac. pose proof (Hpl d) as Q.
        by destruct (st_kind E d).
      - pose proof (Hpl s) as Qs. pose proof (Hpl d) as Qd.
        inversion H as [Hx Hy|Hx Hy|Hx Hy|Hx Hy|Hx Hy|? Hx Hy|? Hx Hy|? Hx Hy|? Hx Hy|Hx Hy
          |? Hx Hy|? Hx Hy|? Hx Hy|? Hx Hy|Hx Hy|Hx Hy|? Hx Hy|Hx Hy];
          rewrite <- Hx, <- Hy in *; try done; special_tac; try (by right; left);
          right; right; (split; [done|]); cbn [structural holds];
          first [apply Bool.eqb_reflx|apply N.eqb_refl|apply Z.eqb_refl].
      - by destruct (Hne d).
      - by rewrite H in Us.
      - by rewrite H in Ud.
      - pose proof (expansion_none _ _ Es H) as ->. by apply IHrule.
      - pose proof (expansion_none _ _ Ed H) as ->. by apply IHrule.
      - right. right. rewrite H, H0. special_tac. split; [done|]. cbn [structural].
        unfold relate_array. rewrite (if_false_iff R G HG), andb_false_iff, negb_false_iff, h_ask.
        split; [|by rewrite <- Hb].
        destruct ro; [left; auto|by right].
      - right. right. rewrite H, H0. special_tac. split; [done|]. cbn [structural].
        rewrite (array_to_object_iff E Hk R G HG); [by left|by eapply object_ok].
      - right. right. rewrite H, H0. special_tac. split; [done|]. cbn [structural].
        rewrite (array_to_object_iff E Hk R G HG); [|by eapply object_ok].
        right. exists i. rewrite <- Hb. split_and!; try done. by left.
      - right. right. rewrite H, H0. special_tac. split; [done|]. cbn [structural].
        rewrite (tuple_iff E Hk R G HG); [by rewrite <- Hb|by eapply tuple_ok..].
      - right. right. rewrite H, H0. special_tac. by split.
      - right. right. rewrite H, H0. special_tac. split; [done|]. cbn [structural].
        rewrite (tuple_to_array_iff E R G HG); [by rewrite <- Hb|by eapply tuple_ok].
      - right. right. rewrite H, H0. special_tac. split; [done|]. cbn [structural].
        rewrite (callable_iff E Hk R G HG). by rewrite <- Hb.
      - right. right. rewrite H, H0. special_tac. split; [done|]. cbn [structural].
        unfold relate_callable_to_object. cbn [s_props s_constructs s_indexers s_calls].
        by rewrite (callable_iff E Hk R G HG).
      - right. right. rewrite H, H0. special_tac. split; [done|]. cbn [structural].
        unfold relate_object_to_callable. cbn [s_props s_constructs s_indexers s_calls].
        by rewrite (callable_iff E Hk R G HG).
      - right. right. rewrite H, H0. special_tac. split; [done|]. cbn [structural].
        rewrite (object_iff E Hk R G HG); [by rewrite <- Hb|by eapply object_ok..].
    Qed.

    Lemma composite_false k : is_composite k = false -> is_union k = false.
    Proof. by destruct k. Qed.
    Lemma composite_expansion t : is_composite (st_kind E t) = false -> expansion E t = None.
    Proof. unfold expansion. by destruct (st_kind E t). Qed.

    Lemma assignable_complete off m s d :
      rule E R (m_bivariant m) s d -> holds G (assignable E off m s d).
    Proof.
      intros H. unfold assignable. destruct (N.eqb_spec s d) as [->|Hsd]; [done|].
      destruct (negb (m_skip m) && _).
      { rewrite h_ask. apply assignable_fold.
        assert (rule E R (m_bivariant m) (st_norm E s) d) as H'.
        { destruct (wf_norm E Hwf s) as [Hn|Hn]; [by rewrite Hn|].
          by eapply inv_from_ref. }
        destruct (wf_norm E Hwf d) as [Hn|Hn]; [by rewrite Hn|].
        by eapply inv_to_ref. }
      destruct (special E (st_kind E s) (st_kind E d)) as [[]|] eqn:Hsp; [done|..].
      - exfalso. destruct (special_none_atoms s d Hsp) as [Hu|[Hn|[Hcs Hcd]]].
        + destruct (inv_from_unknown _ _ _ H Hu) as [Hd|Hd]; rewrite Hu, Hd in Hsp;
            unfold special in Hsp; by rewrite (wf_strict E Hwf) in Hsp.
        + pose proof (Hpl s) as Q.
          destruct (inv_to_never _ _ _ H Hn) as [Hd|Hd]; rewrite Hn, Hd in Hsp;
            unfold special in Hsp; by rewrite (wf_strict E Hwf) in Hsp.
        + destruct (structural_complete 0 m s d H) as [?|[?|[? _]]];
            auto using composite_false, composite_expansion; congruence.
      - destruct (expansion E s) as [e|] eqn:He.
        { rewrite h_ask. apply assignable_fold. eapply inv_from_ref; [done|].
          by apply expansion_some. }
        destruct (expansion E d) as [e|] eqn:He'.
        { rewrite h_ask. apply assignable_fold. eapply inv_to_ref; [done|].
          by apply expansion_some. }
        destruct (is_union (st_kind E s)) eqn:Us.
        { destruct (st_kind E s) as [| | | | | | | | | | | | | | | | | |ms| | | | | | | |] eqn:Es; try done.
          assert (compound E off m s d = every (fun x => ask off m x d) ms) as ->.
          { unfold compound. rewrite Es. pose proof (Hpl d) as Q.
            by destruct (st_kind E d). }
          rewrite holds_every. intros x Hx. rewrite h_ask. apply assignable_fold.
          by eapply inv_from_union. }
        destruct (is_union (st_kind E d)) eqn:Ud.
        { destruct (st_kind E d) as [| | | | | | | | | | | | | | | | | |ms| | | | | | | |] eqn:Ed; try done.
          assert (compound E off m s d = some (fun x => ask off m s x) ms) as ->.
          { unfold compound. rewrite Ed. pose proof (Hpl s) as Q.
            by destruct (st_kind E s). }
          rewrite holds_some.
          assert (st_kind E s <> KAny) as Ha.
          { intros Ea. unfold special in Hsp. rewrite (wf_strict E Hwf), Ea in Hsp. done. }
          assert (st_kind E s <> KNever) as Hn.
          { intros Ea. unfold special in Hsp. rewrite (wf_strict E Hwf), Ea in Hsp. done. }
          destruct (inv_to_union _ _ _ _ H Ed Ha Hn Us He) as (x & Hx & Hr).
          exists x. split; [done|]. rewrite h_ask. by apply assignable_fold. }
        rewrite compound_plain.
        + destruct (structural_complete off m s d H Us Ud He He') as [?|[?|[_ ?]]];
            [done|congruence|done].
        + pose proof (Hpl s) as Q. by destruct (st_kind E s).
        + pose proof (Hpl d) as Q. by destruct (st_kind E d).
    Qed.

    Lemma plan_complete k : k_kind k <> StrictSubtype -> G k -> holds G (plan E k).
    Proof.
      unfold plan, meaning. destruct (k_kind k); intros Hk Hg; [| |done].
      - by apply assignable_complete, assignable_unfold.
      - destruct Hg as [(n & Hs & _)|(Hs & Hd & H1 & H2)].
        { pose proof (Hpl (k_src k)) as Q. by rewrite Hs in Q. }
        assert (is_param (st_kind E (k_src k)) = None) as ->.
        { destruct (st_kind E (k_src k)) eqn:E1; try done. by destruct (Hs n). }
        assert (is_param (st_kind E (k_dst k)) = None) as ->.
        { destruct (st_kind E (k_dst k)) eqn:E1; try done. by destruct (Hd n). }
        rewrite holds_both.
        split; by apply assignable_complete, assignable_unfold.
    Qed.

    Lemma tree_iff off m s d :
      holds G (assignable E off m s d) <-> R (m_bivariant m) s d.
    Proof.
      rewrite assignable_iff. split; [apply assignable_sound|apply assignable_complete].
    Qed.

    Lemma plan_sem k b : sem G (plan E k) b -> (b = true <-> G k).
    Proof.
      unfold plan, meaning. destruct (k_kind k) eqn:Hk.
      - intros Hs. rewrite (sem_holds G _ b (mono_assignable E _ _ _ _) Hs). apply tree_iff.
      - pose proof (Hpl (k_src k)) as Qs. pose proof (Hpl (k_dst k)) as Qd.
        destruct (is_param (st_kind E (k_src k))) as [x|] eqn:Ps.
        { by destruct (st_kind E (k_src k)). }
        destruct (is_param (st_kind E (k_dst k))) as [x|] eqn:Pd.
        { by destruct (st_kind E (k_dst k)). }
        intros Hs.
        rewrite (sem_holds G _ b) by (first [exact Hs|apply mono_both; apply mono_assignable]).
        rewrite holds_both, !tree_iff. split.
        + intros [H1 H2]. right. split_and!; try done.
          * intros n Hn. by rewrite Hn in Ps.
          * intros n Hn. by rewrite Hn in Pd.
        + intros [(n & Hn & _)|(_ & _ & H1 & H2)]; [by rewrite Hn in Ps|done].
      - intros Hs. unfold both in Hs. apply sem_bind in Hs as (b1 & H1 & H2).
        pose proof (sem_holds G _ b1 (mono_assignable E _ _ _ _) H1) as I1.
        rewrite tree_iff in I1. destruct b1.
        + apply sem_bind in H2 as (b2 & H2 & H3). cbn [sem] in H3.
          pose proof (sem_holds G _ b2 (mono_assignable E _ _ _ _) H2) as I2.
          rewrite tree_iff in I2. subst b. rewrite negb_true_iff. split.
          * intros ->. split; [by apply I1|]. intros H. apply I2 in H. done.
          * intros [_ H]. destruct b2; [|done]. by destruct H; apply I2.
        + cbn [sem] in H2. subst b. split; [done|]. intros [H _]. apply I1 in H. done.
    Qed.
  End Plain.
End Answers.
