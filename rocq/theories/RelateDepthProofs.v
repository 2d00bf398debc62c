(** Proofs about types that are not recursive: the questions asked are about
    smaller types, so the answers do not depend on the context. *)
From Coq Require Import ZArith Lia.
From stdpp Require Import base decidable numbers sets list.
From Verif Require Import RelateModel RelateSpec RelateProofs RelateRuleProofs RelateMainProofs.

Section Depth.
  Context (E : env) (h : tid -> nat) (Hh : measured E h).

  Lemma asks_both P t u : asks P t -> asks P u -> asks P (both t u).
  Proof. intros Ht Hu. apply asks_bind; [done|]. by intros []. Qed.
  Lemma asks_either P t u : asks P t -> asks P u -> asks P (either t u).
  Proof. intros Ht Hu. apply asks_bind; [done|]. by intros []. Qed.
  Lemma asks_every {A} P (f : A -> tree) l :
    (forall x, x ∈ l -> asks P (f x)) -> asks P (every f l).
  Proof.
    induction l as [|x l IH]; intros H; cbn [every]; [done|].
    apply asks_both; [apply H; by left|]. apply IH. intros y Hy. apply H. by right.
  Qed.
  Lemma asks_some {A} P (f : A -> tree) l :
    (forall x, x ∈ l -> asks P (f x)) -> asks P (some f l).
  Proof.
    induction l as [|x l IH]; intros H; cbn [some]; [done|].
    apply asks_either; [apply H; by left|]. apply IH. intros y Hy. apply H. by right.
  Qed.

  (** Questions about types of depth less than [a] and [b] together. *)
  Definition below (N W : nat) : nat -> key -> Prop :=
    fun e k => k_kind k = Assignable /\ weight h k < W /\ e + 1 <= N.

  Lemma below_ask N W off m s d : h s + h d < W -> off + 1 <= N -> asks (below N W) (ask off m s d).
  Proof. intros Hw Hn. unfold ask. cbn [asks]. split_and!; try done. Qed.

  Section Pairs.
    Context (N a b : nat).
    Notation small := (below N (a + b)).
    Implicit Type (off : nat) (m : mode).

    Lemma below_sd off m s d : h s < a -> h d < b -> off + 1 <= N -> asks small (ask off m s d).
    Proof. intros. apply below_ask; lia. Qed.
    Lemma below_ds off m s d : h s < a -> h d < b -> off + 1 <= N -> asks small (ask off m d s).
    Proof. intros. apply below_ask; lia. Qed.

    Lemma effective_part ps i (c : nat) :
      (forall t j, argument E ps j t -> h t < c) -> 0 < c -> h (effective_param E ps i) < c.
    Proof.
      intros Hp Hc. destruct (has_argument ps i) eqn:Ha.
      - apply (Hp _ i). by apply argument_iff.
      - rewrite effective_any by done. by destruct Hh as [-> _].
    Qed.

    (** The parts of the source are below [a], those of the target below [b]. *)
    Definition sig_below (c : nat) (s : signature) : Prop :=
      forall t, part_of_sig E s t -> h t < c.
    Definition shape_below (c : nat) (sh : shape) : Prop :=
      forall t, part_of_shape E sh t -> h t < c.

    Lemma sig_params_below c s : sig_below c s ->
      forall i, h (effective_param E (sg_params s) i) < c.
    Proof.
      intros H i. apply effective_part.
      - intros t j Ht. apply H. right. left. by exists j.
      - pose proof (H (sg_ret s) ltac:(by right; right)). lia.
    Qed.

    Lemma signature_below off m s d :
      sig_below a s -> sig_below b d -> off + 1 <= N ->
      asks small (relate_signature E off m s d).
    Proof.
      intros Hs Hd Ho. unfold relate_signature. destruct (negb _); [done|].
      assert (h (sg_ret s) < a) as Hrs by (apply Hs; by right; right).
      assert (h (sg_ret d) < b) as Hrd by (apply Hd; by right; right).
      cbv zeta. apply asks_both.
      { destruct (sg_this s) as [x|] eqn:Ex, (sg_this d) as [y|] eqn:Ey; try done.
        - apply below_ds; [apply Hs; by left|apply Hd; by left|done].
        - assert (h y < b) by (apply Hd; by left).
          apply below_ask; [|done]. destruct Hh as [-> _]. lia. }
      destruct (Nat.ltb _ _); [done|]. apply asks_both.
      - apply asks_every. intros i _.
        pose proof (sig_params_below a s Hs i). pose proof (sig_params_below b d Hd i).
        destruct (negb _ || _).
        + apply asks_either; [by apply below_sd|by apply below_ds].
        + by apply below_ds.
      - destruct (st_kind E (sg_ret d)); try done; by apply below_sd.
    Qed.

    Lemma callable_below off m ss ds :
      (forall s, s ∈ ss -> sig_below a s) -> (forall d, d ∈ ds -> sig_below b d) ->
      off + 1 <= N -> asks small (relate_callable E off m ss ds).
    Proof.
      intros Hs Hd Ho. unfold relate_callable. apply asks_every. intros d Hin.
      apply asks_some. intros s Hin'. apply signature_below; auto.
    Qed.

    Lemma shape_prop c sh p : shape_below c sh -> p ∈ s_props sh ->
      h (property_type E (p_ty p) (p_optional p)) < c.
    Proof. intros H Hp. apply H. left. exists p. split; [done|]. by apply seen_property_iff. Qed.
    Lemma shape_indexed c sh i : shape_below c sh -> i ∈ s_indexers sh ->
      h (indexer_type E (i_value i)) < c.
    Proof.
      intros H Hp. apply H. right. left. exists i. split; [done|]. left.
      by apply seen_indexed_iff.
    Qed.
    Lemma shape_value c sh i : shape_below c sh -> i ∈ s_indexers sh -> h (i_value i) < c.
    Proof. intros H Hp. apply H. right. left. exists i. split; [done|]. by right. Qed.
    Lemma shape_sig c sh s : shape_below c sh -> s ∈ s_calls sh ++ s_constructs sh ->
      sig_below c s.
    Proof. intros H Hs t Ht. apply H. right. right. by exists s. Qed.

    Lemma lookup_prop_in sh k p : lookup_prop sh k = Some p -> p ∈ s_props sh.
    Proof. unfold lookup_prop. intros H%find_some. apply elem_of_list_In. tauto. Qed.
    Lemma find_property_in sh k p : find_property E sh k = Some p -> p ∈ s_props sh.
    Proof.
      unfold find_property. destruct (lookup_prop sh k) eqn:Hl.
      - intros [= <-]. by eapply lookup_prop_in.
      - destruct (other_spelling E k); [|done]. apply lookup_prop_in.
    Qed.
    Lemma least_filter_in f l i : least E (List.filter f l) = Some i -> i ∈ l.
    Proof.
      assert (forall l', least E l' = Some i -> In i l') as H.
      { intros l'. revert i. induction l' as [|x r IH]; intros i; cbn [least]; [done|].
        destruct (least E r) as [j|].
        - destruct (Nat.leb _ _); intros [= <-]; [by left|]. right. by apply IH.
        - intros [= <-]. by left. }
      intros [Hi _]%H%filter_In. by apply elem_of_list_In.
    Qed.

    Lemma object_below off m s d :
      shape_below a s -> shape_below b d -> off + 2 <= N ->
      asks small (relate_object E off m s d).
    Proof.
      intros Hs Hd Ho. unfold relate_object. apply asks_both; [|apply asks_both; [|apply asks_both]].
      - apply asks_every. intros p Hp. unfold relate_property.
        pose proof (shape_prop b d p Hd Hp).
        destruct (find_property E s (p_key p)) as [q|] eqn:Hq.
        + apply find_property_in in Hq. pose proof (shape_prop a s q Hs Hq).
          destruct (negb _); [done|]. destruct (_ && _); [done|]. destruct (_ && _); [done|].
          apply below_sd; [done..|lia].
        + destruct (p_optional p); [done|].
          destruct (indexer_for_prop E s (p_key p)) as [i|] eqn:Hi; [|done].
          apply least_filter_in in Hi. pose proof (shape_indexed a s i Hs Hi).
          destruct (_ && _); [done|]. apply below_sd; [done..|lia].
      - apply asks_every. intros i Hi. unfold relate_indexer.
        pose proof (shape_indexed b d i Hd Hi).
        destruct (find_matching_indexer E s i) as [j|] eqn:Hj.
        + apply least_filter_in in Hj. pose proof (shape_indexed a s j Hs Hj).
          destruct (_ && _); [done|]. apply below_sd; [done..|lia].
        + destruct (s_indexers s) eqn:Hx; [|done]. apply asks_every. intros p Hp.
          pose proof (shape_prop a s p Hs Hp).
          destruct (key_accepts _ _ _); [|done]. apply below_sd; [done..|lia].
      - apply callable_below; [..|lia].
        + intros x Hx. apply (shape_sig a s x Hs). apply elem_of_app. by left.
        + intros x Hx. apply (shape_sig b d x Hd). apply elem_of_app. by left.
      - apply callable_below; [..|lia].
        + intros x Hx. apply (shape_sig a s x Hs). apply elem_of_app. by right.
        + intros x Hx. apply (shape_sig b d x Hd). apply elem_of_app. by right.
    Qed.

    Definition elem_below (c : nat) (e : elem) : Prop :=
      h (e_ty e) < c
      /\ (e_optional e = true \/ e_rest e = true ->
          h (st_opt E (e_ty e)) < c /\ h (st_spread E (e_ty e)) < c
          /\ h (st_opt E (st_spread E (e_ty e))) < c).

    Lemma elem_parameter c e o : elem_below c e ->
      (o = true -> e_optional e = true \/ e_rest e = true) ->
      h (parameter_type E (e_ty e) o) < c.
    Proof.
      intros [H1 H2] Ho. unfold parameter_type. destruct o; [|done].
      by apply H2; apply Ho.
    Qed.
    Lemma elem_optional c e : elem_below c e -> h (parameter_type E (e_ty e) (e_optional e)) < c.
    Proof. intros H. apply elem_parameter; [done|]. auto. Qed.
    Lemma elem_either c e : elem_below c e ->
      h (parameter_type E (e_ty e) (e_optional e || e_rest e)) < c.
    Proof. intros H. apply elem_parameter; [done|]. intros [?|?]%orb_true_iff; auto. Qed.
    Lemma elem_spread c e : elem_below c e ->
      h (parameter_type E (if e_rest e then st_spread E (e_ty e) else e_ty e) (e_optional e)) < c.
    Proof.
      intros H. destruct (e_rest e) eqn:Hr; [|by apply elem_optional].
      destruct H as [_ H]. destruct H as (? & ? & ?); [auto|].
      unfold parameter_type. by destruct (e_optional e).
    Qed.

    Lemma tuple_from_below off m ss ds :
      (forall e, e ∈ ss -> elem_below a e) -> (forall e, e ∈ ds -> elem_below b e) ->
      off + 1 <= N -> asks small (tuple_from E off m ss ds).
    Proof.
      intros Hs Hd Ho. revert ss Hs. induction ds as [|d ds IH]; intros ss Hs; cbn [tuple_from];
        [done|].
      assert (forall e, e ∈ ds -> elem_below b e) as Hd' by (intros; apply Hd; by right).
      specialize (IH Hd').
      destruct ss as [|s ss].
      { destruct (_ || _); [|done]. apply IH. intros e He. by apply elem_of_nil in He. }
      assert (forall e, e ∈ ss -> elem_below a e) as Hs' by (intros; apply Hs; by right).
      pose proof (Hd d ltac:(by left)) as Hd0. pose proof (Hs s ltac:(by left)) as Hs0.
      pose proof (elem_either b d Hd0) as Hde. pose proof (elem_either a s Hs0) as Hse.
      destruct (e_rest d) eqn:Hrd.
      { apply asks_every. intros r Hr. destruct (_ && _); [done|].
        apply below_sd; [|exact Hde|done].
        apply elem_either. by auto. }
      destruct (e_rest s) eqn:Hrs.
      { apply asks_every. intros r Hr. destruct (_ && _); [done|].
        apply below_sd; [exact Hse| |done].
        apply elem_either. by auto. }
      destruct (_ && _); [done|]. destruct (_ && _); [done|].
      apply asks_both; [|by apply IH].
      apply below_sd; [by apply elem_optional..|done].
    Qed.

    Lemma structural_below off m sk dk :
      (forall t, part_of E sk t -> h t < a) -> (forall t, part_of E dk t -> h t < b) ->
      off + 4 <= N -> asks small (structural E off m sk dk).
    Proof.
      intros Hs Hd Ho.
      assert (forall es, sk = KTuple es -> forall e, e ∈ es -> elem_below a e) as Hst.
      { intros es -> e He. split.
        - apply Hs. exists e. auto.
        - intros Hor. split_and!; apply Hs; exists e; (split; [done|]); right; (split; [done|]);
            set_solver. }
      assert (forall es, dk = KTuple es -> forall e, e ∈ es -> elem_below b e) as Hdt.
      { intros es -> e He. split.
        - apply Hd. exists e. auto.
        - intros Hor. split_and!; apply Hd; exists e; (split; [done|]); right; (split; [done|]);
            set_solver. }
      destruct sk; destruct dk; cbn [structural]; try done.
      - unfold relate_array. destruct (_ && _); [done|].
        apply below_sd; [by apply Hs|by apply Hd|lia].
      - assert (h t < a) by (by apply Hs). unfold relate_array_to_tuple.
        destruct (_ && _); [done|]. destruct (negb _); [done|]. destruct (forallb _ _).
        + destruct (List.find e_rest elems) as [r|] eqn:Hf; [|done].
          apply find_some in Hf as [Hin Hr]. apply elem_of_list_In in Hin.
          destruct (Hdt _ eq_refl r Hin) as [_ Hx].
          apply below_sd; [done| |lia]. apply Hx. by right.
        + destruct (existsb _ _); [done|]. apply asks_every. intros e He.
          apply elem_of_list_In, filter_In in He as [He _]. apply elem_of_list_In in He.
          apply below_sd; [done| |lia]. apply elem_optional. by apply (Hdt _ eq_refl).
      - unfold relate_array_to_object. destruct (empty_shape sh); [done|].
        destruct (least E _) as [i|] eqn:Hi; [|done]. apply least_filter_in in Hi.
        apply below_sd; [by apply Hs|by eapply shape_value|lia].
      - unfold relate_tuple_to_array. destruct (_ && _); [done|].
        apply asks_every. intros e He. apply below_sd; [|by apply Hd|lia].
        apply elem_spread. by apply (Hst _ eq_refl).
      - unfold relate_tuple. cbv zeta. destruct (_ && _); [done|]. destruct (_ && _); [done|].
        apply tuple_from_below; [by apply Hst|by apply Hdt|lia].
      - apply object_below; [done|done|lia].
      - unfold relate_object_to_callable. destruct (s_props sh); [|done].
        destruct (s_constructs sh) eqn:Hc; [|done]. destruct (s_indexers sh); [|done].
        apply callable_below; [| |lia].
        + intros s Hin. apply (shape_sig a sh s Hs). rewrite Hc, app_nil_r. done.
        + intros s Hin t Ht. apply Hd. by exists s.
      - unfold relate_callable_to_object. destruct (s_props sh); [|done].
        destruct (s_constructs sh) eqn:Hc; [|done]. destruct (s_indexers sh); [|done].
        apply callable_below; [| |lia].
        + intros s Hin t Ht. apply Hs. by exists s.
        + intros s Hin. apply (shape_sig b sh s Hd). rewrite Hc, app_nil_r. done.
      - apply callable_below; [| |lia].
        + intros s Hin t Ht. apply Hs. by exists s.
        + intros s Hin t Ht. apply Hd. by exists s.
    Qed.
  End Pairs.

  Lemma compound_below N off m s d : off + 4 <= N ->
    asks (below N (h s + h d)) (compound E off m s d).
  Proof.
    intros Ho. destruct Hh as [_ Hp].
    pose proof (Hp s) as Hs. pose proof (Hp d) as Hd.
    pose proof (structural_below N (h s) (h d) off m _ _ Hs Hd Ho) as Hst.
    unfold compound.
    assert (forall x, part_of E (st_kind E s) x ->
      asks (below N (h s + h d)) (ask off m x d)) as Hl.
    { intros x Hx%Hs. apply below_ask; lia. }
    assert (forall x, part_of E (st_kind E d) x ->
      asks (below N (h s + h d)) (ask off m s x)) as Hr.
    { intros x Hx%Hd. apply below_ask; lia. }
    destruct (st_kind E s) eqn:Es; destruct (st_kind E d) eqn:Ed; try exact Hst;
      try (apply asks_both; first [apply Hl; cbn; by auto|apply Hr; cbn; by auto]);
      try (apply asks_every; intros x Hx; first [apply Hl; cbn; by auto|apply Hr; cbn; by auto]);
      try (apply asks_some; intros x Hx; first [apply Hl; cbn; by auto|apply Hr; cbn; by auto]).
    destruct (st_merge E members) as [shm|] eqn:Hm.
    - apply object_below; [|exact Hd|lia]. intros t Ht. apply Hs. right. by exists shm.
    - apply asks_some. intros x Hx. apply Hl. cbn. auto.
  Qed.

  Lemma assignable_below N off m s d :
    (forall t, st_norm E t = t \/ st_kind E t = KRef (Some (st_norm E t))) ->
    off + 4 <= N -> asks (below N (h s + h d)) (assignable E off m s d).
  Proof.
    intros Hnorm Ho. unfold assignable. destruct (s =? d)%N; [done|].
    destruct Hh as [_ Hp].
    assert (forall t e, st_kind E t = KRef (Some e) -> h e < h t) as Href.
    { intros t e Ht. apply Hp. by rewrite Ht. }
    destruct (negb (m_skip m) && _) eqn:Hn.
    { apply below_ask; [|lia]. apply andb_true_iff in Hn as [_ Hn].
      apply negb_true_iff, andb_false_iff in Hn.
      destruct (Hnorm s) as [Hs|Hs%Href], (Hnorm d) as [Hd|Hd%Href].
      - rewrite Hs, Hd, !N.eqb_refl in Hn. by destruct Hn.
      - rewrite Hs. lia.
      - rewrite Hd. lia.
      - lia. }
    destruct (special _ _ _); [done|].
    destruct (expansion E s) as [e|] eqn:He.
    { apply expansion_some, Href in He. apply below_ask; lia. }
    destruct (expansion E d) as [e|] eqn:He'.
    { apply expansion_some, Href in He'. apply below_ask; lia. }
    by apply compound_below.
  Qed.

  Lemma plan_below k :
    (forall t, st_norm E t = t \/ st_kind E t = KRef (Some (st_norm E t))) ->
    asks (fun e k' => k_kind k' = Assignable /\ weight h k' < weight h k
            /\ e + 1 <= 4 + pred (slack k)) (plan E k).
  Proof.
    intros Hnorm. unfold plan, slack.
    assert (forall N off s d, off + 4 <= N -> h s + h d = weight h k ->
      asks (below N (weight h k)) (assignable E off (k_mode k) s d)) as H.
    { intros N off s d Ho <-. by apply assignable_below. }
    destruct (k_kind k).
    - apply H; [done|]. done.
    - destruct (is_param _); [by destruct (is_param _)|]. destruct (is_param _); [done|].
      apply asks_both; apply H; try done. unfold weight. lia.
    - apply asks_both; [by apply H|]. apply asks_bind; [|done].
      apply H; [done|]. unfold weight. lia.
  Qed.

  (** *** The answers, without a context *)
  Fixpoint value (f : key -> bool) (t : tree) : bool :=
    match t with
    | Ret b => b
    | Ask _ k g => value f (g (f k))
    end.
  Fixpoint answer (n : nat) (k : key) : bool :=
    match n with
    | O => false
    | S n' => value (answer n') (plan E k)
    end.
  Definition truth (k : key) : Prop := answer (S (weight h k)) k = true.

  Lemma value_ext P f g t : asks P t -> (forall e k, P e k -> f k = g k) -> value f t = value g t.
  Proof.
    intros Ht Hfg. induction t as [b|e k u IH]; cbn [value]; [done|].
    cbn [asks] in Ht. destruct Ht as (H1 & H2 & H3). rewrite (Hfg e k H1).
    destruct (g k); by apply IH.
  Qed.
  Lemma value_sem f G t b : (forall k, f k = true <-> G k) -> (sem G t b <-> b = value f t).
  Proof.
    intros Hf. induction t as [b'|e k u IH]; cbn [value sem]; [done|].
    rewrite (IH true), (IH false). pose proof (Hf k) as Hk.
    destruct (f k); split.
    - intros [[_ H]|[H _]]; [done|]. by destruct H; apply Hk.
    - intros H. left. split; [by apply Hk|done].
    - intros [[H _]|[_ H]]; [|done]. by apply Hk in H.
    - intros H. right. split; [|done]. intros Hg%Hk. done.
  Qed.

  Context (Hnorm : forall t, st_norm E t = t \/ st_kind E t = KRef (Some (st_norm E t))).

  Lemma answer_stable n m k : weight h k < n -> weight h k < m -> answer n k = answer m k.
  Proof.
    revert m k. induction n as [|n IH]; intros m k Hn Hm; [lia|].
    destruct m as [|m]; [lia|]. cbn [answer].
    eapply value_ext; [by apply plan_below|].
    intros e k' (_ & Hw & _). apply IH; lia.
  Qed.

  Lemma truth_sem k b : sem truth (plan E k) b -> (b = true <-> truth k).
  Proof.
    intros Hs. apply (value_sem (fun k => answer (S (weight h k)) k)) in Hs; [|done].
    rewrite Hs. unfold truth.
    assert (value (fun k => answer (S (weight h k)) k) (plan E k)
            = answer (S (weight h k)) k) as ->; [|done].
    change (answer (S (weight h k)) k) with (value (answer (weight h k)) (plan E k)).
    eapply value_ext; [by apply plan_below|].
    intros e k' (_ & Hw & _). apply answer_stable; lia.
  Qed.

  Lemma holds_value f G t : (forall k, f k = true <-> G k) -> mono t ->
    (value f t = true <-> holds G t).
  Proof.
    intros Hf Hm. apply sem_holds; [done|]. by apply (value_sem f).
  Qed.

  Lemma holds_impl P (G G' : key -> Prop) t : asks P t -> (forall e k, P e k -> G k -> G' k) ->
    mono t -> holds G t -> holds G' t.
  Proof.
    intros Ht HG. induction t as [b|e k u IH]; cbn [holds asks mono] in *; [done|].
    destruct Ht as (H1 & H2 & H3). intros (Hft & Hmt & Hmf) [[Hg H]|H].
    - left. split; [by eapply HG|by apply IH].
    - right. by apply IH.
  Qed.

  Lemma truth_meaning k :
    well_formed E -> fixed_tuples E -> no_empty E -> index_alone E ->
    k_kind k <> StrictSubtype -> truth k -> meaning E k.
  Proof.
    intros Hwf Hfix Hne Hix. remember (weight h k) as w eqn:Hw. revert k Hw.
    induction w as [w IH] using lt_wf_ind. intros k -> Hk Ht.
    assert (holds (meaning E) (plan E k)) as H.
    { eapply holds_impl; [by apply plan_below| |by apply mono_plan|].
      - intros e k' (Hk' & Hw & _) Ht'. eapply IH; [exact Hw|done|by rewrite Hk'|done].
      - apply (holds_value (fun k => answer (S (weight h k)) k)); [done|by apply mono_plan|].
        rewrite <- Ht.
        change (answer (S (weight h k)) k) with (value (answer (weight h k)) (plan E k)).
        eapply value_ext; [by apply plan_below|].
        intros e k' (_ & Hw & _). apply answer_stable; lia. }
    unfold plan in H. unfold meaning. destruct (k_kind k); [| |done].
    - apply assignable_fold. by eapply assignable_sound.
    - destruct (st_kind E (k_src k)) eqn:Es; destruct (st_kind E (k_dst k)) eqn:Ed; cbn in H;
        try discriminate H;
        try (right; split_and!; [congruence..| |];
             apply holds_both in H as [H1 H2]; apply assignable_fold; by eapply assignable_sound).
      apply N.eqb_eq in H. subst. left. eauto.
  Qed.
End Depth.
