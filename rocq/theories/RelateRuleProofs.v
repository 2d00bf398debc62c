(** Proofs that the engine's questions are those of the rules. *)
From Coq Require Import ZArith Lia.
From stdpp Require Import base decidable numbers sets list.
From Verif Require Import RelateModel RelateSpec RelateProofs.

Section Parts.
  Context (E : env).

  Lemma seen_property_iff t o u : seen_property E t o u <-> u = property_type E t o.
  Proof.
    unfold seen_property, property_type.
    destruct o, (o_exact_optional (st_opts E)); cbn [andb negb]; naive_solver.
  Qed.
  Lemma seen_parameter_iff t o u : seen_parameter E t o u <-> u = parameter_type E t o.
  Proof. unfold seen_parameter, parameter_type. destruct o; naive_solver. Qed.
  Lemma seen_indexed_iff t u : seen_indexed E t u <-> u = indexer_type E t.
  Proof.
    unfold seen_indexed, indexer_type. destruct (o_unchecked_index _); naive_solver.
  Qed.

  Lemma rest_param_spec ps r :
    rest_param ps = Some r <->
    exists before later, ps = before ++ r :: later /\ pm_rest r = true
      /\ Forall (fun p => pm_rest p = false) before.
  Proof.
    unfold rest_param. induction ps as [|p ps IH]; cbn [List.find].
    - split; [done|]. intros (b & l & H & _). by destruct b.
    - destruct (pm_rest p) eqn:Hp.
      + split.
        * intros [= <-]. exists [], ps. by split_and!.
        * intros (b & l & H & Hr & Hb). destruct b as [|b0 b]; [by injection H as -> _|].
          injection H as -> H. apply Forall_cons in Hb as [Hb _]. congruence.
      + rewrite IH. split.
        * intros (b & l & -> & Hr & Hb). exists (p :: b), l. split_and!; [done..|].
          by apply Forall_cons.
        * intros (b & l & H & Hr & Hb). destruct b as [|b0 b]; injection H as -> H.
          -- congruence.
          -- apply Forall_cons in Hb as [_ Hb]. exists b, l. by subst ps.
  Qed.

  Definition has_argument (ps : list param) (i : nat) : bool :=
    Nat.ltb i (length ps) || match rest_param ps with Some _ => true | None => false end.

  Lemma argument_iff ps i t :
    argument E ps i t <-> has_argument ps i = true /\ t = effective_param E ps i.
  Proof.
    unfold argument, has_argument, effective_param.
    destruct (nth_error ps i) as [p|] eqn:Hi.
    - assert (i < length ps) as Hlt by (apply nth_error_Some; by rewrite Hi).
      apply Nat.ltb_lt in Hlt as ->. cbn [orb]. split.
      + intros [(p' & [= <-] & Hs)|[? _]]; [|done]. split; [done|].
        by apply seen_parameter_iff.
      + intros [_ ->]. left. exists p. split; [done|]. by apply seen_parameter_iff.
    - apply nth_error_None in Hi. destruct (Nat.ltb_spec i (length ps)) as [|_]; [lia|].
      cbn [orb]. split.
      + intros [(p' & ? & _)|[_ (b & r & l & Hps & Hr & Hb & Hs)]]; [done|].
        assert (rest_param ps = Some r) as ->.
        { apply rest_param_spec. by exists b, l. }
        split; [done|]. by apply seen_parameter_iff.
      + intros [Hr ->]. destruct (rest_param ps) as [r|] eqn:Hrp; [|done].
        apply rest_param_spec in Hrp as (b & l & Hps & Hrr & Hb).
        right. split; [done|]. exists b, r, l. split_and!; try done.
        by apply seen_parameter_iff.
  Qed.

  Lemma effective_any ps i : has_argument ps i = false -> effective_param E ps i = st_any E.
  Proof.
    unfold has_argument, effective_param. intros [H1 H2]%orb_false_iff.
    apply Nat.ltb_ge in H1. apply nth_error_None in H1 as ->.
    by destruct (rest_param ps).
  Qed.

  Lemma argument_or_any ps i t :
    (argument E ps i t \/ ((forall u, ~ argument E ps i u) /\ t = st_any E))
    <-> t = effective_param E ps i.
  Proof.
    destruct (has_argument ps i) eqn:Ha.
    - split.
      + intros [[_ H]%argument_iff|[H _]]; [done|].
        destruct (H (effective_param E ps i)). by apply argument_iff.
      + intros ->. left. by apply argument_iff.
    - rewrite (effective_any _ _ Ha). split.
      + intros [[H _]%argument_iff|[_ H]]; [congruence|done].
      + intros ->. right. split; [|done]. intros u [H _]%argument_iff. congruence.
  Qed.

  Lemma wanted_required ps : wanted ps = sig_required ps.
  Proof.
    unfold wanted, sig_required. induction ps as [|p ps IH]; [done|].
    rewrite filter_cons. cbn [List.filter].
    destruct (pm_optional p), (pm_rest p); cbn [negb andb];
      (destruct (decide _) as [[? ?]|H]; try done); cbn [length]; try congruence.
    destruct H; done.
  Qed.

  Lemma same_some_iff a b : same_some a b = true <-> exists o, a = Some o /\ b = Some o.
  Proof.
    destruct a as [x|], b as [y|]; cbn [same_some]; try naive_solver.
    rewrite N.eqb_eq. naive_solver.
  Qed.

  Lemma private_compatible_iff s d : private_compatible s d = true <-> compatible s d.
  Proof.
    unfold private_compatible, compatible, visible, access_of.
    destruct (p_access s) as [[]|], (p_access d) as [[]|];
      repeat (rewrite decide_True by done); repeat (rewrite decide_False by done);
      rewrite ?orb_true_iff, ?same_some_iff; naive_solver.
  Qed.

  Lemma spelled_iff k k' : spelled E k k' <-> other_spelling E k = Some k'.
  Proof.
    destruct k as [n|i|n], k' as [n'|i'|n']; cbn [spelled other_spelling];
      try (destruct (st_index E n); naive_solver);
      try (destruct (Z.leb_spec 0 i); naive_solver lia); naive_solver.
  Qed.

  Lemma lookup_prop_iff sh k p :
    NoDup (p_key <$> s_props sh) ->
    (lookup_prop sh k = Some p <-> p ∈ s_props sh /\ p_key p = k).
  Proof.
    unfold lookup_prop. intros Hnd. induction (s_props sh) as [|q l IH]; cbn [List.find].
    - split; [done|]. intros [H _]. by apply elem_of_nil in H.
    - cbn [fmap list_fmap] in Hnd. apply NoDup_cons in Hnd as [Hq Hnd].
      destruct (bool_decide (p_key q = k)) eqn:Hb.
      + apply bool_decide_eq_true in Hb. split.
        * intros [= <-]. split; [by left|done].
        * intros [[->|Hp]%elem_of_cons Hk]; [done|].
          destruct Hq. rewrite Hb, <- Hk. apply elem_of_list_fmap. by exists p.
      + apply bool_decide_eq_false in Hb. rewrite (IH Hnd). split.
        * intros [? ?]. split; [by right|done].
        * intros [[->|Hp]%elem_of_cons Hk]; [done|]. done.
  Qed.

  Lemma lookup_prop_none sh k :
    lookup_prop sh k = None <-> forall q, q ∈ s_props sh -> p_key q <> k.
  Proof.
    unfold lookup_prop. induction (s_props sh) as [|q l IH]; cbn [List.find].
    - split; [|done]. intros _ q H. by apply elem_of_nil in H.
    - destruct (bool_decide (p_key q = k)) eqn:Hb.
      + apply bool_decide_eq_true in Hb. split; [done|].
        intros H. destruct (H q); [by left|done].
      + apply bool_decide_eq_false in Hb. rewrite IH. split.
        * intros H x [->|Hx]%elem_of_cons; auto.
        * intros H x Hx. apply H. by right.
  Qed.

  Lemma find_property_iff sh k p :
    NoDup (p_key <$> s_props sh) ->
    (find_property E sh k = Some p <-> has_prop E sh k p).
  Proof.
    intros Hnd. unfold find_property, has_prop.
    destruct (lookup_prop sh k) as [q|] eqn:Hq.
    - apply (lookup_prop_iff sh k q Hnd) in Hq as [Hq1 Hq2]. split.
      + intros [= <-]. by auto.
      + intros [Hp [Hk|[_ Hno]]].
        * assert (lookup_prop sh k = Some p) as H1 by (by apply lookup_prop_iff).
          assert (lookup_prop sh k = Some q) as H2 by (by apply lookup_prop_iff).
          congruence.
        * by destruct (Hno q Hq1).
    - pose proof (proj1 (lookup_prop_none sh k) Hq) as Hno.
      destruct (other_spelling E k) as [k'|] eqn:Hk'.
      + rewrite (lookup_prop_iff _ _ _ Hnd). split.
        * intros [Hp <-]. split; [done|]. right. split; [by apply spelled_iff|done].
        * intros [Hp [H|[Hs _]]]; [by destruct (Hno p Hp)|]. split; [done|].
          apply spelled_iff in Hs. congruence.
      + split; [done|]. intros [Hp [H|[Hs _]]]; [by destruct (Hno p Hp)|].
        apply spelled_iff in Hs. congruence.
  Qed.

  Lemma find_property_none sh k :
    NoDup (p_key <$> s_props sh) ->
    (find_property E sh k = None <-> forall p, ~ has_prop E sh k p).
  Proof.
    intros Hnd. split.
    - intros Hf p Hp. apply (find_property_iff _ _ _ Hnd) in Hp. congruence.
    - intros H. destruct (find_property E sh k) as [p|] eqn:Hf; [|done].
      apply (find_property_iff _ _ _ Hnd) in Hf. by destruct (H p).
  Qed.

  (** *** Index signatures *)
  Definition kk (n : name_kind) : key_kind :=
    match n with Strings => KeyString | Numbers => KeyNumber | Symbols => KeySymbol end.

  Lemma name_of_iff k n : name_of E k n <-> prop_key_kind E k = kk n.
  Proof.
    destruct k as [s|i|s], n; cbn [name_of prop_key_kind kk];
      try (destruct (st_index E s) eqn:?); naive_solver.
  Qed.

  Lemma name_of_exists k : exists n, name_of E k n.
  Proof.
    destruct k as [s|i|s]; [destruct (st_index E s) eqn:Hs; [exists Numbers|exists Strings]
      |exists Numbers|exists Symbols]; cbn [name_of]; try done; congruence.
  Qed.
  Lemma kk_inj n n' : kk n = kk n' -> n = n'.
  Proof. by destruct n, n'. Qed.

  Context (Hfuel : (0 < l_key_match (st_limits E))%nat).
  Definition ok_key (i : indexer) : Prop :=
    st_kind E (i_key i) ∈ [KString; KNumber; KSymbol].

  Lemma ok_key_cases i : ok_key i ->
    st_kind E (i_key i) = KString \/ st_kind E (i_key i) = KNumber
    \/ st_kind E (i_key i) = KSymbol.
  Proof. unfold ok_key. set_solver. Qed.

  Lemma accepts_kind t k : key_accepts E t k =
    accepts E (S (pred (l_key_match (st_limits E)))) t k.
  Proof. unfold key_accepts. f_equal. lia. Qed.

  Lemma speaks_iff i n : ok_key i -> (key_accepts E (i_key i) (kk n) = true <-> speaks E i n).
  Proof.
    intros Hok. rewrite accepts_kind. cbn [accepts]. unfold speaks.
    destruct (ok_key_cases i Hok) as [->|[->| ->]]; destruct n; cbn [kk]; naive_solver.
  Qed.

  Lemma specificity_ok i : ok_key i ->
    specificity E (i_key i) =
      match st_kind E (i_key i) with KString => 2 | _ => 1 end.
  Proof.
    intros Hok. unfold specificity, key_kinds. cbn [List.filter].
    rewrite !accepts_kind. cbn [accepts].
    destruct (ok_key_cases i Hok) as [->|[->| ->]]; reflexivity.
  Qed.

  Lemma least_none l : least E l = None <-> l = [].
  Proof.
    destruct l as [|i r]; cbn [least]; [done|].
    split; [|done]. destruct (least E r); [|done]. by destruct (Nat.leb _ _).
  Qed.
  Lemma least_some l i : least E l = Some i ->
    i ∈ l /\ forall j, j ∈ l -> specificity E (i_key i) <= specificity E (i_key j).
  Proof.
    revert i. induction l as [|x r IH]; intros i; cbn [least]; [done|].
    destruct (least E r) as [j|] eqn:Hl.
    - destruct (IH j eq_refl) as [Hj Hmin].
      destruct (Nat.leb_spec (specificity E (i_key x)) (specificity E (i_key j))) as [Hle|Hlt];
        intros [= <-].
      + split; [by left|]. intros y [->|Hy]%elem_of_cons; [done|].
        specialize (Hmin y Hy). lia.
      + split; [by right|]. intros y [->|Hy]%elem_of_cons; [lia|by apply Hmin].
    - intros [= <-]. apply least_none in Hl as ->. split; [by left|].
      intros y Hy. apply elem_of_list_singleton in Hy as ->. done.
  Qed.

  Lemma in_filter {A} (f : A -> bool) l x : x ∈ List.filter f l <-> x ∈ l /\ f x = true.
  Proof. rewrite !elem_of_list_In. apply filter_In. Qed.

  Definition ok_indexers (l : list indexer) : Prop :=
    NoDup ((fun i => st_kind E (i_key i)) <$> l) /\ Forall ok_key l.

  Lemma kinds_inj l i j : ok_indexers l -> i ∈ l -> j ∈ l ->
    st_kind E (i_key i) = st_kind E (i_key j) -> i = j.
  Proof.
    intros [Hnd _]. induction l as [|x r IH]; [by intros ?%elem_of_nil|].
    cbn [fmap list_fmap] in Hnd. apply NoDup_cons in Hnd as [Hx Hnd].
    intros [->|Hi]%elem_of_cons [->|Hj]%elem_of_cons Hk; [done| | |by apply IH].
    - destruct Hx. apply elem_of_list_fmap. by exists j.
    - destruct Hx. apply elem_of_list_fmap. by exists i.
  Qed.

  Lemma decides_unique sh n i j : ok_indexers (s_indexers sh) ->
    decides E sh n i -> decides E sh n j -> i = j.
  Proof.
    intros Hok (Hi & Hsi & Hni) (Hj & Hsj & Hnj).
    apply (kinds_inj (s_indexers sh)); try done.
    destruct Hok as [_ Hok]. rewrite Forall_forall in Hok.
    unfold speaks in Hsi, Hsj.
    destruct (ok_key_cases i (Hok i Hi)) as [Ei|[Ei|Ei]];
      destruct (ok_key_cases j (Hok j Hj)) as [Ej|[Ej|Ej]]; rewrite Ei, Ej in *;
      try done; destruct n; try done; exfalso.
    - destruct (Hni eq_refl) as [?|H]; [done|by destruct (H j Hj)].
    - destruct (Hnj eq_refl) as [?|H]; [done|by destruct (H i Hi)].
  Qed.

  Lemma least_decides sh n i : ok_indexers (s_indexers sh) ->
    (least E (List.filter (fun i => key_accepts E (i_key i) (kk n)) (s_indexers sh)) = Some i
     <-> decides E sh n i).
  Proof.
    intros Hok. destruct (Hok) as [Hnd Hall]. rewrite Forall_forall in Hall.
    assert (forall j, least E (List.filter (fun i => key_accepts E (i_key i) (kk n))
              (s_indexers sh)) = Some j -> decides E sh n j) as Hfwd.
    { intros j [Hj Hmin]%least_some. apply in_filter in Hj as [Hj Ha].
      apply (speaks_iff j n (Hall j Hj)) in Ha. split_and!; [done..|].
      intros ->. destruct (ok_key_cases j (Hall j Hj)) as [Ej|[Ej|Ej]]; [|by left|].
      - right. intros x Hx Ex.
        assert (x ∈ List.filter (fun i => key_accepts E (i_key i) (kk Numbers))
                  (s_indexers sh)) as Hin.
        { apply in_filter. split; [done|]. apply (speaks_iff x Numbers (Hall x Hx)).
          unfold speaks. by rewrite Ex. }
        specialize (Hmin x Hin). rewrite (specificity_ok j (Hall j Hj)) in Hmin.
        rewrite (specificity_ok x (Hall x Hx)), Ej, Ex in Hmin. lia.
      - unfold speaks in Ha. by rewrite Ej in Ha. }
    split; [apply Hfwd|]. intros Hd.
    destruct (least E _) as [j|] eqn:Hl.
    - f_equal. apply (decides_unique sh n); auto.
    - apply least_none in Hl. destruct Hd as (Hi & Hs & _).
      assert (i ∈ List.filter (fun i => key_accepts E (i_key i) (kk n)) (s_indexers sh)) as H.
      { apply in_filter. split; [done|]. by apply speaks_iff; [apply Hall|]. }
      rewrite Hl in H. by apply elem_of_nil in H.
  Qed.

  Lemma indexer_for_prop_iff sh k n i : ok_indexers (s_indexers sh) -> name_of E k n ->
    (indexer_for_prop E sh k = Some i <-> decides E sh n i).
  Proof.
    intros Hok Hn. unfold indexer_for_prop. apply name_of_iff in Hn as ->.
    by apply least_decides.
  Qed.

  Lemma written_for_exists i : ok_key i -> exists n, written_for E i n.
  Proof.
    intros Hi. destruct (ok_key_cases i Hi) as [?|[?|?]];
      [by exists Strings|by exists Numbers|by exists Symbols].
  Qed.
  Lemma written_for_unique i n n' : written_for E i n -> written_for E i n' -> n = n'.
  Proof. unfold written_for. destruct n, n'; congruence. Qed.

  Lemma covers_written i d n : ok_key i -> written_for E d n ->
    covers (key_accepts E (i_key i)) (key_accepts E (i_key d))
    = key_accepts E (i_key i) (kk n).
  Proof.
    intros Hi Hd. unfold covers, key_kinds. cbn [forallb]. rewrite !accepts_kind.
    cbn [accepts]. unfold written_for in Hd.
    destruct (ok_key_cases i Hi) as [->|[->| ->]]; destruct n; rewrite Hd; reflexivity.
  Qed.

  Lemma filter_ext_in' {A} (f g : A -> bool) l :
    (forall x, x ∈ l -> f x = g x) -> List.filter f l = List.filter g l.
  Proof.
    induction l as [|x r IH]; intros H; cbn [List.filter]; [done|].
    rewrite (H x) by (by left). rewrite IH; [done|]. intros y Hy. apply H. by right.
  Qed.

  Lemma find_matching_iff sh d n i : ok_indexers (s_indexers sh) -> written_for E d n ->
    (find_matching_indexer E sh d = Some i <-> decides E sh n i).
  Proof.
    intros Hok Hd. unfold find_matching_indexer.
    rewrite (filter_ext_in' _ (fun i => key_accepts E (i_key i) (kk n))).
    - by apply least_decides.
    - intros x Hx. apply covers_written; [|done]. destruct Hok as [_ Hok].
      rewrite Forall_forall in Hok. by apply Hok.
  Qed.

  (** *** From questions to rules *)
  Context (R : relation) (G : key -> Prop).
  Context (HG : forall m s d, G (Key s d Assignable m) <-> R (m_bivariant m) s d).

  Lemma ask_iff e m s d : holds G (ask e m s d) <-> R (m_bivariant m) s d.
  Proof. by rewrite holds_ask. Qed.

  Lemma if_false_iff (c : bool) t :
    holds G (if c then Ret false else t) <-> c = false /\ holds G t.
  Proof. destruct c; cbn [holds]; naive_solver. Qed.

  Lemma signature_iff off m s d :
    holds G (relate_signature E off m s d) <-> sig_fits E R (m_bivariant m) s d.
  Proof.
    unfold relate_signature. cbv zeta.
    rewrite if_false_iff, negb_false_iff, Nat.eqb_eq, holds_both, if_false_iff,
      Nat.ltb_ge, holds_both, holds_every.
    set (biv := m_bivariant m).
    assert (holds G
      match sg_this s with
      | Some a => match sg_this d with Some b => ask off m b a | None => Ret false end
      | None => match sg_this d with Some b => ask off m b (st_any E) | None => Ret true end
      end <-> (forall a, sg_this s = Some a -> exists b, sg_this d = Some b /\ R biv b a)
              /\ (forall b, sg_this s = None -> sg_this d = Some b -> R biv b (st_any E)))
      as ->.
    { destruct (sg_this s) as [a|], (sg_this d) as [b|]; rewrite ?ask_iff;
        cbn [holds]; fold biv; split; try naive_solver. }
    assert (holds G match st_kind E (sg_ret d) with
                    | KVoid => Ret true | _ => ask off m (sg_ret s) (sg_ret d) end
            <-> st_kind E (sg_ret d) = KVoid \/ R biv (sg_ret s) (sg_ret d)) as ->.
    { destruct (st_kind E (sg_ret d)); rewrite ?ask_iff; cbn [holds]; fold biv;
        naive_solver. }
    assert (forall i, holds G
       (if negb (o_strict_fn (st_opts E)) || biv
        then either (ask off m (effective_param E (sg_params s) i)
                       (effective_param E (sg_params d) i))
               (ask off m (effective_param E (sg_params d) i)
                  (effective_param E (sg_params s) i))
        else ask off m (effective_param E (sg_params d) i)
               (effective_param E (sg_params s) i))
       <-> R biv (effective_param E (sg_params d) i) (effective_param E (sg_params s) i)
           \/ ((biv = true \/ o_strict_fn (st_opts E) = false)
               /\ R biv (effective_param E (sg_params s) i)
                    (effective_param E (sg_params d) i))) as Harg.
    { intros i. destruct (o_strict_fn (st_opts E)), biv eqn:Hb; cbn [negb orb];
        rewrite ?holds_either, ?ask_iff; fold biv; rewrite ?Hb; naive_solver. }
    split.
    - intros (H1 & [H2 H3] & H4 & H5 & H6). split; try done.
      + by rewrite !wanted_required.
      + intros i dt Hi [Ha ->]%argument_iff.
        exists (effective_param E (sg_params s) i). split; [by apply argument_or_any|].
        apply Harg, H5. apply in_filter. split; [|done].
        apply elem_of_seq. lia.
    - intros [H1 H2 H3 H4 H5 H6]. split_and!; try done.
      + by rewrite <- !wanted_required.
      + intros i [Hi Ha]%in_filter. apply elem_of_seq in Hi. apply Harg.
        destruct (H5 i (effective_param E (sg_params d) i)) as (st & Hst & Hr); [lia|by apply argument_iff|].
        apply argument_or_any in Hst as ->. done.
  Qed.

  Lemma callable_iff off m ss ds :
    holds G (relate_callable E off m ss ds) <-> sigs_fit E R (m_bivariant m) ss ds.
  Proof.
    unfold relate_callable, sigs_fit. rewrite holds_every.
    split; intros H d Hd; specialize (H d Hd).
    - apply holds_some in H as (s & Hs & H). exists s. split; [done|].
      by apply signature_iff in H.
    - destruct H as (s & Hs & H). apply holds_some. exists s. split; [done|].
      by apply signature_iff.
  Qed.

  Definition ok_shape (sh : shape) : Prop :=
    NoDup (p_key <$> s_props sh) /\ ok_indexers (s_indexers sh).

  Lemma property_iff off m sh d : ok_shape sh ->
    holds G (relate_property E off m sh d) <-> prop_fits E R (m_bivariant m) sh d.
  Proof.
    intros [Hnd Hok]. unfold relate_property.
    destruct (find_property E sh (p_key d)) as [s|] eqn:Hf.
    - apply (find_property_iff _ _ _ Hnd) in Hf as Hp.
      rewrite !if_false_iff, ask_iff, negb_false_iff, private_compatible_iff,
        !andb_false_iff, !negb_false_iff.
      assert (m_bivariant (if p_method s || p_method d then bivariant m else m)
              = m_bivariant m || p_method s || p_method d) as ->.
      { destruct (p_method s), (p_method d); cbn [orb bivariant m_bivariant];
          by rewrite ?orb_true_r, ?orb_false_r. }
      split.
      + intros (H1 & H2 & H3 & H4).
        refine (fits_prop E R _ sh d s _ _ Hp H1 _ _
          (proj2 (seen_property_iff _ _ _) eq_refl)
          (proj2 (seen_property_iff _ _ _) eq_refl) H4).
        * intros ?. destruct H2; congruence.
        * intros ?. destruct H3; congruence.
      + intros [s' st dt Hs' Hc Hr Ho Hst Hdt HR|Hno _|n i st dt Hno].
        * apply (find_property_iff _ _ _ Hnd) in Hs'. rewrite Hf in Hs'.
          injection Hs' as <-.
          apply seen_property_iff in Hst as ->. apply seen_property_iff in Hdt as ->.
          split_and!; try done.
          -- destruct (p_readonly s); auto.
          -- destruct (p_optional s); auto.
        * by destruct (Hno s).
        * by destruct (Hno s).
    - pose proof (proj1 (find_property_none _ _ Hnd) Hf) as Hno.
      destruct (p_optional d) eqn:Ho.
      { split; [intros _; by apply fits_absent|done]. }
      destruct (name_of_exists (p_key d)) as [n Hn].
      destruct (indexer_for_prop E sh (p_key d)) as [i|] eqn:Hi.
      + apply (indexer_for_prop_iff sh (p_key d) n i Hok Hn) in Hi as Hd.
        rewrite if_false_iff, ask_iff, andb_false_iff, negb_false_iff. split.
        * intros [H1 H2].
          refine (fits_indexed E R _ sh d n i _ _ Hno Ho Hn Hd _
            (proj2 (seen_indexed_iff _ _) eq_refl) _ H2).
          -- intros ?. destruct H1; congruence.
          -- apply seen_property_iff. by rewrite Ho.
        * intros [s' st dt Hs'|_ ?|n' i' st dt _ _ Hn' Hd' Hr Hst Hdt HR].
          -- by destruct (Hno s').
          -- congruence.
          -- apply (indexer_for_prop_iff sh (p_key d) n' i' Hok Hn') in Hd'.
             rewrite Hi in Hd'. injection Hd' as <-.
             apply seen_indexed_iff in Hst as ->. apply seen_property_iff in Hdt as ->.
             rewrite Ho in HR. split; [|done]. destruct (i_readonly i); auto.
      + split; [done|].
        intros [s' st dt Hs'|_ ?|n' i' st dt _ _ Hn' Hd' _ _ _ _].
        * by destruct (Hno s').
        * congruence.
        * apply (indexer_for_prop_iff sh (p_key d) n' i' Hok Hn') in Hd'. congruence.
  Qed.

  Lemma indexer_iff off m sh d : ok_shape sh -> ok_key d ->
    holds G (relate_indexer E off m sh d) <-> indexer_fits E R (m_bivariant m) sh d.
  Proof.
    intros [Hnd Hok] Hd. unfold relate_indexer.
    destruct (written_for_exists d Hd) as [n Hn].
    destruct (find_matching_indexer E sh d) as [i|] eqn:Hi.
    - apply (find_matching_iff sh d n i Hok Hn) in Hi as Hdec.
      rewrite if_false_iff, ask_iff, andb_false_iff, negb_false_iff. split.
      + intros [H1 H2].
        refine (fits_indexer E R _ sh d n i _ _ Hn Hdec _
          (proj2 (seen_indexed_iff _ _) eq_refl) (proj2 (seen_indexed_iff _ _) eq_refl) H2).
        intros ?. destruct H1; congruence.
      + intros [n' i' st dt Hn' Hd' Hr Hst Hdt HR|dt Hnil _ _].
        * apply (find_matching_iff sh d n' i' Hok Hn') in Hd'. rewrite Hi in Hd'.
          injection Hd' as <-.
          apply seen_indexed_iff in Hst as ->. apply seen_indexed_iff in Hdt as ->.
          split; [|done]. destruct (i_readonly i); auto.
        * destruct Hdec as (Hin & _). rewrite Hnil in Hin. by apply elem_of_nil in Hin.
    - assert (holds G (match s_indexers sh with
                       | [] => every (fun p =>
                           if key_accepts E (i_key d) (prop_key_kind E (p_key p)) then
                             ask off m (property_type E (p_ty p) (p_optional p))
                               (indexer_type E (i_value d))
                           else Ret true) (s_props sh)
                       | _ => Ret false end)
              <-> s_indexers sh = [] /\ forall p, p ∈ s_props sh ->
                    key_accepts E (i_key d) (prop_key_kind E (p_key p)) = true ->
                    R (m_bivariant m) (property_type E (p_ty p) (p_optional p))
                      (indexer_type E (i_value d))) as ->.
      { destruct (s_indexers sh); [|cbn [holds]; naive_solver].
        rewrite holds_every. split.
        - intros H. split; [done|]. intros p Hp Ha. specialize (H p Hp).
          rewrite Ha in H. by rewrite ask_iff in H.
        - intros [_ H] p Hp. destruct (key_accepts _ _ _) eqn:Ha; [|done].
          rewrite ask_iff. by apply H. }
      split.
      + intros [Hnil H]. eapply fits_known; [done|by apply seen_indexed_iff|].
        intros p n' st Hp Hn' Hs Hst. apply seen_property_iff in Hst as ->.
        apply H; [done|]. apply name_of_iff in Hn' as ->. by apply speaks_iff.
      + intros [n' i' st dt Hn' Hd' _ _ _ _|dt Hnil Hdt H].
        * apply (find_matching_iff sh d n' i' Hok Hn') in Hd'. congruence.
        * apply seen_indexed_iff in Hdt as ->. split; [done|]. intros p Hp Ha.
          destruct (name_of_exists (p_key p)) as [n' Hn'].
          apply (H p n'); [done..| |by apply seen_property_iff].
          apply name_of_iff in Hn'. rewrite Hn' in Ha. by apply speaks_iff.
  Qed.

  Lemma object_iff off m s d : ok_shape s -> ok_shape d ->
    holds G (relate_object E off m s d) <-> shape_fits E R (m_bivariant m) s d.
  Proof.
    intros Hs Hd. unfold relate_object.
    rewrite !holds_both, !holds_every, !callable_iff. cbn [bivariant m_bivariant].
    assert (forall i, i ∈ s_indexers d -> ok_key i) as Hk.
    { destruct Hd as [_ [_ Hd]]. by rewrite Forall_forall in Hd. }
    split.
    - intros (H1 & H2 & H3 & H4). split; try done.
      + intros p Hp. by apply (property_iff off m), H1.
      + intros i Hi. by apply (indexer_iff off m); [|apply Hk|apply H2].
    - intros [H1 H2 H3 H4]. split_and!; try done.
      + intros p Hp. by apply property_iff, H1.
      + intros i Hi. by apply indexer_iff; [|apply Hk|apply H2].
  Qed.

  (** *** Tuples of a fixed length *)
  Definition fixed (es : list elem) : Prop :=
    Forall (fun e => e_optional e = false /\ e_rest e = false) es.

  Lemma fixed_required es : fixed es -> required es = length es.
  Proof.
    unfold required. induction 1 as [|e es [Ho Hr] _ IH]; [done|].
    cbn [List.filter]. rewrite Ho, Hr. cbn [negb andb length]. by rewrite IH.
  Qed.
  Lemma fixed_rest es : fixed es -> existsb e_rest es = false.
  Proof. induction 1 as [|e es [Ho Hr] _ IH]; [done|]. cbn [existsb]. by rewrite Hr. Qed.

  Lemma tuple_from_iff off m ss ds : fixed ss -> fixed ds -> length ss = length ds ->
    holds G (tuple_from E off m ss ds) <->
    Forall2 (fun x y => (e_readonly x = true -> e_readonly y = true)
               /\ R (m_bivariant m) (e_ty x) (e_ty y)) ss ds.
  Proof.
    revert ss. induction ds as [|d ds IH]; intros ss Hs Hd Hlen;
      destruct ss as [|s ss]; cbn [length] in Hlen; try lia; cbn [tuple_from].
    { by rewrite Forall2_nil. }
    apply Forall_cons in Hs as [[Hso Hsr] Hs]. apply Forall_cons in Hd as [[Hdo Hdr] Hd].
    rewrite Hdr, Hsr, Hdo, Hso. cbn [negb andb].
    rewrite if_false_iff, holds_both, ask_iff, (IH ss Hs Hd ltac:(lia)).
    cbn [parameter_type]. rewrite Forall2_cons, andb_false_iff, negb_false_iff.
    destruct (e_readonly s), (e_readonly d); naive_solver.
  Qed.

  Lemma tuple_iff off m ss ds : fixed ss -> fixed ds ->
    holds G (relate_tuple E off m ss ds) <->
    Forall2 (fun x y => (e_readonly x = true -> e_readonly y = true)
               /\ R (m_bivariant m) (e_ty x) (e_ty y)) ss ds.
  Proof.
    intros Hs Hd. unfold relate_tuple. cbv zeta.
    rewrite (fixed_required _ Hs), (fixed_required _ Hd), (fixed_rest _ Hs), Nat.eqb_refl.
    cbn [negb]. rewrite !andb_true_r.
    rewrite !if_false_iff, !Nat.ltb_ge. split.
    - intros (H1 & H2 & H3). apply tuple_from_iff in H3; try done. lia.
    - intros H. pose proof (Forall2_length _ _ _ H) as Hl. split_and!; [lia..|].
      by apply tuple_from_iff.
  Qed.

  Lemma array_to_tuple_iff off m t ro ds : fixed ds ->
    ~ holds G (relate_array_to_tuple E off m t ro ds).
  Proof.
    intros Hd. unfold relate_array_to_tuple.
    destruct (ro && _); [done|]. by rewrite (fixed_rest _ Hd).
  Qed.

  Lemma tuple_to_array_iff off m ss t ro : fixed ss ->
    holds G (relate_tuple_to_array E off m ss t ro) <->
    Forall (fun x => (e_readonly x = true -> ro = true) /\ R (m_bivariant m) (e_ty x) t) ss.
  Proof.
    intros Hs. unfold relate_tuple_to_array. rewrite if_false_iff, holds_every, Forall_forall.
    unfold fixed in Hs. rewrite Forall_forall in Hs.
    assert (negb ro && existsb e_readonly ss = false <->
            forall x, x ∈ ss -> e_readonly x = true -> ro = true) as ->.
    { rewrite andb_false_iff, negb_false_iff. split.
      - intros [->|Hx] x Hin Hr; [done|]. exfalso.
        assert (existsb e_readonly ss = true); [|congruence].
        apply existsb_exists. exists x. split; [by apply elem_of_list_In|done].
      - intros H. destruct ro; [by left|]. right. apply not_true_iff_false.
        intros (x & Hx & Hr)%existsb_exists. apply elem_of_list_In in Hx.
        by specialize (H x Hx Hr). }
    split.
    - intros [H1 H2] x Hx. split; [by apply H1|]. specialize (H2 x Hx).
      destruct (Hs x Hx) as [Ho Hr]. rewrite Ho, Hr, ask_iff in H2. done.
    - intros H. split; [intros x Hx; by apply H|]. intros x Hx.
      destruct (Hs x Hx) as [Ho Hr]. rewrite Ho, Hr, ask_iff. by apply H.
  Qed.

  Lemma empty_shape_iff sh : empty_shape sh = true <-> sh = Shape [] [] [] [].
  Proof.
    destruct sh as [ps cs ks xs]. unfold empty_shape. cbn.
    destruct ps, cs, ks, xs; naive_solver.
  Qed.

  Lemma array_to_object_iff off m t sh : ok_shape sh ->
    holds G (relate_array_to_object E off m t sh) <->
    sh = Shape [] [] [] []
    \/ exists i, i ∈ s_indexers sh /\ st_kind E (i_key i) = KNumber
         /\ R (m_bivariant m) t (i_value i).
  Proof.
    intros [_ Hok]. unfold relate_array_to_object.
    destruct (empty_shape sh) eqn:He.
    { apply empty_shape_iff in He. split; [by left|done]. }
    assert (sh <> Shape [] [] [] []) as Hne.
    { intros ->. done. }
    set (f := fun i => covers (fun k => match k with KeyNumber => true | _ => false end)
                         (key_accepts E (i_key i))).
    assert (forall i, i ∈ s_indexers sh -> (f i = true <-> st_kind E (i_key i) = KNumber))
      as Hf.
    { intros i Hi. destruct Hok as [_ Hok]. rewrite Forall_forall in Hok.
      unfold f, covers, key_kinds. cbn [forallb]. rewrite !accepts_kind. cbn [accepts].
      destruct (ok_key_cases i (Hok i Hi)) as [->|[->| ->]]; cbn; naive_solver. }
    destruct (least E (List.filter f (s_indexers sh))) as [i|] eqn:Hl.
    - apply least_some in Hl as [Hin _]. apply in_filter in Hin as [Hin Hfi].
      apply (Hf i Hin) in Hfi. rewrite ask_iff. split.
      + intros H. right. by exists i.
      + intros [?|(j & Hj & Hk & H)]; [done|].
        rewrite (kinds_inj _ i j Hok Hin Hj); [done|congruence].
    - apply least_none in Hl. split; [done|].
      intros [?|(j & Hj & Hk & H)]; [done|].
      assert (j ∈ List.filter f (s_indexers sh)) as Hin.
      { apply in_filter. split; [done|]. by apply Hf. }
      rewrite Hl in Hin. by apply elem_of_nil in Hin.
  Qed.
End Parts.
