(** Proofs of the theorems of [RelateProperties]. *)
From Coq Require Import ZArith Lia.
From stdpp Require Import base decidable numbers sets list.
From Verif Require Import RelateModel RelateSpec RelateWitness RelateProofs RelateRuleProofs
  RelateMainProofs RelateDepthProofs.

(** Every question asked is one of assignability. *)
Section Asked.
  Context (E : env).
  Notation P := (fun (_ : nat) (k : key) => k_kind k = Assignable).

  Ltac go :=
    repeat match goal with
    | |- asks _ (ask _ _ _ _) => unfold ask; cbn [asks]; done
    | |- asks _ (Ret _) => exact I
    | |- asks _ (both _ _) => apply asks_both
    | |- asks _ (either _ _) => apply asks_either
    | |- asks _ (every _ _) => apply asks_every; intros
    | |- asks _ (some _ _) => apply asks_some; intros
    | |- asks _ (match ?x with _ => _ end) => destruct x
    end.

  Lemma signature_asks off m s d : asks P (relate_signature E off m s d).
  Proof. unfold relate_signature. cbv zeta. go. Qed.
  Lemma callable_asks off m ss ds : asks P (relate_callable E off m ss ds).
  Proof. unfold relate_callable. go. apply signature_asks. Qed.
  Lemma object_asks off m s d : asks P (relate_object E off m s d).
  Proof.
    unfold relate_object, relate_property, relate_indexer. go; apply callable_asks.
  Qed.
  Lemma tuple_from_asks off m ss ds : asks P (tuple_from E off m ss ds).
  Proof.
    revert ss. induction ds as [|d ds IH]; intros ss; cbn [tuple_from]; go; apply IH.
  Qed.
  Lemma structural_asks off m sk dk : asks P (structural E off m sk dk).
  Proof.
    unfold structural, relate_array, relate_array_to_object, relate_tuple,
      relate_array_to_tuple, relate_tuple_to_array, relate_callable_to_object,
      relate_object_to_callable. cbv zeta.
    destruct sk; go; first [apply callable_asks|apply object_asks|apply tuple_from_asks].
  Qed.
  Lemma assignable_asks off m s d : asks P (assignable E off m s d).
  Proof.
    unfold assignable, compound. cbv zeta.
    destruct (s =? d)%N; [exact I|]. destruct (negb (m_skip m) && _); [go|].
    destruct (special _ _ _); [exact I|]. destruct (expansion E s); [go|].
    destruct (expansion E d); [go|].
    destruct (st_kind E s); destruct (st_kind E d); go;
      first [apply structural_asks|apply object_asks].
  Qed.
  Lemma plan_asks k : asks P (plan E k).
  Proof.
    unfold plan. destruct (k_kind k).
    - apply assignable_asks.
    - go; apply assignable_asks.
    - apply asks_both; [apply assignable_asks|].
      apply asks_bind; [apply assignable_asks|done].
  Qed.
End Asked.

Section Laws.
  Context (E : env) (keep : list (key * bool) -> list (key * bool)) (Hkeep : forgetful keep).

  Lemma always (G : key -> Prop) :
    (forall k, G k -> k_kind k <> StrictSubtype /\ holds G (plan E k)) ->
    forall qs k, G k -> fst (query E keep k (after E keep qs [])) = true.
  Proof.
    intros HG qs k Hk.
    destruct (query_upper E keep Hkeep G (after E keep qs []) k HG) as [_ H].
    - apply (after_upper E keep Hkeep G qs HG). intros k' Hin. by apply elem_of_nil in Hin.
    - destruct (fst _); [done|]. by destruct (H eq_refl).
  Qed.

  Lemma rejected k qs :
    well_formed E -> fixed_tuples E -> no_empty E -> plain E ->
    k_kind k <> StrictSubtype ->
    fst (query E keep k (after E keep qs [])) = false -> ~ meaning E k.
  Proof.
    intros Hwf Hfix Hne Hpl Hk Hf Hm.
    assert (forall k, meaning E k /\ k_kind k <> StrictSubtype ->
      k_kind k <> StrictSubtype
      /\ holds (fun k => meaning E k /\ k_kind k <> StrictSubtype) (plan E k)) as HG.
    { intros k' [Hm' Hk']. split; [done|].
      pose proof (plan_complete E Hwf Hfix Hne Hpl k' Hk' Hm') as H.
      assert (asks (fun _ k => k_kind k = Assignable) (plan E k')) as Ha.
      { apply plan_asks. }
      eapply holds_impl; [exact Ha| |by apply mono_plan|exact H].
      intros e k0 Hk0 Hm0. cbn beta in *. by rewrite Hk0. }
    pose proof (always _ HG qs k (conj Hm Hk)) as H. rewrite Hf in H. done.
  Qed.

  (** *** Laws that hold in every store *)
  Lemma same_type t m rk qs : rk <> StrictSubtype ->
    fst (query E keep (Key t t rk m) (after E keep qs [])) = true.
  Proof.
    intros Hrk. apply (always (fun k => k_src k = k_dst k /\ k_kind k <> StrictSubtype)); [|done].
    intros k [Hs Hk]. split; [done|]. unfold plan. rewrite Hs.
    assert (forall off, assignable E off (k_mode k) (k_dst k) (k_dst k) = Ret true) as Ha.
    { intros off. unfold assignable. by rewrite N.eqb_refl. }
    rewrite !Ha. destruct (k_kind k); [done| |done].
    destruct (is_param (st_kind E (k_dst k))); [|done]. cbn. apply N.eqb_refl.
  Qed.

  Lemma to_top s d m qs :
    (forall t, st_norm E t = t \/ st_kind E t = KRef (Some (st_norm E t))) ->
    st_kind E d = KAny \/ st_kind E d = KUnknown ->
    fst (query E keep (Key s d Assignable m) (after E keep qs [])) = true.
  Proof.
    intros Hnorm Hd. apply (always (fun k => k_kind k = Assignable
      /\ (st_kind E (k_dst k) = KAny \/ st_kind E (k_dst k) = KUnknown))); [|done].
    intros k [Hk Ht]. split; [by rewrite Hk|]. unfold plan. rewrite Hk. unfold assignable.
    destruct (_ =? _)%N; [done|].
    assert (st_norm E (k_dst k) = k_dst k) as Hn.
    { destruct (Hnorm (k_dst k)) as [?|Hr]; [done|]. rewrite Hr in Ht. by destruct Ht. }
    destruct (negb (m_skip (k_mode k)) && _).
    { rewrite holds_ask, Hn. done. }
    assert (special E (st_kind E (k_src k)) (st_kind E (k_dst k)) = Some true) as ->; [|done].
    unfold special.
    destruct Ht as [-> | ->]; destruct (negb (o_strict_null (st_opts E)) && _); try done;
      by destruct (st_kind E (k_src k)).
  Qed.

  Lemma from_bottom s d m qs :
    (forall t, st_norm E t = t \/ st_kind E t = KRef (Some (st_norm E t))) ->
    (forall t, st_kind E t <> KMapping) ->
    st_kind E s = KAny \/ st_kind E s = KNever ->
    fst (query E keep (Key s d Assignable m) (after E keep qs [])) = true.
  Proof.
    intros Hnorm Hmap Hs. apply (always (fun k => k_kind k = Assignable
      /\ (st_kind E (k_src k) = KAny \/ st_kind E (k_src k) = KNever))); [|done].
    intros k [Hk Ht]. split; [by rewrite Hk|]. unfold plan. rewrite Hk. unfold assignable.
    destruct (_ =? _)%N; [done|].
    assert (st_norm E (k_src k) = k_src k) as Hn.
    { destruct (Hnorm (k_src k)) as [?|Hr]; [done|]. rewrite Hr in Ht. by destruct Ht. }
    destruct (negb (m_skip (k_mode k)) && _).
    { rewrite holds_ask, Hn. done. }
    assert (special E (st_kind E (k_src k)) (st_kind E (k_dst k)) = Some true) as ->; [|done].
    unfold special. pose proof (Hmap (k_dst k)) as Hm.
    destruct Ht as [-> | ->]; destruct (negb (o_strict_null (st_opts E)) && _); try done;
      by destruct (st_kind E (k_dst k)).
  Qed.

  (** No type is a strict subtype of itself. *)
  Definition irreflexive (l : list (key * bool)) : Prop :=
    forall t m, (Key t t StrictSubtype m, true) ∉ l.

  Lemma plan_strict t m : plan E (Key t t StrictSubtype m) = Ret false.
  Proof. unfold plan, assignable. cbn. by rewrite N.eqb_refl. Qed.

  Lemma run_inv (I : state -> Prop) rel t st b st' :
    (forall e k s, I s -> I (snd (rel e k s))) -> I st -> run rel t st = (b, st') -> I st'.
  Proof.
    intros Hrel. revert st. induction t as [b0|e k f IH]; intros st Hst; cbn [run].
    - by intros [= <- <-].
    - destruct (rel e k st) as [x st1] eqn:Hx. apply IH.
      pose proof (Hrel e k st Hst) as H. by rewrite Hx in H.
  Qed.

  Lemma relate_irreflexive n opened k st :
    irreflexive (c_cache st) -> irreflexive (c_cache (snd (relate E keep n opened k st))).
  Proof.
    revert opened k st. induction n as [n IH] using lt_wf_ind. intros opened k st Hst.
    destruct n as [|n]; cbn [relate]; [done|].
    destruct (lookup_key k (c_cache st)); [done|].
    destruct (bool_decide _); [done|].
    destruct (match l_steps (st_limits E) with
              | Some limit => Nat.leb limit (c_steps st) | None => false end); [done|].
    set (st1 := match l_steps (st_limits E) with
                | Some _ => State (c_cache st) (S (c_steps st)) | None => st end).
    assert (irreflexive (c_cache st1)) as Hst1.
    { unfold st1. by destruct (l_steps (st_limits E)). }
    destruct (Nat.leb _ _); [done|].
    destruct (run _ (plan E k) st1) as [b st2] eqn:Hrun. cbn [snd c_cache].
    intros t m Hin. apply Hkeep in Hin. apply elem_of_cons in Hin as [[= <- <-]|Hin].
    - rewrite plan_strict in Hrun. by cbn [run] in Hrun.
    - revert Hin. revert t m.
      apply (run_inv (fun s => irreflexive (c_cache s))) in Hrun; [done| |done].
      intros e k' s Hs. apply IH; [lia|done].
  Qed.

  Lemma after_irreflexive qs cache :
    irreflexive cache -> irreflexive (after E keep qs cache).
  Proof.
    revert cache. induction qs as [|q qs IH]; intros cache Hc; cbn [after]; [done|].
    apply IH. unfold query.
    pose proof (relate_irreflexive (l_depth (st_limits E)) [] q (State cache 0) Hc) as H.
    by destruct (relate E keep (l_depth (st_limits E)) [] q (State cache 0)).
  Qed.

  Lemma strict_self t m qs :
    0 < l_depth (st_limits E) -> 0 < l_in_progress (st_limits E) ->
    l_steps (st_limits E) <> Some 0 ->
    fst (query E keep (Key t t StrictSubtype m) (after E keep qs [])) = false.
  Proof.
    intros Hd Hp Hs.
    assert (irreflexive (after E keep qs [])) as Hi.
    { apply after_irreflexive. intros ? ? Hin. by apply elem_of_nil in Hin. }
    unfold query. destruct (l_depth (st_limits E)) as [|n]; [lia|]. cbn [relate c_cache c_steps].
    destruct (lookup_key _ _) as [b|] eqn:Hl.
    { cbn [fst]. apply lookup_key_in in Hl. destruct b; [|done]. by destruct (Hi t m). }
    rewrite bool_decide_eq_false_2 by (by intros ?%elem_of_nil).
    destruct (Nat.leb_spec (l_in_progress (st_limits E)) (length (@nil key))) as [H|_];
      [cbn [length] in H; lia|].
    destruct (l_steps (st_limits E)) as [[|x]|]; [done|..]; cbn [Nat.leb];
      by rewrite plan_strict.
  Qed.

  (** *** Types that are not recursive *)
  Section Measured.
    Context (h : tid -> nat) (Hh : measured E h) (Hu : unlimited E).
    Context (Hnorm : forall t, st_norm E t = t \/ st_kind E t = KRef (Some (st_norm E t))).

    Lemma query_truth qs k : Forall (roomy E h) qs -> roomy E h k ->
      (fst (query E keep k (after E keep qs [])) = true <-> truth E h k).
    Proof.
      intros Hqs Hk.
      apply (query_exact E keep Hkeep h (truth E h)); try done.
      - intros k'. by apply plan_below.
      - intros k' b. by apply truth_sem.
      - intros k' b. apply (after_exact E keep Hkeep h (truth E h) qs); try done.
        + intros k0. by apply plan_below.
        + intros k0 b0. by apply truth_sem.
        + intros k0 b0 Hin. by apply elem_of_nil in Hin.
    Qed.

    Lemma query_meaning qs k :
      well_formed E -> fixed_tuples E -> no_empty E -> index_alone E -> plain E ->
      Forall (roomy E h) qs -> roomy E h k ->
      (fst (query E keep k (after E keep qs [])) = true <-> meaning E k).
    Proof.
      intros Hwf Hfix Hne Hix Hpl Hqs Hk.
      apply (query_exact E keep Hkeep h (meaning E)); try done.
      - intros k'. by apply plan_below.
      - intros k' b. by apply plan_sem.
      - intros k' b. apply (after_exact E keep Hkeep h (meaning E) qs); try done.
        + intros k0. by apply plan_below.
        + intros k0 b0. by apply plan_sem.
        + intros k0 b0 Hin. by apply elem_of_nil in Hin.
    Qed.

    Lemma value_both f t u : value f (both t u) = value f t && value f u.
    Proof.
      unfold both. induction t as [b|e k g IH]; cbn [bind value]; [by destruct b|].
      apply IH.
    Qed.
    Lemma value_negb f t : value f (bind t (fun b => Ret (negb b))) = negb (value f t).
    Proof. induction t as [b|e k g IH]; cbn [bind value]; [done|]. apply IH. Qed.

    Lemma truth_value k :
      truth E h k <-> value (fun k => answer E (S (weight h k)) k) (plan E k) = true.
    Proof.
      rewrite <- (truth_sem E h Hh Hnorm k
        (value (fun k => answer E (S (weight h k)) k) (plan E k))); [done|].
      by apply (value_sem (fun k => answer E (S (weight h k)) k)).
    Qed.

    Lemma truth_comparable s d m :
      truth E h (Key s d Comparable m) <-> truth E h (Key d s Comparable m).
    Proof.
      rewrite !truth_value. unfold plan. cbn [k_kind k_src k_dst k_mode].
      destruct (is_param (st_kind E s)) as [a|], (is_param (st_kind E d)) as [b|]; try done.
      - cbn [value]. by rewrite N.eqb_sym.
      - by rewrite !value_both, andb_comm.
    Qed.
    Lemma truth_strict s d m :
      truth E h (Key s d StrictSubtype m) -> ~ truth E h (Key d s StrictSubtype m).
    Proof.
      rewrite !truth_value. unfold plan. cbn [k_kind k_src k_dst k_mode].
      rewrite !value_both, !value_negb.
      intros [H1 H2]%andb_true_iff [H3 H4]%andb_true_iff.
      rewrite H3 in H2. done.
    Qed.
  End Measured.
End Laws.

(** ** The stores of [RelateWitness] *)
Lemma listed_all ks norm opt (P : tid -> kind -> Prop) :
  (forall t, P t KAny) ->
  Forall (fun i => P (N.of_nat i) (nth i ks KAny)) (seq 0 (length ks)) ->
  forall t, P t (st_kind (listed ks norm opt) t).
Proof.
  intros Hany Hall t. cbn [listed st_kind].
  destruct (decide (N.to_nat t < length ks)) as [Hlt|Hge].
  - rewrite Forall_forall in Hall.
    specialize (Hall (N.to_nat t)). rewrite N2Nat.id in Hall. apply Hall.
    apply elem_of_list_In, in_seq. lia.
  - rewrite nth_overflow by lia. apply Hany.
Qed.

Lemma keep_all_forgetful : forgetful keep_all.
Proof. by intros l e. Qed.

Lemma listed_well_formed ks norm opt :
  (forall t, norm t = t \/ nth (N.to_nat t) ks KAny = KRef (Some (norm t))) ->
  nth 0 ks KAny = KAny ->
  Forall (fun k => match k with KObject sh =>
      NoDup (p_key <$> s_props sh) /\ s_indexers sh = [] | _ => True end) ks ->
  well_formed (listed ks norm opt).
Proof.
  intros Hn Hk Hs. split; try done.
  - cbn. lia.
  - intros t sh [Ht|(ms & _ & Hm)]; [|done].
    cbn [listed st_kind] in Ht.
    assert (KObject sh ∈ ks) as Hin.
    { apply elem_of_list_In. rewrite <- Ht. apply nth_In.
      destruct (decide (N.to_nat t < length ks)) as [?|Hge]; [done|].
      rewrite nth_overflow in Ht by lia. done. }
    rewrite Forall_forall in Hs. destruct (Hs _ Hin) as [Hnd ->].
    split_and!; [done|apply NoDup_nil_2|apply Forall_nil_2].
Qed.

Lemma listed_simple ks norm opt :
  Forall (fun k => match k with
      | KObject sh => s_indexers sh = []
      | KTuple _ | KEmpty => False | _ => True end) ks ->
  fixed_tuples (listed ks norm opt) /\ no_empty (listed ks norm opt)
  /\ index_alone (listed ks norm opt).
Proof.
  intros Hs.
  assert (forall t, match st_kind (listed ks norm opt) t with
      | KObject sh => s_indexers sh = []
      | KTuple _ | KEmpty => False | _ => True end) as H.
  { apply (listed_all ks norm opt (fun _ k => match k with
      | KObject sh => s_indexers sh = []
      | KTuple _ | KEmpty => False | _ => True end)); [done|].
    rewrite Forall_forall in Hs. apply Forall_forall. intros i Hi.
    apply Hs. apply elem_of_list_In, nth_In. apply elem_of_list_In, in_seq in Hi. lia. }
  split_and!.
  - intros t es Ht. specialize (H t). by rewrite Ht in H.
  - intros t Ht. specialize (H t). by rewrite Ht in H.
  - intros t sh i Ht Hi. specialize (H t). rewrite Ht in H. rewrite H in Hi.
    by apply elem_of_nil in Hi.
Qed.

Ltac members :=
  repeat match goal with
  | H : _ ∈ [] |- _ => by apply elem_of_nil in H
  | H : _ ∈ _ :: _ |- _ => apply elem_of_cons in H as [->|H]
  end.

Ltac one_by_one :=
  repeat (apply Forall_cons; split); [..|by apply Forall_nil].

Lemma flat_well_formed : well_formed flat.
Proof.
  apply listed_well_formed; [|done|].
  - intros t. destruct (N.eqb_spec t 7) as [->|]; [by right|by left].
  - unfold flat_kinds, record, func. one_by_one; try done; split; try done;
      apply (bool_decide_unpack _); by vm_compute.
Qed.
Lemma flat_simple : fixed_tuples flat /\ no_empty flat /\ index_alone flat.
Proof. apply listed_simple. unfold flat_kinds. one_by_one; done. Qed.
Lemma listed_plain ks norm opt :
  Forall (plain_kind (listed ks norm opt)) ks -> plain (listed ks norm opt).
Proof.
  intros Hs t. apply (listed_all ks norm opt (fun _ => plain_kind (listed ks norm opt))); [done|].
  rewrite Forall_forall in Hs. apply Forall_forall. intros i Hi.
  apply Hs. apply elem_of_list_In, nth_In. apply elem_of_list_In, in_seq in Hi. lia.
Qed.
Lemma listed_measured ks norm opt h :
  h 0%N = 0 ->
  Forall (fun i => forall u, part_of (listed ks norm opt) (nth i ks KAny) u ->
    h u < h (N.of_nat i)) (seq 0 (length ks)) ->
  measured (listed ks norm opt) h.
Proof.
  intros H0 Hs. split; [done|].
  apply (listed_all ks norm opt (fun t k => forall u,
    part_of (listed ks norm opt) k u -> h u < h t)); [|done].
  by intros t u [].
Qed.

Lemma flat_plain : plain flat.
Proof.
  apply listed_plain. unfold flat_kinds. one_by_one; cbn; try done;
    try (split; [done|]); intros; members; cbn; set_solver.
Qed.

Ltac parts :=
  repeat match goal with
  | H : _ \/ _ |- _ => destruct H as [H|H]
  | H : exists _, _ |- _ => destruct H as [? H]
  | H : _ /\ _ |- _ => destruct H
  | H : False |- _ => destruct H
  | H : _ ∈ [] |- _ => by apply elem_of_nil in H
  | H : _ ∈ _ :: _ |- _ => apply elem_of_cons in H as [->|H]
  end.

Lemma one_argument E t i u : argument E [Param t false false] i u -> u = t.
Proof.
  intros [Ha ->]%argument_iff. destruct i as [|i]; [done|].
  unfold has_argument in Ha. cbn in Ha. discriminate.
Qed.

Ltac by_parts :=
  unfold part_of, part_of_shape, part_of_sig in *; cbn in *; parts;
  repeat match goal with
  | H : argument _ _ _ _ |- _ => apply one_argument in H
  | H : seen_property _ _ _ _ |- _ => unfold seen_property in H; cbn in H; parts
  end; cbn in *; subst; try discriminate; try done; vm_compute; lia.

Lemma flat_measured : measured flat flat_depth.
Proof.
  apply listed_measured; [done|]. cbn [flat_kinds length seq]. one_by_one; cbn [nth flat_kinds];
    intros u Hu; try done; by_parts.
Qed.

Lemma flat_unlimited : unlimited flat.
Proof. split; [done|]. cbn. lia. Qed.

Lemma loop_well_formed : well_formed loop.
Proof.
  apply listed_well_formed; [by left|done|].
  unfold loop_kinds, record. one_by_one; try done; split; try done;
      apply (bool_decide_unpack _); by vm_compute.
Qed.
Lemma loop_simple : fixed_tuples loop /\ no_empty loop /\ index_alone loop.
Proof. apply listed_simple. unfold loop_kinds. one_by_one; done. Qed.
Lemma loop_plain : plain loop.
Proof.
  apply listed_plain. unfold loop_kinds. one_by_one; cbn; try done;
    try (split; [done|]); intros; members; cbn; set_solver.
Qed.
Lemma loop_unlimited : unlimited loop.
Proof. split; [done|]. cbn. lia. Qed.

Lemma tower_well_formed : well_formed tower.
Proof.
  apply listed_well_formed; [by left|done|].
  unfold tower_kinds. do 3 (apply Forall_cons; split; [done|]).
  apply Forall_forall. intros k Hk%elem_of_list_In%in_flat_map.
  destruct Hk as (i & _ & [<-|[<-|[]]]); done.
Qed.
Lemma tower_simple : fixed_tuples tower /\ no_empty tower /\ index_alone tower.
Proof.
  apply listed_simple. unfold tower_kinds. do 3 (apply Forall_cons; split; [done|]).
  apply Forall_forall. intros k Hk%elem_of_list_In%in_flat_map.
  destruct Hk as (i & _ & [<-|[<-|[]]]); done.
Qed.
Lemma tower_plain : plain tower.
Proof.
  apply listed_plain. unfold tower_kinds. do 3 (apply Forall_cons; split; [done|]).
  apply Forall_forall. intros k Hk%elem_of_list_In%in_flat_map.
  destruct Hk as (i & _ & [<-|[<-|[]]]); done.
Qed.
Lemma tower_unlimited : unlimited tower.
Proof. split; [done|]. cbn. lia. Qed.

(** Not a rule: string | undefined where [{}] is wanted. *)
Lemma odd_not_empty : ~ assignable_to odd false 10%N 8%N.
Proof.
  intros H%assignable_unfold.
  assert (~ rule odd (assignable_to odd) false 3%N 8%N) as Hu.
  { intros Hr. inversion Hr; subst; try discriminate; cbn in *; try done.
    match goal with Hb : basic _ _ |- _ => inversion Hb end. }
  inversion H; subst; try discriminate.
  - match goal with Hb : basic _ _ |- _ => vm_compute in Hb; inversion Hb end.
  - match goal with Hv : has_value _ |- _ => destruct Hv end.
  - apply Hu. match goal with He : st_kind odd _ = KUnion ?ms |- _ =>
      change (KUnion [1%N; 3%N] = KUnion ms) in He; injection He as <- end.
    match goal with Ha : forall x, _ |- _ => apply Ha end. set_solver.
Qed.
