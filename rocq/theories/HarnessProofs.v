(** Proofs about the harness. *)
From Coq Require Import NArith Lia ZifyBool.
From stdpp Require Import base decidable numbers list gmap sets.
From Verif Require Import RustStr HarnessModel HarnessSpec.

Local Open Scope N_scope.

(** * Shards *)
Lemma apply_from_lookup {A} (items : list A) i t idx r j : 0 < t -> i < t -> r < t -> (idx + r) mod t = i ->
  apply_from (Shard i t) idx items !! j = items !! N.to_nat (r + N.of_nat j * t).
Proof.
  intros Ht Hi. revert idx r j. induction items as [|x items IH]; intros idx r j Hr Hm; cbn [apply_from]; [rewrite !lookup_nil; reflexivity|].
  unfold includes. cbn [s_total s_index]. destruct (N.eq_dec r 0) as [->|Hr0].
  - rewrite N.add_0_r in Hm. rewrite Hm, N.eqb_refl.
    assert (Hn : (idx + 1 + (t - 1)) mod t = i).
    { replace (idx + 1 + (t - 1)) with (idx + 1 * t) by lia. rewrite N.mod_add by lia. exact Hm. }
    destruct j as [|j]; [reflexivity|]. change (apply_from (Shard i t) (idx + 1) items !! j = (x :: items) !! N.to_nat (0 + N.of_nat (S j) * t)).
    rewrite (IH (idx + 1) (t - 1) j ltac:(lia) Hn).
    replace (N.to_nat (0 + N.of_nat (S j) * t)) with (S (N.to_nat (t - 1 + N.of_nat j * t))) by nia. reflexivity.
  - assert (idx mod t <> i).
    { intros E. pose proof (N.div_mod idx t ltac:(lia)) as D1. pose proof (N.div_mod (idx + r) t ltac:(lia)) as D2. rewrite Hm in D2. rewrite E in D1.
      assert (r = t * ((idx + r) / t) - t * (idx / t)) as R by lia. rewrite <- N.mul_sub_distr_l in R.
      destruct ((idx + r) / t - idx / t) as [|p]; [lia|]. nia. }
    destruct (N.eqb_spec (idx mod t) i); [contradiction|].
    rewrite (IH (idx + 1) (r - 1) j) by (try lia; replace (idx + 1 + (r - 1)) with (idx + r) by lia; exact Hm).
    replace (N.to_nat (r + N.of_nat j * t)) with (S (N.to_nat (r - 1 + N.of_nat j * t))) by lia. reflexivity.
Qed.
Lemma apply_shard_lookup {A} (items : list A) i t j : i < t -> apply_shard (Shard i t) items !! j = items !! N.to_nat (i + N.of_nat j * t).
Proof. intros H. apply (apply_from_lookup items i t 0 i j); [lia|lia|lia|]. rewrite N.add_0_l. apply N.mod_small. exact H. Qed.
Lemma bind_one {A} (l : list N) (i0 : N) (x : A) (f : N -> list A) : NoDup l -> i0 ∈ l ->
  (l ≫= fun i => if i0 =? i then x :: f i else f i) ≡ₚ x :: (l ≫= f).
Proof.
  induction 1 as [|i l Hi ND IH]; [inversion 1|]. intros H. rewrite !bind_cons. destruct (N.eqb_spec i0 i) as [->|Hne].
  - cbn [app]. apply perm_skip. apply Permutation_app; [reflexivity|].
    assert (E : (l ≫= fun j => if i =? j then x :: f j else f j) = l ≫= f); [|rewrite E; reflexivity].
    clear -Hi. induction l as [|j l IH]; [reflexivity|]. apply not_elem_of_cons in Hi as [Hj Hi]. rewrite !bind_cons, (IH Hi). destruct (N.eqb_spec i j); [congruence|]. reflexivity.
  - apply elem_of_cons in H as [->|H]; [congruence|]. rewrite (IH H). symmetry. apply Permutation_middle.
Qed.
Lemma shards_perm {A} (items : list A) (ns : list N) t idx : 0 < t -> NoDup ns -> (forall k, k < t -> k ∈ ns) ->
  (ns ≫= fun i => apply_from (Shard i t) idx items) ≡ₚ items.
Proof.
  intros Ht ND HA. revert idx. induction items as [|x items IH]; intros idx.
  - cbn [apply_from]. clear. induction ns as [|n ns IH]; [reflexivity|exact IH].
  - cbn [apply_from]. unfold includes. cbn [s_total s_index].
    rewrite (bind_one ns (idx mod t) x (fun i => apply_from (Shard i t) (idx + 1) items) ND) by (apply HA, N.mod_lt; lia).
    apply perm_skip, IH.
Qed.

(** ** Reading a shard *)
Lemma digits_from_app s t acc : digits_from (s ++ t) acc = match digits_from s acc with Some v => digits_from t v | None => None end.
Proof.
  revert acc. induction s as [|c s IH]; intros acc; cbn [app digits_from]; [reflexivity|].
  destruct ((48 <=? c) && (c <=? 57)); [|reflexivity]. cbn zeta. destruct (_ <=? usize_max); [apply IH|reflexivity].
Qed.
Lemma decimal_digits s v : decimal s v -> s <> [] /\ forall c, c ∈ s -> 48 <= c <= 57.
Proof.
  induction 1 as [d Hd|s v d H [_ IH] Hd]; (split; [destruct s || idtac; discriminate|]).
  - intros c Hc. apply elem_of_list_singleton in Hc as ->. lia.
  - intros c Hc. apply elem_of_app in Hc as [Hc|Hc]; [apply IH, Hc|]. apply elem_of_list_singleton in Hc as ->. lia.
Qed.
Lemma decimal_inv s c v : decimal (s ++ [c]) v -> exists d, c = 48 + d /\ d < 10 /\ ((s = [] /\ v = d) \/ exists w, decimal s w /\ v = 10 * w + d).
Proof.
  intros H. remember (s ++ [c]) as z eqn:E. destruct H as [d Hd|s' w d H Hd].
  - destruct s as [|x s]; [|destruct s; discriminate]. injection E as <-. exists d. auto.
  - apply app_inj_tail in E as [-> <-]. exists d. eauto 6.
Qed.
Lemma digits_from_decimal s v : digits_from s 0 = Some v /\ s <> [] <-> decimal s v /\ v <= usize_max.
Proof.
  revert v. induction s as [|c s IH] using rev_ind; intros v.
  { split; [intros [_ H]; congruence|]. intros [H _]. apply decimal_digits in H as [H _]. congruence. }
  rewrite digits_from_app. split.
  - intros [H _]. destruct (digits_from s 0) as [w|] eqn:Es; [|discriminate]. cbn [digits_from] in H.
    destruct ((48 <=? c) && (c <=? 57)) eqn:Ec; [|discriminate]. cbn zeta in H.
    destruct (N.leb_spec (w * 10 + (c - 48)) usize_max) as [L|]; [|discriminate]. injection H as <-. split; [|exact L].
    assert (c = 48 + (c - 48)) as Hc by lia. destruct s as [|x s].
    + cbn in Es. injection Es as <-. rewrite Hc at 1. cbn [app]. rewrite N.mul_0_l, N.add_0_l. apply dec_one. lia.
    + rewrite Hc at 1. rewrite N.mul_comm. apply dec_more; [|lia]. apply IH. split; [reflexivity|discriminate].
  - intros [H L]. split; [|destruct s; discriminate]. apply decimal_inv in H as (d & -> & Hd & H).
    assert (digits_from s 0 = Some ((v - d) / 10) /\ v = (v - d) / 10 * 10 + d) as [-> Hv].
    { destruct H as [[-> ->]|(w & Hw & ->)].
      - rewrite N.sub_diag. split; [reflexivity|]. cbn. reflexivity.
      - replace (10 * w + d - d) with (w * 10) by lia. rewrite N.div_mul by lia. split; [|lia]. apply (IH w). split; [exact Hw|lia]. }
    cbn [digits_from]. assert ((48 <=? 48 + d) && (48 + d <=? 57) = true) as -> by lia. cbn zeta.
    replace (48 + d - 48) with d by lia. rewrite <- Hv. destruct (N.leb_spec v usize_max); [reflexivity|lia].
Qed.
Lemma parse_usize_iff s v : parse_usize s = Some v <-> reads_usize s v.
Proof.
  unfold reads_usize. change (2 ^ 64) with (usize_max + 1). unfold parse_usize. destruct s as [|c r].
  { split; [discriminate|]. intros [[H|(r & E & _)] _]; [apply decimal_digits in H as [H _]; congruence|discriminate]. }
  destruct (N.eqb_spec c 43) as [->|Hc].
  - assert (~ decimal (43 :: r) v) as ND. { intros H. apply decimal_digits in H as [_ H]. specialize (H 43 ltac:(left)). lia. }
    destruct r as [|c r].
    + split; [discriminate|]. intros [[H|(r & [= <-] & H)] _]; [contradiction|]. apply decimal_digits in H as [H _]. congruence.
    + split.
      * intros H. destruct (proj1 (digits_from_decimal (c :: r) v)) as [D L]; [split; [exact H|discriminate]|]. split; [right; eauto|lia].
      * intros [[H|(r' & [= <-] & H)] L]; [contradiction|]. apply (digits_from_decimal (c :: r) v). split; [exact H|lia].
  - split.
    * intros H. destruct (proj1 (digits_from_decimal (c :: r) v)) as [D L]; [split; [exact H|discriminate]|]. split; [auto|lia].
    * intros [[H|(r' & [= -> _] & _)] L]; [|congruence]. apply (digits_from_decimal (c :: r) v). split; [exact H|lia].
Qed.
Lemma split_once_iff sep s a b : split_once sep s = Some (a, b) <-> s = a ++ sep :: b /\ sep ∉ a.
Proof.
  revert a. induction s as [|c s IH]; intros a; cbn [split_once].
  { split; [discriminate|]. intros [H _]. destruct a; discriminate. }
  destruct (N.eqb_spec c sep) as [->|Hc].
  - split; [intros [= <- <-]; split; [reflexivity|apply not_elem_of_nil]|]. intros [H N]. destruct a as [|x a]; [injection H as ->; reflexivity|].
    injection H as -> _. exfalso. apply N. left.
  - destruct (split_once sep s) as [[a' b']|] eqn:E.
    + split.
      * intros [= <- <-]. destruct (proj1 (IH a')) as [-> N]; [reflexivity|]. split; [reflexivity|]. apply not_elem_of_cons. auto.
      * intros [H N]. destruct a as [|x a]; [injection H as -> _; congruence|]. injection H as -> H. apply not_elem_of_cons in N as [_ N].
        assert (Some (a', b') = Some (a, b)) as [= -> ->]; [|reflexivity]. apply IH. auto.
    + split; [discriminate|]. intros [H N]. destruct a as [|x a]; [injection H as -> _; congruence|]. injection H as -> H. apply not_elem_of_cons in N as [_ N].
      assert (None = Some (a, b)) as [=]. apply IH. auto.
Qed.
Lemma reads_no_slash s v : reads_usize s v -> 47 ∉ s.
Proof.
  intros [[H|(r & -> & H)] _]; apply decimal_digits in H as [_ H]; intros E; [specialize (H 47 E); lia|].
  apply elem_of_cons in E as [E|E]; [discriminate|]. specialize (H 47 E). lia.
Qed.
Lemma parse_shard_iff raw i t : parse_shard raw = Some (Shard i t) <-> exists a b, raw = a ++ 47 :: b /\ reads_usize a i /\ reads_usize b t /\ i < t.
Proof.
  unfold parse_shard. split.
  - destruct (split_once 47 raw) as [[a b]|] eqn:E; [|discriminate]. apply split_once_iff in E as [-> _].
    destruct (parse_usize a) as [x|] eqn:Ea; [|discriminate]. destruct (parse_usize b) as [y|] eqn:Eb; [|discriminate].
    destruct (N.eqb_spec y 0); [discriminate|]. destruct (N.leb_spec y x); [discriminate|]. intros [= -> ->].
    exists a, b. rewrite <- !parse_usize_iff. auto.
  - intros (a & b & -> & Ha & Hb & L). assert (split_once 47 (a ++ 47 :: b) = Some (a, b)) as ->. { apply split_once_iff. split; [reflexivity|]. eapply reads_no_slash, Ha. }
    apply parse_usize_iff in Ha, Hb. rewrite Ha, Hb. destruct (N.eqb_spec t 0); [lia|]. destruct (N.leb_spec t i); [lia|]. reflexivity.
Qed.

(** * Expectations *)
Section expectations.
Context (compile_glob compile_regex : rstr -> option (rstr -> bool)).
Notation raw_matcher := (raw_matcher compile_glob compile_regex).
Notation valid_entry := (valid_entry compile_glob compile_regex).
Notation push_all := (push_all compile_glob compile_regex).
Notation names_glob := (names_glob compile_glob).
Notation names_regex := (names_regex compile_regex).

Definition compiled (e : raw_entry) : option (matcher * expectation) :=
  match raw_matcher e, r_status e with Some m, Some k => Some (m, Expectation k (r_reason e) (r_issue e)) | _, _ => None end.
Definition pick (f : matcher -> bool) (l : list raw_entry) : list (matcher * expectation) :=
  filter (fun p : matcher * expectation => f p.1 = true) (omap compiled l).
Definition is_exact (m : matcher) : bool := match m with MExact _ => true | _ => false end.
Definition is_glob (m : matcher) : bool := match m with MGlob _ => true | _ => false end.
Definition is_regex (m : matcher) : bool := match m with MRegex _ => true | _ => false end.
Lemma pick_cons f e l : pick f (e :: l) = match compiled e with Some p => if f p.1 then p :: pick f l else pick f l | None => pick f l end.
Proof.
  unfold pick. cbn [omap list_omap]. destruct (compiled e) as [p|]; [|reflexivity]. rewrite filter_cons.
  destruct (f p.1) eqn:E; [rewrite decide_True by reflexivity; reflexivity|rewrite decide_False by discriminate; reflexivity].
Qed.
Lemma push_entry_compiled x e : push_entry compile_glob compile_regex x e =
  match compiled e with
  | Some p => Some (Expectations (x_exact x ++ (if is_exact p.1 then [p] else [])) (x_globs x ++ (if is_glob p.1 then [p] else [])) (x_regexes x ++ (if is_regex p.1 then [p] else [])))
  | None => None
  end.
Proof.
  unfold push_entry, compiled. destruct (raw_matcher e) as [m|]; [|reflexivity]. destruct (r_status e) as [k|]; [|reflexivity].
  destruct m; cbn; rewrite ?app_nil_r; reflexivity.
Qed.
Lemma push_all_spec l x : push_all x l =
  if decide (Forall (fun e => is_Some (compiled e)) l) then Some (Expectations (x_exact x ++ pick is_exact l) (x_globs x ++ pick is_glob l) (x_regexes x ++ pick is_regex l)) else None.
Proof.
  revert x. induction l as [|e l IH]; intros x; cbn [HarnessModel.push_all].
  - rewrite decide_True by constructor. unfold pick. cbn. rewrite !app_nil_r. destruct x; reflexivity.
  - rewrite push_entry_compiled. destruct (compiled e) as [p|] eqn:E.
    + rewrite IH. cbn [x_exact x_globs x_regexes]. rewrite !pick_cons, E.
      destruct (decide (Forall (fun e => is_Some (compiled e)) l)) as [H|H].
      * rewrite decide_True by (constructor; [rewrite E; eauto|exact H]). rewrite <- !app_assoc.
        destruct (is_exact p.1), (is_glob p.1), (is_regex p.1); reflexivity.
      * rewrite decide_False; [reflexivity|]. intros H'. apply H. apply Forall_cons_1 in H' as [_ H']. exact H'.
    + rewrite decide_False; [reflexivity|]. intros H. apply Forall_cons_1 in H as [[p H] _]. congruence.
Qed.
Lemma compiled_valid e : is_Some (compiled e) <-> valid_entry e.
Proof.
  unfold compiled, HarnessModel.raw_matcher, HarnessSpec.valid_entry, count_some, kinds.
  destruct (r_id e) as [i|], (r_glob e) as [g|], (r_regex e) as [r|]; cbn -[is_Some].
  all: try (split; [intros [? ?]; discriminate|intros [? _]; discriminate]).
  - destruct (r_status e) as [k|]; split.
    + intros _. split; [reflexivity|]. split; [eauto|]. split; intros ? [=].
    + eauto.
    + intros [? ?]; discriminate.
    + intros (_ & [? ?] & _). discriminate.
  - destruct (compile_glob g) as [f|] eqn:Eg, (r_status e) as [k|]; split.
    + intros _. split; [reflexivity|]. split; [eauto|]. split; [intros ? [= <-]; rewrite Eg; eauto|intros ? [=]].
    + eauto.
    + intros [? ?]; discriminate.
    + intros (_ & [? ?] & _). discriminate.
    + intros [? ?]; discriminate.
    + intros (_ & _ & H & _). destruct (H g eq_refl). congruence.
    + intros [? ?]; discriminate.
    + intros (_ & [? ?] & _). discriminate.
  - destruct (compile_regex r) as [f|] eqn:Eg, (r_status e) as [k|]; split.
    + intros _. split; [reflexivity|]. split; [eauto|]. split; [intros ? [=]|intros ? [= <-]; rewrite Eg; eauto].
    + eauto.
    + intros [? ?]; discriminate.
    + intros (_ & [? ?] & _). discriminate.
    + intros [? ?]; discriminate.
    + intros (_ & _ & _ & H). destruct (H r eq_refl). congruence.
    + intros [? ?]; discriminate.
    + intros (_ & [? ?] & _). discriminate.
Qed.
(** What a compiled entry matches. *)
Lemma compiled_names e m x id : compiled e = Some (m, x) ->
  (is_exact m = true /\ matcher_matches m id = true <-> names_id e id) /\
  (is_glob m = true /\ matcher_matches m id = true <-> names_glob e id) /\
  (is_regex m = true /\ matcher_matches m id = true <-> names_regex e id) /\ from_entry e (Applied x true).
Proof.
  unfold compiled, HarnessModel.raw_matcher, count_some, names_id, HarnessSpec.names_glob, HarnessSpec.names_regex, from_entry.
  destruct (r_id e) as [i|] eqn:Ei, (r_glob e) as [g|] eqn:Eg, (r_regex e) as [r|] eqn:Er; cbn; try discriminate.
  - destruct (r_status e) as [k|] eqn:Ek; [|discriminate]. intros [= <- <-]. split; [|split; [|split]].
    + cbn. rewrite bool_decide_eq_true. split; [intros [_ ->]; auto|]. intros [[= ->] _]. auto.
    + split; [intros [? _]; discriminate|intros [? _]; discriminate].
    + split; [intros [? _]; discriminate|intros [? _]; discriminate].
    + eauto.
  - destruct (compile_glob g) as [f|] eqn:Ef; [|discriminate]. destruct (r_status e) as [k|] eqn:Ek; [|discriminate]. intros [= <- <-]. split; [|split; [|split]].
    + split; [intros [? _]; discriminate|intros [? _]; discriminate].
    + cbn. split; [intros [_ H]; split; [reflexivity|split; [reflexivity|eauto]]|]. intros (_ & _ & g' & f' & [= <-] & E & H). split; congruence.
    + split; [intros [? _]; discriminate|intros (_ & ? & _); discriminate].
    + eauto.
  - destruct (compile_regex r) as [f|] eqn:Ef; [|discriminate]. destruct (r_status e) as [k|] eqn:Ek; [|discriminate]. intros [= <- <-]. split; [|split; [|split]].
    + split; [intros [? _]; discriminate|intros [? _]; discriminate].
    + split; [intros [? _]; discriminate|intros (_ & ? & _); discriminate].
    + cbn. split; [intros [_ H]; split; [reflexivity|split; [reflexivity|eauto]]|]. intros (_ & _ & g' & f' & [= <-] & E & H). split; congruence.
    + eauto.
Qed.
Lemma lookup_pick (f : matcher -> bool) (P : raw_entry -> Prop) l id :
  Forall (fun e => is_Some (compiled e)) l ->
  (forall e m x, compiled e = Some (m, x) -> (f m = true /\ matcher_matches m id = true <-> P e) /\ from_entry e (Applied x true)) ->
  (exists a e, lookup_in (pick f l) id = Some a /\ first_such P l e /\ from_entry e a) \/ (lookup_in (pick f l) id = None /\ forall e, e ∈ l -> ~ P e).
Proof.
  intros HV HP. induction HV as [|e l [[m x] He] HV IH].
  { right. split; [reflexivity|]. intros e H. inversion H. }
  rewrite pick_cons, He. cbn [fst]. destruct (HP e m x He) as [HPe HF].
  assert (D : (f m = true /\ matcher_matches m id = true) \/ ~ (f m = true /\ matcher_matches m id = true)).
  { destruct (f m), (matcher_matches m id); intuition discriminate. }
  destruct D as [[D1 D2]|D].
  - left. rewrite D1. cbn [lookup_in]. rewrite D2. exists (Applied x true), e. split; [reflexivity|]. split; [constructor; apply HPe; auto|exact HF].
  - assert (~ P e) as NP by (rewrite <- HPe; exact D).
    assert (lookup_in (if f m then (m, x) :: pick f l else pick f l) id = lookup_in (pick f l) id) as ->.
    { destruct (f m); [|reflexivity]. cbn [lookup_in]. destruct (matcher_matches m id); [|reflexivity]. exfalso. apply D. auto. }
    destruct IH as [(a & e' & E & F & FE)|[E N]].
    + left. exists a, e'. split; [exact E|]. split; [constructor 2; assumption|exact FE].
    + right. split; [exact E|]. intros e' H. apply elem_of_cons in H as [->|H]; [exact NP|apply N, H].
Qed.
Lemma lookup_spec l x id : from_manifest compile_glob compile_regex l = Some x -> expectation_of compile_glob compile_regex l id (lookup_expectation x id).
Proof.
  unfold from_manifest. rewrite push_all_spec. case_decide as HV; [|discriminate]. intros [= <-]. unfold lookup_expectation. cbn [x_exact x_globs x_regexes app].
  destruct (lookup_pick is_exact (fun e => names_id e id) l id HV) as [(a & e & -> & F & FE)|[-> N1]].
  { intros e m y He. destruct (compiled_names e m y id He) as (? & ? & ? & ?). auto. }
  { eapply of_id; eassumption. }
  destruct (lookup_pick is_glob (fun e => names_glob e id) l id HV) as [(a & e & -> & F & FE)|[-> N2]].
  { intros e m y He. destruct (compiled_names e m y id He) as (? & ? & ? & ?). auto. }
  { eapply of_glob; eassumption. }
  destruct (lookup_pick is_regex (fun e => names_regex e id) l id HV) as [(a & e & -> & F & FE)|[-> N3]].
  { intros e m y He. destruct (compiled_names e m y id He) as (? & ? & ? & ?). auto. }
  { eapply of_regex; eassumption. }
  apply of_none; assumption.
Qed.
Lemma accepted l : is_Some (from_manifest compile_glob compile_regex l) <-> Forall valid_entry l.
Proof.
  unfold from_manifest. rewrite push_all_spec. case_decide as HV.
  - split; [intros _|eauto]. eapply Forall_impl; [exact HV|]. intros e. apply compiled_valid.
  - split; [intros [? ?]; discriminate|]. intros H. exfalso. apply HV. eapply Forall_impl; [exact H|]. intros e. apply compiled_valid.
Qed.
Lemma lookup_interleave l k x y id : from_manifest compile_glob compile_regex l = Some x -> from_manifest compile_glob compile_regex k = Some y ->
  filter (fun e => is_Some (r_id e)) l = filter (fun e => is_Some (r_id e)) k ->
  filter (fun e => is_Some (r_glob e)) l = filter (fun e => is_Some (r_glob e)) k ->
  filter (fun e => is_Some (r_regex e)) l = filter (fun e => is_Some (r_regex e)) k ->
  lookup_expectation x id = lookup_expectation y id.
Proof.
  unfold from_manifest. rewrite !push_all_spec. case_decide as HV; [|discriminate]. intros [= <-]. case_decide as HV'; [|discriminate]. intros [= <-].
  intros E1 E2 E3. cbn [x_exact x_globs x_regexes app].
  assert (G : forall (f : matcher -> bool) (g : raw_entry -> option rstr),
    (forall e m z, compiled e = Some (m, z) -> (f m = true <-> is_Some (g e))) -> forall l, pick f l = pick f (filter (fun e => is_Some (g e)) l)).
  { intros f g Hfg l0. induction l0 as [|e l0 IH]; [reflexivity|]. rewrite filter_cons. destruct (decide (is_Some (g e))) as [H|H].
    - rewrite !pick_cons, IH. reflexivity.
    - rewrite pick_cons, IH. destruct (compiled e) as [[m z]|] eqn:Ec; [|reflexivity]. cbn [fst]. destruct (f m) eqn:Ef; [|reflexivity].
      exfalso. apply H, (Hfg e m z Ec). exact Ef. }
  assert (C : forall e m z, compiled e = Some (m, z) -> (is_exact m = true <-> is_Some (r_id e)) /\ (is_glob m = true <-> is_Some (r_glob e)) /\ (is_regex m = true <-> is_Some (r_regex e))).
  { intros e m z. unfold compiled, HarnessModel.raw_matcher, count_some.
    destruct (r_id e), (r_glob e), (r_regex e); cbn -[is_Some]; try discriminate.
    all: try (destruct (compile_glob _); [|discriminate]); try (destruct (compile_regex _); [|discriminate]); (destruct (r_status e); [|discriminate]); intros [= <- <-]; cbn -[is_Some].
    all: repeat split; intros HH; try discriminate; try (destruct HH; discriminate); eauto. }
  rewrite (G is_exact r_id (fun e m z H => proj1 (C e m z H)) l), (G is_exact r_id (fun e m z H => proj1 (C e m z H)) k), E1.
  rewrite (G is_glob r_glob (fun e m z H => proj1 (proj2 (C e m z H))) l), (G is_glob r_glob (fun e m z H => proj1 (proj2 (C e m z H))) k), E2.
  rewrite (G is_regex r_regex (fun e m z H => proj2 (proj2 (C e m z H))) l), (G is_regex r_regex (fun e m z H => proj2 (proj2 (C e m z H))) k), E3.
  reflexivity.
Qed.
End expectations.

(** * Timeouts *)
Lemma min_deadline_spec now l acc : let r := foldl (min_deadline now) acc l in
  (forall a, acc = Some a -> exists t, r = Some t /\ t <= a) /\
  (forall e, e ∈ l -> en_cancelled e = false -> now < en_deadline e -> exists t, r = Some t /\ t <= en_deadline e).
Proof.
  revert acc. induction l as [|e l IH]; intros acc; cbn [foldl].
  - split; [intros a ->; eexists; split; [reflexivity|lia]|]. intros e H. inversion H.
  - destruct (IH (min_deadline now acc e)) as [I1 I2]. split.
    + intros a ->. unfold min_deadline in *. destruct (en_cancelled e); [apply I1; reflexivity|]. destruct (N.leb_spec (en_deadline e) now); [apply I1; reflexivity|].
      destruct (I1 _ eq_refl) as (t & E & L). exists t. split; [exact E|]. lia.
    + intros e' H Hc Hd. apply elem_of_cons in H as [->|H]; [|apply I2; assumption].
      unfold min_deadline in *. rewrite Hc in *. destruct (N.leb_spec (en_deadline e) now); [lia|].
      destruct (I1 _ eq_refl) as (t & E & L). exists t. split; [exact E|]. destruct acc; lia.
Qed.
Definition overdue_ids (now : N) (m : gmap N entry) : list N := map_to_list m ≫= (fun '(id, e) => if overdue now e then [id] else []).
Lemma overdue_ids_iff now m id : id ∈ overdue_ids now m <-> exists e, m !! id = Some e /\ overdue now e = true.
Proof.
  unfold overdue_ids. rewrite elem_of_list_bind. split.
  - intros ([i e] & H & Hm). apply elem_of_map_to_list in Hm. destruct (overdue now e) eqn:E; [|inversion H]. apply elem_of_list_singleton in H as ->. eauto.
  - intros (e & Hm & E). exists (id, e). rewrite E. split; [left|]. apply elem_of_map_to_list, Hm.
Qed.
Lemma overdue_ids_nodup now m : NoDup (overdue_ids now m).
Proof.
  unfold overdue_ids. pose proof (NoDup_fst_map_to_list m) as H. revert H. generalize (map_to_list m). intros l. induction l as [|[i e] l IH]; intros H.
  { constructor. }
  cbn [fmap list_fmap fst] in H. apply NoDup_cons in H as [Hi H]. rewrite bind_cons. apply NoDup_app. split; [destruct (overdue now e); [apply NoDup_singleton|constructor]|].
  split; [|apply IH, H]. intros x Hx Hin. destruct (overdue now e); [|inversion Hx]. apply elem_of_list_singleton in Hx as ->. apply Hi.
  apply elem_of_list_bind in Hin as ([j e'] & Hin & Hl). destruct (overdue now e'); [|inversion Hin]. apply elem_of_list_singleton in Hin as ->.
  apply elem_of_list_fmap. exists (j, e'). auto.
Qed.
Lemma cancellations_cons e h id : cancellations (e :: h) id =
  match e with ERun now ids => ids ≫= (fun i => if decide (i = id) then [now] else []) | _ => [] end ++ cancellations h id.
Proof. unfold cancellations. rewrite bind_cons. reflexivity. Qed.
Lemma run_cancels (now : N) ids (id : N) : NoDup ids -> (ids ≫= fun i => if decide (i = id) then [now] else []) = if decide (id ∈ ids) then [now] else [].
Proof.
  induction 1 as [|i ids Hi ND IH]; [rewrite decide_False by (intros H; inversion H); reflexivity|]. rewrite bind_cons, IH.
  destruct (decide (i = id)) as [->|Hne].
  - rewrite decide_False by exact Hi. rewrite decide_True by left. reflexivity.
  - cbn [app]. destruct (decide (id ∈ ids)); [rewrite decide_True by (right; assumption); reflexivity|].
    rewrite decide_False; [reflexivity|]. intros H. apply elem_of_cons in H as [->|H]; [congruence|contradiction].
Qed.
(** The thread will not sleep past a pending deadline. *)
Definition attentive (t : thread) (d : N) : Prop :=
  match t with TStarting => True | TWaiting u true => True | TWaiting (Some u) false => u <= d | _ => False end.
Lemma attentive_notify t d : attentive t d -> attentive (notify t) d.
Proof. destruct t as [|[u|] []|]; cbn; auto. Qed.
Record minv (h : list event) (m : manager) : Prop := {
  mi_take : forall id, ETake id ∈ h -> id < m_next m;
  mi_insert : forall id d, EInsert id d ∈ h -> ETake id ∈ h;
  mi_once : forall id d d', EInsert id d ∈ h -> EInsert id d' ∈ h -> d = d';
  mi_active : forall id e, m_active m !! id = Some e ->
    EInsert id (en_deadline e) ∈ h /\ EDrop id ∉ h /\ (en_cancelled e = false -> cancellations h id = []) /\
    (en_cancelled e = true -> exists t, cancellations h id = [t]);
  mi_alive : forall id d, EInsert id d ∈ h -> EDrop id ∉ h -> is_Some (m_active m !! id);
  mi_none : forall id, (forall d, EInsert id d ∉ h) -> cancellations h id = [] /\ EDrop id ∉ h;
  mi_shut : m_shutdown m = true <-> EShutdown ∈ h;
  mi_thread : EShutdown ∉ h -> m_thread m <> TDone /\ (forall id e, m_active m !! id = Some e -> en_cancelled e = false -> attentive (m_thread m) (en_deadline e))
}.
Ltac ev := repeat match goal with
  | H : _ ∈ _ :: _ |- _ => apply elem_of_cons in H as [?|H]; [try discriminate|]
  | H : _ ∉ _ :: _ |- _ => apply not_elem_of_cons in H as [? H]
  end.
Lemma not_cons {A} (x y : A) l : x <> y -> x ∉ l -> x ∉ y :: l.
Proof. intros. apply not_elem_of_cons. auto. Qed.
Lemma minv_history h m : history h m -> minv h m.
Proof.
  induction 1 as [|h m e m' H [I1 I2 I3 I4 I5 I6 I7 I8] Hs].
  { split; cbn; try (intros; match goal with H : _ ∈ [] |- _ => inversion H end).
    - intros id e E. rewrite lookup_empty in E. discriminate.
    - intros id _. split; [reflexivity|apply not_elem_of_nil].
    - split; [discriminate|]. intros H. inversion H.
    - intros _. split; [discriminate|]. intros id e E. rewrite lookup_empty in E. discriminate. }
  destruct Hs as [h m m' id Ht|h m id d Hin Hnew|h m id Hal|h m|h m m' now ids Hr].
  - injection Ht as <- <-. split; cbn [m_next m_active m_shutdown m_thread].
    + intros i Hi. ev; [injection H0 as ->; lia|]. specialize (I1 _ Hi). lia.
    + intros i d Hi. ev. right. eapply I2, Hi.
    + intros i d d' Hi Hi'. ev. eapply I3; eassumption.
    + intros i e Ei. rewrite cancellations_cons. destruct (I4 i e Ei) as (A & B & C). split; [right; exact A|]. split; [apply not_cons; [discriminate|exact B]|exact C].
    + intros i d Hi Hd. ev. eapply I5; eassumption.
    + intros i Hi. rewrite cancellations_cons. destruct (I6 i) as [A B]; [intros d; specialize (Hi d); ev; assumption|]. split; [exact A|apply not_cons; [discriminate|exact B]].
    + rewrite I7, elem_of_cons. split; [auto|]. intros [?|?]; [discriminate|assumption].
    + intros Hn. ev. apply I8. assumption.
  - split; cbn [m_next m_active m_shutdown m_thread insert_entry].
    + intros i Hi. ev. apply I1, Hi.
    + intros i d' Hi. right. ev; [injection H0 as -> ->; exact Hin|]. eapply I2, Hi.
    + intros i d1 d2 H1 H2. ev; simplify_eq;
        first [reflexivity|exfalso; eapply Hnew; eassumption|eapply I3; eassumption].
    + intros i e Ei. rewrite cancellations_cons. cbn [app]. destruct (decide (i = id)) as [->|Hne].
      * rewrite lookup_insert in Ei. injection Ei as <-. cbn. destruct (I6 id Hnew) as [A B]. split; [left|]. split; [apply not_cons; [discriminate|exact B]|]. split; [auto|discriminate].
      * rewrite lookup_insert_ne in Ei by congruence. destruct (I4 i e Ei) as (A & B & C). split; [right; exact A|]. split; [apply not_cons; [discriminate|exact B]|exact C].
    + intros i d' Hi Hd. destruct (decide (i = id)) as [->|Hne]; [rewrite lookup_insert; eauto|]. rewrite lookup_insert_ne by congruence. ev; [congruence|].
      eapply I5; eassumption.
    + intros i Hi. rewrite cancellations_cons. cbn [app]. destruct (I6 i) as [A B]; [intros d'; specialize (Hi d'); ev; assumption|]. split; [exact A|apply not_cons; [discriminate|exact B]].
    + rewrite I7, elem_of_cons. split; [auto|]. intros [?|?]; [discriminate|assumption].
    + intros Hn. ev. destruct (I8 Hn) as [A B]. split; [destruct (m_thread m); cbn; congruence|]. intros i e Ei Hc. destruct (decide (i = id)) as [->|Hne].
      * destruct (m_thread m) as [|[u|] b|]; cbn; congruence || exact I.
      * rewrite lookup_insert_ne in Ei by congruence. apply attentive_notify, (B i e Ei Hc).
  - split; cbn [m_next m_active m_shutdown m_thread drop_guard].
    + intros i Hi. ev. apply I1, Hi.
    + intros i d' Hi. right. ev. eapply I2, Hi.
    + intros i d1 d2 H1 H2. ev. eapply I3; eassumption.
    + intros i e Ei. rewrite cancellations_cons. cbn [app]. destruct (decide (i = id)) as [->|Hne]; [rewrite lookup_delete in Ei; discriminate|].
      rewrite lookup_delete_ne in Ei by congruence. destruct (I4 i e Ei) as (A & B & C). split; [right; exact A|]. split; [apply not_cons; [congruence|exact B]|exact C].
    + intros i d' Hi Hd. ev. rewrite lookup_delete_ne by congruence. eapply I5; eassumption.
    + intros i Hi. rewrite cancellations_cons. cbn [app]. destruct (I6 i) as [A B]; [intros d'; specialize (Hi d'); ev; assumption|]. split; [exact A|apply not_cons; [|exact B]].
      intros [= ->]. destruct Hal as [[d Hd] _]. apply (Hi d). right. exact Hd.
    + rewrite I7, elem_of_cons. split; [auto|]. intros [?|?]; [discriminate|assumption].
    + intros Hn. ev. destruct (I8 Hn) as [A B]. split; [destruct (m_thread m); cbn; congruence|]. intros i e Ei Hc.
      destruct (decide (i = id)) as [->|Hne]; [rewrite lookup_delete in Ei; discriminate|]. rewrite lookup_delete_ne in Ei by congruence. apply attentive_notify, (B i e Ei Hc).
  - split; cbn [m_next m_active m_shutdown m_thread shut_down].
    + intros i Hi. ev. apply I1, Hi.
    + intros i d' Hi. right. ev. eapply I2, Hi.
    + intros i d1 d2 H1 H2. ev. eapply I3; eassumption.
    + intros i e Ei. rewrite cancellations_cons. cbn [app]. destruct (I4 i e Ei) as (A & B & C). split; [right; exact A|]. split; [apply not_cons; [discriminate|exact B]|exact C].
    + intros i d' Hi Hd. ev. eapply I5; eassumption.
    + intros i Hi. rewrite cancellations_cons. cbn [app]. destruct (I6 i) as [A B]; [intros d'; specialize (Hi d'); ev; assumption|]. split; [exact A|apply not_cons; [discriminate|exact B]].
    + split; [intros _; left|auto].
    + intros Hn. ev. congruence.
  - unfold run_thread in Hr.
    assert (Idle : ids = [] -> m_active m' = m_active m -> m_next m' = m_next m -> m_shutdown m' = m_shutdown m ->
      (EShutdown ∉ h -> m_thread m' = m_thread m) -> minv (ERun now ids :: h) m').
    { intros -> Ea En Es Et. split.
      - intros i Hi. ev. rewrite En. apply I1, Hi.
      - intros i d' Hi. right. ev. eapply I2, Hi.
      - intros i d1 d2 H1 H2. ev. eapply I3; eassumption.
      - rewrite Ea. intros i e Ei. rewrite cancellations_cons. cbn [app]. destruct (I4 i e Ei) as (A & B & C). split; [right; exact A|]. split; [apply not_cons; [discriminate|exact B]|exact C].
      - rewrite Ea. intros i d' Hi Hd. ev. eapply I5; eassumption.
      - intros i Hi. rewrite cancellations_cons. cbn [app]. destruct (I6 i) as [A B]; [intros d'; specialize (Hi d'); ev; assumption|]. split; [exact A|apply not_cons; [discriminate|exact B]].
      - rewrite Es, I7, elem_of_cons. split; [auto|]. intros [?|?]; [discriminate|assumption].
      - intros Hn. ev. rewrite Ea, (Et Hn). apply I8, Hn. }
    destruct (m_thread m) as [|u b|] eqn:Et; [| |injection Hr as <- <-; apply Idle; auto].
    all: destruct (m_shutdown m) eqn:Es; [injection Hr as <- <-; apply Idle; auto; intros Hn; exfalso; apply Hn, I7; reflexivity|].
    all: cbn zeta in Hr; fold (overdue_ids now (m_active m)) in Hr; injection Hr as <- <-.
    all: split; cbn [m_next m_active m_shutdown m_thread];
     [ intros i Hi; ev; apply I1, Hi
     | intros i d' Hi; right; ev; eapply I2, Hi
     | intros i d1 d2 H1 H2; ev; eapply I3; eassumption
     | intros i e Ei; rewrite lookup_fmap in Ei; destruct (m_active m !! i) as [e0|] eqn:E0; [|discriminate]; cbn in Ei; injection Ei as <-;
       destruct (I4 i e0 E0) as (A & B & C & D);
       assert (en_deadline (visit now e0) = en_deadline e0) as Ed by (unfold visit; repeat case_match; reflexivity);
       rewrite Ed; split; [right; exact A|]; split; [apply not_cons; [discriminate|exact B]|];
       rewrite cancellations_cons, run_cancels by apply overdue_ids_nodup;
       split; intros Hc;
       [ rewrite decide_False; [cbn [app]; apply C; unfold visit in Hc; destruct (en_cancelled e0) eqn:Ec0; [congruence|reflexivity]|];
         intros Hin; apply overdue_ids_iff in Hin as (e1 & E1 & Ho); rewrite E0 in E1; injection E1 as <-;
         unfold overdue, visit in *; destruct (en_cancelled e0) eqn:Ec0; [discriminate|]; cbn in Ho; rewrite Ho in Hc; discriminate
       | destruct (en_cancelled e0) eqn:Ec;
         [ rewrite decide_False; [cbn [app]; apply D; reflexivity|]; intros Hin; apply overdue_ids_iff in Hin as (e1 & E1 & Ho); rewrite E0 in E1; injection E1 as <-;
           unfold overdue in Ho; rewrite Ec in Ho; discriminate
         | rewrite decide_True; [rewrite (C eq_refl); eauto|]; apply overdue_ids_iff; exists e0; split; [exact E0|]; unfold overdue, visit in *; rewrite Ec in *;
           destruct (en_deadline e0 <=? now); [reflexivity|congruence] ] ]
     | intros i d' Hi Hd; ev; rewrite lookup_fmap; destruct (I5 i d' Hi Hd) as [e0 ->]; cbn; eauto
     | intros i Hi; destruct (I6 i) as [A B]; [intros d'; specialize (Hi d'); ev; assumption|]; rewrite cancellations_cons, run_cancels by apply overdue_ids_nodup;
       split; [|apply not_cons; [discriminate|exact B]]; rewrite decide_False; [exact A|]; intros Hin; apply overdue_ids_iff in Hin as (e1 & E1 & _);
       destruct (I4 i e1 E1) as [Hd' _]; apply (Hi (en_deadline e1)); right; exact Hd'
     | rewrite elem_of_cons; rewrite <- I7; split; [discriminate|intros [?|?]; discriminate]
     | intros _; split; [discriminate|]; intros i e Ei Hc; rewrite lookup_fmap in Ei; destruct (m_active m !! i) as [e0|] eqn:E0; [|discriminate]; cbn in Ei; injection Ei as <-;
       assert (en_cancelled e0 = false /\ now < en_deadline e0 /\ visit now e0 = e0) as (Hc0 & Hlt & ->)
         by (unfold visit in *; destruct (en_cancelled e0) eqn:Ec; [congruence|]; destruct (N.leb_spec (en_deadline e0) now); [discriminate|auto]);
       destruct (proj2 (min_deadline_spec now (map_to_list (m_active m)).*2 None) e0) as (t & Et' & Lt); [|exact Hc0|exact Hlt|];
       [apply elem_of_list_fmap; exists (i, e0); split; [reflexivity|apply elem_of_map_to_list, E0]|]; rewrite Et'; exact Lt ].
Qed.
Lemma history_suffix h1 h2 m : history (h1 ++ h2) m -> exists m', history h2 m'.
Proof. revert m. induction h1 as [|e h1 IH]; intros m H; [eauto|]. inversion H; subst. eapply IH; eassumption. Qed.
Lemma run_spec h m now ids : history (ERun now ids :: h) m ->
  NoDup ids /\ (forall id, id ∈ ids -> exists d, EInsert id d ∈ h /\ d <= now /\ EDrop id ∉ h /\ cancellations h id = []) /\
  (EShutdown ∉ h -> forall id d, EInsert id d ∈ h -> EDrop id ∉ h -> d <= now -> id ∈ ids \/ cancellations h id <> []).
Proof.
  intros H. inversion H as [|? m0 ? ? H0 Hs]; subst. inversion Hs; subst. match goal with X : run_thread _ _ = _ |- _ => rename X into Hr end. destruct (minv_history _ _ H0) as [I1 I2 I3 I4 I5 I6 I7 I8].
  assert (G : forall id e, m_active m0 !! id = Some e -> overdue now e = true -> exists d, EInsert id d ∈ h /\ d <= now /\ EDrop id ∉ h /\ cancellations h id = []).
  { intros id e E O. destruct (I4 id e E) as (A & B & C & _). exists (en_deadline e). unfold overdue in O. destruct (en_cancelled e); [discriminate|]. cbn in O.
    split; [exact A|]. split; [lia|]. split; [exact B|apply C; reflexivity]. }
  assert (W : forall id d, EInsert id d ∈ h -> EDrop id ∉ h -> d <= now -> id ∈ overdue_ids now (m_active m0) \/ cancellations h id <> []).
  { intros id d Hi Hd L. destruct (I5 id d Hi Hd) as [e E]. destruct (I4 id e E) as (A & _ & _ & D). pose proof (I3 _ _ _ Hi A) as ->.
    destruct (en_cancelled e) eqn:Ec; [right; destruct (D eq_refl) as [t ->]; discriminate|left]. apply overdue_ids_iff. exists e. split; [exact E|]. unfold overdue. rewrite Ec. cbn. lia. }
  assert (E0 : forall id : N, id ∈ [] -> exists d, EInsert id d ∈ h /\ d <= now /\ EDrop id ∉ h /\ cancellations h id = []) by (intros id Hin; inversion Hin).
  unfold run_thread in Hr. destruct (m_thread m0) eqn:Et.
  3:{ injection Hr as <- <-. split; [constructor|]. split; [exact E0|]. intros Hn. destruct (I8 Hn) as [X _]. congruence. }
  all: destruct (m_shutdown m0) eqn:Es; [injection Hr as <- <-; split; [constructor|]; split; [exact E0|]; intros Hn; exfalso; apply Hn, I7; reflexivity|].
  all: cbn zeta in Hr; fold (overdue_ids now (m_active m0)) in Hr; injection Hr as <- <-; split; [apply overdue_ids_nodup|]; split; [|intros _; exact W];
    intros id Hin; apply overdue_ids_iff in Hin as (e & E & O); eapply G; eassumption.
Qed.
