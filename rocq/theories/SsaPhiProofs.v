(** The phis of SSA form have one entry for each label. *)
From stdpp Require Import base decidable sets numbers gmap list.
From Coq Require Import NArith ZArith Lia.
From Verif Require Import VmBase RustStr RustStrProofs ILModel CfgSpec CfgProofs ILSpec PassModel PassProofs BranchProofs DomModel DomSpec DomProofs CfgPruneModel SsaModel SsaFormProofs SsaSimProofs SsaBuildProofs SsaUseProofs DvnSpec.

Local Open Scope N_scope.

Definition once (i : inst) : Prop := is_phi i = true -> NoDup (i_labels i) /\ length (i_labels i) = length (i_args i).
Definition all_once (b : gmap N block) : Prop := forall x i, i ∈ block_of b x -> once i.

Lemma rename_block_once is : forall K n is' K' n', rename_block K n is = (is', K', n') -> (forall i, i ∈ is -> once i) -> forall i, i ∈ is' -> once i.
Proof.
  induction is as [|i is IH]; intros K n is' K' n' H Ho j Hj; cbn [rename_block] in H; [injection H as <- <- <-; by apply elem_of_nil in Hj|].
  destruct (rename_inst K n i) as [[i1 K1] n1] eqn:E. destruct (rename_block K1 n1 is) as [[is2 K2] n2] eqn:E2. injection H as <- <- <-. apply elem_of_cons in Hj as [->|Hj].
  - destruct (rename_inst_phi _ _ _ _ _ _ E) as (A & _ & C). intros Hp. rewrite C. rewrite Hp in A. symmetry in A. unfold rename_inst in E. rewrite A in E. destruct (rename_tgts _ _ _) as [[ts3 K3] n3]. injection E as <- <- <-. exact (Ho i ltac:(constructor) A).
  - eapply IH; [exact E2| |exact Hj]. intros y Hy. apply Ho. by constructor.
Qed.
Lemma fill_phis_once l K is : forall os is', fill_phis l K os is = Some is' -> (forall i, i ∈ is -> once i) -> forall i, i ∈ is' -> once i.
Proof.
  induction is as [|i is IH]; intros os is' H Ho; destruct os as [|v os]; cbn in H; try (by injection H as <-); (destruct (is_phi i) eqn:Ep; [|by injection H as <-]); [done|].
  destruct (insert_phi i l _) as [i1|] eqn:E1; [|done]. destruct (fill_phis l K os is) as [is1|] eqn:E2; [|done]. injection H as <-. intros j [->|Hj]%elem_of_cons.
  - unfold insert_phi in E1. destruct (_ && _) eqn:Ec; [|done]. injection E1 as <-. intros _. apply andb_prop in Ec as [_ Hl%bool_decide_eq_true]. cbn [i_labels i_args set_labels set_args]. destruct (Ho i ltac:(constructor) Ep) as [O1 O2]. split; [|rewrite !app_length, O2; done].
    apply NoDup_app. split; [done|]. split; [|apply NoDup_singleton]. intros x Hx ->%elem_of_list_singleton. done.
  - eapply IH; [exact E2| |exact Hj]. intros y Hy. apply Ho. by constructor.
Qed.
Lemma all_once_insert b l is : all_once b -> (forall i, i ∈ is -> once i) -> all_once (<[l := is]> b).
Proof. intros Hb H x i. unfold block_of. destruct (decide (x = l)) as [->|Hx]; [rewrite lookup_insert; apply H|]. rewrite lookup_insert_ne by done. apply (Hb x). Qed.
Lemma all_once_at b l is : all_once b -> b !! l = Some is -> forall i, i ∈ is -> once i.
Proof. intros H E i Hi. apply (H l). unfold block_of. by rewrite E. Qed.
Lemma fill_children_once l K origs cs : forall b b', fill_children l K origs cs b = Some b' -> all_once b -> all_once b'.
Proof.
  induction cs as [|s cs IH]; intros b b' H Ho; cbn in H; [by injection H as <-|]. destruct (b !! s) as [is|] eqn:E; [|done]. destruct (fill_phis l K (origs s) is) as [is1|] eqn:E1; [|done].
  apply (IH _ _ H). apply all_once_insert; [done|]. eapply fill_phis_once; [exact E1|]. by eapply all_once_at.
Qed.
Lemma rename_inner_once g d origs fuel : forall l st st', rename_inner fuel g d origs l st = Some st' -> all_once st.1.2 -> all_once st'.1.2.
Proof.
  induction fuel as [|fuel IH]; intros l [[K b] n] st' H Ho; cbn [rename_inner fst snd] in H; [done|].
  destruct (b !! l) as [is|] eqn:El; [|done]. destruct (rename_block K n is) as [[is' K1] n1] eqn:Er. destruct (fill_children _ _ _ _ _) as [b1|] eqn:Ef; [|done].
  assert (I1 : all_once b1). { eapply fill_children_once; [exact Ef|]. apply all_once_insert; [done|]. eapply rename_block_once; [exact Er|]. by eapply all_once_at. }
  assert (Loop : forall ks st o, all_once st.1.2 -> fold_left (fun o x => match o with Some st => rename_inner fuel g d origs x st | None => None end) ks (Some st) = Some o -> all_once o.1.2).
  { induction ks as [|k ks IHk]; intros st o I E; cbn [fold_left] in E; [by injection E as <-|].
    destruct (rename_inner fuel g d origs k st) as [st2|] eqn:Ek; [|by clear -E; exfalso; induction ks; cbn in E; auto]. eapply IHk; [|exact E]. by eapply IH. }
  destruct (fold_left _ _ _) as [[[K2 b2] n2]|] eqn:E2; [|done]. injection H as <-. exact (Loop _ (K1, b1, n1) (K2, b2, n2) I1 E2).
Qed.
Lemma drop_phis_in is : forall r i, i ∈ (drop_phis is r).1 -> i ∈ is.
Proof.
  induction is as [|j is IH]; intros r i; cbn [drop_phis]; [done|]. destruct (is_phi j); [|done]. destruct (Nat.leb _ _).
  - intros Hi. apply elem_of_cons. right. by eapply IH.
  - specialize (IH r). destruct (drop_phis is r) as [is1 r1]. cbn [fst] in *. intros [->|Hi]%elem_of_cons; [constructor|]. apply elem_of_cons. right. by apply IH.
Qed.
Lemma prune_phis_once b : all_once b -> all_once (prune_phis b).
Proof.
  intros Ho x i. unfold prune_phis. case_bool_decide; unfold block_of; rewrite ?lookup_fmap; destruct (b !! x) as [is|] eqn:E; cbn; try (by intros ?%elem_of_nil).
  - intros Hi%drop_phis_in. by eapply all_once_at.
  - intros Hi. apply elem_of_list_In, in_map_iff in Hi as (j & <- & Hj%elem_of_list_In%drop_phis_in). intros Hp. destruct (all_once_at _ _ _ Ho E j Hj Hp) as [O1 O2]. split; [done|]. cbn [i_args i_labels set_args]. by rewrite map_length.
Qed.
Lemma sublist_zip_fst (ls : list N) : forall es : list arg, map fst (zip ls es) `sublist_of` ls.
Proof. induction ls as [|l ls IH]; intros [|a es]; cbn; [done|done|apply sublist_nil_l|]. by constructor. Qed.
Lemma sublist_filter_fst (P : N * arg -> Prop) `{forall e, Decision (P e)} es : map fst (filter P es) `sublist_of` map fst es.
Proof. induction es as [|e es IH]; [done|]. rewrite filter_cons. case_decide; cbn; by constructor. Qed.
Lemma sublist_dedup es : map fst (dedup_last es) `sublist_of` map fst es.
Proof.
  induction es as [|[p a] es IH]; [done|]. cbn [dedup_last]. destruct es as [|[q b] es]; [done|]. destruct (N.eqb p q); cbn [map fst]; by constructor.
Qed.
Lemma sublist_once (l k : list N) : l `sublist_of` k -> NoDup k -> NoDup l.
Proof.
  induction 1 as [|x l k Hs IH|x l k Hs IH]; [done| |intros [_ Nd]%NoDup_cons; auto]. intros [Hx Nd]%NoDup_cons. apply NoDup_cons. split; [|auto].
  intros Hl. apply Hx. eapply elem_of_submseteq; [exact Hl|by apply sublist_submseteq].
Qed.
Lemma phi_entries_once ps i : NoDup (i_labels i) -> NoDup (map fst (phi_entries ps i)).
Proof.
  intros Nd. unfold phi_entries. eapply sublist_once; [apply sublist_dedup|]. rewrite (sort_by_perm pair_cmp). eapply sublist_once; [apply sublist_filter_fst|]. eapply sublist_once; [apply sublist_zip_fst|done].
Qed.
Lemma simplify_once used ps is : (forall i, i ∈ is -> once i) -> forall i, i ∈ simplify_block used ps is -> once i.
Proof.
  intros Ho i Hi. unfold simplify_block in Hi. apply elem_of_app in Hi as [Hi|[Hi|Hi]%elem_of_app].
  - apply elem_of_list_In, in_flat_map in Hi as (j & Hj%elem_of_list_In & Hi%elem_of_list_In). apply elem_of_list_filter in Hj as [Ep Hj]. pose proof (phi_entries_once ps j (proj1 (Ho j Hj Ep))) as Q.
    unfold simplify_phi in Hi. destruct (i_tgts j) as [|t ts]; [apply elem_of_list_singleton in Hi as ->; intros _; split; [done|cbn; by rewrite !map_length]|]. destruct (phi_entries ps j) as [|[p a] [|e es]]; try (by apply elem_of_nil in Hi). apply elem_of_list_singleton in Hi as ->. intros _. split; [done|cbn; by rewrite !map_length].
  - apply elem_of_list_In, in_flat_map in Hi as (j & Hj%elem_of_list_In & Hi%elem_of_list_In). unfold simplify_phi in Hi. destruct (i_tgts j) as [|t ts]; [by apply elem_of_nil in Hi|].
    destruct (phi_entries ps j) as [|[p a] [|e es]]; [|apply elem_of_list_singleton in Hi as ->; by intros ?|by apply elem_of_nil in Hi]. case_bool_decide; [apply elem_of_list_singleton in Hi as ->; by intros ?|by apply elem_of_nil in Hi].
  - apply elem_of_list_filter in Hi as [_ Hi]. by apply Ho.
Qed.

(** Renaming keeps everything but the names. *)
Definition alike (i i' : inst) : Prop := i_t i' = i_t i /\ length (i_tgts i') = length (i_tgts i) /\ length (i_args i') = length (i_args i) /\ i_labels i' = i_labels i /\
  set_args (set_tgts i' []) [] = set_args (set_tgts i []) [].
Lemma rename_tgts_length ts : forall K n ts' K' n', rename_tgts K n ts = (ts', K', n') -> length ts' = length ts.
Proof. induction ts as [|t ts IH]; intros K n ts' K' n' H; cbn in H; [by injection H as <- <- <-|]. destruct (rename_tgts (push K t n) (n + 1) ts) as [[ts1 K1] n1] eqn:E. injection H as <- <- <-. cbn. by rewrite (IH _ _ _ _ _ E). Qed.
Lemma rename_block_alike is : forall K n is' K' n', rename_block K n is = (is', K', n') -> Forall2 alike is is'.
Proof.
  induction is as [|i is IH]; intros K n is' K' n' H; cbn [rename_block] in H; [by injection H as <- <- <-|].
  destruct (rename_inst K n i) as [[i1 K1] n1] eqn:E. destruct (rename_block K1 n1 is) as [[is2 K2] n2] eqn:E2. injection H as <- <- <-. constructor; [|by eapply IH].
  unfold rename_inst in E. destruct (rename_tgts _ _ _) as [[ts3 K3] n3] eqn:Et. injection E as <- <- <-. apply rename_tgts_length in Et. unfold alike. destruct (is_phi i); cbn in *; repeat split; try done. by rewrite map_length.
Qed.
Lemma alike_ok i i' : alike i i' -> inst_ok i -> inst_ok i'.
Proof.
  intros (A & B & C & D & _). unfold inst_ok. rewrite A, D, C, B. assert (Z : forall (l l' : list N), length l' = length l -> l = [] -> l' = []) by (intros l [|] E ->; [done|discriminate E]).
  assert (Z2 : forall (l l' : list arg), length l' = length l -> l = [] -> l' = []) by (intros l [|] E ->; [done|discriminate E]).
  destruct (i_t i); try done; intros H; destruct_and?; repeat split; eauto.
Qed.
Lemma fill_children_has l K origs cs : forall b b', fill_children l K origs cs b = Some b' -> forall x, is_Some (b !! x) -> is_Some (b' !! x).
Proof.
  induction cs as [|s cs IH]; intros b b' H x Hx; cbn in H; [by injection H as <-|]. destruct (b !! s) as [is|] eqn:E; [|done]. destruct (fill_phis l K (origs s) is) as [is1|] eqn:E1; [|done].
  apply (IH _ _ H). apply lookup_insert_is_Some'. by right.
Qed.
Lemma rename_inner_has g d origs fuel : forall l st st', rename_inner fuel g d origs l st = Some st' -> forall x, is_Some (st.1.2 !! x) -> is_Some (st'.1.2 !! x).
Proof.
  induction fuel as [|fuel IH]; intros l [[K b] n] st' H x Ho; cbn [rename_inner fst snd] in *; [done|].
  destruct (b !! l) as [is|] eqn:El; [|done]. destruct (rename_block K n is) as [[is' K1] n1] eqn:Er. destruct (fill_children _ _ _ _ _) as [b1|] eqn:Ef; [|done].
  assert (I1 : is_Some (b1 !! x)). { eapply fill_children_has; [exact Ef|]. apply lookup_insert_is_Some'. by right. }
  assert (Loop : forall ks st o, is_Some (st.1.2 !! x) -> fold_left (fun o x => match o with Some st => rename_inner fuel g d origs x st | None => None end) ks (Some st) = Some o -> is_Some (o.1.2 !! x)).
  { induction ks as [|k ks IHk]; intros st o I E; cbn [fold_left] in E; [by injection E as <-|].
    destruct (rename_inner fuel g d origs k st) as [st2|] eqn:Ek; [|by clear -E; exfalso; induction ks; cbn in E; auto]. eapply IHk; [|exact E]. by eapply IH. }
  destruct (fold_left _ _ _) as [[[K2 b2] n2]|] eqn:E2; [|done]. injection H as <-. exact (Loop _ (K1, b1, n1) (K2, b2, n2) I1 E2).
Qed.
Lemma prune_phis_has b x : is_Some (prune_phis b !! x) <-> is_Some (b !! x).
Proof. unfold prune_phis. case_bool_decide; rewrite !lookup_fmap, ?fmap_is_Some; done. Qed.

Section build.
  Context (c : cfg) (n0 : N).
  Context (Hok : prog_ok c) (Hb : built (c_graph c)) (Hbm : blocks_match c) (Hentry : is_Some (c_blocks c !! c_entry c)).
  Context (Hreach : forall l, is_Some (c_blocks c !! l) -> reaches (c_graph c) (c_entry c) l) (Hfirst : forall p, ~ edge (c_graph c) p (c_entry c)).
  Context (Hplain : forall l i, i ∈ block_of (c_blocks c) l -> is_phi i = false /\ small n0 i).
  Lemma ssa_labels c' n' : construct_ssa c n0 = Some (c', n') -> all_once (c_blocks c').
  Proof.
    intros H. destruct (construct_cases c n0 Hb Hbm Hentry Hreach Hplain c' n' H) as (d & vs & K & b & _ & _ & _ & _ & _ & Er & ->). cbn zeta in Er.
    apply rename_inner_once in Er.
    - cbn [fst snd] in Er. intros x. unfold block_of, simplify_phis. cbn [c_blocks c_graph]. rewrite map_lookup_imap. apply prune_phis_once in Er. destruct (prune_phis b !! x) as [is|] eqn:E; cbn; [|by intros i ?%elem_of_nil].
      apply simplify_once. by eapply all_once_at.
    - cbn [fst snd]. intros x i. unfold block_of. rewrite map_lookup_imap. destruct (c_blocks c !! x) as [is|] eqn:E; cbn; [|by intros ?%elem_of_nil]. intros [Hi|Hi]%elem_of_app.
      + apply elem_of_list_In, in_map_iff in Hi as (v & <- & _). intros _. split; [constructor|done].
      + intros Hp. destruct (Hplain x i) as [Q _]; [unfold block_of; by rewrite E|]. congruence.
  Qed.
  Lemma ssa_complete c' n' : construct_ssa c n0 = Some (c', n') -> phis_complete c'.
  Proof.
    intros H. destruct (ssa_phis c n0 Hb Hbm Hentry Hreach Hfirst Hplain c' n' H) as [A B]. split; [done|]. intros l k i Hi Hp. split; [|intros p He; by apply (B l k i p)].
    apply (ssa_labels c' n' H l); [by eapply elem_of_list_lookup_2|done].
  Qed.
  Lemma ssa_has c' n' : construct_ssa c n0 = Some (c', n') -> forall x, is_Some (c_blocks c' !! x) <-> is_Some (c_blocks c !! x).
  Proof.
    intros H x. destruct (construct_cases c n0 Hb Hbm Hentry Hreach Hplain c' n' H) as (d & vs & K & b & _ & _ & _ & _ & _ & Er & ->). cbn zeta in Er.
    pose proof (rename_inner_has _ _ _ _ _ _ _ Er x) as A. pose proof (rename_inner_dom _ _ _ _ _ _ _ Er x) as B. cbn [fst snd] in A, B. rewrite map_lookup_imap in A, B.
    unfold simplify_phis. cbn [c_blocks c_graph]. rewrite map_lookup_imap. assert (Q : forall A B (o : option A) (f : A -> B), is_Some (o ≫= fun a => Some (f a)) <-> is_Some o) by (intros ? ? [a|] f; cbn; split; by intros []).
    rewrite Q, prune_phis_has. rewrite Q in A, B. by split.
  Qed.
  Lemma ssa_shape c' n' : construct_ssa c n0 = Some (c', n') -> c_graph c' = c_graph c /\ c_entry c' = c_entry c /\
    forall l, exists P R, block_of (c_blocks c') l = P ++ R /\ (forall i, i ∈ P -> is_phi i = true /\ length (i_tgts i) = 1%nat) /\ Forall2 alike (block_of (c_blocks c) l) R.
  Proof.
    intros H. destruct (ssa_facts c n0 Hb Hbm Hentry Hreach Hfirst Hplain c' n' H) as (vs & G & F1 & F2 & F3 & F4 & F5 & F6 & F7 & F8). split; [done|]. split; [done|]. intros l.
    destruct (c_blocks c !! l) as [is|] eqn:El.
    - destruct (reaches_path c l) as [p Hp]; [apply Hreach; by eexists|]. destruct (F6 l p Hp) as (Kin & nx & Kout & P & R & n2 & Gl & Eb & HP & HR & _). exists P, R. split; [done|]. split; [|by eapply rename_block_alike].
      intros i [k Hk]%elem_of_list_lookup. destruct (Forall3_lookup_r _ _ _ _ k i HP Hk) as (v & t & _ & _ & E & Et & _). split; [done|]. by rewrite Et.
    - exists [], []. unfold block_of. rewrite El. destruct (c_blocks c' !! l) eqn:E; [|split; [done|]; split; [by intros i ?%elem_of_nil|done]]. exfalso. assert (Q : is_Some (c_blocks c' !! l)) by (by eexists). apply (ssa_has c' n' H) in Q as [? ?]. congruence.
  Qed.
  Lemma ssa_prog_ok c' n' : construct_ssa c n0 = Some (c', n') -> prog_ok c'.
  Proof.
    intros H. pose proof (ssa_labels c' n' H) as Ho. destruct (ssa_shape c' n' H) as (Eg & Ee & Sh). destruct Hok as [Hbl Hfl].
    assert (Rphi : forall l R, Forall2 alike (block_of (c_blocks c) l) R -> forall i, i ∈ R -> is_phi i = false).
    { intros l R HR i [k Hk]%elem_of_list_lookup. destruct (Forall2_lookup_r _ _ _ _ _ HR Hk) as (i0 & H0 & A & _). destruct (Hplain l i0) as [Q _]; [by eapply elem_of_list_lookup_2|]. unfold is_phi in *. by rewrite A. }
    split; intros l; destruct (Sh l) as (P & R & Eb & HP & HR).
    - destruct (Hbl l) as (B1 & _ & B3). rewrite Eb. split; [|split].
      + intros i [Hi|Hi]%elem_of_app.
        * destruct (HP i Hi) as [Q1 Q2]. destruct (Ho l i) as [_ O2]; [rewrite Eb; apply elem_of_app; by left|done|]. unfold is_phi in Q1. unfold inst_ok. destruct (i_t i); try discriminate Q1. done.
        * apply elem_of_list_lookup in Hi as [k Hk]. destruct (Forall2_lookup_r _ _ _ _ _ HR Hk) as (i0 & H0 & A). eapply alike_ok; [exact A|]. apply B1. by eapply elem_of_list_lookup_2.
      + assert (E : rest_of (P ++ R) = R). { clear -HP HR Rphi. induction P as [|i P IH]; cbn; [destruct R as [|i R]; cbn; [done|]; by rewrite (Rphi l _ HR i ltac:(constructor))|]. rewrite (proj1 (HP i ltac:(constructor))). apply IH. intros j Hj. apply HP. by constructor. }
        rewrite E. by apply (Rphi l).
      + intros is1 i is2 E Hc. assert (Hk : (P ++ R) !! length is1 = Some i) by (rewrite E; by apply list_lookup_middle). apply lookup_app_Some in Hk as [Hk|[Hle Hk]].
        { exfalso. destruct (HP i) as [Q _]; [by eapply elem_of_list_lookup_2|]. unfold is_phi, is_cond_goto in *. by destruct (i_t i). }
        destruct (Forall2_lookup_r _ _ _ _ _ HR Hk) as (i0 & H0 & A & _). assert (Q : drop (S (length is1 - length P)) (block_of (c_blocks c) l) = []).
        { apply (B3 (take (length is1 - length P) (block_of (c_blocks c) l)) i0); [symmetry; by apply take_drop_middle|]. unfold is_cond_goto in *. by rewrite <- A. }
        apply (f_equal length) in Q. rewrite drop_length in Q. cbn in Q. apply Forall2_length in HR. apply (f_equal length) in E. rewrite !app_length in E. cbn in E. destruct is2; [done|]. cbn in E. apply lookup_lt_Some in H0. lia.
    - unfold flow_ok. rewrite Eb, Eg. specialize (Hfl l). unfold flow_ok in Hfl. destruct (list.last (P ++ R)) as [i|] eqn:El; [|done]. intros Hc. destruct R as [|r R _] using rev_ind.
      + exfalso. rewrite app_nil_r in El. destruct (HP i) as [Q _]; [by apply last_Some_elem_of|]. unfold is_phi, is_cond_goto in *. by destruct (i_t i).
      + rewrite app_assoc, last_snoc in El. injection El as ->. apply Forall2_app_inv_r in HR as (B0 & B1 & _ & H1 & E). apply Forall2_cons_inv_r in H1 as (i0 & B2 & A & H2 & ->). apply Forall2_nil_inv_r in H2 as ->.
        rewrite E, last_snoc in Hfl. destruct A as (A & _ & _ & -> & _). apply Hfl. unfold is_cond_goto in *. by rewrite <- A.
  Qed.
  Lemma ssa_blocks_match c' n' : construct_ssa c n0 = Some (c', n') -> blocks_match c'.
  Proof.
    intros H. destruct (ssa_shape c' n' H) as (Eg & Ee & _). destruct Hbm as [M1 M2]. split; intros l; rewrite Eg, ?Ee, (ssa_has c' n' H); auto.
  Qed.
  Lemma ssa_calls_ok c' n' : construct_ssa c n0 = Some (c', n') -> calls_ok c -> calls_ok c'.
  Proof.
    intros H Hc l k i Hi Ht. destruct (ssa_shape c' n' H) as (_ & _ & Sh). destruct (Sh l) as (P & R & Eb & HP & HR). unfold in_prog in Hi. rewrite Eb in Hi. apply lookup_app_Some in Hi as [Hi|[_ Hi]].
    - destruct (HP i) as [Q _]; [by eapply elem_of_list_lookup_2|]. unfold is_phi in Q. by rewrite Ht in Q.
    - destruct (Forall2_lookup_r _ _ _ _ _ HR Hi) as (i0 & H0 & A & _ & B & _). rewrite B. eapply Hc; [exact H0|congruence].
  Qed.
  Lemma alike_effect {V W} (m : machine V W) i i' vs w : alike i i' -> effect m i' vs w = effect m i vs w.
  Proof. intros (_ & _ & _ & _ & E). destruct i, i'. cbn in E. injection E as -> -> -> -> -> -> ->. done. Qed.
  Lemma ssa_unaffected {V W} (m : machine V W) c' n' : construct_ssa c n0 = Some (c', n') -> unaffected m c -> unaffected m c'.
  Proof.
    intros H Hu l k i l' k' i' vs w Hi Hi'. destruct (ssa_shape c' n' H) as (_ & _ & Sh).
    assert (Q : forall l k i, in_prog c' l k i -> is_phi i = true \/ exists k0 i0, in_prog c l k0 i0 /\ alike i0 i).
    { intros l1 k1 i1 H1. destruct (Sh l1) as (P & R & Eb & HP & HR). unfold in_prog in H1. rewrite Eb in H1. apply lookup_app_Some in H1 as [H1|[_ H1]]; [left; apply HP; by eapply elem_of_list_lookup_2|right].
      destruct (Forall2_lookup_r _ _ _ _ _ HR H1) as (i0 & H0 & A). by exists (k1 - length P)%nat, i0. }
    destruct (Q _ _ _ Hi) as [Hp|(k0 & i0 & H0 & A)]; [unfold is_phi in Hp; split; intros E; by rewrite E in Hp|].
    assert (E : i_t i = i_t i0 /\ i_bin i = i_bin i0 /\ i_un i = i_un i0). { destruct A as (_ & _ & _ & _ & E). destruct i, i0. cbn in *. by injection E as -> -> -> -> -> -> ->. }
    destruct E as (-> & -> & ->). destruct (Q _ _ _ Hi') as [Hp'|(k1 & i1 & H1 & A1)].
    - assert (E : (effect m i' vs w).1 = w). { unfold effect, is_phi in *. destruct (i_t i'); try discriminate Hp'. done. } by rewrite E.
    - rewrite (alike_effect m _ _ vs w A1). by apply (Hu l k0 i0 l' k1 i1 vs w).
  Qed.
End build.
