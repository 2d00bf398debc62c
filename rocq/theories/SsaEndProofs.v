(** Building SSA form ends without a panic. *)
From stdpp Require Import base decidable sets numbers gmap list.
From Coq Require Import NArith ZArith Lia.
From Verif Require Import VmBase RustStr ILModel CfgSpec CfgProofs ILSpec PassModel PassProofs BranchProofs DomModel DomSpec DomProofs DvnProofs CfgPruneModel CfgPruneProofs SsaModel SsaFormProofs SsaSimProofs SsaBuildProofs.

Local Open Scope N_scope.

(** Placing phis: every block is queued at most once. *)
Lemma put_phis_ends v (D : gset N) ls : forall ins seen q b, (forall l, l ∈ ls -> l ∈ D) -> dom b = D ->
  exists ins' seen' q' b', put_phis v ls ins seen q b = Some (ins', seen', q', b') /\ dom b' = D /\ (length q' + size (D ∖ seen') = length q + size (D ∖ seen))%nat.
Proof.
  induction ls as [|l ls IH]; intros ins seen q b Hl Hb; cbn [put_phis]; [by exists ins, seen, q, b|].
  destruct (bool_decide (l ∈ ins)); [apply IH; [|done]; intros; apply Hl; by constructor|].
  assert (Hin : l ∈ D) by (apply Hl; constructor). destruct (b !! l) as [is|] eqn:El; [|apply not_elem_of_dom in El; by rewrite Hb in El].
  destruct (IH ({[l]} ∪ ins) ({[l]} ∪ seen) (if bool_decide (l ∈ seen) then q else q ++ [l]) (<[l := inst_phi_empty v :: is]> b)) as (i' & s' & q' & b' & E & Eb & Es).
  { intros; apply Hl; by constructor. }
  { rewrite dom_insert_L, Hb. clear -Hin. set_solver. }
  exists i', s', q', b'. split; [done|]. split; [done|]. rewrite Es. destruct (bool_decide (l ∈ seen)) eqn:Q; [apply bool_decide_eq_true in Q|apply bool_decide_eq_false in Q].
  - f_equal. f_equal. apply set_eq. intros x. rewrite !elem_of_difference, elem_of_union, elem_of_singleton. split; intros [A B]; (split; [done|]); [intros C; apply B; by right|intros [->|C]; by apply B].
  - rewrite app_length. cbn [length]. assert (S1 : D ∖ seen = {[l]} ∪ (D ∖ ({[l]} ∪ seen))).
    { apply set_eq. intros x. rewrite elem_of_union, !elem_of_difference, elem_of_union, elem_of_singleton. destruct (decide (x = l)) as [->|Hx]; [split; [by left|done]|].
      split; [intros [A B]; right; split; [done|]; by intros [?|?]|intros [?|[A B]]; [done|]; split; [done|]; intros C; apply B; by right]. }
    assert (S2 : size (D ∖ seen) = S (size (D ∖ ({[l]} ∪ seen)))).
    { rewrite S1 at 1. rewrite (size_union (C := gset N)); [by rewrite (size_singleton (C := gset N))|]. intros x Hx%elem_of_singleton. subst x. rewrite elem_of_difference, elem_of_union, elem_of_singleton. intros [_ B]. apply B. by left. }
    lia.
Qed.
Lemma phi_loop_ends df v (D : gset N) : (forall x, set_at df x ⊆ D) -> forall fuel ins seen q b, dom b = D -> (length q + size (D ∖ seen) <= fuel)%nat ->
  exists b', phi_loop fuel df v ins seen q b = Some b' /\ dom b' = D.
Proof.
  intros Hdf fuel. induction fuel as [|fuel IH]; intros ins seen q b Hb Hf; destruct q as [|d q]; cbn [phi_loop]; try (by exists b).
  - cbn in Hf. lia.
  - destruct (put_phis_ends v D (sorted (set_at df d)) ins seen q b) as (i' & s' & q' & b' & -> & Eb & Es); [intros l Hl%elem_of_sorted; by apply (Hdf d)|done|].
    apply IH; [done|]. cbn in Hf. lia.
Qed.
Lemma insert_vars_ends df defs (D : gset N) vars : (forall x, set_at df x ⊆ D) -> (forall v, set_at defs v ⊆ D) -> forall b, dom b = D -> exists b', insert_vars df defs vars b = Some b'.
Proof.
  intros H1 H2. induction vars as [|v vars IH]; intros b Hb; cbn [insert_vars]; [by exists b|].
  destruct (phi_loop_ends df v D H1 (S (size (dom b))) ∅ (set_at defs v) (sorted (set_at defs v)) b Hb) as (b' & -> & Eb); [|by apply IH].
  assert (S1 : (length (sorted (set_at defs v)) = size (set_at defs v))%nat).
  { rewrite <- (size_list_to_set (C := gset N) (sorted (set_at defs v))) by apply NoDup_sorted. f_equal. apply set_eq. intros x. by rewrite elem_of_list_to_set, elem_of_sorted. }
  rewrite S1, Hb, (size_difference (C := gset N)) by done. pose proof (subseteq_size _ _ (H2 v)). lia.
Qed.

(** Renaming: every entry is added once, and the dominator tree is finite. *)
Section rename.
  Context (g : graph) (e0 : N) (d : domi) (vs : N -> list N) (rs : N -> block) (n0 : N) (U : N -> Prop).
  Context (Hrs : forall x i, i ∈ rs x -> is_phi i = false).
  Local Notation inv := (inv vs rs n0 U).
  Local Notation filled := (filled g).
  Lemma fill_phis_ends F l K x vs0 : F l x = None -> forall ts P R, Forall3 (phi_is F x) vs0 ts P -> (forall i, i ∈ R -> is_phi i = false) -> exists is', fill_phis l K vs0 (P ++ R) = Some is'.
  Proof.
    intros HF ts P R H HR. induction H as [|v t i vs0 ts P (H1 & H2 & H3 & H3a & H3b & H4) _ IH]; cbn [app fill_phis].
    - destruct R as [|r R]; cbn; [by eexists|]. rewrite (HR r) by constructor. by eexists.
    - rewrite H1. destruct IH as [is' ->]. unfold insert_phi. assert (Hl : l ∉ i_labels i). { rewrite H3b, HF. by intros []. }
      rewrite H1, H3, Nat.eqb_refl, bool_decide_eq_true_2 by done. by eexists.
  Qed.
  Lemma fill_children_ends l K origs G n cs : NoDup cs -> (forall s, s ∈ cs -> U s /\ origs s = vs s) -> forall F b, (forall s, s ∈ cs -> F l s = None) -> inv F G b n -> exists b', fill_children l K origs cs b = Some b'.
  Proof.
    induction 1 as [|s cs Hs Nd IH]; intros Hcs F b HF I; cbn [fill_children]; [by eexists|].
    destruct (Hcs s) as [HU Ho]; [by constructor|]. destruct (I s HU) as (is & Eb & (P & R & -> & H1 & H2)). rewrite Eb, Ho.
    pose proof (shape_plain vs rs n0 Hrs F s (G !! s) n P R H1 H2) as HR.
    destruct (fill_phis_ends F l K s (vs s) (HF s ltac:(constructor)) _ P R H1 HR) as [is1 E1]. rewrite E1.
    destruct (fill_phis_spec vs rs U Hrs F l K s (vs s) (HF s ltac:(constructor)) _ _ _ _ H1 HR E1) as (P' & -> & H1').
    apply (IH ltac:(intros s' Hs'; apply Hcs; by constructor) (fun p y => if decide (p = l /\ y = s) then Some K else F p y)).
    - intros s' Hs'. cbn. rewrite decide_False; [apply HF; by constructor|]. intros [_ ->]. done.
    - intros x Hx. destruct (decide (x = s)) as [->|Hxs].
      + exists (P' ++ R). rewrite lookup_insert. split; [done|]. exists P', R. done.
      + destruct (I x Hx) as (isx & Ex & Sx). exists isx. rewrite lookup_insert_ne by done. split; [done|]. eapply shape_ext; [|reflexivity|exact Sx]. intros p. cbn. rewrite decide_False; [done|]. by intros [_ ->].
  Qed.

  Context (Hd : forall p x, x ∈ immediately_dominated_by d p <-> immediately_dominates (edge g) e0 p x).
  Local Notation idom := (immediately_dominates (edge g) e0).
  Local Notation dominates := (dominates (edge g) e0).
  Context (Hsib : forall p x y z, idom p x -> idom p y -> dominates x z -> dominates y z -> x = y).
  Context (Hup : forall p x z, idom p x -> dominates x z -> dominates p z) (Hanti : forall p x, idom p x -> ~ dominates x p).
  Context (Hrefl : forall p x, idom p x -> dominates x x /\ dominates p p) (Uch : forall x y, y ∈ children g x -> U y) (Uid : forall p x, idom p x -> U x).
  Context (origs : N -> list N) (Horigs : forall x, origs x = vs x).
  Context (mu : N -> nat) (Hmu : forall p x, idom p x -> (mu x < mu p)%nat).
  Local Notation tree := (tree g e0).
  Local Notation from_above := (from_above g e0).

  Lemma rename_inner_ends fuel : forall l K b n G, (mu l < fuel)%nat -> U l -> dominates l l -> inv (filled G) G b n -> tree G ->
    (forall x, dominates l x -> G !! x = None) -> from_above G l K -> (forall v, v < n0 -> top K v < n) -> n0 <= n ->
    exists st, rename_inner fuel g d origs l (K, b, n) = Some st.
  Proof.
    induction fuel as [|fuel IH]; intros l K b n G Hf Ul Rl I T Hun Hfrom HK Hn; [lia|]. cbn [rename_inner fst snd].
    destruct (I l Ul) as (is & Eb & Sh). rewrite Eb. pose proof (Hun l Rl) as Gl. rewrite Gl in Sh. destruct (rename_block K n is) as [[is' K1] n1] eqn:Er.
    set (G1 := <[l := (K, n, K1)]> G). destruct (rename_block_top n0 _ _ _ _ _ _ Er) as [Hn1 Ht1]. specialize (Ht1 HK).
    assert (I0 : inv (filled G) G1 (<[l := is']> b) n1).
    { intros x Hx. unfold G1. destruct (decide (x = l)) as [->|Hxl].
      - rewrite !lookup_insert. exists is'. split; [done|]. by eapply shape_rename.
      - rewrite !lookup_insert_ne by done. destruct (I x Hx) as (isx & Ex & Sx). exists isx. split; [done|]. eapply shape_ext; [|exact Hn1|exact Sx]. done. }
    assert (Hc1 : forall s, s ∈ children_sorted g l -> U s /\ origs s = vs s).
    { intros s Hs. unfold children_sorted in Hs. rewrite elem_of_sorted in Hs. split; [by eapply Uch|done]. }
    assert (Hc2 : forall s, s ∈ children_sorted g l -> filled G l s = None). { intros s _. unfold SsaFormProofs.filled. rewrite Gl. by case_decide. }
    destruct (fill_children_ends l K1 origs G1 n1 (children_sorted g l) (NoDup_sorted _) Hc1 _ _ Hc2 I0) as [b1 Ef]. rewrite Ef.
    assert (I1 : inv (filled G1) G1 b1 n1).
    { eapply inv_ext; [|reflexivity|eapply (fill_children_spec vs rs n0 U Hrs l K1 origs G1 n1 (children_sorted g l)); [apply NoDup_sorted|exact Hc1|exact Hc2|exact I0|exact Ef]].
      intros p x. cbn beta. unfold SsaFormProofs.filled, G1. destruct (decide (p = l)) as [->|Hp].
      + rewrite lookup_insert. destruct (decide (x ∈ children g l)) as [Hc|Hc].
        * rewrite decide_True; [done|]. split; [done|]. unfold children_sorted. by apply elem_of_sorted.
        * rewrite decide_False; [done|]. intros [_ Hq]. apply Hc. unfold children_sorted in Hq. by apply elem_of_sorted in Hq.
      + rewrite decide_False by (by intros [??]). by rewrite lookup_insert_ne. }
    assert (Sub : G ⊆ G1) by by apply insert_subseteq.
    assert (T1 : tree G1).
    { intros x Kin nx Kout. unfold G1. destruct (decide (x = l)) as [->|Hx]; [rewrite lookup_insert; intros [= <- <- <-]|rewrite lookup_insert_ne by done; intros E]; (eapply from_above_mono; [exact Sub|]); [done|by eapply T]. }
    assert (Loop : forall ks Kc bc nc Gc, NoDup ks -> (forall x, x ∈ ks -> idom l x) -> (forall x z, x ∈ ks -> dominates x z -> Gc !! z = None) -> inv (filled Gc) Gc bc nc -> tree Gc -> G1 ⊆ Gc -> n1 <= nc -> stk_eq Kc K1 ->
      exists o, fold_left (fun o x => match o with Some st => rename_inner fuel g d origs x st | None => None end) ks (Some (Kc, bc, nc)) = Some o).
    { induction ks as [|k ks IHk]; intros Kc bc nc Gc Nd Hks Hfree Ic Tc Sc Nc Kq; cbn [fold_left]; [by eexists|].
      apply NoDup_cons in Nd as [Hk Nd]. assert (Hlk : idom l k) by (apply Hks; constructor).
      assert (A1 : U k) by (by eapply Uid). assert (A2 : dominates k k) by (by destruct (Hrefl l k Hlk)).
      assert (A3 : forall x, dominates k x -> Gc !! x = None). { intros x Hx. apply (Hfree k); [constructor|done]. }
      assert (A4 : from_above Gc k Kc). { right. exists l, K, n, K1. split; [done|]. split; [apply (lookup_weaken G1 Gc); [unfold G1; apply lookup_insert|done]|]. intros v. unfold top. by rewrite Kq. }
      assert (A5 : forall v, v < n0 -> top Kc v < nc). { intros v Hv. assert (Q : top Kc v = top K1 v) by (unfold top; by rewrite Kq). rewrite Q. specialize (Ht1 v Hv). lia. }
      assert (A6 : n0 <= nc) by lia.
      destruct (IH k Kc bc nc Gc) as [[[K2 b2] n2] Ek]; try done. { specialize (Hmu l k Hlk). lia. }
      rewrite Ek. destruct (rename_inner_spec g e0 d vs rs n0 U Hrs Hd Hsib Hup Hanti Hrefl Uch Uid origs Horigs fuel k Kc bc nc K2 b2 n2 Gc A1 A2 Ek Ic Tc A3 A4 A5 A6) as (G2 & Q1 & Q2 & Q3 & Q4 & Q5 & Q6 & Q7 & Q8).
      apply (IHk K2 b2 n2 G2 Nd); try done.
      - intros x Hx. apply Hks. by constructor.
      - intros x z Hx Hxz. destruct (G2 !! z) eqn:Ez; [|done]. exfalso. destruct (Q8 z (mk_is_Some _ _ Ez)) as [[? Hz]|Hz].
        + rewrite (Hfree x z) in Hz; [done|by constructor|done].
        + assert (x = k) by (apply (Hsib l x k z); auto; apply Hks; by constructor). by subst.
      - by etrans.
      - lia.
      - intros v. by rewrite Q5. }
    destruct (Loop (immediately_dominated_by d l) K1 b1 n1 G1) as [[[K2 b2] n2] El]; try done.
    - apply NoDup_sorted.
    - intros x. apply Hd.
    - intros x z Hx%Hd Hz. unfold G1. rewrite lookup_insert_ne; [apply Hun; by eapply Hup|]. intros <-. by apply (Hanti l x).
    - rewrite El. by eexists.
  Qed.
End rename.

Section build.
  Context (c : cfg) (n0 : N).
  Local Notation g := (c_graph c).
  Local Notation e := (c_entry c).
  Local Notation R := (edge (c_graph c)).
  Context (Hok : prog_ok c) (Hb : built (c_graph c)) (Hbm : blocks_match c) (Hentry : is_Some (c_blocks c !! c_entry c)).
  Context (Hreach : forall l, is_Some (c_blocks c !! l) -> reaches (c_graph c) (c_entry c) l).
  Context (Hplain : forall l i, i ∈ block_of (c_blocks c) l -> is_phi i = false /\ small n0 i).
  Local Notation has := (has c).
  Lemma ssa_ends : exists c' n', construct_ssa c n0 = Some (c', n').
  Proof.
    unfold construct_ssa. destruct (dom_of_ok c Hb) as (d & Ed & Ee & Hd). rewrite Ed. destruct (built_wf _ Hb) as [W1 W2].
    pose proof (edge_has c Hb Hbm) as Heh. pose proof (has_reach c Hb Hbm Hentry Hreach) as Hhr.
    destruct (dominance_frontiers_spec R d Hd (parents_sorted g)) as (df & Edf & Hdf).
    { intros v u. unfold parents_sorted. rewrite elem_of_sorted. symmetry. apply W1. }
    { intros v. apply NoDup_sorted. }
    { intros p x Hpx _. rewrite Ee. apply Hhr. by apply (Heh p x). }
    rewrite Edf. assert (Hdf' : forall a x, x ∈ set_at df a <-> x <> e /\ in_frontier R e a x).
    { intros a x. rewrite <- Ee, <- Hdf. unfold set_at, graph_has. destruct (df !! a); [by rewrite bool_decide_eq_true|]. split; [by intros ?%elem_of_empty|done]. }
    assert (Hdd : forall x, set_at df x ⊆ dom (c_blocks c)). { intros a x Hx. apply Hdf' in Hx as [_ [(p & Hp & _) _]]. apply elem_of_dom. by apply (Heh p x). }
    assert (Hde : forall v, set_at (calculate_defs (c_blocks c)) v ⊆ dom (c_blocks c)). { intros v x Hx. apply calculate_defs_spec in Hx as (is & Ex & _). apply elem_of_dom. by eexists. }
    unfold insert_phis_for_ssa_construction. destruct (insert_vars_ends df (calculate_defs (c_blocks c)) _ (sorted (dom (calculate_defs (c_blocks c)))) Hdd Hde (c_blocks c) eq_refl) as [b1 Ei]. rewrite Ei.
    destruct (insert_vars_spec _ _ _ (NoDup_sorted _) _ _ Ei) as (vs & V1 & V2 & V3 & V4).
    assert (Hor : forall x, phi_orig_tgts b1 x = vs x).
    { intros x. unfold phi_orig_tgts, block_of. rewrite V1. destruct (c_blocks c !! x) as [is|] eqn:Ex; cbn.
      - assert (Hp : forall i, i ∈ is -> is_phi i = false). { intros i Hi. apply (Hplain x). unfold block_of. by rewrite Ex. }
        clear -Hp. induction (vs x) as [|v l IH]; cbn [map app leading_phis].
        + destruct is as [|i is]; cbn; [done|]. by rewrite (Hp i ltac:(constructor)).
        + replace (is_phi (inst_phi_empty v)) with true by reflexivity. cbn [map]. f_equal. exact IH.
      - destruct (vs x) as [|v l] eqn:Ev; [done|]. exfalso. destruct (V3 x v) as [_ (a & Ha)]; [rewrite Ev; constructor|]. apply Hdf' in Ha as [_ [(p & Hp & _) _]]. destruct (Heh _ _ Hp) as [_ Hx]. unfold SsaBuildProofs.has in Hx. rewrite Ex in Hx. by destruct Hx. }
    unfold rename_targets_for_ssa_construction. cbn [c_graph c_blocks c_entry].
    set (rs := block_of (c_blocks c)).
    assert (Hrs : forall x i, i ∈ rs x -> is_phi i = false) by (intros x i Hi; by apply (Hplain x)).
    assert (I0 : inv vs rs n0 has (filled g ∅) ∅ b1 n0).
    { intros x [is Ex]. exists (map inst_phi_empty (vs x) ++ is). rewrite V1, Ex. split; [done|]. exists (map inst_phi_empty (vs x)), is. split; [done|]. rewrite lookup_empty.
      split; [|unfold rs, block_of; by rewrite Ex]. clear. induction (vs x) as [|v l IH]; cbn [map]; constructor; [|done]. unfold phi_is, filled. split; [done|]. split; [done|]. split; [done|]. split; [constructor|]. split.
      - intros p. rewrite lookup_empty. split; [by intros ?%elem_of_nil|]. case_decide; by intros [].
      - intros p. rewrite lookup_empty. case_decide; done. }
    assert (Re : reach R e e) by (by apply Hhr).
    assert (Hup : forall p x z, immediately_dominates R e p x -> dominates R e x z -> dominates R e p z). { intros p x z [[A _] _] B. by eapply dominates_trans. }
    assert (Hrefl : forall p x, immediately_dominates R e p x -> dominates R e x x /\ dominates R e p p). { intros p x [[A _] _]. split; apply dominates_refl; [apply A|by eapply dominates_reach]. }
    assert (Hsib := idom_sib R d Hd). rewrite Ee in Hsib.
    assert (Hidb := immediately_dominated_by_spec R d Hd). rewrite Ee in Hidb.
    assert (Hlen : (po (d_order d) e < S (size (dom b1)))%nat).
    { assert (He : e ∈ d_order d). { apply (po_reach _ _ _ (k_order _ _ Hd)). by rewrite Ee. } pose proof (order_po_lt R d Hd e He).
      assert (length (d_order d) <= size (dom b1))%nat; [|lia].
      rewrite <- (size_list_to_set (C := gset N) (d_order d)) by apply (po_nodup _ _ _ (k_order _ _ Hd)). apply subseteq_size. intros x Hx%elem_of_list_to_set. apply (po_reach _ _ _ (k_order _ _ Hd)) in Hx. rewrite Ee in Hx. apply Hhr in Hx as [is Hx].
      apply elem_of_dom. rewrite V1, Hx. by eexists. }
    destruct (rename_inner_ends g e d vs rs n0 has Hrs Hidb Hsib Hup) with (origs := phi_orig_tgts b1) (mu := po (d_order d)) (fuel := S (size (dom b1))) (l := e) (K := ∅ : stacks) (b := b1) (n := n0) (G := ∅ : gmap N (stacks * N * stacks))
      as [[[K b] n'] Er]; try done.
    { intros p x [[A B] _] C. apply B. by apply (dominates_antisym R e). }
    { intros x y Hy. by apply (Heh x y). }
    { intros p x [[A _] _]. apply Hhr. apply A. }
    { intros p x Hpx. rewrite <- Ee in Hpx. apply (k_idom _ _ Hd) in Hpx. by apply (idom_up R d Hd). }
    { by apply dominates_refl. }
    { left. split; [done|]. intros v. unfold top, stack_of. by rewrite lookup_empty. }
    rewrite Er. by eexists _, _.
  Qed.
End build.
