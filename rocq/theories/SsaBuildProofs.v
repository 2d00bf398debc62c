(** Building SSA form keeps what programs do: the pieces put together. *)
From stdpp Require Import base decidable sets numbers gmap list.
From Coq Require Import NArith ZArith Lia.
From Verif Require Import VmBase RustStr ILModel CfgSpec CfgProofs ILSpec PassModel PassProofs BranchProofs DomModel DomSpec DomProofs DvnProofs CfgPruneModel CfgPruneProofs SsaModel SsaFormProofs SsaSimProofs.

Local Open Scope N_scope.

Lemma defs_some b v : v ∈ dom (calculate_defs b) -> exists x is, b !! x = Some is /\ v ∈ flat_map i_tgts is.
Proof.
  unfold calculate_defs. apply (map_fold_ind (fun m b => v ∈ dom m -> exists x is, b !! x = Some is /\ v ∈ flat_map i_tgts is)); [by rewrite dom_empty_L; intros ?%elem_of_empty|].
  intros l is b' m Hl IH. assert (A : forall ts m, v ∈ dom (fold_left (fun m v => add_to v l m) ts m) -> v ∈ dom m \/ v ∈ ts).
  { induction ts as [|t ts IHt]; intros m0 H; cbn [fold_left] in H; [by left|]. apply IHt in H as [H|H]; [|right; by constructor]. unfold add_to in H. rewrite dom_insert_L in H.
    apply elem_of_union in H as [->%elem_of_singleton|H]; [right; constructor|by left]. }
  intros H. apply A in H as [H|H].
  - destruct (IH H) as (x & is' & E & Hv). exists x, is'. split; [|done]. rewrite lookup_insert_ne; [done|]. intros ->. congruence.
  - exists l, is. by rewrite lookup_insert.
Qed.
Lemma names_length vs : forall n, length (names n vs) = length vs.
Proof. induction vs as [|v vs IH]; intros n; cbn; [done|]. by rewrite IH. Qed.
Lemma top_pushes vs v : v ∉ vs -> forall K n, top (pushes K n vs) v = top K v.
Proof.
  induction vs as [|u vs IH]; intros H K n; cbn; [done|]. rewrite IH by (intros ?; apply H; by constructor). rewrite top_push. rewrite decide_False; [done|]. intros ->. apply H. constructor.
Qed.
Lemma top_rename_tgts v ts : v ∉ ts -> forall K n ts' K' n', rename_tgts K n ts = (ts', K', n') -> top K' v = top K v.
Proof.
  induction ts as [|t ts IH]; intros Hv K n ts' K' n' H; cbn in H; [by injection H as <- <- <-|]. destruct (rename_tgts (push K t n) (n + 1) ts) as [[ts1 K1] n1] eqn:E. injection H as <- <- <-.
  rewrite (IH ltac:(intros ?; apply Hv; by constructor) _ _ _ _ _ E). rewrite top_push, decide_False; [done|]. intros ->. apply Hv. constructor.
Qed.
Lemma top_rename_block v is : v ∉ flat_map i_tgts is -> forall K n is' K' n', rename_block K n is = (is', K', n') -> top K' v = top K v.
Proof.
  induction is as [|i is IH]; intros Hv K n is' K' n' H; cbn [rename_block] in H; [by injection H as <- <- <-|].
  destruct (rename_inst K n i) as [[i1 K1] n1] eqn:E. destruct (rename_block K1 n1 is) as [[is2 K2] n2] eqn:E2. injection H as <- <- <-. cbn [flat_map] in Hv.
  rewrite (IH ltac:(intros ?; apply Hv; apply elem_of_app; by right) _ _ _ _ _ E2). unfold rename_inst in E. destruct (rename_tgts K n _) as [[ts3 K3] n3] eqn:E3. injection E as <- <- <-.
  eapply top_rename_tgts; [|exact E3]. intros H. apply Hv. apply elem_of_app. left. by destruct (is_phi i).
Qed.
(** Renaming adds no block. *)
Lemma fill_children_dom l K origs cs : forall b b', fill_children l K origs cs b = Some b' -> forall x, is_Some (b' !! x) -> is_Some (b !! x).
Proof.
  induction cs as [|s cs IH]; intros b b' H x Hx; cbn in H; [by injection H as <-|]. destruct (b !! s) as [is|] eqn:E; [|done]. destruct (fill_phis _ _ _ _) as [is'|]; [|done].
  apply (IH _ _ H) in Hx. destruct (decide (x = s)) as [->|]; [by eexists|]. by rewrite lookup_insert_ne in Hx.
Qed.
Lemma rename_inner_dom g d origs fuel : forall l st st', rename_inner fuel g d origs l st = Some st' -> forall x, is_Some (st'.1.2 !! x) -> is_Some (st.1.2 !! x).
Proof.
  induction fuel as [|fuel IH]; intros l [[K b] n] st' H x Hx; cbn [rename_inner fst snd] in *; [done|]. destruct (b !! l) as [is|] eqn:El; [|done]. destruct (rename_block K n is) as [[is' K1] n1].
  destruct (fill_children _ _ _ _ _) as [b1|] eqn:Ef; [|done]. destruct (fold_left _ _ _) as [[[K2 b2] n2]|] eqn:E2; [|done]. injection H as <-. cbn in Hx.
  assert (A : forall ks st st', fold_left (fun o x => match o with Some st => rename_inner fuel g d origs x st | None => None end) ks (Some st) = Some st' -> is_Some (st'.1.2 !! x) -> is_Some (st.1.2 !! x)).
  { induction ks as [|k ks IHk]; intros s1 s2 E Hs; cbn [fold_left] in E; [by injection E as <-|]. destruct (rename_inner fuel g d origs k s1) as [s3|] eqn:E3.
    - eapply IH; [exact E3|]. by eapply IHk.
    - exfalso. clear -E. induction ks; cbn in E; auto. done. }
  apply (A _ _ _ E2) in Hx. cbn in Hx. apply (fill_children_dom _ _ _ _ _ _ Ef) in Hx. destruct (decide (x = l)) as [->|]; [by eexists|]. by rewrite lookup_insert_ne in Hx.
Qed.
(** Pruning keeps phis with two entries. *)
Lemma drop_phis_id P R r : (forall i, i ∈ P -> is_phi i = true /\ (2 <= length (i_labels i))%nat) -> (forall i, i ∈ R -> is_phi i = false) -> drop_phis (P ++ R) r = (P ++ R, r).
Proof.
  intros HP HR. induction P as [|i P IH]; cbn [app drop_phis].
  - destruct R as [|i R]; cbn; [done|]. by rewrite (HR i ltac:(constructor)).
  - destruct (HP i ltac:(constructor)) as [-> Hl]. replace (Nat.leb (length (i_labels i)) 1) with false by (symmetry; apply Nat.leb_gt; lia). rewrite IH by (intros; apply HP; by constructor). done.
Qed.
Lemma prune_phis_id b : (forall x is, b !! x = Some is -> exists P R, is = P ++ R /\ (forall i, i ∈ P -> is_phi i = true /\ (2 <= length (i_labels i))%nat) /\ forall i, i ∈ R -> is_phi i = false) -> prune_phis b = b.
Proof.
  intros H. assert (D : forall x is r, b !! x = Some is -> drop_phis is r = (is, r)). { intros x is r E. destruct (H x is E) as (P & R & -> & H1 & H2). by apply drop_phis_id. }
  assert (E : all_replacements b = ∅).
  { unfold all_replacements. clear H. revert D. apply (map_fold_ind (fun (r : gmap N arg) b => (forall x is r, b !! x = Some is -> drop_phis is r = (is, r)) -> r = ∅)); [done|].
    intros l is b' r Hl IH D. rewrite (D l is r) by apply lookup_insert. cbn. apply IH. intros x is' r' E. apply (D x). rewrite lookup_insert_ne; [done|]. intros ->. congruence. }
  unfold prune_phis. rewrite E, bool_decide_eq_true_2 by done. apply map_eq. intros x. rewrite lookup_fmap. destruct (b !! x) as [is|] eqn:Ex; cbn; [|done]. by rewrite (D x is ∅ Ex).
Qed.

Section dominators.
  Context (R : N -> N -> Prop) (d : domi) (Hd : dom_ok R d).
  Notation e := (d_entry d).
  Notation po := (po (d_order d)).
  Lemma dominates_total z : forall x y, dominates R e x z -> dominates R e y z -> dominates R e x y \/ dominates R e y x.
  Proof.
    remember (length (d_order d) - po z)%nat as k eqn:Ek. revert z Ek. induction (lt_wf k) as [k _ IH]. intros z Ek x y Hx Hy. pose proof (proj1 Hx) as Rz.
    apply (dominates_cases R d Hd) in Hx as Hx'; [|done]. apply (dominates_cases R d Hd) in Hy as Hy'; [|done].
    destruct Hx' as [->|(a & Ea & Ha)]; [by right|]. destruct Hy' as [->|(a' & Ea' & Ha')]; [by left|]. rewrite Ea in Ea'. injection Ea' as <-.
    destruct (idom_up R d Hd _ _ Ea) as (L & _ & Hin & _). pose proof (order_po_lt R d Hd a Hin). eapply (IH (length (d_order d) - po a)%nat); [lia|reflexivity|done|done].
  Qed.
  Notation idom := (immediately_dominates R e).
  Lemma idom_sib p x y z : idom p x -> idom p y -> dominates R e x z -> dominates R e y z -> x = y.
  Proof.
    assert (W : forall x y, idom p x -> idom p y -> dominates R e x y -> x = y).
    { intros a b [[H1 H2] _] [_ H3] H. destruct (decide (a = b)) as [|Hn]; [done|]. exfalso. apply H2. apply (dominates_antisym R e); [done|]. by apply H3. }
    intros Hx Hy Hxz Hyz. destruct (dominates_total z x y Hxz Hyz); [by apply W|symmetry; by apply W].
  Qed.
  (** A block in a frontier has two predecessors. *)
  Lemma frontier_parents a x p0 : x <> e -> in_frontier R e a x -> (forall p, R p x -> p = p0) -> False.
  Proof.
    intros Hx [(p & Hp & D) Hn] H. assert (p = p0) as -> by auto. assert (Rx : reach R e x). { destruct D as [[l Hl] _]. exists (x :: l). by econstructor. }
    assert (T : forall l, walk R e x l -> exists t, l = x :: t /\ a ∈ t). { intros l Hl. destruct (walk_inv _ _ _ _ Hl) as (t & -> & [[? _]|(u & Hu & Hux)]); [done|]. exists t. split; [done|]. rewrite (H u Hux) in Hu. by apply D. }
    destruct (decide (a = x)) as [->|Hax].
    - destruct Rx as [l Hl]. destruct (walk_nodup _ _ _ _ Hl) as (l' & Hl' & _ & Nd). destruct (T l' Hl') as (t & -> & Ht). apply NoDup_cons in Nd. by destruct Nd.
    - apply Hn. split; [|done]. split; [done|]. intros l Hl. destruct (T l Hl) as (t & -> & Ht). by constructor.
  Qed.
End dominators.

Section build.
  Context (c : cfg) (n0 : N).
  Local Notation g := (c_graph c).
  Local Notation e := (c_entry c).
  Local Notation R := (edge (c_graph c)).
  Context (Hok : prog_ok c) (Hb : built (c_graph c)) (Hbm : blocks_match c) (Hentry : is_Some (c_blocks c !! c_entry c)).
  Context (Hreach : forall l, is_Some (c_blocks c !! l) -> reaches (c_graph c) (c_entry c) l) (Hfirst : forall p, ~ edge (c_graph c) p (c_entry c)).
  Context (Hplain : forall l i, i ∈ block_of (c_blocks c) l -> is_phi i = false /\ small n0 i).
  Definition has (x : N) : Prop := is_Some (c_blocks c !! x).
  Lemma edge_has p x : R p x -> has p /\ has x.
  Proof. intros H. destruct (built_wf _ Hb) as [_ W]. destruct (W p x H) as [A B]. split; by apply Hbm. Qed.
  Lemma has_reach x : has x <-> reach R e x.
  Proof.
    split; [intros H; apply walk_rtc; by apply Hreach|]. intros [l Hl]. destruct (walk_inv _ _ _ _ Hl) as (t & _ & [[-> _]|(u & _ & Hu)]); [done|]. by apply (edge_has u x).
  Qed.
  Lemma construct_cases c' n' : construct_ssa c n0 = Some (c', n') -> exists d vs K b, dom_ok R d /\ d_entry d = e /\ (forall l, NoDup (vs l)) /\ (forall x v, v ∈ vs x -> v < n0 /\ x <> e /\ (exists a, in_frontier R e a x) /\ exists y k, defines c v y k) /\
    (forall v a x, v ∈ flat_map i_tgts (block_of (c_blocks c) a) \/ v ∈ vs a -> x <> e -> in_frontier R e a x -> v ∈ vs x) /\
    let b1 := map_imap (fun l is => Some (map inst_phi_empty (vs l) ++ is)) (c_blocks c) in
    rename_inner (S (size (dom b1))) g d vs e (∅, b1, n0) = Some (K, b, n') /\ c' = simplify_phis (Cfg g (prune_phis b) e).
  Proof.
    unfold construct_ssa. destruct (dom_of_ok c Hb) as (d & Ed & Ee & Hd). rewrite Ed. destruct (built_wf _ Hb) as [W1 W2].
    destruct (dominance_frontiers_spec R d Hd (parents_sorted g)) as (df & Edf & Hdf).
    { intros v u. unfold parents_sorted. rewrite elem_of_sorted. symmetry. apply W1. }
    { intros v. apply NoDup_sorted. }
    { intros p x Hpx _. rewrite Ee. apply has_reach. by apply (edge_has p x). }
    rewrite Edf. assert (Hdf' : forall a x, x ∈ set_at df a <-> x <> e /\ in_frontier R e a x).
    { intros a x. rewrite <- Ee, <- Hdf. unfold set_at, graph_has. destruct (df !! a); [by rewrite bool_decide_eq_true|]. split; [by intros ?%elem_of_empty|done]. }
    unfold insert_phis_for_ssa_construction. destruct (insert_vars df _ _ _) as [b1|] eqn:Ei; [|done]. destruct (insert_vars_spec _ _ _ (NoDup_sorted _) _ _ Ei) as (vs & V1 & V2 & V3 & V4).
    assert (Eb1 : b1 = map_imap (fun l is => Some (map inst_phi_empty (vs l) ++ is)) (c_blocks c)). { apply map_eq. intros l. rewrite V1, map_lookup_imap. by destruct (c_blocks c !! l). }
    assert (Hor : forall x, phi_orig_tgts b1 x = vs x).
    { intros x. unfold phi_orig_tgts, block_of. rewrite V1. destruct (c_blocks c !! x) as [is|] eqn:Ex; cbn.
      - assert (Hp : forall i, i ∈ is -> is_phi i = false). { intros i Hi. apply (Hplain x). unfold block_of. by rewrite Ex. }
        clear -Hp. induction (vs x) as [|v l IH]; cbn [map app leading_phis].
        + destruct is as [|i is]; cbn; [done|]. by rewrite (Hp i ltac:(constructor)).
        + replace (is_phi (inst_phi_empty v)) with true by reflexivity. cbn [map]. f_equal. exact IH.
      - destruct (vs x) as [|v l] eqn:Ev; [done|]. exfalso. destruct (V3 x v) as [_ (a & Ha)]; [rewrite Ev; constructor|]. apply Hdf' in Ha as [_ [(p & Hp & _) _]]. destruct (edge_has _ _ Hp) as [_ Hx]. unfold has in Hx. rewrite Ex in Hx. by destruct Hx. }
    unfold rename_targets_for_ssa_construction. cbn [c_graph c_blocks c_entry]. intros H. destruct (rename_inner _ _ _ _ _ _) as [[[K b] n1]|] eqn:Er; [|done]. injection H as <- <-.
    exists d, vs, K, b. split; [done|]. split; [done|]. split; [done|]. split; [|split; [|split; [|done]]].
    - intros x v Hv. destruct (V3 x v Hv) as [Hin (a & Ha)]. apply Hdf' in Ha as [Hx Ha]. rewrite elem_of_sorted in Hin. apply defs_some in Hin as (y & is & Ey & Hv'). apply elem_of_list_In, in_flat_map in Hv' as (i & Hi%elem_of_list_In & Hvi%elem_of_list_In).
      destruct (Hplain y i) as [_ [S _]]; [unfold block_of; by rewrite Ey|]. split; [by apply S|]. split; [done|]. split; [by exists a|].
      apply elem_of_list_lookup in Hi as [k Hk]. exists y, k, i. split; [|done]. unfold in_prog, block_of. by rewrite Ey.
    - intros v a x Hv Hx Hf. assert (Hin : x ∈ set_at df a) by (by apply Hdf'). assert (Hva : a ∈ set_at (calculate_defs (c_blocks c)) v \/ v ∈ vs a).
      { destruct Hv as [Hv|Hv]; [left|by right]. apply calculate_defs_spec. unfold block_of in Hv. destruct (c_blocks c !! a) as [is|]; [by exists is|by apply elem_of_nil in Hv]. }
      apply (V4 v a); [|done|done]. destruct Hva as [Hva|Hva]; [apply elem_of_sorted; by eapply defs_dom|by apply (V3 a v)].
    - rewrite <- Eb1. rewrite <- Er. clear -Hor. assert (Q : forall fuel l st, rename_inner fuel g d vs l st = rename_inner fuel g d (phi_orig_tgts b1) l st); [|apply Q].
      induction fuel as [|fuel IH]; intros l st; cbn [rename_inner]; [done|]. destruct (st.1.2 !! l) as [is|]; [|done]. destruct (rename_block _ _ _) as [[is' K1] n1].
      assert (F : forall cs b, fill_children l K1 vs cs b = fill_children l K1 (phi_orig_tgts b1) cs b).
      { induction cs as [|s cs IHs]; intros b; cbn; [done|]. destruct (b !! s); [|done]. rewrite Hor. destruct (fill_phis _ _ _ _); [apply IHs|done]. }
      rewrite F. destruct (fill_children _ _ _ _ _) as [b2|]; [|done].
      assert (L : forall ks o, fold_left (fun o x => match o with Some st => rename_inner fuel g d vs x st | None => None end) ks o = fold_left (fun o x => match o with Some st => rename_inner fuel g d (phi_orig_tgts b1) x st | None => None end) ks o).
      { induction ks as [|k ks IHk]; intros o; cbn; [done|]. rewrite IHk. destruct o; [by rewrite IH|done]. }
      by rewrite L.
  Qed.

  (** What the result looks like, block by block. *)
  Lemma ssa_facts c' n' : construct_ssa c n0 = Some (c', n') -> exists vs G, c_graph c' = g /\ c_entry c' = e /\ vs e = [] /\ (forall x, NoDup (vs x)) /\ (forall x v, v ∈ vs x -> v < n0 /\ (exists y k, defines c v y k) /\ forall p0, ~ forall p, R p x -> p = p0) /\
    (forall x p, path c (x :: p) -> ssa_block n0 c c' vs G x) /\ (forall Kin nx Kout, G !! e = Some (Kin, nx, Kout) -> forall v, top Kin v = v) /\
    forall p x Kp np Kop Kx nx Kox, (exists q, path c (p :: q)) -> R p x -> G !! p = Some (Kp, np, Kop) -> G !! x = Some (Kx, nx, Kox) -> forall v, v < n0 -> (v ∉ vs x) -> top Kop v = top Kx v.
  Proof.
    intros H. destruct (construct_cases c' n' H) as (d & vs & K & b & Hd & Ee & V1 & V2 & V3 & Er & Ec). clear H. set (b1 := map_imap _ _) in Er.
    destruct (built_wf _ Hb) as [W1 W2].
    assert (Hps : forall l p, p ∈ parents g l <-> R p l) by (intros; symmetry; apply W1).
    set (rs := block_of (c_blocks c)).
    assert (Hrs : forall x i, i ∈ rs x -> is_phi i = false) by (intros x i Hi; by apply (Hplain x)).
    assert (I0 : inv vs rs n0 has (filled g ∅) ∅ b1 n0).
    { intros x [is Ex]. exists (map inst_phi_empty (vs x) ++ is). unfold b1. rewrite map_lookup_imap, Ex. split; [done|]. exists (map inst_phi_empty (vs x)), is. split; [done|]. rewrite lookup_empty.
      split; [|unfold rs, block_of; by rewrite Ex]. clear. induction (vs x) as [|v l IH]; cbn [map]; constructor; [|done]. unfold phi_is, filled. split; [done|]. split; [done|]. split; [done|]. split; [constructor|]. split.
      - intros p. rewrite lookup_empty. split; [by intros ?%elem_of_nil|]. case_decide; by intros [].
      - intros p. rewrite lookup_empty. case_decide; done. }
    assert (Re : reach R e e) by (by apply has_reach).
    assert (Hup : forall p x z, immediately_dominates R e p x -> dominates R e x z -> dominates R e p z). { intros p x z [[A _] _] B. by eapply dominates_trans. }
    assert (Hrefl : forall p x, immediately_dominates R e p x -> dominates R e x x /\ dominates R e p p). { intros p x [[A _] _]. split; apply dominates_refl; [apply A|by eapply dominates_reach]. }
    assert (Hsib := idom_sib R d Hd). rewrite Ee in Hsib.
    assert (Hidb := immediately_dominated_by_spec R d Hd). rewrite Ee in Hidb.
    destruct (rename_inner_spec g e d vs rs n0 has Hrs Hidb Hsib Hup) with (origs := vs) (fuel := S (size (dom b1))) (l := e) (K := ∅ : stacks) (b := b1) (n := n0) (K' := K) (b' := b) (n' := n') (G := ∅ : gmap N (stacks * N * stacks))
      as (G & _ & I & T & _ & _ & Ge & Cl & _); try done.
    { intros p x [[A B] _] C. apply B. by apply (dominates_antisym R e). }
    { intros x y Hy. by apply (edge_has x y). }
    { intros p x [[A _] _]. apply has_reach. apply A. }
    { by apply dominates_refl. }
    { left. split; [done|]. intros v. unfold top, stack_of. by rewrite lookup_empty. }
    (* every block is visited *)
    assert (Vis : forall x, has x -> is_Some (G !! x)).
    { intros x Hx%has_reach. remember (length (d_order d) - po (d_order d) x)%nat as k eqn:Ek. revert x Hx Ek. induction (lt_wf k) as [k _ IH]. intros x Hx Ek. destruct (decide (x = e)) as [->|Hne]; [done|].
      destruct (k_all _ _ Hd x) as [a Ha]; [by rewrite Ee|by rewrite Ee|]. destruct (idom_up R d Hd _ _ Ha) as (L & _ & Hin & _). pose proof (order_po_lt R d Hd a Hin). apply (k_idom _ _ Hd) in Ha. rewrite Ee in Ha.
      apply (Cl a x); [|done|done]. eapply (IH (length (d_order d) - po (d_order d) a)%nat); [lia| |reflexivity]. exact (dominates_reach _ _ _ _ (proj1 (proj1 Ha))). }
    assert (Fil : forall p x, R p x -> exists Ki ni Ko, G !! p = Some (Ki, ni, Ko) /\ filled g G p x = Some Ko).
    { intros p x Hp. destruct (Vis p) as [[[Ki ni] Ko] Gp]; [by apply (edge_has p x)|]. exists Ki, ni, Ko. split; [done|]. unfold filled. rewrite decide_True by done. by rewrite Gp. }
    assert (Fil2 : forall p x, is_Some (filled g G p x) <-> p ∈ parents g x).
    { intros p x. rewrite Hps. split; [unfold filled; case_decide; [done|by intros []]|]. intros Hp. destruct (Fil p x Hp) as (? & ? & ? & _ & ->). by eexists. }
    (* the blocks *)
    assert (Two : forall x, vs x <> [] -> (2 <= size (parents g x))%nat).
    { intros x Hx. destruct (vs x) as [|v l] eqn:Ev; [done|]. destruct (V2 x v) as (_ & Hxe & (a & Ha) & _); [rewrite Ev; constructor|].
      assert (size (parents g x) <> 0%nat). { intros Hz. apply size_empty_inv in Hz. destruct Ha as [(p & Hp & _) _]. apply Hps in Hp. apply Hz in Hp. by apply elem_of_empty in Hp. }
      assert (size (parents g x) <> 1%nat); [|lia]. intros Ho. apply size_1_elem_of in Ho as [p0 Hp0]. apply (frontier_parents R d a x p0); rewrite ?Ee; [done|done|]. intros p Hp. apply Hps, Hp0 in Hp. by apply elem_of_singleton in Hp. }
    assert (Bl : forall x, has x -> exists P Q Kin nx Kout n2, b !! x = Some (P ++ Q) /\ G !! x = Some (Kin, nx, Kout) /\ Forall3 (phi_is (filled g G) x) (vs x) (names nx (vs x)) P /\
      rename_block (pushes Kin nx (vs x)) (nx + N.of_nat (length (vs x))) (rs x) = (Q, Kout, n2) /\ low n0 Kin nx /\ (forall i, i ∈ P -> is_phi i = true /\ i_labels i <> [] /\ (2 <= length (i_labels i))%nat /\ phi_fine (parents g x) i) /\ forall i, i ∈ Q -> is_phi i = false).
    { intros x Hx. destruct (I x Hx) as (is & Ex & P & Q & -> & HP & HQ). destruct (Vis x Hx) as [[[Kin nx] Kout] Gx]. rewrite Gx in HP, HQ. destruct HQ as (n2 & HQ & _ & L1 & L2).
      exists P, Q, Kin, nx, Kout, n2. split; [done|]. split; [done|]. split; [done|]. split; [done|]. split; [done|]. split.
      - intros i Hi. apply elem_of_list_lookup in Hi as [j Hj]. destruct (Forall3_lookup_r _ _ _ _ j i HP Hj) as (v & t & Hv & _ & (A1 & A2 & A3 & A4 & A5 & _)).
        assert (Hlen : length (i_labels i) = size (parents g x)). { rewrite <- (size_list_to_set (C := gset N) (i_labels i)) by done. f_equal. apply set_eq. intros p. rewrite elem_of_list_to_set, A5. apply Fil2. }
        assert (2 <= size (parents g x))%nat. { apply Two. intros En. by rewrite En in Hv. }
        split; [done|]. split; [intros En; rewrite En in Hlen; cbn in Hlen; lia|]. split; [lia|]. split; [by rewrite A2|]. split; [done|]. split; [done|]. intros p Hp. apply A5. by apply Fil2.
      - eapply rename_block_plain; [exact HQ|]. apply Hrs. }
    assert (Dom : forall x, is_Some (b !! x) -> has x). { intros x Hx. apply (rename_inner_dom _ _ _ _ _ _ _ Er) in Hx. cbn in Hx. unfold b1 in Hx. rewrite map_lookup_imap in Hx. unfold has. by destruct (c_blocks c !! x); [eexists|destruct Hx]. }
    rewrite prune_phis_id in Ec.
    2: { intros x is Ex. destruct (Bl x (Dom x (mk_is_Some _ _ Ex))) as (P & Q & ? & ? & ? & ? & Eb & _ & _ & _ & _ & HP & HQ). rewrite Ex in Eb. injection Eb as ->. exists P, Q. split; [done|]. split; [|done]. intros i Hi. split; by apply HP. }
    subst c'. exists vs, G. split_and!; try done.
    - destruct (vs e) as [|v l] eqn:Ev; [done|]. destruct (V2 e v) as (_ & Hx & _); [rewrite Ev; constructor|]. done.
    - intros x v Hv. destruct (V2 x v Hv) as (Q1 & Q2 & (a & Q3) & Q4). split; [done|]. split; [done|]. intros p0 Q. apply (frontier_parents R d a x p0); by rewrite ?Ee.
    - intros x p Hp. assert (Hx : has x). { apply has_reach. exists (x :: p). by apply path_walk. }
      destruct (Bl x Hx) as (P & Q & Kin & nx & Kout & n2 & Eb & Gx & HP & HQ & HL & Hphi & Hrest).
      exists Kin, nx, Kout, (map (simp (parents g x)) P), Q, n2. split; [done|]. split; [|split; [|done]].
      + unfold simplify_phis, block_of. cbn [c_blocks c_graph]. rewrite map_lookup_imap, Eb. cbn. rewrite simplify_block_map, map_app.
        * f_equal. clear -Hrest. induction Q as [|i Q IH]; cbn; [done|]. rewrite simp_other by (apply Hrest; constructor). f_equal. apply IH. intros; apply Hrest; by constructor.
        * destruct (phis_of_app P Q) as [_ ->]; [intros i Hi; by apply Hphi|done|done].
        * intros i Hi Hpi. apply elem_of_app in Hi as [Hi|Hi]; [|rewrite Hrest in Hpi by done; done]. split; [by apply Hphi|]. intros En. destruct (Hphi i Hi) as (_ & _ & H2 & (_ & _ & Nd & Hin)).
          assert (Hv : vs x <> []). { intros Ev. rewrite Ev in HP. inversion HP; subst. by apply elem_of_nil in Hi. } specialize (Two x Hv). rewrite En, size_empty in Two. lia.
      + assert (HP' : Forall3 (fun v t i => phi_is (filled g G) x v t i /\ is_phi i = true /\ phi_fine (parents g x) i /\ size (parents g x) <> 1%nat) (vs x) (names nx (vs x)) P).
        { assert (H2 : vs x <> [] -> size (parents g x) <> 1%nat) by (intros Hv; specialize (Two x Hv); lia). clear -HP Hphi H2. induction HP as [|v t i l ts P A HP IH]; constructor; [|apply IH; [intros; apply Hphi; by constructor|intros; by apply H2]].
          split; [done|]. destruct (Hphi i ltac:(constructor)) as (? & ? & ? & ?). split; [done|]. split; [done|]. by apply H2. }
        clear -HP' Fil Hps. induction HP' as [|v t i l ts P (A & B & C & D) _ IH]; cbn [map]; constructor; [|done]. destruct (simp_phi _ _ B C) as [[? _]|(_ & Es & Ep)]; [done|]. split; [done|].
        destruct A as (A1 & A2 & A3 & A4 & A5 & A6). rewrite Es. split; [done|]. intros q Hq. destruct (Fil q x Hq) as (Ki & ni & Ko & Gq & Fq). exists Ki, ni, Ko. split; [done|].
        unfold ent. cbn [i_labels i_args set_labels set_args]. rewrite zip_map_fst_snd, entries_lookup; [|done|done|by apply Hps]. fold (ent q i). rewrite A6, Fq. done.
    - intros Kin nx Kout Gx v. destruct (T _ _ _ _ Gx) as [[_ A]|(y & ? & ? & ? & [[D Hn] _] & _)]; [apply A|]. by apply dominates_entry in D.
    - intros p x Kp np Kop Kx nx Kox [q Hq] Hpx Gp Gx v Hv Hnv.
      destruct (T _ _ _ _ Gx) as [[-> _]|(y & Ky & ny & Koy & Hy & Gy & ->)]; [by destruct (Hfirst p)|].
      assert (Rp : reach R e p). { apply has_reach. by apply (edge_has p x). }
      assert (Hxe : x <> e) by (intros ->; by apply (Hfirst p)).
      assert (Dy : dominates R e y p). { eapply sdom_parent; [exact (proj1 Hy)|done|done]. }
      assert (Claim : forall z Kz nz Koz, dominates R e z p -> dominates R e y z -> G !! z = Some (Kz, nz, Koz) -> top Koz v = top Koy v).
      { intros z. remember (length (d_order d) - po (d_order d) z)%nat as j eqn:Ej. revert z Ej. induction (lt_wf j) as [j _ IH]. intros z Ej Kz nz Koz Dz Yz Gz. destruct (decide (z = y)) as [->|Hzy]; [congruence|].
        assert (Fz : in_frontier R e z x). { split; [by exists p|]. intros Sz. apply Hzy. apply (dominates_antisym R e); [by apply Hy|done]. }
        assert (N1 : v ∉ flat_map i_tgts (rs z)) by (intros Hin; apply Hnv; apply (V3 v z); [by left|done|done]). assert (N2 : v ∉ vs z) by (intros Hin; apply Hnv; apply (V3 v z); [by right|done|done]).
        destruct (Bl z) as (P & Q & Kin & nz' & Ko & n2 & _ & Gz' & _ & Hrb & _). { apply has_reach. by eapply dominates_reach. }
        rewrite Gz in Gz'. injection Gz' as <- <- <-. rewrite (top_rename_block v _ N1 _ _ _ _ _ Hrb), (top_pushes _ _ N2).
        destruct (T _ _ _ _ Gz) as [[-> _]|(a & Ka & na & Koa & Ha & Ga & ->)]; [by apply dominates_entry in Yz|].
        pose proof Ha as Ha'. rewrite <- Ee in Ha'. apply (k_idom _ _ Hd) in Ha'. destruct (idom_up R d Hd _ _ Ha') as (L & _ & Hin & _). pose proof (order_po_lt R d Hd a Hin).
        eapply (IH (length (d_order d) - po (d_order d) a)%nat); [lia|reflexivity| | |exact Ga]; [by eapply Hup|]. apply Ha. split; [done|]. done. }
      by apply (Claim p Kp np Kop); [apply dominates_refl|..].
  Qed.
  Lemma ssa_preserves c' n' : construct_ssa c n0 = Some (c', n') -> forall V W (m : machine V W) e1 w k, same_on (fun _ => False) (run m c k (start c e1 w)) (run m c' k (start c' e1 w)).
  Proof.
    intros H V W m e1 w k. destruct (ssa_facts c' n' H) as (vs & G & F1 & F2 & F3 & F4 & F5 & F6 & F7 & F8). eapply (ssa_same m n0 c c' vs G); try done. intros x v Hv. by apply (F5 x v).
  Qed.
End build.
