(** SSA form writes every variable once. *)
From stdpp Require Import base decidable sets numbers gmap list.
From Coq Require Import NArith ZArith Lia.
From Verif Require Import VmBase RustStr ILModel CfgSpec CfgProofs ILSpec PassModel PassProofs BranchProofs DomModel DomSpec DomProofs DvnProofs CfgPruneModel CfgPruneProofs SsaModel SsaFormProofs SsaSimProofs SsaBuildProofs.

Local Open Scope N_scope.
Notation T := (flat_map i_tgts).

(** Renaming a block gives its targets new names. *)
Lemma rename_tgts_new ts : forall K n ts' K' n', rename_tgts K n ts = (ts', K', n') -> n <= n' /\ NoDup ts' /\ forall t, t ∈ ts' -> n <= t < n'.
Proof.
  induction ts as [|t ts IH]; intros K n ts' K' n' H; cbn in H; [injection H as <- <- <-; split; [done|]; split; [constructor|]; by intros t ?%elem_of_nil|].
  destruct (rename_tgts (push K t n) (n + 1) ts) as [[ts1 K1] n1] eqn:E. injection H as <- <- <-. destruct (IH _ _ _ _ _ E) as (A & B & C). split; [lia|]. split.
  - constructor; [|done]. intros Hn. specialize (C n Hn). lia.
  - intros x [->|Hx]%elem_of_cons; [lia|]. specialize (C x Hx). lia.
Qed.
Lemma rename_block_new is : forall K n is' K' n', rename_block K n is = (is', K', n') -> n <= n' /\ NoDup (T is') /\ forall t, t ∈ T is' -> n <= t < n'.
Proof.
  induction is as [|i is IH]; intros K n is' K' n' H; cbn [rename_block] in H; [injection H as <- <- <-; split; [done|]; split; [constructor|]; by intros t ?%elem_of_nil|].
  destruct (rename_inst K n i) as [[i1 K1] n1] eqn:E. destruct (rename_block K1 n1 is) as [[is2 K2] n2] eqn:E2. injection H as <- <- <-. destruct (IH _ _ _ _ _ E2) as (A & B & C).
  unfold rename_inst in E. destruct (rename_tgts K n _) as [[ts3 K3] n3] eqn:E3. injection E as <- <- <-. destruct (rename_tgts_new _ _ _ _ _ _ E3) as (A3 & B3 & C3). cbn [flat_map].
  replace (i_tgts (set_tgts (if is_phi i then i else set_args i (map (rename_arg K) (i_args i))) ts3)) with ts3 by done. split; [lia|]. split.
  - apply NoDup_app. split; [done|]. split; [|done]. intros x H1 H2. specialize (C x H2). specialize (C3 x H1). lia.
  - intros x [H|H]%elem_of_app; [specialize (C3 x H)|specialize (C x H)]; lia.
Qed.
(** Filling phis keeps the targets. *)
Lemma fill_phis_tgts l K is : forall os is', fill_phis l K os is = Some is' -> T is' = T is.
Proof.
  induction is as [|i is IH]; intros os is' H; destruct os as [|v os]; cbn in H; try (by injection H as <-); (destruct (is_phi i); [|by injection H as <-]); [done|].
  destruct (insert_phi i l _) as [i1|] eqn:E1; [|done]. destruct (fill_phis l K os is) as [is1|] eqn:E2; [|done]. injection H as <-. cbn [flat_map]. rewrite (IH _ _ E2). f_equal.
  unfold insert_phi in E1. destruct (_ && _); [|done]. by injection E1 as <-.
Qed.
Lemma fill_children_tgts l K origs cs : forall b b', fill_children l K origs cs b = Some b' -> forall x, T (block_of b' x) = T (block_of b x).
Proof.
  induction cs as [|s cs IH]; intros b b' H x; cbn in H; [by injection H as <-|]. destruct (b !! s) as [is|] eqn:E; [|done]. destruct (fill_phis l K (origs s) is) as [is1|] eqn:E1; [|done].
  rewrite (IH _ _ H). unfold block_of. destruct (decide (x = s)) as [->|]; [|by rewrite lookup_insert_ne]. rewrite lookup_insert, E. by eapply fill_phis_tgts.
Qed.
(** The blocks in [S] have been given their names, all below [n]. *)
Definition named (S : gset N) (b : gmap N block) (n : N) : Prop :=
  (forall x, x ∈ S -> NoDup (T (block_of b x)) /\ forall t, t ∈ T (block_of b x) -> t < n) /\
  forall x y t, x ∈ S -> y ∈ S -> t ∈ T (block_of b x) -> t ∈ T (block_of b y) -> x = y.
Lemma rename_inner_named g d origs fuel : forall l K b n K' b' n' S, rename_inner fuel g d origs l (K, b, n) = Some (K', b', n') -> named S b n ->
  exists S', S ⊆ S' /\ l ∈ S' /\ named S' b' n' /\ (forall y, y ∈ immediately_dominated_by d l -> y ∈ S') /\ forall x y, x ∈ S' -> x ∉ S -> y ∈ immediately_dominated_by d x -> y ∈ S'.
Proof.
  induction fuel as [|fuel IH]; intros l K b n K' b' n' S H [N1 N2]; cbn [rename_inner fst snd] in H; [done|].
  destruct (b !! l) as [is|] eqn:El; [|done]. destruct (rename_block K n is) as [[is' K1] n1] eqn:Er. destruct (fill_children _ _ _ _ _) as [b1|] eqn:Ef; [|done].
  destruct (rename_block_new _ _ _ _ _ _ Er) as (A & B & C). pose proof (fill_children_tgts _ _ _ _ _ _ Ef) as Ft.
  assert (Tl : T (block_of b1 l) = T is') by (rewrite Ft; unfold block_of; by rewrite lookup_insert).
  assert (Tx : forall x, x <> l -> T (block_of b1 x) = T (block_of b x)) by (intros x Hx; rewrite Ft; unfold block_of; by rewrite lookup_insert_ne).
  assert (I1 : named ({[l]} ∪ S) b1 n1).
  { split.
    - intros x Hx. destruct (decide (x = l)) as [->|Hn].
      + rewrite Tl. split; [done|]. intros t Ht. by apply C.
      + rewrite (Tx x Hn). apply elem_of_union in Hx as [?%elem_of_singleton|Hx]; [done|]. destruct (N1 x Hx) as [Q1 Q2]. split; [done|]. intros t Ht. specialize (Q2 t Ht). lia.
    - assert (W : forall x t, x ∈ {[l]} ∪ S -> x <> l -> t ∈ T (block_of b1 x) -> t ∈ T is' -> False).
      { intros x t Hx Hn H1 H2. rewrite (Tx x Hn) in H1. apply elem_of_union in Hx as [?%elem_of_singleton|Hx]; [done|]. destruct (N1 x Hx) as [_ Q]. specialize (Q t H1). specialize (C t H2). lia. }
      intros x y t Hx Hy H1 H2. destruct (decide (x = l)) as [->|Hxl]; destruct (decide (y = l)) as [->|Hyl]; [done| | |].
      + rewrite Tl in H1. exfalso. by apply (W y t).
      + rewrite Tl in H2. exfalso. by apply (W x t).
      + rewrite (Tx x Hxl) in H1. rewrite (Tx y Hyl) in H2. apply elem_of_union in Hx as [?%elem_of_singleton|Hx]; [done|]. apply elem_of_union in Hy as [?%elem_of_singleton|Hy]; [done|]. by apply (N2 x y t). }
  assert (Loop : forall ks S0 Kc bc nc o, named S0 bc nc -> fold_left (fun o x => match o with Some st => rename_inner fuel g d origs x st | None => None end) ks (Some (Kc, bc, nc)) = Some o ->
    exists S', S0 ⊆ S' /\ (forall k, k ∈ ks -> k ∈ S') /\ named S' o.1.2 o.2 /\ forall x y, x ∈ S' -> x ∉ S0 -> y ∈ immediately_dominated_by d x -> y ∈ S').
  { induction ks as [|k ks IHk]; intros S0 Kc bc nc o I E; cbn [fold_left] in E.
    - injection E as <-. exists S0. split; [done|]. split; [by intros k ?%elem_of_nil|]. by split.
    - destruct (rename_inner fuel g d origs k (Kc, bc, nc)) as [[[K2 b2] n2]|] eqn:Ek; [|by clear -E; exfalso; induction ks; cbn in E; auto].
      destruct (IH k Kc bc nc K2 b2 n2 S0 Ek I) as (S1 & Q1 & Q2 & Q3 & _ & Q5). destruct (IHk S1 K2 b2 n2 o Q3 E) as (S2 & R1 & R2 & R3 & R4).
      exists S2. split; [by etrans|]. split; [intros x [->|Hx]%elem_of_cons; [by apply R1|by apply R2]|]. split; [done|].
      intros x y Hx Hn Hy. destruct (decide (x ∈ S1)) as [H1|H1]; [apply R1; by apply (Q5 x y)|by apply (R4 x y)]. }
  destruct (fold_left _ _ _) as [[[K2 b2] n2]|] eqn:E2; [|done]. injection H as <- <- <-.
  destruct (Loop _ _ _ _ _ _ I1 E2) as (S' & R1 & R2 & R3 & R4). exists S'. assert (Hl : l ∈ S') by (apply R1, elem_of_union; left; by apply elem_of_singleton).
  split; [intros x Hx; apply R1, elem_of_union; by right|]. split; [done|]. split; [done|]. split; [done|].
  intros x y Hx Hn Hy. destruct (decide (x = l)) as [->|Hxl]; [by apply R2|]. apply (R4 x y); [done| |done]. intros [?%elem_of_singleton|?]%elem_of_union; done.
Qed.
(** The last two steps write nothing new. *)
Lemma perm_front (a b x : list N) : a ++ b ++ x ≡ₚ x ++ a ++ b.
Proof. rewrite app_assoc. apply Permutation_app_comm. Qed.
Lemma simplify_tgts used ps is : T (simplify_block used ps is) ⊆+ T is.
Proof.
  unfold simplify_block. induction is as [|i is IH]; [done|]. rewrite !filter_cons. cbn [flat_map]. rewrite !flat_map_app in *. destruct (is_phi i) eqn:Ei.
  - rewrite decide_True, decide_False by done. cbn [flat_map]. rewrite !flat_map_app.
    assert (A : T (simplify_phi used ps i).1 ++ T (simplify_phi used ps i).2 ⊆+ i_tgts i).
    { unfold simplify_phi. destruct (i_tgts i) as [|t ts] eqn:Et; [cbn; by rewrite Et|]. destruct (phi_entries ps i) as [|[p a] [|q es]]; cbn [fst snd flat_map app].
      - destruct (bool_decide _); cbn; [apply submseteq_skip, submseteq_nil_l|apply submseteq_nil_l].
      - cbn. apply submseteq_skip, submseteq_nil_l.
      - cbn [i_tgts set_labels set_args]. rewrite !app_nil_r. cbn. by rewrite Et. }
    revert A IH. generalize (T (simplify_phi used ps i).1) (T (simplify_phi used ps i).2). intros a b' A IH. etrans; [|apply submseteq_app; [exact A|exact IH]].
    apply Permutation_submseteq. rewrite <- !app_assoc. apply Permutation_app_head. rewrite !app_assoc. apply Permutation_app_tail. apply Permutation_app_tail. apply Permutation_app_comm.
  - rewrite decide_False, decide_True by done. cbn [flat_map]. etrans; [|apply submseteq_app; [reflexivity|exact IH]].
    apply Permutation_submseteq. rewrite !app_assoc. apply Permutation_app_tail. rewrite <- !app_assoc. apply perm_front.
Qed.
Lemma drop_phis_tgts is : forall r, T (drop_phis is r).1 ⊆+ T is.
Proof.
  induction is as [|i is IH]; intros r; cbn [drop_phis]; [done|]. destruct (is_phi i); [|done]. destruct (Nat.leb _ _).
  - cbn [flat_map]. etrans; [apply IH|]. by apply submseteq_inserts_l.
  - specialize (IH r). destruct (drop_phis is r) as [is1 r1]. cbn [fst flat_map] in *. by apply submseteq_skips_l.
Qed.
Lemma prune_tgts b x : T (block_of (prune_phis b) x) ⊆+ T (block_of b x).
Proof.
  unfold prune_phis. assert (Q : forall f is, (forall i, i_tgts (f i) = i_tgts i) -> T (map f is) = T is). { intros f is H. induction is as [|i is IH]; cbn; [done|]. by rewrite H, IH. }
  case_bool_decide; unfold block_of; rewrite ?lookup_fmap; destruct (b !! x) as [is|]; cbn; try done; [apply drop_phis_tgts|]. rewrite Q by done. apply drop_phis_tgts.
Qed.
Lemma result_tgts g b e x : T (block_of (c_blocks (simplify_phis (Cfg g (prune_phis b) e))) x) ⊆+ T (block_of b x).
Proof.
  etrans; [|apply prune_tgts]. unfold simplify_phis, block_of. cbn [c_blocks c_graph]. rewrite map_lookup_imap. destruct (prune_phis b !! x) as [is|]; cbn; [apply simplify_tgts|done].
Qed.
Lemma tgts_place is t : NoDup (T is) -> forall k k' i i', is !! k = Some i -> is !! k' = Some i' -> t ∈ i_tgts i -> t ∈ i_tgts i' -> k = k'.
Proof.
  assert (In : forall is k i, is !! k = Some i -> t ∈ i_tgts i -> t ∈ T is). { intros l k i H Ht. apply elem_of_list_In, in_flat_map. exists i. split; apply elem_of_list_In; [by eapply elem_of_list_lookup_2|done]. }
  induction is as [|j is IH]; intros Nd k k' i i' Hk Hk' Ht Ht'; [done|]. cbn [flat_map] in Nd. apply NoDup_app in Nd as (_ & Nx & Nd).
  destruct k as [|k], k' as [|k']; cbn in Hk, Hk'; [done| | |f_equal; by eapply IH].
  - injection Hk as ->. exfalso. apply (Nx t Ht). by eapply In.
  - injection Hk' as ->. exfalso. apply (Nx t Ht'). by eapply In.
Qed.

Section build.
  Context (c : cfg) (n0 : N).
  Local Notation g := (c_graph c).
  Local Notation e := (c_entry c).
  Local Notation R := (edge (c_graph c)).
  Context (Hok : prog_ok c) (Hb : built (c_graph c)) (Hbm : blocks_match c) (Hentry : is_Some (c_blocks c !! c_entry c)).
  Context (Hreach : forall l, is_Some (c_blocks c !! l) -> reaches (c_graph c) (c_entry c) l).
  Context (Hplain : forall l i, i ∈ block_of (c_blocks c) l -> is_phi i = false /\ small n0 i).
  Lemma ssa_single c' n' : construct_ssa c n0 = Some (c', n') -> forall x l k l' k', defines c' x l k -> defines c' x l' k' -> l = l' /\ k = k'.
  Proof.
    intros H. destruct (construct_cases c n0 Hb Hbm Hentry Hreach Hplain c' n' H) as (d & vs & K & b & Hd & Ee & _ & _ & _ & Er & ->). cbn zeta in Er. set (b1 := map_imap _ _) in Er.
    destruct (rename_inner_named _ _ _ _ _ _ _ _ _ _ _ ∅ Er) as (S & _ & Se & [N1 N2] & _ & Cl); [split; [by intros x ?%elem_of_empty|by intros x y t ?%elem_of_empty]|].
    assert (Hidb := immediately_dominated_by_spec R d Hd). rewrite Ee in Hidb.
    assert (Vis : forall x, reach R e x -> x ∈ S).
    { intros x Hx. remember (length (d_order d) - po (d_order d) x)%nat as k eqn:Ek. revert x Hx Ek. induction (lt_wf k) as [k _ IH]. intros x Hx Ek. destruct (decide (x = e)) as [->|Hne]; [done|].
      destruct (k_all _ _ Hd x) as [a Ha]; [by rewrite Ee|by rewrite Ee|]. destruct (idom_up R d Hd _ _ Ha) as (L & _ & Hin & _). pose proof (order_po_lt R d Hd a Hin). apply (k_idom _ _ Hd) in Ha. rewrite Ee in Ha.
      apply (Cl a x); [|apply not_elem_of_empty|by apply Hidb]. eapply (IH (length (d_order d) - po (d_order d) a)%nat); [lia| |reflexivity]. exact (dominates_reach _ _ _ _ (proj1 (proj1 Ha))). }
    assert (P : forall x l k, defines (simplify_phis (Cfg g (prune_phis b) e)) x l k -> l ∈ S /\ x ∈ T (block_of b l) /\ x ∈ T (block_of (c_blocks (simplify_phis (Cfg g (prune_phis b) e))) l)).
    { intros x l k (i & Hi & Hx). unfold in_prog in Hi. assert (Q : x ∈ T (block_of (c_blocks (simplify_phis (Cfg g (prune_phis b) e))) l)).
      { apply elem_of_list_In, in_flat_map. exists i. split; apply elem_of_list_In; [by eapply elem_of_list_lookup_2|done]. }
      assert (Qb : x ∈ T (block_of b l)) by (by eapply elem_of_submseteq; [exact Q|apply result_tgts]). split; [|done].
      apply Vis. apply (has_reach c Hb Hbm Hentry Hreach). assert (Sb : is_Some (b !! l)). { unfold block_of in Qb. destruct (b !! l); [by eexists|]. by apply elem_of_nil in Qb. }
      apply (rename_inner_dom _ _ _ _ _ _ _ Er) in Sb. cbn in Sb. unfold b1 in Sb. rewrite map_lookup_imap in Sb. unfold has. by destruct (c_blocks c !! l); [eexists|destruct Sb]. }
    intros x l k l' k' D D'. destruct (P _ _ _ D) as (Hl & H1 & _). destruct (P _ _ _ D') as (Hl' & H1' & _). assert (l = l') as <- by (by apply (N2 l l' x)). split; [done|].
    destruct D as (i & Hi & Hx), D' as (i' & Hi' & Hx'). eapply (tgts_place _ x); [|exact Hi|exact Hi'|done|done].
    destruct (submseteq_Permutation _ _ (result_tgts g b e l)) as [z Hz]. destruct (N1 l Hl) as [Nd _]. rewrite Hz in Nd. by apply NoDup_app in Nd as [? _].
  Qed.
End build.
