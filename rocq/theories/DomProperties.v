(** C30: dominators. *)
From stdpp Require Import base decidable list numbers gmap relations sets.
From Coq Require Import NArith Lia.
From Verif Require Import RustStr ILModel CfgSpec CfgProofs DomModel DomSpec DomProofs.

Local Open Scope N_scope.

(** The computation ends (with no panic) on every graph, and gives each block its closest
    strict dominator; unreachable blocks and the entry have none. *)
Theorem idom_exact : forall c, built (c_graph c) -> exists d, dom_of c = Some d /\
  forall b a, d_idom d !! b = Some a <-> immediately_dominates (edge (c_graph c)) (c_entry c) a b.
Proof. intros c B. destruct (dom_of_ok c B) as (d & E & He & H). exists d. split; [done|]. rewrite <- He. apply H. Qed.
Print Assumptions idom_exact.
Theorem idom_exists : forall c d b, built (c_graph c) -> dom_of c = Some d ->
  reach (edge (c_graph c)) (c_entry c) b -> b <> c_entry c -> exists a, d_idom d !! b = Some a.
Proof. intros c d b B E R Hn. destruct (dom_of_ok c B) as (d' & E' & He & H). rewrite E in E'. injection E' as <-. apply (k_all _ _ H); by rewrite He. Qed.
Print Assumptions idom_exists.

(** The order the blocks are visited in: every reachable block once, the entry last, and
    each other block before one of its predecessors. *)
Theorem postorder_exact : forall c d, built (c_graph c) -> dom_of c = Some d ->
  NoDup (d_order d) /\ (forall b, b ∈ d_order d <-> reach (edge (c_graph c)) (c_entry c) b) /\ last (d_order d) = Some (c_entry c) /\
  forall b, b ∈ d_order d -> b <> c_entry c -> exists l1 l2 u, d_order d = l1 ++ b :: l2 /\ u ∈ l2 /\ edge (c_graph c) u b.
Proof.
  intros c d B E. destruct (dom_of_ok c B) as (d' & E' & He & H). rewrite E in E'. injection E' as <-. destruct (k_order _ _ H) as [A1 A2 [l A3] A4]. rewrite He in *.
  split; [done|]. split; [done|]. split; [rewrite A3; apply last_snoc|done].
Qed.
Print Assumptions postorder_exact.

Theorem dominated_by_exact : forall c d, built (c_graph c) -> dom_of c = Some d -> exists m, dominated_by_graph d = Some m /\
  forall a b, graph_has m b a = true <-> dominates (edge (c_graph c)) (c_entry c) a b.
Proof.
  intros c d B E. destruct (dom_of_ok c B) as (d' & E' & He & H). rewrite E in E'. injection E' as <-.
  destruct (dominated_by_spec _ _ H) as (m & Em & Hm). exists m. split; [done|]. intros. rewrite Hm, He. done.
Qed.
Print Assumptions dominated_by_exact.
Theorem dominates_graph_exact : forall c d, built (c_graph c) -> dom_of c = Some d -> exists m, dominates_graph d = Some m /\
  forall a b, graph_has m a b = true <-> dominates (edge (c_graph c)) (c_entry c) a b.
Proof.
  intros c d B E. destruct (dom_of_ok c B) as (d' & E' & He & H). rewrite E in E'. injection E' as <-.
  destruct (dominates_graph_spec _ _ H) as (m & Em & Hm). exists m. split; [done|]. intros. rewrite Hm, He. done.
Qed.
Print Assumptions dominates_graph_exact.
Theorem dominator_children_exact : forall c d, built (c_graph c) -> dom_of c = Some d ->
  forall p b, b ∈ immediately_dominated_by d p <-> immediately_dominates (edge (c_graph c)) (c_entry c) p b.
Proof.
  intros c d B E p b. destruct (dom_of_ok c B) as (d' & E' & He & H). rewrite E in E'. injection E' as <-.
  rewrite (immediately_dominated_by_spec _ _ H), He. done.
Qed.
Print Assumptions dominator_children_exact.
Theorem lca_exact : forall c d a b, built (c_graph c) -> dom_of c = Some d ->
  reach (edge (c_graph c)) (c_entry c) a -> reach (edge (c_graph c)) (c_entry c) b ->
  exists x, lca d a b = Some x /\ closest_common (edge (c_graph c)) (c_entry c) x a b.
Proof.
  intros c d a b B E. destruct (dom_of_ok c B) as (d' & E' & He & H). rewrite E in E'. injection E' as <-.
  rewrite <- He. apply (lca_spec _ _ H).
Qed.
Print Assumptions lca_exact.
Theorem lca_all_exact : forall c d ns, built (c_graph c) -> dom_of c = Some d -> ns <> [] ->
  (forall n, n ∈ ns -> reach (edge (c_graph c)) (c_entry c) n) -> exists x, lca_all d ns = Some x /\
  (forall n, n ∈ ns -> dominates (edge (c_graph c)) (c_entry c) x n) /\
  forall y, (forall n, n ∈ ns -> dominates (edge (c_graph c)) (c_entry c) y n) -> dominates (edge (c_graph c)) (c_entry c) y x.
Proof.
  intros c d ns B E. destruct (dom_of_ok c B) as (d' & E' & He & H). rewrite E in E'. injection E' as <-.
  rewrite <- He. apply (lca_all_spec _ _ H).
Qed.
Print Assumptions lca_all_exact.

(** The same for post-dominators, on a graph that has an exit node. *)
Theorem postdom_exact : forall g exit, built g -> exit ∈ labels g -> exists d, postdom_of g exit = Some d /\
  forall b a, d_idom d !! b = Some a <-> immediately_dominates (fun x y => edge g y x) exit a b.
Proof. intros g x B Hx. destruct (postdom_of_ok g x B Hx) as (d & E & He & H). exists d. split; [done|]. rewrite <- He. apply H. Qed.
Print Assumptions postdom_exact.

(** Dominance frontiers, once unreachable blocks are gone: exact for every block but the
    entry. *)
Theorem frontiers_exact_partial : forall c d, built (c_graph c) -> dom_of c = Some d ->
  (forall n, n ∈ labels (c_graph c) -> reaches (c_graph c) (c_entry c) n) ->
  exists m, dominance_frontiers d (parents_sorted (c_graph c)) = Some m /\
  forall a b, b <> c_entry c -> graph_has m a b = true <-> in_frontier (edge (c_graph c)) (c_entry c) a b.
Proof.
  intros c d B E Hr. destruct (dom_of_ok c B) as (d' & E' & He & H). rewrite E in E'. injection E' as <-. destruct (built_wf _ B) as [W1 W2].
  destruct (dominance_frontiers_spec _ _ H (parents_sorted (c_graph c))) as (m & Em & Hm).
  - intros v u. unfold parents_sorted. rewrite elem_of_sorted. symmetry. apply W1.
  - intros v. apply NoDup_sorted.
  - intros p b Hp _. rewrite He. apply walk_rtc, Hr. by apply W2 in Hp as [? _].
  - exists m. split; [done|]. intros a b Hn. rewrite Hm, He. tauto.
Qed.
Print Assumptions frontiers_exact_partial.

Definition graph_of (es : list (N * N)) : graph := fold_left (fun g e => connect g (fst e) (snd e)) es ∅.
Lemma graph_of_built es : built (graph_of es).
Proof. unfold graph_of. assert (B : built ∅) by (apply built_empty). revert B. generalize (∅ : graph). induction es as [|x es IH]; intros g B; cbn; [done|]. apply IH. by apply built_connect. Qed.

(** The entry is left out of every frontier: 0 -> 1 -> 0. *)
Theorem frontiers_entry_refuted : exists c d m, built (c_graph c) /\ (forall n, n ∈ labels (c_graph c) -> reaches (c_graph c) (c_entry c) n) /\
  dom_of c = Some d /\ dominance_frontiers d (parents_sorted (c_graph c)) = Some m /\
  exists a, in_frontier (edge (c_graph c)) (c_entry c) a (c_entry c) /\ graph_has m a (c_entry c) = false.
Proof.
  set (c := Cfg (graph_of [(0, 1); (1, 0)]) ∅ 0). exists c.
  assert (T : match dom_of c with Some d => match dominance_frontiers d (parents_sorted (c_graph c)) with Some m => negb (graph_has m 1 0) | None => false end | None => false end = true) by (vm_compute; reflexivity).
  destruct (dom_of c) as [d|] eqn:E; [|done]. destruct (dominance_frontiers d _) as [m|] eqn:Em; [|done]. exists d, m.
  assert (E01 : edge (c_graph c) 0 1) by (unfold edge; apply (bool_decide_eq_true_1 _); vm_compute; reflexivity).
  assert (E10 : edge (c_graph c) 1 0) by (unfold edge; apply (bool_decide_eq_true_1 _); vm_compute; reflexivity).
  split; [apply graph_of_built|]. split.
  { intros n Hn. assert (L : labels (c_graph c) = {[0; 1]}) by (apply (bool_decide_eq_true_1 _); vm_compute; reflexivity). rewrite L in Hn. apply elem_of_union in Hn as [->%elem_of_singleton| ->%elem_of_singleton]; [apply rtc_refl|]. by apply rtc_once. }
  split; [done|]. split; [done|]. exists 1. split; [|by apply negb_true_iff]. split.
  - exists 1. split; [done|]. apply dominates_refl. exists [1; 0]. econstructor; [constructor|done].
  - intros [H _]. by apply dominates_entry in H.
Qed.
Print Assumptions frontiers_entry_refuted.

(** With an unreachable predecessor left in the graph it panics: 0 -> 1, 2 -> 1. *)
Theorem frontiers_unreachable_parent_refuted : exists c d, built (c_graph c) /\ dom_of c = Some d /\
  dominance_frontiers d (parents_sorted (c_graph c)) = None.
Proof.
  set (c := Cfg (graph_of [(0, 1); (2, 1)]) ∅ 0). exists c.
  assert (T : match dom_of c with Some d => match dominance_frontiers d (parents_sorted (c_graph c)) with Some m => false | None => true end | None => false end = true) by (vm_compute; reflexivity).
  destruct (dom_of c) as [d|] eqn:E; [|done]. exists d. split; [apply graph_of_built|]. split; [done|]. by destruct (dominance_frontiers d _).
Qed.
Print Assumptions frontiers_unreachable_parent_refuted.

(** An irreducible loop between 1 and 2, a diamond, an exit and an unreachable block. *)
Definition dom_demo : cfg := Cfg (graph_of [(0, 1); (0, 2); (1, 2); (2, 1); (1, 3); (2, 3); (3, 4); (3, 5); (4, 6); (5, 6); (6, 3); (6, 7); (9, 9)]) ∅ 0.
Example dom_demo_ok : built (c_graph dom_demo) /\
  match dom_of dom_demo with
  | Some d => map (fun n => d_idom d !! n) [0; 1; 2; 3; 4; 5; 6; 7; 9] = [None; Some 0; Some 0; Some 0; Some 3; Some 3; Some 3; Some 6; None]
      /\ lca d 4 7 = Some 3 /\ immediately_dominated_by d 3 = [4; 5; 6]
      /\ match dominance_frontiers d (parents_sorted (c_graph dom_demo)) with Some m => graph_has m 1 2 && graph_has m 6 3 && graph_has m 3 3 && negb (graph_has m 0 3) = true | None => False end
  | None => False
  end.
Proof. split; [apply graph_of_built|vm_compute; auto]. Qed.
