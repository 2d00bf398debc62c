(** C85: the nesting of loops. *)
From stdpp Require Import base decidable list numbers gmap relations sets.
From Coq Require Import NArith Lia.
From Verif Require Import RustStr ILModel CfgSpec CfgProofs DomModel DomSpec DomProofs DomProperties LoopFindModel LoopFindSpec LoopFindProperties LoopNestProofs LoopInfoModel LoopInfoProofs.

Local Open Scope N_scope.

(** Two loops with a common block are one strictly inside the other. *)
Theorem loops_nested : forall c d loops h1 h2 l1 l2, built (c_graph c) -> dom_of c = Some d -> find_loops c d = Some loops ->
  loops !! h1 = Some l1 -> loops !! h2 = Some l2 -> h1 <> h2 -> l1 ⊂ l2 \/ l2 ⊂ l1 \/ l1 ## l2.
Proof.
  intros c d loops h1 h2 l1 l2 B E F E1 E2 Hne. destruct (find_loops_exact c d B E) as (loops' & F' & K & H). rewrite F in F'. injection F' as <-.
  assert (S1 := fun x => H _ _ x E1). assert (S2 := fun x => H _ _ x E2).
  destruct (decide (l1 ## l2)) as [?|Hnd]; [by right; right|].
  assert (Hx : exists x, x ∈ l1 ∩ l2). { apply set_choose. intros Hq. apply Hnd. set_solver. }
  destruct Hx as (x & Hx). apply elem_of_intersection in Hx as [Hx1 Hx2].
  assert (M1 : h1 ∈ l1) by (apply S1; destruct (proj1 (K h1) ltac:(by exists l1)) as [t Ht]; exists t; split; [done|by left]).
  assert (M2 : h2 ∈ l2) by (apply S2; destruct (proj1 (K h2) ltac:(by exists l2)) as [t Ht]; exists t; split; [done|by left]).
  destruct (loops_nest _ _ h1 h2 x Hne (proj1 (S1 x) Hx1) (proj1 (S2 x) Hx2)) as [[A N]|[A N]].
  - right. left. split; [intros y Hy; apply S1, A, S2, Hy|]. intros Hs. apply N, S2, Hs, M1.
  - left. split; [intros y Hy; apply S2, A, S1, Hy|]. intros Hs. apply N, S1, Hs, M2.
Qed.
Print Assumptions loops_nested.

(** No pair of loops is reported as overlapping. *)
Theorem loops_never_overlap : forall c d loops, built (c_graph c) -> dom_of c = Some d -> find_loops c d = Some loops ->
  overlapping (loop_entries loops) = [].
Proof.
  intros c d loops B E F. apply overlapping_nil; [apply entries_heads|]. intros [h1 l1] [h2 l2] H1%entries_spec H2%entries_spec Hne. by eapply loops_nested.
Qed.
Print Assumptions loops_never_overlap.

(** A loop gets a parent exactly when another loop strictly encloses it, and the parent is
    the innermost of these. *)
Theorem loop_parent_innermost : forall c d loops h l, built (c_graph c) -> dom_of c = Some d -> find_loops c d = Some loops -> loops !! h = Some l ->
  match loop_parent_of (loop_entries loops) (h, l) with
  | None => forall k lk, loops !! k = Some lk -> ~ l ⊂ lk
  | Some (p, lp) => loops !! p = Some lp /\ l ⊂ lp /\ forall k lk, loops !! k = Some lk -> l ⊂ lk -> lp ⊆ lk
  end.
Proof.
  intros c d loops h l B E F El. assert (HB := parent_best (loop_entries loops) (h, l)).
  assert (Self : forall k lk, loops !! k = Some lk -> l ⊂ lk -> k <> h) by (intros k lk Ek Hs ->; rewrite El in Ek; injection Ek as <-; by destruct Hs).
  destruct (loop_parent_of (loop_entries loops) (h, l)) as [[p lp]|] eqn:EP; cbn in HB.
  - destruct HB as (A1%entries_spec & A2 & A3 & _). split; [done|]. split; [done|]. intros k lk Ek Hs.
    destruct (decide (k = p)) as [->|Hkp]; [by rewrite A1 in Ek; injection Ek as <-|].
    assert (Hc : lp ⊂ lk); [|by destruct Hc].
    apply (parent_closest (loop_entries loops) (h, l) (p, lp) (k, lk)); try done.
    + intros [h1 l1] [h2 l2] H1%entries_spec H2%entries_spec Hne. by eapply loops_nested.
    + destruct (find_loops_exact c d B E) as (loops' & F' & K & H). rewrite F in F'. injection F' as <-. exists h. cbn. apply (H _ _ _ El).
      destruct (proj1 (K h) ltac:(by exists l)) as [t Ht]. exists t. split; [done|by left].
    + by apply entries_spec.
    + by eapply Self.
  - intros k lk Ek Hs. apply (HB (k, lk)); [by apply entries_spec|by eapply Self|done].
Qed.
Print Assumptions loop_parent_innermost.

(** The latches of a loop are the blocks that jump back to its header, and its exits are the
    edges that leave it. *)
Theorem loop_latches_exact : forall c d m h t, built (c_graph c) -> dom_of c = Some d -> dominates_graph d = Some m ->
  t ∈ loop_latches (c_graph c) m h <-> back_edge (edge (c_graph c)) (c_entry c) t h.
Proof.
  intros c d m h t B E Em. destruct (dominates_graph_exact c d B E) as (m' & Em' & Hm). rewrite Em in Em'. injection Em' as <-.
  rewrite loop_latches_spec by done. by rewrite Hm.
Qed.
Print Assumptions loop_latches_exact.
Theorem loop_exits_exact : forall c d loops h l x y, built (c_graph c) -> dom_of c = Some d -> find_loops c d = Some loops -> loops !! h = Some l ->
  (x, y) ∈ loop_exits (c_graph c) l <->
  edge (c_graph c) x y /\ in_loop (edge (c_graph c)) (c_entry c) h x /\ ~ in_loop (edge (c_graph c)) (c_entry c) h y.
Proof.
  intros c d loops h l x y B E F El. destruct (find_loops_exact c d B E) as (loops' & F' & _ & H). rewrite F in F'. injection F' as <-.
  rewrite loop_exits_spec, !(H _ _ _ El). tauto.
Qed.
Print Assumptions loop_exits_exact.

(** Three loops inside each other and one apart. *)
Definition nest_demo : cfg := Cfg (graph_of [(0, 1); (1, 2); (2, 3); (3, 3); (3, 4); (4, 2); (4, 5); (5, 1); (5, 6); (6, 6); (9, 3)]) ∅ 0.
Example nest_demo_ok : built (c_graph nest_demo) /\
  match dom_of nest_demo with
  | Some d => match find_loops nest_demo d with
              | Some loops => map (fun i => (i.1, option_map fst (loop_parent_of (loop_entries loops) i))) (loop_entries loops)
                  = [(1, None); (2, Some 1); (3, Some 2); (6, None)] /\ overlapping (loop_entries loops) = []
                  /\ map (fun i => loop_exits (c_graph nest_demo) i.2) (loop_entries loops) = [[(5, 6)]; [(4, 5)]; [(3, 4)]; []]
                  /\ option_map (fun m => map (fun i => loop_latches (c_graph nest_demo) m i.1) (loop_entries loops)) (dominates_graph d) = Some [[5]; [4]; [3]; [6]]
              | None => False
              end
  | None => False
  end.
Proof. split; [apply graph_of_built|vm_compute; auto]. Qed.
