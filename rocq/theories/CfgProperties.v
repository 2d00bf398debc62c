(** C28, C29: graph edges stay symmetric; removal of unreachable blocks is exact. *)
From stdpp Require Import base decidable list numbers gmap relations sets sorting.
From Coq Require Import NArith.
From Verif Require Import RustStr ILModel CfgSpec CfgProofs.

Local Open Scope N_scope.

(** ** C28 *)
Theorem graph_symmetric : forall g a b, built g ->
  (b ∈ children g a <-> a ∈ parents g b) /\ (b ∈ children g a -> a ∈ labels g /\ b ∈ labels g).
Proof. intros g a b [H1 H2]%built_wf. split; auto. Qed.
Print Assumptions graph_symmetric.

Theorem connect_adds_edge : forall g p c a b,
  edge (connect g p c) a b <-> edge g a b \/ (a = p /\ b = c).
Proof. intros. apply connect_edge. Qed.
Print Assumptions connect_adds_edge.
Theorem connect_adds_nodes : forall g p c n, n ∈ labels (connect g p c) <-> n = p \/ n = c \/ n ∈ labels g.
Proof. intros. rewrite connect_labels. set_solver. Qed.
Print Assumptions connect_adds_nodes.

(** [disconnect] panics exactly when an end is missing, and removes one edge. *)
Theorem disconnect_removes_edge : forall g p c, built g ->
  match disconnect g p c with
  | None => p ∉ labels g \/ c ∉ labels g
  | Some g' => p ∈ labels g /\ c ∈ labels g /\ labels g' = labels g /\
      forall a b, edge g' a b <-> edge g a b /\ ~ (a = p /\ b = c)
  end.
Proof.
  intros g p c B. destruct (disconnect g p c) as [g'|] eqn:E.
  - destruct (disconnect_inv _ _ _ _ E) as [Hp Hc]. destruct (disconnect_spec g p c Hp Hc) as (g2 & E2 & L & C & _).
    rewrite E in E2. injection E2 as <-. split; [done|]. split; [done|]. split; [done|].
    intros a b. unfold edge. rewrite C. case_decide; subst; set_solver.
  - destruct (decide (p ∈ labels g)); [|auto]. destruct (decide (c ∈ labels g)); [|auto].
    destruct (disconnect_spec g p c) as (g2 & E2 & _); [done..|congruence].
Qed.
Print Assumptions disconnect_removes_edge.

(** [pop] panics exactly when the node is missing or still connected. *)
Theorem pop_removes_node : forall g n, built g ->
  match pop g n with
  | None => n ∉ labels g \/ exists m, edge g n m \/ edge g m n
  | Some g' => n ∈ labels g /\ (forall m, ~ edge g n m /\ ~ edge g m n) /\
      (forall m, m ∈ labels g' <-> m ∈ labels g /\ m <> n) /\ forall a b, edge g' a b <-> edge g a b
  end.
Proof.
  intros g n [W1 W2]%built_wf. destruct (pop g n) as [g'|] eqn:E.
  - destruct (pop_inv _ _ _ E) as (Hn & P & C & ->). split; [done|].
    assert (D : forall m, ~ edge g n m /\ ~ edge g m n) by (intros m; unfold edge; rewrite (W1 m n), P, C; set_solver).
    split; [done|]. split.
    + intros m. unfold labels. rewrite dom_delete. set_solver.
    + intros a b. unfold edge. rewrite children_delete. case_decide; [|done]. subst. split; [set_solver|]. intros Hx. by destruct (D b) as [[] _].
  - destruct (decide (n ∈ labels g)) as [Hn|]; [|auto]. right.
    destruct (decide (parents g n = ∅)) as [P|P].
    + destruct (decide (children g n = ∅)) as [C|C]; [by rewrite pop_total in E|].
      apply set_choose_L in C as [m Hm]. exists m. by left.
    + apply set_choose_L in P as [m Hm]. exists m. right. by apply W1.
Qed.
Print Assumptions pop_removes_node.

(** [contract] panics exactly when the node is missing; it bypasses the node. *)
Theorem contract_bypasses_node : forall g n, built g ->
  match contract g n with
  | None => n ∉ labels g
  | Some g' => n ∈ labels g /\ (forall m, m ∈ labels g' <-> m ∈ labels g /\ m <> n) /\
      forall a b, edge g' a b <-> a <> n /\ b <> n /\ (edge g a b \/ (edge g a n /\ edge g n b))
  end.
Proof.
  intros g n W%built_wf. destruct (contract g n) as [g'|] eqn:E.
  - pose proof (contract_inv _ _ _ E) as Hn. split; [done|]. split; [|intros; by apply contract_edge].
    destruct (contract_spec g n W Hn) as (g2 & E2 & L & _). rewrite E in E2. injection E2 as <-. intros m. rewrite L. set_solver.
  - intros Hn. destruct (contract_spec g n W Hn) as (g2 & E2 & _). congruence.
Qed.
Print Assumptions contract_bypasses_node.

(** The graphs the optimizer makes are built by these operations. *)
Theorem cfg_graphs_are_built : forall b order c, from_bblocks b order = Some c -> built (c_graph c).
Proof. exact from_bblocks_built. Qed.
Print Assumptions cfg_graphs_are_built.

Definition demo_ops : list graph_op :=
  [GConnect 0 1; GConnect 0 2; GConnect 1 3; GConnect 2 3; GConnect 3 3; GConnect 3 0; GConnect 4 3; GConnect 5 6;
   GContract 1; GConnect 7 8; GDisconnect 7 8; GPop 8].
Definition demo_graph : graph := match graph_run ∅ demo_ops with Some g => g | None => ∅ end.
Example demo_built : built demo_graph.
Proof.
  exists demo_ops. unfold demo_graph. assert (H : match graph_run ∅ demo_ops with Some _ => true | None => false end = true) by (vm_compute; reflexivity).
  destruct (graph_run ∅ demo_ops); done.
Qed.
Example demo_edges : children demo_graph 0 = {[2; 3]} /\ parents demo_graph 3 = {[0; 2; 3; 4]} /\
  labels demo_graph = {[0; 2; 3; 4; 5; 6; 7]} /\ contract demo_graph 3 <> None /\ disconnect demo_graph 0 2 <> None /\
  pop demo_graph 7 <> None /\ pop demo_graph 5 = None /\ contract demo_graph 1 = None.
Proof.
  assert (S : forall {A} (o : option A), match o with Some _ => true | None => false end = true -> o <> None) by (intros A [x|]; done).
  assert (N : forall {A} (o : option A), match o with Some _ => true | None => false end = false -> o = None) by (intros A [x|]; done).
  split; [apply (bool_decide_eq_true_1 _); vm_compute; reflexivity|]. split; [apply (bool_decide_eq_true_1 _); vm_compute; reflexivity|].
  split; [apply (bool_decide_eq_true_1 _); vm_compute; reflexivity|]. do 3 (split; [apply S; vm_compute; reflexivity|]).
  split; apply N; vm_compute; reflexivity.
Qed.

(** ** C29 *)
Theorem find_unreachable_exact : forall g entry, built g -> exists dead, find_unreachable g entry = Some dead /\
  NoDup dead /\ StronglySorted N.le dead /\ forall n, n ∈ dead <-> n ∈ labels g /\ ~ reaches g entry n.
Proof. intros g e W%built_wf. by apply find_unreachable_spec. Qed.
Print Assumptions find_unreachable_exact.

(** Removal succeeds, drops exactly the unreachable nodes and their blocks, and leaves the
    reachable part (nodes, edges, instructions, entry) as it was. *)
Theorem pop_unreachable_exact_partial : forall c, built (c_graph c) -> (forall n, n ∈ labels (c_graph c) -> is_Some (c_blocks c !! n)) ->
  exists c' dead, find_and_pop_unreachable c = Some (c', dead) /\ c_entry c' = c_entry c /\ built (c_graph c') /\
    (forall n, n ∈ dead <-> n ∈ labels (c_graph c) /\ ~ reaches (c_graph c) (c_entry c) n) /\
    (forall n, n ∈ labels (c_graph c') <-> n ∈ labels (c_graph c) /\ reaches (c_graph c) (c_entry c) n) /\
    (forall a b, reaches (c_graph c) (c_entry c) a -> edge (c_graph c') a b <-> edge (c_graph c) a b) /\
    (forall n, reaches (c_graph c) (c_entry c) n -> c_blocks c' !! n = c_blocks c !! n) /\
    (forall n, n ∈ labels (c_graph c) -> ~ reaches (c_graph c) (c_entry c) n -> c_blocks c' !! n = None).
Proof.
  intros c B HB. destruct (pop_unreachable_spec c) as (c' & dead & E & He & _ & D & L & Ed & Bl); [by apply built_wf|intros n Hn; by apply elem_of_dom, HB|].
  exists c', dead. split; [done|]. split; [done|]. split; [by eapply pop_unreachable_built|]. split; [done|]. split; [done|].
  split; [intros a b R; rewrite Ed; tauto|]. split.
  - intros n R. rewrite Bl. case_decide as Hd; [|done]. apply D in Hd as [_ Hd]. done.
  - intros n Hn R. rewrite Bl. case_decide as Hd; [done|]. destruct Hd. by apply D.
Qed.
Print Assumptions pop_unreachable_exact_partial.

(** "Every unreachable block is removed" is false: a block with no edges is in no graph
    node, so it is not looked at. [label 5: goto 5], with 6 the next label, ends in the
    unreachable empty block 6, which stays. *)
Definition cfg_of (insts : list inst) (next : N) : option cfg :=
  match convert_insts_to_bblocks insts next with Some (b, order, _) => from_bblocks b order | None => None end.
Definition stray_insts : list inst := [inst_label 5; inst_goto 5].
Theorem all_unreachable_blocks_removed_refuted : exists insts next c c' dead,
  cfg_of insts next = Some c /\ find_and_pop_unreachable c = Some (c', dead) /\
  exists n, is_Some (c_blocks c' !! n) /\ ~ reaches (c_graph c) (c_entry c) n.
Proof.
  exists stray_insts, 6.
  assert (T : match cfg_of stray_insts 6 with
      | Some c => match find_and_pop_unreachable c with
          | Some (c', _) => bool_decide (6 ∈ dom (c_blocks c')) && bool_decide (map_Forall (fun _ x => g_children x ⊆ {[5]}) (c_graph c)) && bool_decide (c_entry c = 0)
          | None => false
          end
      | None => false
      end = true) by (vm_compute; reflexivity).
  destruct (cfg_of stray_insts 6) as [c|]; [|done]. destruct (find_and_pop_unreachable c) as [[c' dead]|] eqn:E; [|done].
  apply andb_prop in T as [T T3]. apply andb_prop in T as [T1 T2]. apply bool_decide_eq_true in T1, T2, T3.
  exists c, c', dead. split; [done|]. split; [done|]. exists 6. split; [by apply elem_of_dom|]. rewrite T3. intros R.
  apply rtc_inv_r in R as [R|(y & _ & R)]; [done|]. unfold edge, children in R. destruct (c_graph c !! y) as [x|] eqn:Ex; [|set_solver].
  apply (T2 y x) in Ex. set_solver.
Qed.
Print Assumptions all_unreachable_blocks_removed_refuted.

Definition with_blocks (g : graph) (b : block) : cfg := Cfg g (gset_to_gmap b (labels g)) 0.
Lemma with_blocks_ok g b n : n ∈ labels (c_graph (with_blocks g b)) -> is_Some (c_blocks (with_blocks g b) !! n).
Proof. intros Hn. exists b. apply lookup_gset_to_gmap_Some. done. Qed.
Definition demo_cfg : cfg := with_blocks demo_graph [inst_var_assign 1 (AConst KNull)].
Example demo_cfg_ok : built (c_graph demo_cfg) /\ (forall n, n ∈ labels (c_graph demo_cfg) -> is_Some (c_blocks demo_cfg !! n)) /\
  option_map snd (find_and_pop_unreachable demo_cfg) = Some [4; 5; 6; 7].
Proof.
  split; [exact demo_built|]. split; [exact (with_blocks_ok demo_graph [inst_var_assign 1 (AConst KNull)])|vm_compute; reflexivity].
Qed.
