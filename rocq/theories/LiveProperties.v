(** C35, C36: liveness, interference and register allocation. *)
From stdpp Require Import base decidable list numbers gmap relations sets sorting.
From Coq Require Import NArith Lia.
From Verif Require Import VmBase RustStr ILModel CfgSpec CfgProofs ILSpec PassProofs BranchProofs SsaProofs ILCheck LiveModel LiveSpec LiveProofs.

Local Open Scope N_scope.

(** ** C36 *)
(** Every reported variable is live. *)
Theorem live_ins_sound : forall sinks c fuel m l k s x,
  (forall l, l ∈ labels (c_graph c) -> is_Some (c_blocks c !! l)) ->
  calculate_live_ins sinks c (S fuel) = Some (Some m) -> m !! (l, k) = Some s -> x ∈ s -> live c x l k.
Proof.
  intros sinks c fuel m l k s x Hl E Hm Hx. destruct (live_ins_exact sinks c fuel Hl) as (m' & E' & H1 & H2). rewrite E in E'. injection E' as <-.
  destruct (H2 l k) as [Hin [i0 Hi0]]; [eauto|]. destruct (H1 l k i0 Hi0 Hin) as (s' & Hs' & Hs). rewrite Hm in Hs'. injection Hs' as <-. apply Hs in Hx as (k' & i & Hk & Hi & Ha & Hw).
  clear -Hk Hi Ha Hw. assert (exists d, k' = (k + d)%nat) as [d ->] by (exists (k' - k)%nat; lia). clear Hk. revert k Hi Hw. induction d as [|d IH]; intros k Hi Hw.
  - rewrite Nat.add_0_r in Hi. by eapply live_read.
  - assert (exists j, in_prog c l k j) as [j Hj]. { unfold in_prog in *. apply lookup_lt_Some in Hi. apply lookup_lt_is_Some. lia. }
    eapply live_on; [done| |]; [apply (Hw k j); [lia|done]|]. apply IH; [by replace (S k + d)%nat with (k + S d)%nat by lia|]. intros j' i' Hj'. apply Hw. lia.
Qed.
Print Assumptions live_ins_sound.
(** What is reported is exactly what is live within the block: the analysis of every
    program ends at once, and nothing flows from a block to its predecessors. *)
Theorem live_ins_exact_partial : forall sinks c fuel,
  (forall l, l ∈ labels (c_graph c) -> is_Some (c_blocks c !! l)) ->
  exists m, calculate_live_ins sinks c (S fuel) = Some (Some m) /\
    forall l k i, in_prog c l k i -> l ∈ labels (c_graph c) ->
      exists s, m !! (l, k) = Some s /\ forall x, x ∈ s <-> live_locally c x l k.
Proof. intros sinks c fuel H. destruct (live_ins_exact sinks c fuel H) as (m & E & H1 & _). eauto. Qed.
Print Assumptions live_ins_exact_partial.
(** The cause: the work list of a backward analysis starts with the virtual exit only, whose
    state never changes, so every block keeps the bottom state. *)
Theorem backward_analysis_propagates_refuted : forall (S : Type) (Eq : EqDecision S) (a : analysis S) sinks c fuel,
  a_dir a = Backward -> a_boundary a = a_bottom a ->
  exists blocks, run_dataflow a sinks c VirtualExit (Datatypes.S fuel) = Some (Some blocks) /\
    forall l b, blocks !! l = Some b -> b_entry b = a_bottom a /\ b_exit b = a_bottom a.
Proof.
  intros S Eq a sinks c fuel Hd Hb. eexists. split; [by apply backward_stays_bottom|]. intros l b H%lookup_gset_to_gmap_Some. destruct H as [_ <-]. done.
Qed.
Print Assumptions backward_analysis_propagates_refuted.

(** [v0 = f(); v1 = f(); g(v1)], then in another block [g(v0)]: v0 is live across the first
    block but not reported. *)
Definition two_blocks : cfg := program [(0, 1)]
  [(0, [inst_call (Some 0) (ABuiltin []) (AConst KUndefined) []; inst_call (Some 1) (ABuiltin []) (AConst KUndefined) []; inst_call None (ABuiltin []) (AConst KUndefined) [AVar 1]]);
   (1, [inst_call None (ABuiltin []) (AConst KUndefined) [AVar 0]])].
Lemma two_blocks_live : live two_blocks 0 0 2 /\ live two_blocks 1 0 2.
Proof.
  split; [|eapply live_read; [vm_compute; reflexivity|cbn; set_solver]].
  eapply live_on; [vm_compute; reflexivity|cbn; set_solver|]. change 3%nat with (length (block_of (c_blocks two_blocks) 0)). apply (live_edge _ _ 0 1).
  - unfold edge. apply (bool_decide_eq_true_1 _). vm_compute. reflexivity.
  - eapply live_read; [vm_compute; reflexivity|cbn; set_solver].
Qed.
Lemma two_blocks_ok : forall l, l ∈ labels (c_graph two_blocks) -> is_Some (c_blocks two_blocks !! l).
Proof. destruct (il_check_spec 3 two_blocks) as (_ & _ & _ & [H _]); [apply program_built|vm_compute; reflexivity|exact H]. Qed.
Theorem live_ins_complete_refuted : exists c m l k i s x,
  prog_ok c /\ strict_ssa c /\ (forall sinks fuel, calculate_live_ins sinks c (S fuel) = Some (Some m)) /\
  in_prog c l k i /\ m !! (l, k) = Some s /\ live c x l k /\ x ∉ s.
Proof.
  exists two_blocks. destruct (calculate_live_ins (fun _ => []) two_blocks 1) as [[m|]|] eqn:E; [|vm_compute in E; discriminate..].
  assert (A : forall sinks fuel, calculate_live_ins sinks two_blocks (S fuel) = Some (Some m)). { intros sinks fuel. unfold calculate_live_ins in *. rewrite backward_stays_bottom in * by done. done. }
  assert (T : match calculate_live_ins (fun _ => []) two_blocks 1 with Some (Some m) => match m !! (0, 2%nat) with Some s => negb (bool_decide (0 ∈ s)) | None => false end | _ => false end = true) by (vm_compute; reflexivity). rewrite E in T.
  destruct (m !! (0, 2%nat)) as [s|] eqn:Es; [|done]. apply negb_true_iff, bool_decide_eq_false in T.
  destruct (il_check_spec 3 two_blocks) as (H1 & H2 & _); [apply program_built|vm_compute; reflexivity|].
  exists m, 0, 2%nat, (inst_call None (ABuiltin []) (AConst KUndefined) [AVar 1]), s, 0. split; [done|]. split; [done|]. split; [done|]. split; [vm_compute; reflexivity|]. split; [done|]. split; [apply two_blocks_live|done].
Qed.
Print Assumptions live_ins_complete_refuted.

(** A block where a variable is read after another is written. *)
Example live_ins_case : let c := program [(0, 1)] [(0, [inst_var_assign 0 (AVar 1); inst_var_assign 2 (AVar 0)]); (1, [])] in
  (forall l, l ∈ labels (c_graph c) -> is_Some (c_blocks c !! l)) /\
  match calculate_live_ins (fun _ => []) c 1 with Some (Some m) => elements <$> m !! (0, 0%nat) = Some [1] /\ elements <$> m !! (0, 1%nat) = Some [0] | _ => False end.
Proof.
  cbv zeta. split; [|vm_compute; split; reflexivity].
  assert (T : labels (c_graph (program [(0, 1)] [(0, [inst_var_assign 0 (AVar 1); inst_var_assign 2 (AVar 0)]); (1, [])])) ⊆ dom (c_blocks (program [(0, 1)] [(0, [inst_var_assign 0 (AVar 1); inst_var_assign 2 (AVar 0)]); (1, [])]))).
  { apply (bool_decide_eq_true_1 _). vm_compute. reflexivity. }
  intros l Hl. apply elem_of_dom. auto.
Qed.

(** ** C35 *)
(** Two variables interfere exactly when they are live together somewhere. *)
Theorem interference_is_live_together : forall sets x y,
  y ∈ default ∅ (calculate_interference_graph sets !! x) <-> x <> y /\ exists s, s ∈ sets /\ x ∈ s /\ y ∈ s.
Proof. intros sets x y. apply (proj1 (interference_exact sets)). Qed.
Print Assumptions interference_is_live_together.

(** For every undirected graph without loops allocation succeeds, gives a register to every
    node and to nothing else, and never the same one to neighbours. *)
Theorem allocation_is_proper : forall g : gmap N (gset N),
  (forall a b, b ∈ default ∅ (g !! a) -> a ∈ default ∅ (g !! b) /\ a <> b) ->
  exists alloc, allocate_registers g = Some alloc /\
    (forall x, is_Some (alloc !! x) <-> is_Some (g !! x)) /\
    (forall a b ra rb, b ∈ default ∅ (g !! a) -> alloc !! a = Some ra -> alloc !! b = Some rb -> ra <> rb) /\
    (forall a r, alloc !! a = Some r -> r < N.of_nat (size g)).
Proof.
  intros g U. destruct (allocate_spec g U) as (alloc & E & H1 & H2 & H3). exists alloc. split; [done|]. split; [|done]. intros x. by rewrite H1, elem_of_dom.
Qed.
Print Assumptions allocation_is_proper.

Example allocation_case : let g : gmap N (gset N) := {[ 0 := {[ 1; 2 ]}; 1 := {[ 0; 2 ]}; 2 := {[ 0; 1; 3 ]}; 3 := {[ 2 ]} ]} in
  (forall a b, b ∈ default ∅ (g !! a) -> a ∈ default ∅ (g !! b) /\ a <> b) /\
  match allocate_registers g with Some m => map_to_list m ≡ₚ [(0, 2); (1, 1); (2, 0); (3, 1)] | None => False end.
Proof.
  cbv zeta. set (g := {[ 0 := _; 1 := _; 2 := _; 3 := _ ]} : gmap N (gset N)). split.
  - assert (T : map_Forall (fun a s => set_Forall (fun b => a ∈ (default ∅ (g !! b) : gset N) /\ a <> b) s) g) by (apply (bool_decide_eq_true_1 _); vm_compute; reflexivity).
    intros a b H. destruct (g !! a) as [s|] eqn:E; [|cbn in H; by apply not_elem_of_empty in H]. exact (T a s E b H).
  - assert (T : match allocate_registers g with Some m => bool_decide (map_to_list m ≡ₚ [(0, 2); (1, 1); (2, 0); (3, 1)]) | None => false end = true) by (vm_compute; reflexivity).
    destruct (allocate_registers g); [|done]. by apply bool_decide_eq_true in T.
Qed.

(** From live sets to registers. *)
Theorem registers_respect_live_sets : forall sets : list (gset N),
  exists alloc, allocate_registers (calculate_interference_graph sets) = Some alloc /\
    (forall x, is_Some (alloc !! x) <-> exists s, s ∈ sets /\ x ∈ s) /\
    forall s x y rx ry, s ∈ sets -> x ∈ s -> y ∈ s -> x <> y -> alloc !! x = Some rx -> alloc !! y = Some ry -> rx <> ry.
Proof.
  intros sets. destruct (interference_exact sets) as [H1 H2]. destruct (allocate_spec (calculate_interference_graph sets)) as (alloc & E & K1 & K2 & _).
  { intros a b (Hne & s & Hs & Ha & Hb)%H1. split; [|done]. apply H1. split; [done|]. eauto. }
  exists alloc. split; [done|]. split; [intros x; by rewrite K1, H2|]. intros s x y rx ry Hs Hx Hy Hne. apply K2. apply H1. split; [done|]. eauto.
Qed.
Print Assumptions registers_respect_live_sets.

(** With the computed liveness, variables that are live together can share a register. *)
Theorem registers_respect_liveness_refuted : exists c m alloc x y l k r,
  prog_ok c /\ strict_ssa c /\ (forall sinks fuel, calculate_live_ins sinks c (S fuel) = Some (Some m)) /\
  allocate_registers (calculate_interference_graph (map snd (map_to_list m))) = Some alloc /\
  x <> y /\ live c x l k /\ live c y l k /\ alloc !! x = Some r /\ alloc !! y = Some r.
Proof.
  exists two_blocks. destruct (calculate_live_ins (fun _ => []) two_blocks 1) as [[m|]|] eqn:E; [|vm_compute in E; discriminate..].
  assert (A : forall sinks fuel, calculate_live_ins sinks two_blocks (S fuel) = Some (Some m)). { intros sinks fuel. unfold calculate_live_ins in *. rewrite backward_stays_bottom in * by done. done. }
  assert (T : match calculate_live_ins (fun _ => []) two_blocks 1 with Some (Some m) => match allocate_registers (calculate_interference_graph (map snd (map_to_list m))) with Some al => bool_decide (al !! 0 = Some 0 /\ al !! 1 = Some 0) | None => false end | _ => false end = true) by (vm_compute; reflexivity). rewrite E in T.
  destruct (allocate_registers _) as [al|] eqn:Eal; [|done]. apply bool_decide_eq_true in T as [T0 T1].
  destruct (il_check_spec 3 two_blocks) as (H1 & H2 & _); [apply program_built|vm_compute; reflexivity|]. destruct two_blocks_live as [L0 L1].
  exists m, al, 0, 1, 0, 2%nat, 0. done.
Qed.
Print Assumptions registers_respect_liveness_refuted.
