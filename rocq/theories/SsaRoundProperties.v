(** C82 and C83: from a program as it is lowered to the end of the first passes. *)
From stdpp Require Import base decidable list numbers gmap.
From Coq Require Import NArith ZArith.
From Verif Require Import VmBase RustStr ILModel CfgSpec ILSpec ILCheck BranchProofs DvnModel DvnSpec DvnWitness SsaModel SsaSpec SsaWitness SsaUseProofs SsaFormProperties OptRoundModel RoundProperties SsaRoundProofs.
From Verif Require EvalModel.

Local Open Scope N_scope.

(** A program that writes its variables before it reads them does, after SSA construction,
    value numbering, dead code elimination and removal of copies, what it did before, block
    by block and effect by effect.  The phis must read only what is written, which SSA
    construction does not ensure (C83). *)
Theorem ssa_then_passes_preserve_partial : forall V W (m : machine V W) ev c n c1 n1 c2,
  source c n -> calls_ok c -> (forall x l k i, in_prog c l k i -> AVar x ∈ i_args i -> available c x l k) ->
  construct_ssa c n = Some (c1, n1) ->
  (forall x l k i p, in_prog c1 l k i -> is_phi i = true -> edge (c_graph c1) p l -> (p, AVar x) ∈ zip (i_labels i) (i_args i) ->
     available c1 x p (length (block_of (c_blocks c1) p))) ->
  sound_evaluator ev m -> unaffected m c -> straight_passes ev c1 = Some c2 ->
  forall e w k, same_on (fun _ => False) (run m c k (start c e w)) (run m c2 k (start c2 e w)).
Proof.
  intros V W m ev c n c1 n1 c2 S C Hr H Hp Hs Hu E e w k. destruct (ssa_ready c n c1 n1 S C H Hr Hp) as ((A1 & A2 & A3 & A4 & A5) & A6 & A7 & A8).
  eapply same_on_trans; [exact (ssa_construction_preserves_partial c n c1 n1 S H V W m e w k)|].
  exact (proj2 (straight_passes_preserve_partial V W m ev c1 c2 A1 A2 A3 A4 A5 A6 A7 A8 Hs (ssa_keeps_unaffected m c n c1 n1 S H Hu) E) e w k).
Qed.
Print Assumptions ssa_then_passes_preserve_partial.

(** Impossible branches too, unless a branch is then on a bigint constant (C34). *)
Theorem ssa_then_first_passes_preserve_partial : forall V W (m : machine V W) ev c n c1 n1 c2 c3 fuel,
  source c n -> calls_ok c -> (forall x l k i, in_prog c l k i -> AVar x ∈ i_args i -> available c x l k) ->
  construct_ssa c n = Some (c1, n1) ->
  (forall x l k i p, in_prog c1 l k i -> is_phi i = true -> edge (c_graph c1) p l -> (p, AVar x) ∈ zip (i_labels i) (i_args i) ->
     available c1 x p (length (block_of (c_blocks c1) p))) ->
  sound_evaluator ev m -> unaffected m c -> (forall k, m_truthy m (m_const m k) = to_boolean k) ->
  straight_passes ev c1 = Some c2 -> (forall l k i z, in_prog c2 l k i -> is_cond_goto i = true -> AConst (KBigInt z) ∉ i_args i) ->
  first_passes ev fuel c1 = Some (Some c3) ->
  forall e w k, same_on (fun _ => False) (run m c k (start c e w)) (run m c3 k (start c3 e w)).
Proof.
  intros V W m ev c n c1 n1 c2 c3 fuel S C Hr H Hp Hs Hu Ht E2 Hz E3 e w k. destruct (ssa_ready c n c1 n1 S C H Hr Hp) as ((A1 & A2 & A3 & A4 & A5) & A6 & A7 & A8).
  eapply same_on_trans; [exact (ssa_construction_preserves_partial c n c1 n1 S H V W m e w k)|].
  exact (proj2 (first_passes_preserve_partial V W m ev c1 c2 c3 fuel A1 A2 A3 A4 A5 A6 A7 A8 Hs (ssa_keeps_unaffected m c n c1 n1 S H Hu) Ht E2 Hz E3) e w k).
Qed.
Print Assumptions ssa_then_first_passes_preserve_partial.

(** Nothing panics on the way unless the evaluator does. *)
Theorem ssa_then_passes_end_partial : forall ev c n c1 n1,
  source c n -> calls_ok c -> (forall x l k i, in_prog c l k i -> AVar x ∈ i_args i -> available c x l k) ->
  construct_ssa c n = Some (c1, n1) ->
  (forall x l k i p, in_prog c1 l k i -> is_phi i = true -> edge (c_graph c1) p l -> (p, AVar x) ∈ zip (i_labels i) (i_args i) ->
     available c1 x p (length (block_of (c_blocks c1) p))) ->
  (exists c2, straight_passes ev c1 = Some c2) \/ exists op a b, ev_bin ev op a b = EvalModel.Panics.
Proof.
  intros ev c n c1 n1 S C Hr H Hp. destruct (ssa_ready c n c1 n1 S C H Hr Hp) as ((A1 & A2 & A3 & A4 & A5) & A6 & A7 & A8). by apply straight_passes_end.
Qed.
Print Assumptions ssa_then_passes_end_partial.

(** The loop of C83 meets all of this, and the phi it gets survives the passes. *)
Example ssa_then_passes_case : source counting 1 /\ calls_ok counting /\ (forall x l k i, in_prog counting l k i -> AVar x ∈ i_args i -> available counting x l k) /\
  sound_evaluator joiner (words false) /\ unaffected (words false) counting /\
  (forall k, m_truthy (words false) (m_const (words false) k) = to_boolean k) /\
  exists c1 n1 c2 c3, construct_ssa counting 1 = Some (c1, n1) /\
    (forall x l k i p, in_prog c1 l k i -> is_phi i = true -> edge (c_graph c1) p l -> (p, AVar x) ∈ zip (i_labels i) (i_args i) ->
       available c1 x p (length (block_of (c_blocks c1) p))) /\
    straight_passes joiner c1 = Some c2 /\ (forall l k i z, in_prog c2 l k i -> is_cond_goto i = true -> AConst (KBigInt z) ∉ i_args i) /\
    first_passes joiner 5 c1 = Some (Some c3) /\ map is_phi (block_of (c_blocks c2) 1) = [true; false].
Proof.
  split; [apply (source_check_spec _ _ [[0]; [1; 0]; [2; 1; 0]; [3; 1; 0]]); [apply program_built|vm_compute; reflexivity]|]. split; [apply calls_okb_spec; vm_compute; reflexivity|].
  split; [apply (reads_check_spec 4); [apply program_built|vm_compute; reflexivity]|]. split; [apply words_sound|]. split; [apply words_unaffected|]. split; [done|].
  assert (T : match construct_ssa counting 1 with
    | Some (c1, _) => il_check 4 c1 && bool_decide (c_graph c1 = c_graph counting) &&
        match straight_passes joiner c1, first_passes joiner 5 c1 with
        | Some c2, Some (Some _) => bool_decide (map is_phi (block_of (c_blocks c2) 1) = [true; false]) && forallb (fun '(_, _, i) => forallb (fun a => match a with AConst (KBigInt _) => false | _ => true end) (i_args i)) (all_at c2)
        | _, _ => false end
    | None => false end = true) by (vm_compute; reflexivity).
  destruct (construct_ssa counting 1) as [[c1 n1]|]; [|discriminate T]. apply andb_prop in T as [[T1 T2%bool_decide_eq_true]%andb_prop T3]. destruct (straight_passes joiner c1) as [c2|] eqn:E; [|discriminate T3].
  destruct (first_passes joiner 5 c1) as [[c3|]|] eqn:E3; try discriminate T3. apply andb_prop in T3 as [T3%bool_decide_eq_true T4].
  exists c1, n1, c2, c3. split; [done|]. split; [|split; [done|split; [|done]]].
  2: { intros l k i z Hi%all_at_spec _ Hz. rewrite forallb_forall in T4. specialize (T4 (l, k, i) ltac:(by apply elem_of_list_In)). cbn beta iota in T4. rewrite forallb_forall in T4. apply elem_of_list_In in Hz. by specialize (T4 _ Hz). }
  assert (B : built (c_graph c1)) by (rewrite T2; apply program_built). destruct (il_check_spec 4 c1 B T1) as (_ & [_ _ P] & _). exact P.
Qed.
