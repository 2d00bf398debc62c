(** C81: pruning the control flow graph. *)
From stdpp Require Import base decidable list numbers gmap.
From Coq Require Import NArith ZArith.
From Verif Require Import VmBase RustStr ILModel CfgSpec CfgProofs ILSpec ILCheck PassModel DomModel DvnModel DvnSpec DvnWitness CfgPruneModel CfgPruneSpec CfgPruneProofs OptRoundModel.

Local Open Scope N_scope.

(** [r = false; if (c) r = true; f(r)], and the same once the constants are in the phi. *)
Definition choose (b0 b1 : block) (x y : arg) : cfg := program [(0, 1); (0, 2); (1, 2)]
  [(0, inst_bin 1 (ABuiltin [5]) OSub (ABuiltin [5]) :: b0 ++ [inst_cond_goto (AVar 1) 1 2]); (1, b1);
   (2, [dvn_phi 4 [(0, x); (1, y)]; inst_call None (ABuiltin [5]) (AConst KUndefined) [AVar 4]])].
Definition choose_const : cfg := choose [] [] (AConst (KBool false)) (AConst (KBool true)).
Definition choose_var : cfg := choose [inst_var_assign 2 (AConst (KBool false))] [inst_var_assign 3 (AConst (KBool true))] (AVar 2) (AVar 3).

(** Pruning removes the empty block of [choose_const] and gives its entry of the phi to
    the block above, whose own entry is lost: the program becomes [f(true)]. *)
Theorem pruning_preserves_refuted : exists V W (m : machine V W) c c' fuel e w n n' e1 w1 e2 w2,
  prog_ok c /\ strict_ssa c /\ phis_complete c /\ blocks_match c /\ built (c_graph c) /\ optpass_cfg_prune fuel c = Some (Some c') /\
  run m c n (start c e w) = Stopped e1 w1 /\ run m c' n' (start c' e w) = Stopped e2 w2 /\ w1 <> w2.
Proof.
  set (m := words false). set (c := choose_const). set (e := fun _ : N => yes). set (w := (yes, @nil (list word))).
  assert (T : match optpass_cfg_prune 5 c with
    | Some (Some c') => match run m c 2 (start c e w), run m c' 1 (start c' e w) with Stopped _ w1, Stopped _ w2 => negb (bool_decide (w1 = w2)) | _, _ => false end
    | _ => false end = true) by (vm_compute; reflexivity).
  destruct (optpass_cfg_prune 5 c) as [[c'|]|] eqn:E; [|discriminate T..]. 
  destruct (run m c 2 (start c e w)) as [|e1 w1] eqn:E1; [discriminate T|]. destruct (run m c' 1 (start c' e w)) as [|e2 w2] eqn:E2; [discriminate T|].
  apply negb_true_iff, bool_decide_eq_false in T.
  destruct (il_check_spec 3 c) as (H1 & H2 & H3 & H4); [apply program_built|vm_compute; reflexivity|].
  exists word, (word * list (list word))%type, m, c, c', 5%nat, e, w, 2%nat, 1%nat, e1, w1, e2, w2.
  split; [exact H1|]. split; [exact H2|]. split; [exact H3|]. split; [exact H4|]. split; [apply program_built|]. split; [exact E|]. split; [exact E1|]. split; [exact E2|exact T].
Qed.
Print Assumptions pruning_preserves_refuted.

(** So a round of the optimizer changes what [choose_var], the program as written, does:
    the earlier passes bring it to that form. *)
Theorem optimizer_round_refuted : exists V W (m : machine V W) ev c c' fuel e w n n' e1 w1 e2 w2,
  prog_ok c /\ strict_ssa c /\ phis_complete c /\ blocks_match c /\ calls_ok c /\ built (c_graph c) /\ sound_evaluator ev m /\ unaffected m c /\
  optimizer_round ev fuel c = Some (Some c') /\
  run m c n (start c e w) = Stopped e1 w1 /\ run m c' n' (start c' e w) = Stopped e2 w2 /\ w1 <> w2.
Proof.
  set (m := words false). set (c := choose_var). set (e := fun _ : N => yes). set (w := (yes, @nil (list word))).
  assert (T : match optimizer_round joiner 5 c with
    | Some (Some c') => match run m c 2 (start c e w), run m c' 1 (start c' e w) with Stopped _ w1, Stopped _ w2 => negb (bool_decide (w1 = w2)) | _, _ => false end
    | _ => false end = true) by (vm_compute; reflexivity).
  destruct (optimizer_round joiner 5 c) as [[c'|]|] eqn:E; [|discriminate T..]. 
  destruct (run m c 2 (start c e w)) as [|e1 w1] eqn:E1; [discriminate T|]. destruct (run m c' 1 (start c' e w)) as [|e2 w2] eqn:E2; [discriminate T|].
  apply negb_true_iff, bool_decide_eq_false in T.
  destruct (il_check_spec 3 c) as (H1 & H2 & H3 & H4); [apply program_built|vm_compute; reflexivity|].
  exists word, (word * list (list word))%type, m, joiner, c, c', 5%nat, e, w, 2%nat, 1%nat, e1, w1, e2, w2.
  split; [exact H1|]. split; [exact H2|]. split; [exact H3|]. split; [exact H4|]. split; [apply calls_okb_spec; vm_compute; reflexivity|]. split; [apply program_built|].
  split; [apply words_sound|]. split; [apply words_unaffected|]. split; [exact E|]. split; [exact E1|]. split; [exact E2|exact T].
Qed.
Print Assumptions optimizer_round_refuted.

(** Two empty exits, each reached by a conditional jump and by falling through: both are
    to be merged, but only the conditional jumps are redirected, and taking the second
    exit out panics. *)
Definition two_exits : cfg := program [(0, 1); (0, 2); (1, 3); (1, 5); (3, 5); (2, 4); (2, 6); (4, 6)]
  [(0, [inst_call (Some 1) (ABuiltin [5]) (AConst KUndefined) []; inst_cond_goto (AVar 1) 1 2]); (1, [inst_cond_goto (AVar 1) 5 3]); (2, [inst_cond_goto (AVar 1) 6 4]);
   (3, [inst_call None (ABuiltin [5]) (AConst KUndefined) []]); (4, [inst_call None (ABuiltin [5]) (AConst KUndefined) []]); (5, []); (6, [])].
Theorem pruning_panics_refuted : exists c fuel,
  prog_ok c /\ strict_ssa c /\ phis_complete c /\ blocks_match c /\ built (c_graph c) /\ optpass_cfg_prune fuel c = None.
Proof.
  exists two_exits, 5%nat. destruct (il_check_spec 7 two_exits) as (H1 & H2 & H3 & H4); [apply program_built|vm_compute; reflexivity|].
  split; [exact H1|]. split; [exact H2|]. split; [exact H3|]. split; [exact H4|]. split; [apply program_built|]. vm_compute; reflexivity.
Qed.
Print Assumptions pruning_panics_refuted.

(** Removing one block keeps what the program does, whatever the block holds and wherever
    it is, when it is [removable]: the condition the two programs above violate.  Each step
    of the new program is one or two of the old, and conversely the old program is at most
    one step ahead of some point of the new.  Missing: that the loop over all blocks only
    meets such blocks (it does not), and the merging of exits and moving of the entry. *)
Theorem pruning_block_preserves_partial : forall V W (m : machine V W) c cur c' leaf,
  prog_ok c -> phis_complete c -> built (c_graph c) -> forks_ok c -> removable c cur -> prune_bblock c cur = Some (c', leaf, true) ->
  forall e w n,
    (exists k, (n <= k <= 2 * n)%nat /\ same_point (run m c k (start c e w)) (run m c' n (start c' e w))) /\
    (exists n' k, (n <= n' <= n + 1)%nat /\ (k <= n')%nat /\ same_point (run m c n' (start c e w)) (run m c' k (start c' e w))).
Proof.
  intros V W m c cur c' leaf Hok Hph Hb Hf Hr Hp e w n. apply built_wf in Hb. pose proof (removed_holds c cur c' leaf Hb Hp) as RM.
  assert (H : together c cur (start c e w) (start c' e w)).
  { unfold start. rewrite (rm_entry _ _ _ RM). cbn. split; [done|]. split; [intros Heq; by apply (rm_ne _ _ _ RM)|]. split; [by left|]. done. }
  split.
  - destruct (sim_run c cur c' leaf Hok Hb Hph Hf Hr Hp RM m n _ _ H) as (k & Hk & Ht). exists k. split; [exact Hk|]. by eapply together_point.
  - destruct (sim_back c cur c' leaf Hok Hb Hph Hf Hr Hp RM m n _ _ H) as (n' & k & Hn & Hk & Ht). exists n', k. split; [exact Hn|]. split; [exact Hk|]. by eapply together_point.
Qed.
Print Assumptions pruning_block_preserves_partial.
(** [if (c) {} else g(); f(phi(false, true))]: the empty arm is removed, and the phi gets the
    entry for the block above. *)
Definition arms : cfg := program [(0, 1); (0, 2); (1, 3); (2, 3)]
  [(0, [inst_bin 1 (ABuiltin [5]) OSub (ABuiltin [5]); inst_cond_goto (AVar 1) 1 2]); (1, []); (2, [inst_call None (ABuiltin [6]) (AConst KUndefined) []]);
   (3, [dvn_phi 4 [(1, AConst (KBool false)); (2, AConst (KBool true))]; inst_call None (ABuiltin [5]) (AConst KUndefined) [AVar 4]])].
Example pruning_case : prog_ok arms /\ phis_complete arms /\ built (c_graph arms) /\ forks_ok arms /\ removable arms 1 /\
  exists c', prune_bblock arms 1 = Some (c', false, true) /\ block_of (c_blocks c') 3 !! O = Some (dvn_phi 4 [(2, AConst (KBool true)); (0, AConst (KBool false))]).
Proof.
  destruct (il_check_spec 3 arms) as (H1 & H2 & H3 & H4); [apply program_built|vm_compute; reflexivity|]. assert (Hw := built_wf _ (program_built _ _ : built (c_graph arms))).
  split; [exact H1|]. split; [exact H3|]. split; [apply program_built|]. split; [apply forks_check_spec; [exact Hw|exact H4|vm_compute; reflexivity]|].
  split; [apply removable_check_spec; [exact Hw|vm_compute; reflexivity]|].
  assert (T : match prune_bblock arms 1 with Some (c', false, true) => bool_decide (block_of (c_blocks c') 3 !! O = Some (dvn_phi 4 [(2, AConst (KBool true)); (0, AConst (KBool false))])) | _ => false end = true) by (vm_compute; reflexivity).
  destruct (prune_bblock arms 1) as [[[c' []] []]|] eqn:E; try discriminate T. exists c'. split; [reflexivity|]. apply bool_decide_eq_true in T. exact T.
Qed.
