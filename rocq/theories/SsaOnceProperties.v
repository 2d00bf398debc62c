(** C83: SSA form writes every variable once. *)
From stdpp Require Import base decidable list numbers gmap.
From Coq Require Import NArith ZArith.
From Verif Require Import VmBase RustStr ILModel CfgSpec ILSpec ILCheck DvnWitness SsaModel SsaSpec SsaWitness SsaOnceProofs.

Local Open Scope N_scope.

(** Of all instructions of the result, phis included, one at most writes a given variable. *)
Theorem ssa_single_assignment : forall c n c' n', source c n -> construct_ssa c n = Some (c', n') ->
  forall x l k l' k', defines c' x l k -> defines c' x l' k' -> l = l' /\ k = k'.
Proof. intros c n c' n' [] H. by apply (ssa_single c n) with (n' := n'). Qed.
Print Assumptions ssa_single_assignment.

(** [if (f) { x = f(); f(x) } f()]: one arm writes [x], and reads it only afterwards. *)
Definition one_arm : cfg := program [(0, 1); (0, 2); (1, 2)]
  [(0, [inst_cond_goto (ABuiltin [5]) 1 2]);
   (1, [inst_call (Some 0) (ABuiltin [5]) (AConst KUndefined) []; inst_call None (ABuiltin [5]) (AConst KUndefined) [AVar 0]]);
   (2, [inst_call None (ABuiltin [5]) (AConst KUndefined) []])].
Example one_arm_source : source one_arm 1.
Proof. apply (source_check_spec _ _ [[0]; [1; 0]; [2; 0]]); [apply program_built|vm_compute; reflexivity]. Qed.

(** The form is not strict, even for programs that write variables before they read them:
    the phi put after the branch reads a variable that is never written. *)
Theorem ssa_strict_refuted : exists c n c' n', source c n /\ (forall x l k i, in_prog c l k i -> AVar x ∈ i_args i -> available c x l k) /\
  construct_ssa c n = Some (c', n') /\ ~ strict_ssa c'.
Proof.
  assert (T : match construct_ssa one_arm 1 with
    | Some (c', _) => bool_decide (block_of (c_blocks c') 0 = [inst_cond_goto (ABuiltin [5]) 1 2] /\ c_entry c' = 0 /\ 2 ∈ children (c_graph c') 0 /\
        block_of (c_blocks c') 2 !! 0%nat = Some (dvn_phi 2 [(0, AVar 0); (1, AVar 1)]))
    | None => false end = true) by (vm_compute; reflexivity).
  destruct (construct_ssa one_arm 1) as [[c' n']|] eqn:E; [|discriminate T]. apply bool_decide_eq_true in T as (B0 & He & Hc & B2).
  exists one_arm, 1, c', n'. split; [apply one_arm_source|]. split; [|split; [exact E|]].
  - intros x l k i Hi Hx p _. right. unfold in_prog in Hi.
    assert (L : l = 0 \/ l = 1 \/ l = 2). { unfold block_of in Hi. destruct (c_blocks one_arm !! l) as [is|] eqn:El; [|done]. apply elem_of_dom_2 in El. assert (D : dom (c_blocks one_arm) = {[0; 1; 2]}) by (apply (bool_decide_eq_true_1 _); vm_compute; reflexivity). rewrite D in El. clear -El. set_solver. }
    destruct L as [->|[->| ->]].
    + assert (Bl : block_of (c_blocks one_arm) 0 = [inst_cond_goto (ABuiltin [5]) 1 2]) by (vm_compute; reflexivity). rewrite Bl in Hi. destruct k as [|k]; [|done]. injection Hi as <-. by apply elem_of_list_singleton in Hx.
    + assert (Bl : block_of (c_blocks one_arm) 1 = [inst_call (Some 0) (ABuiltin [5]) (AConst KUndefined) []; inst_call None (ABuiltin [5]) (AConst KUndefined) [AVar 0]]) by (vm_compute; reflexivity). rewrite Bl in Hi.
      destruct k as [|[|k]]; [| |done]; injection Hi as <-; cbn in Hx.
      * exfalso. clear -Hx. set_solver.
      * assert (x = 0) as -> by (clear -Hx; set_solver). exists 0%nat. split; [apply Nat.lt_0_1|]. eexists. unfold in_prog. rewrite Bl. split; [reflexivity|]. apply elem_of_list_singleton. reflexivity.
    + assert (Bl : block_of (c_blocks one_arm) 2 = [inst_call None (ABuiltin [5]) (AConst KUndefined) []]) by (vm_compute; reflexivity). rewrite Bl in Hi. destruct k as [|k]; [|done]. injection Hi as <-. cbn in Hx. exfalso. clear -Hx. set_solver.
  - intros [_ _ H]. destruct (H 0 2 0%nat _ 0 B2 eq_refl Hc ltac:(constructor) []) as [(l' & k' & Hl & _)|(k' & _ & i & Hi & Hx)].
    + rewrite <- He at 1. constructor.
    + by apply elem_of_nil in Hl.
    + unfold in_prog in Hi. rewrite B0 in Hi. destruct k' as [|k']; [|done]. injection Hi as <-. by apply elem_of_nil in Hx.
Qed.
Print Assumptions ssa_strict_refuted.
