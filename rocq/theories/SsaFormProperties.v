(** C83: building SSA form. *)
From stdpp Require Import base decidable list numbers gmap.
From Coq Require Import NArith ZArith.
From Verif Require Import VmBase RustStr ILModel CfgSpec ILSpec ILCheck DvnWitness SsaModel SsaSpec SsaWitness SsaBuildProofs.

Local Open Scope N_scope.

(** A program and its SSA form go through the same blocks and have the same effects, step
    by step, on every machine and from every start. *)
Theorem ssa_construction_preserves_partial : forall c n c' n', source c n -> construct_ssa c n = Some (c', n') ->
  forall V W (m : machine V W) e w k, same_on (fun _ => False) (run m c k (start c e w)) (run m c' k (start c' e w)).
Proof. intros c n c' n' [] H. by apply (ssa_preserves c n) with (n' := n'). Qed.
Print Assumptions ssa_construction_preserves_partial.

(** [x = f(); while (x) x = f(x); f(x)]: the loop gets a phi. *)
Definition counting : cfg := program [(0, 1); (1, 2); (2, 1); (1, 3)]
  [(0, [inst_call (Some 0) (ABuiltin [5]) (AConst KUndefined) []]); (1, [inst_cond_goto (AVar 0) 2 3]);
   (2, [inst_call (Some 0) (ABuiltin [5]) (AConst KUndefined) [AVar 0]]); (3, [inst_call None (ABuiltin [5]) (AConst KUndefined) [AVar 0]])].
Example ssa_construction_case : source counting 1 /\ exists c' n', construct_ssa counting 1 = Some (c', n') /\
  block_of (c_blocks c') 1 = [dvn_phi 2 [(0, AVar 1); (2, AVar 3)]; inst_cond_goto (AVar 2) 2 3] /\
  block_of (c_blocks c') 2 = [inst_call (Some 3) (ABuiltin [5]) (AConst KUndefined) [AVar 2]].
Proof.
  split; [apply (source_check_spec _ _ [[0]; [1; 0]; [2; 1; 0]; [3; 1; 0]]); [apply program_built|vm_compute; reflexivity]|].
  assert (T : match construct_ssa counting 1 with
    | Some (c', _) => bool_decide (block_of (c_blocks c') 1 = [dvn_phi 2 [(0, AVar 1); (2, AVar 3)]; inst_cond_goto (AVar 2) 2 3] /\
        block_of (c_blocks c') 2 = [inst_call (Some 3) (ABuiltin [5]) (AConst KUndefined) [AVar 2]])
    | None => false end = true) by (vm_compute; reflexivity).
  destruct (construct_ssa counting 1) as [[c' n']|]; [|discriminate T]. apply bool_decide_eq_true in T. exists c', n'. split; [reflexivity|exact T].
Qed.
