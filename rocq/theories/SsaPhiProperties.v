(** C83: the phis of SSA form. *)
From stdpp Require Import base decidable list numbers gmap.
From Coq Require Import NArith ZArith.
From Verif Require Import VmBase RustStr ILModel CfgSpec ILSpec ILCheck DvnWitness SsaModel SsaSpec SsaWitness DvnSpec SsaPhiProofs.

Local Open Scope N_scope.

(** Every phi has one entry for each predecessor of its block, no label comes twice, and the
    first block has no phi: what later passes ask for ([phis_complete]). *)
Theorem ssa_phis_complete : forall c n c' n', source c n -> construct_ssa c n = Some (c', n') -> phis_complete c'.
Proof. intros c n c' n' [] H. by apply (ssa_complete c n) with (n' := n'). Qed.
Print Assumptions ssa_phis_complete.

(** The instructions, jumps, calls and blocks of SSA form are as later passes ask for. *)
Theorem ssa_well_formed : forall c n c' n', source c n -> construct_ssa c n = Some (c', n') ->
  prog_ok c' /\ blocks_match c' /\ (calls_ok c -> calls_ok c').
Proof.
  intros c n c' n' [] H. split; [by apply (ssa_prog_ok c n) with (n' := n')|]. split; [by apply (ssa_blocks_match c n) with (n' := n')|]. by apply (ssa_calls_ok c n) with (n' := n').
Qed.
Print Assumptions ssa_well_formed.

(** [x = f(); while (f) x = f(); f(x)]: the phi before the test has two entries. *)
Definition one_loop : cfg := program [(0, 1); (1, 2); (1, 3); (2, 1)]
  [(0, [inst_call (Some 0) (ABuiltin [5]) (AConst KUndefined) []]);
   (1, [inst_cond_goto (ABuiltin [5]) 2 3]); (2, [inst_call (Some 0) (ABuiltin [5]) (AConst KUndefined) []]);
   (3, [inst_call None (ABuiltin [5]) (AConst KUndefined) [AVar 0]])].
Example ssa_phis_case : source one_loop 1 /\ calls_ok one_loop /\ match construct_ssa one_loop 1 with
    | Some (c', _) => match block_of (c_blocks c') 1 with [p; _] => is_phi p && bool_decide (i_labels p = [0; 2]) | _ => false end
    | None => false end = true.
Proof.
  split; [apply (source_check_spec _ _ [[0]; [1; 0]; [2; 1; 0]; [3; 1; 0]]); [apply program_built|vm_compute; reflexivity]|].
  split; [apply calls_okb_spec|]; vm_compute; reflexivity.
Qed.
