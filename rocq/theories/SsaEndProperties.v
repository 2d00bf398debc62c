(** C83: building SSA form ends. *)
From stdpp Require Import base decidable list numbers gmap.
From Coq Require Import NArith ZArith.
From Verif Require Import VmBase RustStr ILModel CfgSpec ILSpec ILCheck DvnWitness SsaModel SsaSpec SsaWitness SsaEndProofs.

Local Open Scope N_scope.

(** No source program makes the construction panic or go on for ever. *)
Theorem ssa_construction_ends : forall c n, source c n -> exists c' n', construct_ssa c n = Some (c', n').
Proof. intros c n []. by apply ssa_ends. Qed.
Print Assumptions ssa_construction_ends.

(** Two nested loops that both write [x]. *)
Definition nested : cfg := program [(0, 1); (1, 2); (2, 3); (3, 2); (2, 1); (1, 4)]
  [(0, [inst_call (Some 0) (ABuiltin [5]) (AConst KUndefined) []]); (1, [inst_cond_goto (AVar 0) 2 4]);
   (2, [inst_call (Some 0) (ABuiltin [5]) (AConst KUndefined) [AVar 0]; inst_cond_goto (AVar 0) 3 1]);
   (3, [inst_call (Some 0) (ABuiltin [5]) (AConst KUndefined) [AVar 0]]); (4, [inst_call None (ABuiltin [5]) (AConst KUndefined) [AVar 0]])].
Example ssa_ends_case : source nested 1.
Proof. apply (source_check_spec _ _ [[0]; [1; 0]; [2; 1; 0]; [3; 2; 1; 0]; [4; 1; 0]]); [apply program_built|vm_compute; reflexivity]. Qed.
