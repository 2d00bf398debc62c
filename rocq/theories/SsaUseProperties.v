(** C83: what SSA form reads. *)
From stdpp Require Import base decidable list numbers gmap.
From Coq Require Import NArith ZArith.
From Verif Require Import VmBase RustStr ILModel CfgSpec ILSpec ILCheck DvnWitness SsaModel SsaSpec SsaWitness SsaUseProofs.

Local Open Scope N_scope.

(** If a program writes variables before it reads them, on every way control can take, so
    do the instructions of its SSA form that are not phis. *)
Theorem ssa_reads_written : forall c n c' n', source c n -> construct_ssa c n = Some (c', n') ->
  (forall x l k i, in_prog c l k i -> AVar x ∈ i_args i -> available c x l k) ->
  forall x l k i, in_prog c' l k i -> is_phi i = false -> AVar x ∈ i_args i -> available c' x l k.
Proof. intros c n c' n' [] H. by apply (ssa_reads c n) with (n' := n'). Qed.
Print Assumptions ssa_reads_written.

(** Every phi has an entry for every predecessor of its block, and the first block has none. *)
Theorem ssa_phis_filled : forall c n c' n', source c n -> construct_ssa c n = Some (c', n') ->
  phis_of (block_of (c_blocks c') (c_entry c')) = [] /\
  forall l k i p, in_prog c' l k i -> is_phi i = true -> edge (c_graph c') p l -> p ∈ i_labels i.
Proof. intros c n c' n' [] H. by apply (ssa_phis c n) with (n' := n'). Qed.
Print Assumptions ssa_phis_filled.

(** [if (f) x = f(); else x = f(); f(x)]: the read is of what a phi writes. *)
Definition both_arms : cfg := program [(0, 1); (0, 2); (1, 3); (2, 3)]
  [(0, [inst_cond_goto (ABuiltin [5]) 1 2]);
   (1, [inst_call (Some 0) (ABuiltin [5]) (AConst KUndefined) []]); (2, [inst_call (Some 0) (ABuiltin [5]) (AConst KUndefined) []]);
   (3, [inst_call None (ABuiltin [5]) (AConst KUndefined) [AVar 0]])].
Example ssa_reads_case : source both_arms 1 /\ (forall x l k i, in_prog both_arms l k i -> AVar x ∈ i_args i -> available both_arms x l k) /\
  exists c' n', construct_ssa both_arms 1 = Some (c', n') /\ exists t a b,
    block_of (c_blocks c') 3 = [dvn_phi t [(1, AVar a); (2, AVar b)]; inst_call None (ABuiltin [5]) (AConst KUndefined) [AVar t]].
Proof.
  split; [apply (source_check_spec _ _ [[0]; [1; 0]; [2; 0]; [3; 1; 0]]); [apply program_built|vm_compute; reflexivity]|].
  split; [apply (reads_check_spec 4); [apply program_built|vm_compute; reflexivity]|].
  assert (T : match construct_ssa both_arms 1 with
    | Some (c', _) => match block_of (c_blocks c') 3 with
        | [p; _] => match i_tgts p, i_args p with [t], [AVar a; AVar b] => bool_decide (block_of (c_blocks c') 3 = [dvn_phi t [(1, AVar a); (2, AVar b)]; inst_call None (ABuiltin [5]) (AConst KUndefined) [AVar t]]) | _, _ => false end
        | _ => false end
    | None => false end = true) by (vm_compute; reflexivity).
  destruct (construct_ssa both_arms 1) as [[c' n']|]; [|discriminate T]. exists c', n'. split; [reflexivity|].
  destruct (block_of (c_blocks c') 3) as [|p [|q [|]]]; try discriminate T. destruct (i_tgts p) as [|t [|]]; try discriminate T. destruct (i_args p) as [|[| | |a] [|[| | |b] [|]]]; try discriminate T.
  apply bool_decide_eq_true in T. exists t, a, b. exact T.
Qed.
