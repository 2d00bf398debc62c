(** C83: when SSA form is strict. *)
From stdpp Require Import base decidable list numbers gmap.
From Coq Require Import NArith ZArith.
From Verif Require Import VmBase RustStr ILModel CfgSpec ILSpec ILCheck DvnWitness SsaModel SsaSpec SsaWitness SsaUseProofs SsaStrictProofs SsaOnceProperties SsaUseProperties SsaFormProperties.

Local Open Scope N_scope.

(** If a program writes variables before it reads them, and writes all its variables before
    control comes to a block with several predecessors, its SSA form is strict: every name is
    written once, and before it is read, by phis too. *)
Theorem ssa_strict_partial : forall c n c' n', source c n -> construct_ssa c n = Some (c', n') ->
  (forall x l k i, in_prog c l k i -> AVar x ∈ i_args i -> available c x l k) ->
  (forall v l k p x, defines c v l k -> edge (c_graph c) p x -> ~ (forall q, edge (c_graph c) q x -> q = p) ->
     available c v p (length (block_of (c_blocks c) p))) ->
  strict_ssa c'.
Proof.
  intros c n c' n' S H Hr Hj. constructor; [exact (ssa_single_assignment c n c' n' S H)|exact (ssa_reads_written c n c' n' S H Hr)|].
  destruct S as [S1 S2 S3 S4 S5 S6 S7]. exact (ssa_phi_reads c n S2 S3 S4 S5 S6 S7 c' n' H Hj).
Qed.
Print Assumptions ssa_strict_partial.

(** The loop of C83 is such a program; [ssa_strict_refuted] has one that is not. *)
Example ssa_strict_case : source counting 1 /\ (exists c' n', construct_ssa counting 1 = Some (c', n')) /\
  (forall x l k i, in_prog counting l k i -> AVar x ∈ i_args i -> available counting x l k) /\
  forall v l k p x, defines counting v l k -> edge (c_graph counting) p x -> ~ (forall q, edge (c_graph counting) q x -> q = p) ->
    available counting v p (length (block_of (c_blocks counting) p)).
Proof.
  assert (S : source counting 1) by (apply (source_check_spec _ _ [[0]; [1; 0]; [2; 1; 0]; [3; 1; 0]]); [apply program_built|vm_compute; reflexivity]).
  split; [exact S|]. split. { destruct (construct_ssa counting 1) as [[c' n']|] eqn:E; [by exists c', n'|]. assert (T : match construct_ssa counting 1 with Some _ => true | None => false end = true) by (vm_compute; reflexivity). rewrite E in T. discriminate T. }
  split; [apply (reads_check_spec 4); [apply program_built|vm_compute; reflexivity]|]. intros v l k p x D He _.
  apply (leaves_check_spec 4 counting (program_built _ _) (src_blocks _ _ S)) with (l := l) (k := k) (x := x); [vm_compute; reflexivity|exact D|exact He].
Qed.
