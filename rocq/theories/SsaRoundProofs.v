(** SSA construction gives what a round of the optimizer asks for. *)
From stdpp Require Import base decidable sets numbers gmap list.
From Coq Require Import NArith.
From Verif Require Import VmBase RustStr ILModel CfgSpec ILSpec DvnSpec SsaModel SsaSpec SsaPhiProofs SsaOnceProperties SsaUseProperties SsaPhiProperties.

Local Open Scope N_scope.

Lemma ssa_ready c n c' n' : source c n -> calls_ok c -> construct_ssa c n = Some (c', n') ->
  (forall x l k i, in_prog c l k i -> AVar x ∈ i_args i -> available c x l k) ->
  (forall x l k i p, in_prog c' l k i -> is_phi i = true -> edge (c_graph c') p l -> (p, AVar x) ∈ zip (i_labels i) (i_args i) -> available c' x p (length (block_of (c_blocks c') p))) ->
  (prog_ok c' /\ strict_ssa c' /\ phis_complete c' /\ blocks_match c' /\ calls_ok c') /\ built (c_graph c') /\ is_Some (c_blocks c' !! c_entry c') /\
  forall l, is_Some (c_blocks c' !! l) -> reaches (c_graph c') (c_entry c') l.
Proof.
  intros S C H Hr Hp. destruct (ssa_well_formed c n c' n' S H) as (A1 & A2 & A3). pose proof (ssa_phis_complete c n c' n' S H) as A4.
  assert (A5 : strict_ssa c'). { constructor; [exact (ssa_single_assignment c n c' n' S H)|exact (ssa_reads_written c n c' n' S H Hr)|exact Hp]. }
  pose proof S as [S1 S2 S3 S4 S5 S6 S7]. destruct (ssa_shape c n S2 S3 S4 S5 S6 S7 c' n' H) as (Eg & Ee & _). pose proof (ssa_has c n S2 S3 S4 S5 S7 c' n' H) as Hh.
  split; [auto 10|]. rewrite Eg, Ee. split; [done|]. split; [by apply Hh|]. intros l Hl%Hh. by apply S5.
Qed.
Lemma ssa_keeps_unaffected {V W} (m : machine V W) c n c' n' : source c n -> construct_ssa c n = Some (c', n') -> unaffected m c -> unaffected m c'.
Proof. intros [S1 S2 S3 S4 S5 S6 S7] H. by apply (ssa_unaffected c n S2 S3 S4 S5 S6 S7 m c' n'). Qed.
