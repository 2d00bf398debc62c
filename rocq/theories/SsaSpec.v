(** Programs as they are given to the construction of SSA form. *)
From stdpp Require Import base list numbers gmap.
From Coq Require Import NArith.
From Verif Require Import ILModel CfgSpec ILSpec.

Local Open Scope N_scope.

(** The program has no phis yet, its variables are numbered below [n], control can reach
    every block, and nothing jumps to the start. *)
Record source (c : cfg) (n : N) : Prop := {
  src_ok : prog_ok c;
  src_built : built (c_graph c);
  src_blocks : blocks_match c;
  src_entry : is_Some (c_blocks c !! c_entry c);
  src_reach : forall l, is_Some (c_blocks c !! l) -> reaches (c_graph c) (c_entry c) l;
  src_first : forall p, ~ edge (c_graph c) p (c_entry c);
  src_plain : forall l i, i ∈ block_of (c_blocks c) l -> is_phi i = false /\ (forall v, v ∈ i_tgts i -> v < n) /\ forall v, AVar v ∈ i_args i -> v < n }.
