(** What liveness means. *)
From stdpp Require Import base decidable list numbers gmap.
From Coq Require Import NArith.
From Verif Require Import ILModel CfgSpec ILSpec.

Local Open Scope N_scope.

(** [x] may be read before it is written, from instruction [k] of block [l] on. *)
Inductive live (c : cfg) (x : N) : N -> nat -> Prop :=
  | live_read l k i : in_prog c l k i -> AVar x ∈ i_args i -> live c x l k
  | live_on l k i : in_prog c l k i -> x ∉ i_tgts i -> live c x l (S k) -> live c x l k
  | live_edge l n : edge (c_graph c) l n -> live c x n 0 -> live c x l (length (block_of (c_blocks c) l)).
(** The same, within block [l] only. *)
Definition live_locally (c : cfg) (x l : N) (k : nat) : Prop :=
  exists k' i, (k <= k')%nat /\ in_prog c l k' i /\ AVar x ∈ i_args i /\ forall j i', (k <= j < k')%nat -> in_prog c l j i' -> x ∉ i_tgts i'.
