(** What it means for a block to be removed safely. *)
From stdpp Require Import base decidable list numbers gmap.
From Coq Require Import NArith.
From Verif Require Import ILModel CfgSpec ILSpec.

Local Open Scope N_scope.

(** Two executions that are at the same place, have had the same effects, and agree on
    every variable; only the blocks they come from may have different labels. *)
Definition same_point {V W} (s s' : @state V W) : Prop :=
  match s, s' with
  | Running l _ e w, Running l' _ e' w' => l = l' /\ w = w' /\ forall x, e x = e' x
  | Stopped e w, Stopped e' w' => w = w' /\ forall x, e x = e' x
  | _, _ => False
  end.
(** Conditional jumps have two different targets, and only they have several. *)
Definition forks_ok (c : cfg) : Prop :=
  forall l, match last (block_of (c_blocks c) l) with
            | Some i => if is_cond_goto i then NoDup (i_labels i) else forall a b, edge (c_graph c) l a -> edge (c_graph c) l b -> a = b
            | None => forall a b, edge (c_graph c) l a -> edge (c_graph c) l b -> a = b
            end.
(** Block [x] has no phi nodes, and no block that jumps to it can also jump straight to a
    successor of it that has phi nodes. *)
Definition removable (c : cfg) (x : N) : Prop :=
  phis_of (block_of (c_blocks c) x) = [] /\
  forall p n, edge (c_graph c) p x -> edge (c_graph c) x n -> edge (c_graph c) p n -> phis_of (block_of (c_blocks c) n) = [].
