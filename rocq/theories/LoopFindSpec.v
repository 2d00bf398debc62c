(** Natural loops, independently of how they are found. *)
From stdpp Require Import base list numbers relations.
From Coq Require Import NArith.
From Verif Require Import DomSpec.

Section spec.
Context (R : N -> N -> Prop) (entry : N).
(** A jump from [t] back to a block [h] that every way to [t] has passed. *)
Definition back_edge (t h : N) : Prop := R t h /\ dominates R entry h t.
(** There is a path from the first block to the second that never visits [h]. *)
Inductive avoiding (h : N) : N -> N -> Prop :=
| avoiding_refl x : x <> h -> avoiding h x x
| avoiding_step x y z : x <> h -> R x y -> avoiding h y z -> avoiding h x z.
(** The loop of [h]: [h] itself, and the reachable blocks with a way to a jump back to [h]
    that does not go through [h]. *)
Definition in_loop (h x : N) : Prop :=
  exists t, back_edge t h /\ (x = h \/ (reach R entry x /\ avoiding h x t)).
End spec.
