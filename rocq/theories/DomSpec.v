(** Dominance, independently of how it is computed. *)
From stdpp Require Import base list numbers relations.
From Coq Require Import NArith.

Section spec.
Context (R : N -> N -> Prop) (entry : N).

(** [l] lists the nodes of a walk along [R] from the entry to [v], [v] first. *)
Inductive walk : N -> list N -> Prop :=
| walk_entry : walk entry [entry]
| walk_step u v l : walk u l -> R u v -> walk v (v :: l).
(** [v] can be reached from the entry. *)
Definition reach (v : N) : Prop := exists l, walk v l.
(** Every walk from the entry to [b] passes through [a]. *)
Definition dominates (a b : N) : Prop := reach b /\ forall l, walk b l -> a ∈ l.
Definition strictly_dominates (a b : N) : Prop := dominates a b /\ a <> b.
(** The closest strict dominator. *)
Definition immediately_dominates (a b : N) : Prop :=
  strictly_dominates a b /\ forall c, strictly_dominates c b -> dominates c a.
(** [b] is just beyond what [a] dominates. *)
Definition in_frontier (a b : N) : Prop :=
  (exists p, R p b /\ dominates a p) /\ ~ strictly_dominates a b.
(** The closest common dominator. *)
Definition closest_common (c a b : N) : Prop :=
  dominates c a /\ dominates c b /\ forall x, dominates x a -> dominates x b -> dominates x c.
End spec.
