(** What the graph operations of the optimizer should do, in terms of nodes and edges. *)
From stdpp Require Import base decidable list numbers gmap relations.
From Coq Require Import NArith.
From Verif Require Import ILModel.

(** [b] is listed as a child of [a]. *)
Definition edge (g : graph) (a b : N) : Prop := b ∈ children g a.
(** [b] can be reached from [a]. *)
Definition reaches (g : graph) (a b : N) : Prop := rtc (edge g) a b.

(** A history of calls on a graph, from the empty graph; [None] if one of them panics. *)
Inductive graph_op := GConnect (p c : N) | GDisconnect (p c : N) | GPop (n : N) | GContract (n : N).
Definition graph_step (g : graph) (o : graph_op) : option graph :=
  match o with
  | GConnect p c => Some (connect g p c)
  | GDisconnect p c => disconnect g p c
  | GPop n => pop g n
  | GContract n => contract g n
  end.
Fixpoint graph_run (g : graph) (os : list graph_op) : option graph :=
  match os with
  | [] => Some g
  | o :: os => match graph_step g o with Some g => graph_run g os | None => None end
  end.
Definition built (g : graph) : Prop := exists os, graph_run ∅ os = Some g.
