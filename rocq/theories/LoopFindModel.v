(** Loop discovery (optimize-js/src/analysis/find_loops.rs). *)
From stdpp Require Import base decidable list numbers gmap.
From Coq Require Import NArith.
From Verif Require Import RustStr ILModel DomModel.

(** find_loops.rs 45-54: one parent [p] of the block taken off the queue. The state is the
    loop's blocks and the queue. *)
Definition loop_parent (dominated : N -> bool) (st : gset N * list N) (p : N) : gset N * list N :=
  if negb (dominated p) then st else
  if bool_decide (p ∈ st.1) then st else ({[p]} ∪ st.1, st.2 ++ [p]).

(** find_loops.rs 43-55: the [while let] over the queue. The fuel bounds the number of
    iterations; [None] is running out of it. *)
Fixpoint loop_walk (fuel : nat) (preds : N -> list N) (dominated : N -> bool) (l : gset N) (queue : list N) : option (gset N) :=
  match fuel with
  | O => None
  | S fuel =>
      match queue with
      | [] => Some l
      | n :: rest => let st := fold_left (loop_parent dominated) (preds n) (l, rest) in loop_walk fuel preds dominated st.1 st.2
      end
  end.

(** find_loops.rs 33-56: one edge [tail] -> [header]. *)
Definition loop_edge (g : graph) (m : gmap N (gset N)) (tail : N) (o : option (gmap N (gset N))) (header : N) : option (gmap N (gset N)) :=
  match o with
  | None => None
  | Some loops =>
      if negb (graph_has m header tail) then Some loops else
      let l := {[tail]} ∪ ({[header]} ∪ default ∅ (loops !! header)) in
      match loop_walk (S (S (size (labels g)))) (parents_sorted g) (graph_has m header) l [tail] with
      | Some l' => Some (<[header := l']> loops)
      | None => None
      end
  end.

(** find_loops.rs 27-59 [find_loops]: from each header to the blocks of its loop. [None] is
    the dominator table not being computed or the fuel running out. *)
Definition find_loops (c : cfg) (d : domi) : option (gmap N (gset N)) :=
  match dominates_graph d with
  | None => None
  | Some m => fold_left (fun o tail => fold_left (loop_edge (c_graph c) m tail) (children_sorted (c_graph c) tail) o)
                (labels_sorted (c_graph c)) (Some ∅)
  end.
