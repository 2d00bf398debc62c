(** The nesting of loops (optimize-js/src/analysis/loop_info.rs). Loops are identified by
    their header instead of by their position in the list ([LoopId]), which is sorted by
    header. Not modelled: [children], and [from_loops_map] on tables
    other than that of [find_loops]. *)
From stdpp Require Import base decidable list numbers gmap.
From Coq Require Import NArith.
From Verif Require Import RustStr ILModel DomModel.

(** loop_info.rs 43-44 [loop_entries]: headers are distinct, so the second key never counts. *)
Definition loop_entries (loops : gmap N (gset N)) : list (N * gset N) :=
  map (fun h => (h, default ∅ (loops !! h))) (sorted (dom loops)).

(** loop_info.rs 89, 107, 108: fewer blocks, all of them in the other loop. *)
Definition smaller_in (a b : gset N) : bool := bool_decide (size a < size b)%nat && bool_decide (a ⊆ b).

(** loop_info.rs 83-99: one candidate [j] for the parent of loop [i]. *)
Definition parent_step (i : N * gset N) (cur : option (N * gset N)) (j : N * gset N) : option (N * gset N) :=
  if bool_decide (i.1 = j.1) then cur else
  if smaller_in i.2 j.2 then
    match cur with
    | None => Some j
    | Some c => if bool_decide (size j.2 < size c.2)%nat || (bool_decide (size j.2 = size c.2) && N.ltb j.1 c.1) then Some j else cur
    end
  else cur.

(** loop_info.rs 81-100: the parent of loop [i]. *)
Definition loop_parent_of (ls : list (N * gset N)) (i : N * gset N) : option (N * gset N) := fold_left (parent_step i) ls None.

(** loop_info.rs 105-111: the test for one pair. *)
Definition overlaps (a b : gset N) : bool := negb (smaller_in a b) && negb (smaller_in b a) && negb (bool_decide (a ## b)).

(** loop_info.rs 102-115 [overlapping]. *)
Fixpoint overlapping (ls : list (N * gset N)) : list (N * N) :=
  match ls with
  | [] => []
  | i :: rest => map (fun j => (i.1, j.1)) (List.filter (fun j => overlaps i.2 j.2) rest) ++ overlapping rest
  end.

(** loop_info.rs 49-55 [latches]. Parents are a set, so they are sorted before filtering here. *)
Definition loop_latches (g : graph) (m : gmap N (gset N)) (header : N) : list N :=
  List.filter (graph_has m header) (parents_sorted g header).

(** loop_info.rs 57-66 [exits]. Blocks and successors are visited in order here; the code
    visits them in any order and sorts the pairs. *)
Definition loop_exits (g : graph) (nodes : gset N) : list (N * N) :=
  flat_map (fun node => map (fun succ => (node, succ)) (List.filter (fun succ => negb (bool_decide (succ ∈ nodes))) (children_sorted g node))) (sorted nodes).
