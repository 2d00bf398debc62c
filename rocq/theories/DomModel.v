(** Postorder and dominators (optimize-js/src/graph/mod.rs, dom/mod.rs). Everything is
    stated over the successor and predecessor lists of a graph, in the order the code
    visits them: [Dom<false>] uses sorted children and parents, [Dom<true>] (post-
    dominators) uses them the other way round. *)
From stdpp Require Import base decidable list numbers gmap.
From Coq Require Import NArith.
From Verif Require Import RustStr ILModel.

(** graph/mod.rs 19-36 [PostOrderVisitor::visit]; the state is [seen] and [order]. The
    fuel bounds the recursion depth; [None] is running out of it. *)
Fixpoint visit (fuel : nat) (succ : N -> list N) (n : N) (st : gset N * list N) : option (gset N * list N) :=
  if bool_decide (n ∈ st.1) then Some st
  else match fuel with
       | O => None
       | S fuel =>
           match fold_left (fun o c => match o with Some st => visit fuel succ c st | None => None end)
                   (succ n) (Some ({[n]} ∪ st.1, st.2)) with
           | Some st => Some (st.1, st.2 ++ [n])
           | None => None
           end
       end.
(** 173-218 [_calculate_postorder]: [bound] is the number of nodes. *)
Definition calculate_postorder (bound : nat) (succ : N -> list N) (entry : N) : option (list N) :=
  match visit (S bound) succ entry (∅, []) with Some st => Some st.2 | None => None end.
(** [node_to_po] / [label_to_postorder]. *)
Fixpoint po_number (order : list N) (n : N) : option nat :=
  match order with
  | [] => None
  | x :: order => if N.eqb x n then Some O else match po_number order n with Some i => Some (S i) | None => None end
  end.

(** dom/mod.rs 232-247 [intersect!]; the nested loops advance the finger that is behind.
    [None] is an index panic (or the fuel running out). *)
Definition finger_up (order : list N) (idom : gmap N N) (f : nat) : option nat :=
  match order !! f with
  | Some n => match idom !! n with Some d => po_number order d | None => None end
  | None => None
  end.
Fixpoint fingers (fuel : nat) (order : list N) (idom : gmap N N) (f1 f2 : nat) : option nat :=
  match fuel with
  | O => None
  | S fuel =>
      match Nat.compare f1 f2 with
      | Eq => Some f1
      | Lt => match finger_up order idom f1 with Some f1 => fingers fuel order idom f1 f2 | None => None end
      | Gt => match finger_up order idom f2 with Some f2 => fingers fuel order idom f1 f2 | None => None end
      end
  end.
Definition intersect (order : list N) (idom : gmap N N) (b1 b2 : N) : option N :=
  match po_number order b1, po_number order b2 with
  | Some f1, Some f2 =>
      match fingers (S (length order + length order)) order idom f1 f2 with Some f => order !! f | None => None end
  | _, _ => None
  end.

(** 251-272, one block: [None] is a panic, [Some None] is [continue]. *)
Definition has (idom : gmap N N) (n : N) : bool := match idom !! n with Some _ => true | None => false end.
Definition new_idom (order : list N) (preds : list N) (idom : gmap N N) : option (option N) :=
  match List.find (has idom) preds with
  | None => Some None
  | Some first =>
      match fold_left (fun o p => match o with
                                  | Some d => if has idom p then intersect order idom p d else Some d
                                  | None => None
                                  end)
              (List.filter (fun p => negb (N.eqb p first)) preds) (Some first) with
      | Some d => Some (Some d)
      | None => None
      end
  end.
Definition dom_step (order : list N) (pred : N -> list N) (st : gmap N N * bool) (b : N) : option (gmap N N * bool) :=
  match new_idom order (pred b) st.1 with
  | None => None
  | Some None => Some st
  | Some (Some d) => if bool_decide (st.1 !! b = Some d) then Some st else Some (<[b := d]> st.1, true)
  end.
(** 250-276, one round of the loop. *)
Definition dom_pass (order : list N) (pred : N -> list N) (entry : N) (idom : gmap N N) : option (gmap N N * bool) :=
  fold_left (fun o b => match o with Some st => dom_step order pred st b | None => None end)
    (List.filter (fun b => negb (N.eqb b entry)) (List.rev order)) (Some (idom, false)).
Fixpoint dom_loop (fuel : nat) (order : list N) (pred : N -> list N) (entry : N) (idom : gmap N N) : option (gmap N N) :=
  match fuel with
  | O => None
  | S fuel =>
      match dom_pass order pred entry idom with
      | None => None
      | Some (idom, true) => dom_loop fuel order pred entry idom
      | Some (idom, false) => Some idom
      end
  end.
(** 195-204 [Dom]: [domtree] is a view of [idom_by] (see [immediately_dominated_by]). *)
Record domi := Dom { d_order : list N; d_idom : gmap N N; d_entry : N }.
(** 216-286 [calculate]. *)
Definition dom_calculate (bound : nat) (succ pred : N -> list N) (entry : N) : option domi :=
  match calculate_postorder bound succ entry with
  | None => None
  | Some order =>
      match dom_loop (S (length order * S (length order))) order pred entry {[entry := entry]} with
      | None => None
      | Some idom => Some (Dom order (delete entry idom) entry)
      end
  end.
Definition dom_of (c : cfg) : option domi :=
  dom_calculate (size (labels (c_graph c))) (children_sorted (c_graph c)) (parents_sorted (c_graph c)) (c_entry c).
(** With [POST]: on a graph to which the virtual exit has been added (151-192). *)
Definition postdom_of (g : graph) (exit : N) : option domi :=
  dom_calculate (size (labels g)) (parents_sorted g) (children_sorted g) exit.

(** The nodes from [n] up to the entry, following [idom_by]; [None] is an index panic. *)
Fixpoint dom_chain (fuel : nat) (d : domi) (n : N) : option (list N) :=
  match fuel with
  | O => None
  | S fuel =>
      if N.eqb n (d_entry d) then Some [n]
      else match d_idom d !! n with
           | Some m => match dom_chain fuel d m with Some l => Some (n :: l) | None => None end
           | None => None
           end
  end.
(** 298-313 [dominated_by_graph]. *)
Definition insert_chain (d : domi) (o : option (gmap N (gset N))) (n : N) : option (gmap N (gset N)) :=
  match o, dom_chain (S (length (d_order d))) d n with
  | Some m, Some l => Some (<[n := list_to_set l ∪ (match m !! n with Some s => s | None => ∅ end)]> m)
  | _, _ => None
  end.
Definition dominated_by_graph (d : domi) : option (gmap N (gset N)) :=
  fold_left (insert_chain d) (elements (dom (d_idom d))) (Some {[d_entry d := {[d_entry d]}]}).
(** 17-20 [DominatedByGraph::dominated_by], 9-12 [DominatesGraph::dominates]. *)
Definition graph_has (m : gmap N (gset N)) (a b : N) : bool :=
  match m !! a with Some s => bool_decide (b ∈ s) | None => false end.
(** 317-326 [dominates_graph]. *)
Definition add_to (k v : N) (m : gmap N (gset N)) : gmap N (gset N) :=
  <[k := {[v]} ∪ (match m !! k with Some s => s | None => ∅ end)]> m.
Definition dominates_graph (d : domi) : option (gmap N (gset N)) :=
  match dominated_by_graph d with
  | None => None
  | Some m => Some (fold_left (fun acc '(child, s) => fold_left (fun acc parent => add_to parent child acc) (elements s) acc) (map_to_list m) ∅)
  end.
(** 334-353 [dominance_frontiers]. *)
Fixpoint runner (fuel : nat) (d : domi) (stop b r : N) (m : gmap N (gset N)) : option (gmap N (gset N)) :=
  match fuel with
  | O => None
  | S fuel =>
      if N.eqb r stop then Some m
      else match d_idom d !! r with
           | Some r' => runner fuel d stop b r' (add_to r b m)
           | None => None
           end
  end.
Definition frontier_step (d : domi) (pred : N -> list N) (o : option (gmap N (gset N))) (b : N) : option (gmap N (gset N)) :=
  match o with
  | None => None
  | Some m =>
      match d_idom d !! b with
      | None => Some m
      | Some stop =>
          if Nat.ltb (length (pred b)) 2 then Some m
          else fold_left (fun o p => match o with Some m => runner (S (length (d_order d))) d stop b p m | None => None end) (pred b) (Some m)
      end
  end.
Definition dominance_frontiers (d : domi) (pred : N -> list N) : option (gmap N (gset N)) :=
  fold_left (frontier_step d pred) (List.rev (d_order d)) (Some ∅).
(** 278-281 and 356-367 [immediately_dominated_by]. *)
Definition immediately_dominated_by (d : domi) (p : N) : list N :=
  sorted (dom (filter (fun x => snd x = p) (d_idom d))).
(** 377-403 [lca] (the first loop gives up when an ancestor is missing). *)
Fixpoint lca_up (fuel : nat) (d : domi) (ancestors : gset N) (n : N) : option N :=
  match fuel with
  | O => None
  | S fuel =>
      if bool_decide (n ∈ ancestors) then Some n
      else if N.eqb n (d_entry d) then None
      else match d_idom d !! n with Some m => lca_up fuel d ancestors m | None => None end
  end.
Definition lca (d : domi) (a b : N) : option N :=
  if N.eqb a b then Some a
  else match dom_chain (S (length (d_order d))) d a with
       | Some l => lca_up (S (length (d_order d))) d (list_to_set l) b
       | None => None
       end.
(** 405-412 [lca_all]. *)
Definition lca_all (d : domi) (ns : list N) : option N :=
  match ns with
  | [] => None
  | n :: ns => fold_left (fun o n => match o with Some a => lca d a n | None => None end) ns (Some n)
  end.
