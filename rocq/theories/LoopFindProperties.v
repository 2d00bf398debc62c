(** C84: loop discovery. *)
From stdpp Require Import base decidable list numbers gmap relations sets.
From Coq Require Import NArith Lia.
From Verif Require Import RustStr ILModel CfgSpec CfgProofs DomModel DomSpec DomProofs DomProperties LoopFindModel LoopFindSpec LoopFindProofs.

Local Open Scope N_scope.

(** Loop discovery ends on every graph, reducible or not. It has an entry for exactly the
    blocks a jump goes back to, and the entry is exactly the natural loop of that block. *)
Theorem find_loops_exact : forall c d, built (c_graph c) -> dom_of c = Some d -> exists loops, find_loops c d = Some loops /\
  (forall h, is_Some (loops !! h) <-> exists t, back_edge (edge (c_graph c)) (c_entry c) t h) /\
  forall h l x, loops !! h = Some l -> x ∈ l <-> in_loop (edge (c_graph c)) (c_entry c) h x.
Proof.
  intros c d B E. destruct (dominates_graph_exact c d B E) as (m & Em & Hm). unfold find_loops. rewrite Em. by apply find_all.
Qed.
Print Assumptions find_loops_exact.

(** Every block of a loop is dominated by its header: a loop is entered only there. *)
Theorem find_loops_single_entry : forall c d loops h l x y, built (c_graph c) -> dom_of c = Some d -> find_loops c d = Some loops ->
  loops !! h = Some l -> x ∈ l -> dominates (edge (c_graph c)) (c_entry c) h x /\
  (edge (c_graph c) y x -> reach (edge (c_graph c)) (c_entry c) y -> y ∉ l -> x = h).
Proof.
  intros c d loops h l x y B E F El Hx. destruct (find_loops_exact c d B E) as (loops' & F' & _ & H). rewrite F in F'. injection F' as <-.
  assert (Hx' := Hx). apply (H _ _ _ El) in Hx' as (t & [Ht Hd] & Hx'). split.
  - destruct Hx' as [->|[Hr Ha]]; [|by eapply avoiding_dominated]. apply dominates_refl. by eapply dominates_reach.
  - intros Hyx Hy Hn. destruct Hx' as [?|[Hr Ha]]; [done|]. destruct (decide (y = h)) as [->|Hyh].
    + destruct Hn. apply (H _ _ _ El). exists t. split; [done|by left].
    + destruct Hn. apply (H _ _ _ El). exists t. split; [done|]. right. split; [done|]. by econstructor.
Qed.
Print Assumptions find_loops_single_entry.

(** A loop at 1 with two jumps back, a loop at 2 inside it, an exit, an irreducible pair
    (6 and 7, which is no loop here), a self-loop and an unreachable block with a jump into a loop. *)
Definition loop_demo : cfg := Cfg (graph_of [(0, 1); (1, 2); (2, 3); (3, 2); (3, 4); (4, 1); (2, 1); (4, 5); (5, 6); (5, 7); (6, 7); (7, 6); (7, 8); (8, 8); (9, 3)]) ∅ 0.
Example loop_demo_ok : built (c_graph loop_demo) /\
  match dom_of loop_demo with
  | Some d => match find_loops loop_demo d with
              | Some loops => map (fun h => option_map sorted (loops !! h)) [0; 1; 2; 3; 6; 7; 8; 9] = [None; Some [1; 2; 3; 4]; Some [2; 3]; None; None; None; Some [8]; None]
              | None => False
              end
  | None => False
  end.
Proof. split; [apply graph_of_built|vm_compute; reflexivity]. Qed.
