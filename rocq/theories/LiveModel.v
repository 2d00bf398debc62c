(** Liveness, interference and register allocation: optimize-js/src/analysis/dataflow.rs,
    liveness.rs, interference.rs, registers.rs. Bit sets are modelled as finite sets of
    variables ([BitSet] with its numbering of variables is not modelled; every variable of
    the program is tracked, liveness.rs 169-193). No instruction is inlined (the empty
    [inlines] and [inlined_vars]). *)
From stdpp Require Import base decidable list numbers gmap.
From Coq Require Import NArith.
From Verif Require Import RustStr ILModel.

Local Open Scope N_scope.

(** ** dataflow.rs *)
(** 6-10. *)
Inductive direction := Forward | Backward.
(** 13-20. *)
Inductive boundary := Entry (l : N) | VirtualExit.
(** 52-105 [DataFlowAnalysis]: its direction, [bottom], [boundary_state] (the default is
    bottom; here any state), [meet] and [apply_to_instruction]. *)
Record analysis (S : Type) := Analysis {
  a_dir : direction; a_bottom : S; a_boundary : S; a_meet : list (N * S) -> S; a_apply : N -> nat -> inst -> S -> S }.
Arguments a_dir {S}. Arguments a_bottom {S}. Arguments a_boundary {S}. Arguments a_meet {S}. Arguments a_apply {S}.
(** 82-97 [apply_to_block]. *)
Definition apply_to_block {S} (a : analysis S) (l : N) (is : block) (s : S) : S :=
  let at_ := imap (fun k i => (k, i)) is in
  fold_left (fun s '(k, i) => a_apply a l k i s) (match a_dir a with Forward => at_ | Backward => rev at_ end) s.
(** 298-315 [calculate_virtual_exit]: the terminal blocks, or else the nodes of the sink
    components; [sink_scc_nodes] (335-444) is a parameter. *)
Definition terminals (g : graph) : list N := List.filter (fun l => match children_sorted g l with [] => true | _ => false end) (labels_sorted g).
Definition exit_preds (sinks : graph -> list N) (g : graph) : list N := match terminals g with [] => sinks g | ts => ts end.
(** 317-333 [next_unused_label]: one more than the largest label (the search after
    saturation is not modelled: labels are below the u32 maximum). *)
Definition next_unused_label (g : graph) : N := fold_right N.max 0 (labels_sorted g) + 1.
(** 222-235 [FlowGraph::labels] as a set. *)
Definition flow_labels (c : cfg) (exit : option N) : gset N :=
  labels (c_graph c) ∪ dom (c_blocks c) ∪ match exit with Some l => {[ l ]} | None => ∅ end.
(** 249-267 [predecessors] and 269-295 [successors] along the direction of the analysis. *)
Definition flow_preds (d : direction) (g : graph) (exit : option (N * list N)) (l : N) : list N :=
  match exit, d with
  | Some (x, ps), _ => if N.eqb l x then [] else
      match d with Forward => parents_sorted g l | Backward => sorted (children g l ∪ if bool_decide (l ∈ ps) then {[ x ]} else ∅) end
  | None, Forward => parents_sorted g l
  | None, Backward => children_sorted g l
  end.
Definition flow_succs (d : direction) (g : graph) (exit : option (N * list N)) (l : N) : list N :=
  match exit, d with
  | Some (x, ps), _ => if N.eqb l x then match d with Forward => [] | Backward => ps end else
      match d with Forward => sorted (children g l ∪ if bool_decide (l ∈ ps) then {[ x ]} else ∅) | Backward => parents_sorted g l end
  | None, Forward => children_sorted g l
  | None, Backward => parents_sorted g l
  end.
Record block_state (S : Type) := BlockState { b_entry : S; b_exit : S }.
Arguments BlockState {S}. Arguments b_entry {S}. Arguments b_exit {S}.
Section run.
  Context {S : Type} `{EqDecision S} (a : analysis S) (c : cfg) (exit : option (N * list N)) (start : N).
  (** 166-199: one round of the loop. [None] is the panic on a label without state. *)
  Definition state_of (blocks : gmap N (block_state S)) (p : N) : option (N * S) :=
    match blocks !! p with Some b => Some (p, match a_dir a with Forward => b_exit b | Backward => b_entry b end) | None => None end.
  Fixpoint states_of (blocks : gmap N (block_state S)) (ps : list N) : option (list (N * S)) :=
    match ps with
    | [] => Some []
    | p :: ps => match state_of blocks p, states_of blocks ps with Some s, Some ss => Some (s :: ss) | _, _ => None end
    end.
  Definition flow_block (l : N) : option block :=
    match exit with
    | Some (x, _) => if N.eqb l x then Some [] else c_blocks c !! l
    | None => c_blocks c !! l
    end.
  Fixpoint push_new (ls : list N) (work : list N) : list N :=
    match ls with [] => work | l :: ls => push_new ls (if bool_decide (l ∈ work) then work else work ++ [l]) end.
  Definition flow_step (l : N) (work : list N) (blocks : gmap N (block_state S)) : option (list N * gmap N (block_state S)) :=
    match (if N.eqb l start then Some (a_boundary a) else match states_of blocks (flow_preds (a_dir a) (c_graph c) exit l) with Some ss => Some (a_meet a ss) | None => None end),
          flow_block l, blocks !! l with
    | Some incoming, Some is, Some old =>
        let out := apply_to_block a l is incoming in
        let new := match a_dir a with Forward => BlockState incoming out | Backward => BlockState out incoming end in
        if bool_decide (b_entry old = b_entry new /\ b_exit old = b_exit new) then Some (work, blocks)
        else Some (push_new (flow_succs (a_dir a) (c_graph c) exit l) work, <[l := new]> blocks)
    | _, _, _ => None
    end.
  (** 160-200 the loop; [Some None] when the fuel runs out. *)
  Fixpoint flow_loop (fuel : nat) (work : list N) (blocks : gmap N (block_state S)) : option (option (gmap N (block_state S))) :=
    match work with
    | [] => Some (Some blocks)
    | l :: work =>
        match fuel with
        | O => Some None
        | Datatypes.S fuel => match flow_step l work blocks with Some (work, blocks) => flow_loop fuel work blocks | None => None end
        end
    end.
End run.
(** 116-206 [run_dataflow]. *)
Definition run_dataflow {S} `{EqDecision S} (a : analysis S) (sinks : graph -> list N) (c : cfg) (b : boundary) (fuel : nat) : option (option (gmap N (block_state S))) :=
  let exit := match b with Entry _ => None | VirtualExit => Some (next_unused_label (c_graph c), exit_preds sinks (c_graph c)) end in
  let start := match b with Entry l => l | VirtualExit => next_unused_label (c_graph c) end in
  flow_loop a c exit start fuel [start] (gset_to_gmap (BlockState (a_bottom a) (a_bottom a)) (flow_labels c (fst <$> exit))).

(** ** liveness.rs *)
(** 135-160 [apply_to_instruction]. *)
Definition live_apply (i : inst) (s : gset N) : gset N :=
  (s ∖ list_to_set (i_tgts i)) ∪ list_to_set (omap (fun a => match a with AVar x => Some x | _ => None end) (i_args i)).
(** 113-133: [bottom] is the empty set, [meet] the union. *)
Definition liveness : analysis (gset N) :=
  Analysis (gset N) Backward ∅ ∅ (fun ss => ⋃ (map snd ss)) (fun _ _ i s => live_apply i s).
(** 208-219: the live-in set of each instruction of a block, from the block's exit state;
    the head of the result is the state before the first instruction. *)
Fixpoint live_ins_of (is : block) (exit : gset N) : list (gset N) * gset N :=
  match is with
  | [] => ([], exit)
  | i :: is => let '(ls, s) := live_ins_of is exit in let s := live_apply i s in (s :: ls, s)
  end.
(** 195-221 [calculate_live_ins]: blocks of the graph only. *)
Fixpoint live_ins_all (blocks : gmap N (block_state (gset N))) (c : cfg) (ls : list N) : option (gmap (N * nat) (gset N)) :=
  match ls with
  | [] => Some ∅
  | l :: ls =>
      match c_blocks c !! l, live_ins_all blocks c ls with
      | Some is, Some m =>
          let exit := match blocks !! l with Some b => b_exit b | None => ∅ end in
          Some (list_to_map (imap (fun k s => ((l, k), s)) (fst (live_ins_of is exit))) ∪ m)
      | _, _ => None
      end
  end.
Definition calculate_live_ins (sinks : graph -> list N) (c : cfg) (fuel : nat) : option (option (gmap (N * nat) (gset N))) :=
  match run_dataflow liveness sinks c VirtualExit fuel with
  | Some (Some blocks) => match live_ins_all blocks c (labels_sorted (c_graph c)) with Some m => Some (Some m) | None => None end
  | Some None => Some None
  | None => None
  end.

(** ** interference.rs 6-23. Pairs are visited in the order of the elements. *)
Notation igraph := (gmap N (gset N)).
Definition touch (g : igraph) (a : N) : igraph := <[a := default ∅ (g !! a)]> g.
Definition add_half (g : igraph) (a b : N) : igraph := <[a := default ∅ (g !! a) ∪ {[ b ]}]> g.
Fixpoint add_pairs (g : igraph) (lives : list N) : igraph :=
  match lives with
  | [] => g
  | a :: lives => add_pairs (fold_left (fun g b => add_half (add_half g a b) b a) lives (touch g a)) lives
  end.
Definition calculate_interference_graph (live : list (gset N)) : igraph := fold_left (fun g s => add_pairs g (elements s)) live ∅.

(** ** registers.rs 9-40 [allocate_registers] *)
(** 12-16: the node of least degree, then least id. *)
Definition less_node (x y : N * gset N) : bool :=
  match Nat.compare (size (snd x)) (size (snd y)) with Lt => true | Gt => false | Eq => N.ltb (fst x) (fst y) end.
Definition min_node (g : igraph) : option N :=
  match map_to_list g with
  | [] => None
  | x :: xs => Some (fst (fold_left (fun best y => if less_node y best then y else best) xs x))
  end.
(** 19-22: [unwrap] panics on a neighbour that is not a node. *)
Fixpoint drop_from (t : N) (cs : list N) (g : igraph) : option igraph :=
  match cs with
  | [] => Some g
  | x :: cs => match g !! x with Some s => drop_from t cs (<[x := s ∖ {[ t ]}]> g) | None => None end
  end.
(** 11-23; the fuel is the number of nodes. The first node of the result is the last pushed. *)
Fixpoint simplify (fuel : nat) (g : igraph) (stack : list N) : option (list N) :=
  match min_node g with
  | None => Some stack
  | Some t =>
      match fuel, g !! t with
      | Datatypes.S fuel, Some cs => match drop_from t (elements cs) (delete t g) with Some g => simplify fuel g (t :: stack) | None => None end
      | _, _ => None
      end
  end.
(** 34: the smallest colour in [c, c+n) not used. *)
Fixpoint first_free (n : nat) (c : N) (used : gset N) : option N :=
  match n with O => None | Datatypes.S n => if bool_decide (c ∈ used) then first_free n (c + 1) used else Some c end.
(** 24-37; [None] is one of the panics. *)
Fixpoint colour (g : igraph) (stack : list N) (alloc : gmap N N) : option (gmap N N) :=
  match stack with
  | [] => Some alloc
  | t :: stack =>
      match g !! t with
      | None => None
      | Some ns =>
          let used := list_to_set (omap (fun n => alloc !! n) (elements ns)) in
          match first_free (size g) 0 used, alloc !! t with
          | Some c, None => colour g stack (<[t := c]> alloc)
          | _, _ => None
          end
      end
  end.
Definition allocate_registers (g : igraph) : option (gmap N N) :=
  match simplify (size g) g [] with Some stack => colour g stack ∅ | None => None end.
