(** Control flow graph pruning (optimize-js/src/opt/optpass_cfg_prune.rs).  [None] is a
    panic throughout.  The [PassResult] is not modelled; debug assertions are not. *)
From stdpp Require Import base decidable sets numbers gmap list.
From Coq Require Import NArith.
From Verif Require Import VmBase RustStr ILModel PassModel.

Local Open Scope N_scope.

(** ** il/inst.rs *)
(** [iter().position(|&l| l == label)]. *)
Fixpoint position (l : N) (ls : list N) : option nat :=
  match ls with
  | [] => None
  | x :: ls => if N.eqb x l then Some O else option_map S (position l ls)
  end.
(** 237-243 [remove_phi]. *)
Definition remove_phi (i : inst) (l : N) : option (inst * option arg) :=
  if is_phi i && Nat.eqb (length (i_labels i)) (length (i_args i)) then
    match position l (i_labels i) with
    | None => Some (i, None)
    | Some k => Some (set_labels (set_args i (delete k (i_args i))) (delete k (i_labels i)), i_args i !! k)
    end
  else None.
(** 245-255 [insert_phi]. *)
Definition insert_phi (i : inst) (l : N) (a : arg) : option inst :=
  if is_phi i && Nat.eqb (length (i_labels i)) (length (i_args i)) && bool_decide (l ∉ i_labels i)
  then Some (set_labels (set_args i (i_args i ++ [a])) (i_labels i ++ [l])) else None.

(** ** opt/optpass_cfg_prune.rs *)
(** 10-30 [can_prune_bblock]. *)
Definition can_prune_bblock (ps cs : list N) (only_child is_empty : bool) : bool :=
  (Nat.eqb (length ps) 1 && only_child) || (Nat.eqb (length cs) 1 && is_empty) || (is_empty && only_child).

(** The phis a block starts with, and these changed. *)
Fixpoint leading_phis (is : block) : block := match is with i :: is' => if is_phi i then i :: leading_phis is' else [] | [] => [] end.
Fixpoint map_phis (f : inst -> option inst) (is : block) : option block :=
  match is with
  | i :: is' => if is_phi i then match f i, map_phis f is' with Some i, Some is => Some (i :: is) | _, _ => None end else Some is
  | [] => Some []
  end.
(** 32-79 [maybe_reroot_entry]; [Some None] is [false]. *)
Definition maybe_reroot_entry (c : cfg) : option (option cfg) :=
  if N.eqb (c_entry c) 0 then
    match c_blocks c !! 0 with
    | Some [] =>
        match parents_sorted (c_graph c) 0, children_sorted (c_graph c) 0 with
        | [], [n] =>
            if N.eqb n 0 then Some None
            else match c_blocks c !! n with
            | None => None
            | Some is =>
                if existsb (fun i => bool_decide (0 ∈ i_labels i) && Nat.eqb (length (i_labels i)) 1) (leading_phis is) then Some None
                else match map_phis (fun i => option_map fst (remove_phi i 0)) is, contract (c_graph c) 0 with
                | Some is, Some g => Some (Some (Cfg g (delete 0 (<[n := is]> (c_blocks c))) n))
                | _, _ => None
                end
            end
        | _, _ => Some None
        end
    | _ => Some None
    end
  else Some None.

(** 118-125: the block is detached from its children, which its parents are attached to. *)
Fixpoint bypass (g : graph) (cur : N) (ps cs : list N) : option graph :=
  match cs with
  | [] => Some g
  | c :: cs => match disconnect g cur c with Some g => bypass (fold_left (fun g p => connect g p c) ps g) cur ps cs | None => None end
  end.
(** 126-129. *)
Fixpoint detach (g : graph) (cur : N) (ps : list N) : option graph :=
  match ps with
  | [] => Some g
  | p :: ps => match disconnect g p cur with Some g => detach g cur ps | None => None end
  end.
(** 136-156, one parent: its block with the instructions moved in. *)
Definition move_into (cur : N) (cs : list N) (insts is : block) : option block :=
  match last is with
  | Some j =>
      if is_cond_goto j then
        match cs with
        | [child] =>
            let ls := map (fun l => if N.eqb l cur then child else l) (i_labels j) in
            match ls with
            | a :: b :: _ => Some (removelast is ++ insts ++ if N.eqb a b then [] else [set_labels j ls])
            | _ => None
            end
        | _ => None
        end
      else Some (is ++ insts)
  | None => Some (is ++ insts)
  end.
Fixpoint move_all (cur : N) (cs : list N) (insts : block) (ps : list N) (b : gmap N block) : option (gmap N block) :=
  match ps with
  | [] => Some b
  | p :: ps =>
      match b !! p with
      | None => None
      | Some is => match move_into cur cs insts is with Some is => move_all cur cs insts ps (<[p := is]> b) | None => None end
      end
  end.
(** 165-173, one phi: the entry of the removed block is given to each parent. *)
Fixpoint give_entry (ps : list N) (ex : arg) (i : inst) : option inst :=
  match ps with
  | [] => Some i
  | p :: ps =>
      match position p (i_labels i) with
      | Some k => give_entry ps ex (set_args i (<[k := ex]> (i_args i)))
      | None => match insert_phi i p ex with Some i => give_entry ps ex i | None => None end
      end
  end.
Definition update_phi (cur : N) (ps : list N) (i : inst) : option inst :=
  match remove_phi i cur with
  | Some (i, Some ex) => give_entry ps ex i
  | Some (i, None) => Some i
  | None => None
  end.
(** 158-175. *)
Fixpoint update_children (cur : N) (ps cs : list N) (b : gmap N block) : option (gmap N block) :=
  match cs with
  | [] => Some b
  | c :: cs =>
      match b !! c with
      | None => None
      | Some is => match map_phis (update_phi cur ps) is with Some is => update_children cur ps cs (<[c := is]> b) | None => None end
      end
  end.

(** 92-178, one block of the [for] loop: the program, whether the block is an empty leaf,
    and whether it was removed. *)
Definition prune_bblock (c : cfg) (cur : N) : option (cfg * bool * bool) :=
  if N.eqb cur (c_entry c) then Some (c, false, false) else
  let ps := parents_sorted (c_graph c) cur in
  let cs := children_sorted (c_graph c) cur in
  let only := forallb (fun p => Nat.eqb (length (children_sorted (c_graph c) p)) 1) ps in
  match c_blocks c !! cur with
  | None => None
  | Some is =>
      let is_empty := bool_decide (is = []) in
      if bool_decide (cur ∈ cs) then Some (c, false, false) else
      let leaf := is_empty && bool_decide (cs = []) in
      if can_prune_bblock ps cs only is_empty then
        match bypass (c_graph c) cur ps cs with
        | None => None
        | Some g =>
            match detach g cur ps with
            | None => None
            | Some g =>
                match cfg_pop (Cfg g (c_blocks c) (c_entry c)) cur with
                | None => None
                | Some (c, insts) =>
                    match move_all cur cs insts ps (c_blocks c) with
                    | None => None
                    | Some b => match update_children cur ps cs b with Some b => Some (Cfg (c_graph c) b (c_entry c), leaf, true) | None => None end
                    end
                end
            end
        end
      else Some (c, leaf, false)
  end.
Fixpoint prune_bblocks (c : cfg) (ls : list N) (leaves : list N) (changed : bool) : option (cfg * list N * bool) :=
  match ls with
  | [] => Some (c, leaves, changed)
  | l :: ls =>
      match prune_bblock c l with
      | Some (c, leaf, ch) => prune_bblocks c ls (if leaf then leaves ++ [l] else leaves) (changed || ch)
      | None => None
      end
  end.

(** 196-207, the labels of one conditional jump: the graph, the labels, and whether all were leaves. *)
Fixpoint redirect (g : graph) (l new : N) (leaves ls : list N) : option (graph * list N * bool) :=
  match ls with
  | [] => Some (g, [], true)
  | x :: ls =>
      if bool_decide (x ∈ leaves) then
        match disconnect g l x with
        | Some g => match redirect (connect g l new) l new leaves ls with Some (g, ls, all) => Some (g, new :: ls, all) | None => None end
        | None => None
        end
      else match redirect g l new leaves ls with Some (g, ls, _) => Some (g, x :: ls, false) | None => None end
  end.
(** 189-212; the blocks are visited in the order of their labels, which does not matter. *)
Fixpoint redirect_all (c : cfg) (new : N) (leaves ls : list N) : option cfg :=
  match ls with
  | [] => Some c
  | l :: ls =>
      let is := block_of (c_blocks c) l in
      match last is with
      | Some j =>
          if is_cond_goto j then
            match redirect (c_graph c) l new leaves (i_labels j) with
            | Some (g, lbls, all) =>
                redirect_all (Cfg g (<[l := if all then removelast is else removelast is ++ [set_labels j lbls]]> (c_blocks c)) (c_entry c)) new leaves ls
            | None => None
            end
          else redirect_all c new leaves ls
      | None => redirect_all c new leaves ls
      end
  end.
(** 214-218. *)
Fixpoint pop_leaves (c : cfg) (ls : list N) : option cfg :=
  match ls with
  | [] => Some c
  | l :: ls => match c_blocks c !! l with Some _ => match cfg_pop c l with Some (c, _) => pop_leaves c ls | None => None end | None => pop_leaves c ls end
  end.
(** 181-221; the list of leaves is in order and without repetition already. *)
Definition merge_leaves (c : cfg) (leaves : list N) : option cfg :=
  match filter (fun l => l ∈ labels (c_graph c)) leaves with
  | (new :: _ :: _) as leaves =>
      match redirect_all c new leaves (sorted (dom (c_blocks c))) with Some c => pop_leaves c (tail leaves) | None => None end
  | _ => Some c
  end.
(** 81-238 [optpass_cfg_prune]; [Some None] is the end of the fuel.  [simplify_phis]
    reports a change when the program is another one. *)
Fixpoint optpass_cfg_prune (fuel : nat) (c : cfg) : option (option cfg) :=
  match fuel with
  | O => Some None
  | S fuel =>
      match maybe_reroot_entry c with
      | None => None
      | Some (Some c) => optpass_cfg_prune fuel c
      | Some None =>
          match prune_bblocks c (labels_sorted (c_graph c)) [] false with
          | None => None
          | Some (c, leaves, changed) =>
              match merge_leaves c leaves with
              | None => None
              | Some c => let c' := simplify_phis c in if changed || negb (bool_decide (c' = c)) then optpass_cfg_prune fuel c' else Some (Some c')
              end
          end
      end
  end.
