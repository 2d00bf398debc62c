(** Building SSA form (optimize-js/src/analysis/defs.rs, ssa/ssa_insert_phis.rs,
    ssa/ssa_rename.rs).  [None] is a panic, or the fuel running out. *)
From stdpp Require Import base decidable sets numbers gmap list.
From Coq Require Import NArith.
From Verif Require Import VmBase RustStr ILModel PassModel DomModel CfgPruneModel.

Local Open Scope N_scope.

(** analysis/defs.rs 7-17 [calculate_defs]. *)
Definition calculate_defs (b : gmap N block) : gmap N (gset N) :=
  map_fold (fun l is m => fold_left (fun m v => add_to v l m) (flat_map i_tgts is) m) ∅ b.
Definition set_at (m : gmap N (gset N)) (k : N) : gset N := match m !! k with Some s => s | None => ∅ end.

(** ** ssa/ssa_insert_phis.rs *)
(** 31-42, the blocks of one frontier.  The additions to [defs] are not modelled: nothing
    reads them (20-23 read a variable's set before it is extended, and lib.rs 492 drops it). *)
Fixpoint put_phis (v : N) (ls : list N) (inserted seen : gset N) (q : list N) (b : gmap N block) : option (gset N * gset N * list N * gmap N block) :=
  match ls with
  | [] => Some (inserted, seen, q, b)
  | l :: ls =>
      if bool_decide (l ∈ inserted) then put_phis v ls inserted seen q b
      else match b !! l with
      | None => None
      | Some is => put_phis v ls ({[l]} ∪ inserted) ({[l]} ∪ seen) (if bool_decide (l ∈ seen) then q else q ++ [l]) (<[l := inst_phi_empty v :: is]> b)
      end
  end.
(** 24-43, the queue of one variable. *)
Fixpoint phi_loop (fuel : nat) (df : gmap N (gset N)) (v : N) (inserted seen : gset N) (q : list N) (b : gmap N block) : option (gmap N block) :=
  match q with
  | [] => Some b
  | d :: q =>
      match fuel with
      | O => None
      | S fuel =>
          match put_phis v (sorted (set_at df d)) inserted seen q b with
          | Some (inserted, seen, q, b) => phi_loop fuel df v inserted seen q b
          | None => None
          end
      end
  end.
(** 9-45 [insert_phis_for_ssa_construction]; no queue is longer than the number of blocks. *)
Fixpoint insert_vars (df defs : gmap N (gset N)) (vs : list N) (b : gmap N block) : option (gmap N block) :=
  match vs with
  | [] => Some b
  | v :: vs =>
      match phi_loop (S (size (dom b))) df v ∅ (set_at defs v) (sorted (set_at defs v)) b with
      | Some b => insert_vars df defs vs b
      | None => None
      end
  end.
Definition insert_phis_for_ssa_construction (df defs : gmap N (gset N)) (b : gmap N block) : option (gmap N block) :=
  insert_vars df defs (sorted (dom defs)) b.

(** ** ssa/ssa_rename.rs *)
(** The stacks, last pushed first.  The code pushes a variable's own name on its stack
    when it is read empty (28-30, 55-57); here an empty stack stands for that. *)
Notation stacks := (gmap N (list N)).
Definition stack_of (K : stacks) (v : N) : list N := match K !! v with Some s => s | None => [] end.
Definition top (K : stacks) (v : N) : N := hd v (stack_of K v).
Definition push (K : stacks) (v x : N) : stacks := <[v := x :: stack_of K v]> K.
Definition pop_name (K : stacks) (v : N) : stacks := <[v := tail (stack_of K v)]> K.
(** 25-32. *)
Definition rename_arg (K : stacks) (a : arg) : arg := match a with AVar v => AVar (top K v) | a => a end.
(** 36-41. *)
Fixpoint rename_tgts (K : stacks) (n : N) (ts : list N) : list N * stacks * N :=
  match ts with
  | [] => ([], K, n)
  | t :: ts => let '(ts, K, k) := rename_tgts (push K t n) (n + 1) ts in (n :: ts, K, k)
  end.
(** 23-42. *)
Definition rename_inst (K : stacks) (n : N) (i : inst) : inst * stacks * N :=
  let i := if is_phi i then i else set_args i (map (rename_arg K) (i_args i)) in
  let '(ts, K, n) := rename_tgts K n (i_tgts i) in (set_tgts i ts, K, n).
Fixpoint rename_block (K : stacks) (n : N) (is : block) : block * stacks * N :=
  match is with
  | [] => ([], K, n)
  | i :: is => let '(i, K, n) := rename_inst K n i in let '(is, K, n) := rename_block K n is in (i :: is, K, n)
  end.
(** 44-60, the phis of one successor; [os] are their original targets. *)
Fixpoint fill_phis (l : N) (K : stacks) (os : list N) (is : block) : option block :=
  match is with
  | i :: is' =>
      if is_phi i then
        match os with
        | v :: os => match insert_phi i l (AVar (top K v)), fill_phis l K os is' with Some i, Some is => Some (i :: is) | _, _ => None end
        | [] => None
        end
      else Some is
  | [] => Some []
  end.
Fixpoint fill_children (l : N) (K : stacks) (origs : N -> list N) (cs : list N) (b : gmap N block) : option (gmap N block) :=
  match cs with
  | [] => Some b
  | s :: cs =>
      match b !! s with
      | None => None
      | Some is => match fill_phis l K (origs s) is with Some is => fill_children l K origs cs (<[s := is]> b) | None => None end
      end
  end.
(** 12-72 [inner]; [to_pop] has each target of the block as often as it was pushed. *)
Fixpoint rename_inner (fuel : nat) (g : graph) (d : domi) (origs : N -> list N) (l : N) (st : stacks * gmap N block * N) : option (stacks * gmap N block * N) :=
  match fuel with
  | O => None
  | S fuel =>
      match st.1.2 !! l with
      | None => None
      | Some is =>
          let '(is', S1, n) := rename_block st.1.1 st.2 is in
          match fill_children l S1 origs (children_sorted g l) (<[l := is']> st.1.2) with
          | None => None
          | Some b =>
              match fold_left (fun o x => match o with Some st => rename_inner fuel g d origs x st | None => None end) (immediately_dominated_by d l) (Some (S1, b, n)) with
              | Some (S2, b, n) => Some (fold_left pop_name (flat_map i_tgts is) S2, b, n)
              | None => None
              end
          end
      end
  end.
(** 74-95 [resolve_replacement]; the fuel bounds the variables seen. *)
Fixpoint resolve_var (fuel : nat) (r : gmap N arg) (seen : gset N) (v : N) : arg :=
  match fuel with
  | O => AVar v
  | S fuel =>
      if bool_decide (v ∈ seen) then AVar v
      else match r !! v with
           | None => AVar v
           | Some (AVar v') => resolve_var fuel r ({[v]} ∪ seen) v'
           | Some a => a
           end
  end.
Definition resolve_replacement (r : gmap N arg) (a : arg) : arg := match a with AVar v => resolve_var (S (S (size (dom r)))) r ∅ v | a => a end.
(** 123-152, one block. *)
Fixpoint drop_phis (is : block) (r : gmap N arg) : block * gmap N arg :=
  match is with
  | i :: is' =>
      if is_phi i then
        if Nat.leb (length (i_labels i)) 1 then
          drop_phis is' (<[hd 0 (i_tgts i) := match i_args i with a :: _ => a | [] => AConst KUndefined end]> r)
        else let '(is, r) := drop_phis is' r in (i :: is, r)
      else (is, r)
  | [] => ([], r)
  end.
Definition all_replacements (b : gmap N block) : gmap N arg := map_fold (fun _ is r => (drop_phis is r).2) ∅ b.
(** 122-162. *)
Definition prune_phis (b : gmap N block) : gmap N block :=
  let r := all_replacements b in
  let b := (fun is => (drop_phis is ∅).1) <$> b in
  if bool_decide (r = ∅) then b else map (fun i => set_args i (map (resolve_replacement r) (i_args i))) <$> b.
(** 97-168 [rename_targets_for_ssa_construction]. *)
Definition phi_orig_tgts (b : gmap N block) (l : N) : list N := map (fun i => hd 0 (i_tgts i)) (leading_phis (block_of b l)).
Definition rename_targets_for_ssa_construction (c : cfg) (d : domi) (n : N) : option (cfg * N) :=
  match rename_inner (S (size (dom (c_blocks c)))) (c_graph c) d (phi_orig_tgts (c_blocks c)) (c_entry c) (∅, c_blocks c, n) with
  | Some (_, b, n) => Some (simplify_phis (Cfg (c_graph c) (prune_phis b) (c_entry c)), n)
  | None => None
  end.
(** lib.rs 476-487. *)
Definition construct_ssa (c : cfg) (n : N) : option (cfg * N) :=
  match dom_of c with
  | None => None
  | Some d =>
      match dominance_frontiers d (parents_sorted (c_graph c)) with
      | None => None
      | Some df =>
          match insert_phis_for_ssa_construction df (calculate_defs (c_blocks c)) (c_blocks c) with
          | None => None
          | Some b => rename_targets_for_ssa_construction (Cfg (c_graph c) b (c_entry c)) d n
          end
      end
  end.
