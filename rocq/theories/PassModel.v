(** Optimizer passes over control flow graphs (optimize-js/src/opt/*.rs,
    ssa/phi_simplify.rs, ssa/ssa_deconstruct.rs, eval/consteval.rs 199-209). [None] is a
    panic. The [PassResult] flags are modelled only where a loop depends on them. *)
From stdpp Require Import base decidable list numbers gmap.
From Coq Require Import NArith ZArith.
From Verif Require Import VmBase RustStr ILModel.

Local Open Scope N_scope.

(** ** opt/optpass_trivial_dce.rs *)
Definition arg_var (a : arg) : list N := match a with AVar v => [v] | _ => [] end.
Definition arg_vars (as_ : list arg) : list N := flat_map arg_var as_.
(** 10-19: every variable some instruction of some block reads. *)
Definition used_vars (b : gmap N block) : gset N :=
  list_to_set (flat_map (fun lb => flat_map (fun i => arg_vars (i_args i)) (snd lb)) (map_to_list b)).
(** 22-35, one block. *)
Definition dce_dead (used : gset N) (i : inst) : bool :=
  negb (bool_decide (i_tgts i = [])) && forallb (fun v => negb (bool_decide (v ∈ used))) (i_tgts i).
Fixpoint dce_block (used : gset N) (is : block) : block :=
  match is with
  | [] => []
  | i :: is =>
      if dce_dead used i then if bool_decide (i_t i = ICall) then set_tgts i [] :: dce_block used is else dce_block used is
      else i :: dce_block used is
  end.
Definition optpass_trivial_dce (c : cfg) : cfg :=
  Cfg (c_graph c) (dce_block (used_vars (c_blocks c)) <$> c_blocks c) (c_entry c).

(** ** opt/optpass_redundant_assigns.rs *)
Definition is_var_assign (i : inst) : bool := bool_decide (i_t i = IVarAssign).
(** inst.rs [as_var_assign]. *)
Definition as_var_assign (i : inst) : list (N * arg) :=
  if is_var_assign i then match i_tgts i, i_args i with t :: _, a :: _ => [(t, a)] | _, _ => [] end else [].
(** 15-28: the copies found; the assertion on line 23 is [NoDup]. *)
Definition block_copies (is : block) : list (N * arg) := flat_map as_var_assign is.
Definition all_copies (b : gmap N block) : list (N * arg) := flat_map (fun lb => block_copies (snd lb)) (map_to_list b).
(** 30-42. *)
Definition subst_arg (s : gmap N arg) (a : arg) : arg :=
  match a with AVar t => match s !! t with Some a' => a' | None => a end | _ => a end.
Definition subst_inst (s : gmap N arg) (i : inst) : inst := set_args i (map (subst_arg s) (i_args i)).
Definition drop_copies (is : block) : block := filter (fun i => is_var_assign i = false) is.
Definition optpass_redundant_assigns (c : cfg) : option cfg :=
  let cs := all_copies (c_blocks c) in
  if bool_decide (NoDup (map fst cs)) then
    Some (Cfg (c_graph c) ((fun is => map (subst_inst (list_to_map cs)) (drop_copies is)) <$> c_blocks c) (c_entry c))
  else None.

(** ** eval/consteval.rs 212-221 [coerce_to_bool]. *)
Definition coerce_to_bool (k : const) : bool :=
  match k with
  | KBigInt v => Z.eqb v 0
  | KBool b => b
  | KNull => false
  | KNum x => negb (f64_is_nan x) && negb (f64_is_zero x)
  | KStr s => negb (bool_decide (s = []))
  | KUndefined => false
  end.

(** ** ssa/phi_simplify.rs 146-237 [simplify_phis] *)
(** 177-198: keep the entries of current predecessors, sort by predecessor, and keep the
    last entry of each. *)
Definition pair_cmp (x y : N * arg) : comparison := N.compare (fst x) (fst y).
Fixpoint dedup_last (es : list (N * arg)) : list (N * arg) :=
  match es with
  | [] => []
  | (p, a) :: es' =>
      match es' with
      | (q, _) :: _ => if N.eqb p q then dedup_last es' else (p, a) :: dedup_last es'
      | [] => [(p, a)]
      end
  end.
Definition phi_entries (ps : gset N) (i : inst) : list (N * arg) :=
  dedup_last (sort_by pair_cmp (filter (fun e => fst e ∈ ps) (zip (i_labels i) (i_args i)))).
(** 200-220, one phi: what it contributes to [new_phis] and to [lowered]. *)
Definition simplify_phi (used : gset N) (ps : gset N) (i : inst) : list inst * list inst :=
  match i_tgts i, phi_entries ps i with
  | t :: _, [] => ([], if bool_decide (t ∈ used) then [inst_var_assign t (AConst KUndefined)] else [])
  | t :: _, [(_, a)] => ([], [inst_var_assign t a])
  | _, es => ([set_labels (set_args i (map snd es)) (map fst es)], [])
  end.
(** 151-165 and 222-226: phis are hoisted, then the lowered ones follow the kept ones. *)
Definition simplify_block (used : gset N) (ps : gset N) (is : block) : block :=
  let phis := filter (fun i => is_phi i = true) is in
  let rest := filter (fun i => is_phi i = false) is in
  flat_map (fun i => (simplify_phi used ps i).1) phis ++ flat_map (fun i => (simplify_phi used ps i).2) phis ++ rest.
Definition simplify_phis (c : cfg) : cfg :=
  Cfg (c_graph c) (map_imap (fun l is => Some (simplify_block (used_vars (c_blocks c)) (parents (c_graph c) l) is)) (c_blocks c)) (c_entry c).

(** ** opt/optpass_impossible_branches.rs *)
(** 17-48, one block of the [for] loop. [None] is a panic ([bblocks.get_mut], [disconnect]). *)
Definition fold_branch (c : cfg) (l : N) : option cfg :=
  match c_blocks c !! l with
  | None => None
  | Some is =>
      match last is with
      | None => Some c
      | Some i =>
          if is_cond_goto i then
            match i_args i, i_labels i with
            | [cond], [t; f] =>
                if N.eqb t f then Some (Cfg (c_graph c) (<[l := removelast is]> (c_blocks c)) (c_entry c))
                else match cond with
                     | AConst k =>
                         let never := if coerce_to_bool k then f else t in
                         match disconnect (c_graph c) l never with
                         | Some g => Some (Cfg g (<[l := removelast is]> (c_blocks c)) (c_entry c))
                         | None => None
                         end
                     | _ => Some c
                     end
            | _, _ => None
            end
          else Some c
      end
  end.
Fixpoint fold_branches (c : cfg) (ls : list N) : option cfg :=
  match ls with
  | [] => Some c
  | l :: ls => match fold_branch c l with Some c => fold_branches c ls | None => None end
  end.
(** 15-75, one iteration of the loop, and the loop; [Some None] is running out of fuel. The
    loop ends when an iteration changed nothing. *)
Definition branches_round (c : cfg) : option cfg :=
  match fold_branches c (labels_sorted (c_graph c)) with
  | Some c => match find_and_pop_unreachable c with Some (c, _) => Some (simplify_phis c) | None => None end
  | None => None
  end.
Global Instance gnode_dec : EqDecision gnode.
Proof. solve_decision. Defined.
Global Instance cfg_dec : EqDecision cfg.
Proof. solve_decision. Defined.
Fixpoint branches_loop (fuel : nat) (c : cfg) : option (option cfg) :=
  match fuel with
  | O => Some None
  | S fuel =>
      match branches_round c with
      | None => None
      | Some c' => if bool_decide (c' = c) then Some (Some c) else branches_loop fuel c'
      end
  end.

(** ** ssa/ssa_deconstruct.rs *)
(** 9-14 [NewBblock]. *)
Record new_block := NewBlock { n_label : N; n_parent : N; n_child : N; n_insts : list inst }.
(** 23-36: the copies of one phi, added to the block of their parent (made on first sight). *)
Fixpoint add_copy (parent child : N) (i : inst) (nbs : list new_block) (counter : N) : list new_block * N :=
  match nbs with
  | [] => ([NewBlock counter parent child [i]], counter + 1)
  | b :: nbs =>
      if N.eqb (n_parent b) parent then (NewBlock (n_label b) (n_parent b) (n_child b) (n_insts b ++ [i]) :: nbs, counter)
      else let '(nbs, counter) := add_copy parent child i nbs counter in (b :: nbs, counter)
  end.
Fixpoint add_copies (child tgt : N) (les : list (N * arg)) (nbs : list new_block) (counter : N) : list new_block * N :=
  match les with
  | [] => (nbs, counter)
  | (p, a) :: les => let '(nbs, counter) := add_copy p child (inst_var_assign tgt a) nbs counter in add_copies child tgt les nbs counter
  end.
(** 20-38 [while bblock.first() is Phi]; [None] is the index panic on a phi without target. *)
Fixpoint strip_phis (child : N) (is : block) (nbs : list new_block) (counter : N) : option (block * list new_block * N) :=
  match is with
  | i :: is' =>
      if is_phi i then
        match i_tgts i with
        | t :: _ => let '(nbs, counter) := add_copies child t (zip (i_labels i) (i_args i)) nbs counter in strip_phis child is' nbs counter
        | [] => None
        end
      else Some (is, nbs, counter)
  | [] => Some ([], nbs, counter)
  end.
(** 15-40. *)
Fixpoint strip_all (ls : list N) (b : gmap N block) (nbs : list new_block) (counter : N) : option (gmap N block * list new_block * N) :=
  match ls with
  | [] => Some (b, nbs, counter)
  | l :: ls =>
      match strip_phis l (block_of b l) [] counter with
      | Some (is, nbs', counter) => strip_all ls (<[l := is]> b) (nbs ++ nbs') counter
      | None => None
      end
  end.
(** 42-57. *)
Definition nb_cmp (x y : new_block) : comparison := N.compare (n_label x) (n_label y).
Definition relabel (old new : N) (i : inst) : inst :=
  set_labels i (map (fun l => if N.eqb l old then new else l) (i_labels i)).
Definition retarget (old new : N) (is : block) : block :=
  match last is with
  | Some i => if is_cond_goto i then removelast is ++ [relabel old new i] else is
  | None => is
  end.
Definition attach (c : cfg) (nb : new_block) : option cfg :=
  match disconnect (c_graph c) (n_parent nb) (n_child nb), c_blocks c !! n_parent nb with
  | Some g, Some is =>
      let g := connect (connect g (n_parent nb) (n_label nb)) (n_label nb) (n_child nb) in
      let b := <[n_parent nb := retarget (n_child nb) (n_label nb) is]> (c_blocks c) in
      (** [bblocks.add] asserts that the label is new *)
      match b !! n_label nb with
      | None => Some (Cfg g (<[n_label nb := n_insts nb]> b) (c_entry c))
      | Some _ => None
      end
  | _, _ => None
  end.
Fixpoint attach_all (c : cfg) (nbs : list new_block) : option cfg :=
  match nbs with
  | [] => Some c
  | nb :: nbs => match attach c nb with Some c => attach_all c nbs | None => None end
  end.
Definition deconstruct_ssa (c : cfg) (counter : N) : option (cfg * N) :=
  match strip_all (sorted (dom (c_blocks c))) (c_blocks c) [] counter with
  | None => None
  | Some (b, nbs, counter) =>
      match attach_all (Cfg (c_graph c) b (c_entry c)) (sort_by nb_cmp nbs) with
      | Some c => Some (c, counter)
      | None => None
      end
  end.
