(** The optimizer's instructions and control flow graphs (optimize-js/src/il/inst.rs,
    graph/mod.rs, cfg/cfg.rs, cfg/bblock.rs). [HashMap]s and [HashSet]s are finite maps and
    sets; the code sorts before it iterates wherever an order could be seen. *)
From stdpp Require Import base decidable list numbers gmap.
From Coq Require Import NArith ZArith.
From Verif Require Import VmBase RustStr.

Local Open Scope N_scope.

(** ** il/inst.rs *)
(** 11-18 [Const]. *)
Inductive const := KBigInt (z : Z) | KBool (b : bool) | KNull | KNum (x : f64) | KStr (s : rstr) | KUndefined.
(** 36-41 [Arg]. *)
Inductive arg := ABuiltin (p : rstr) | AConst (c : const) | AFn (n : N) | AVar (v : N).
(** 80-103 [BinOp]. *)
Inductive binop := OAdd | OBitAnd | OBitOr | OBitXor | ODiv | OExp | OGeq | OGetProp | OGt | OLeq | OLooseEq | OLt
  | OMod | OMul | ONotLooseEq | ONotStrictEq | OShl | OShr | OUShr | OStrictEq | OSub | ODummyBin.
(** 134-142 [UnOp]. *)
Inductive unop := OBitNot | ONeg | ONot | OPlus | OTypeof | OVoid | ODummyUn.
(** 159-180 [InstTyp]. *)
Inductive inst_typ := IBin | IUn | IVarAssign | IPropAssign | ICondGoto | ICall | IForeignLoad | IForeignStore
  | IUnknownLoad | IUnknownStore | IPhi | ILabel | IGoto | IDummy.
(** 201-232 [Inst]. *)
Record inst := Inst {
  i_t : inst_typ; i_tgts : list N; i_args : list arg; i_spreads : list N; i_labels : list N;
  i_bin : binop; i_un : unop; i_foreign : N; i_unknown : rstr }.

Global Instance const_dec : EqDecision const.
Proof. solve_decision. Defined.
Global Instance arg_dec : EqDecision arg.
Proof. solve_decision. Defined.
Global Instance binop_dec : EqDecision binop.
Proof. solve_decision. Defined.
Global Instance unop_dec : EqDecision unop.
Proof. solve_decision. Defined.
Global Instance inst_typ_dec : EqDecision inst_typ.
Proof. solve_decision. Defined.
Global Instance inst_dec : EqDecision inst.
Proof. solve_decision. Defined.

(** 191-193 [dummy_symbol] and 261-275 [Inst::default]. *)
Definition dummy_symbol : N := 4294967295.
Definition inst_base (t : inst_typ) tgts args labels : inst := Inst t tgts args [] labels ODummyBin ODummyUn dummy_symbol [].
(** 278-404: the builders. *)
Definition inst_bin (tgt : N) (l : arg) (op : binop) (r : arg) : inst := Inst IBin [tgt] [l; r] [] [] op ODummyUn dummy_symbol [].
Definition inst_un (tgt : N) (op : unop) (a : arg) : inst := Inst IUn [tgt] [a] [] [] ODummyBin op dummy_symbol [].
Definition inst_var_assign (tgt : N) (a : arg) : inst := inst_base IVarAssign [tgt] [a] [].
Definition inst_prop_assign (o p v : arg) : inst := inst_base IPropAssign [] [o; p; v] [].
Definition inst_goto (l : N) : inst := inst_base IGoto [] [] [l].
Definition inst_cond_goto (c : arg) (t f : N) : inst := inst_base ICondGoto [] [c] [t; f].
Definition inst_call (tgt : option N) (callee this : arg) (args : list arg) : inst :=
  inst_base ICall (match tgt with Some t => [t] | None => [] end) (callee :: this :: args) [].
Definition inst_phi_empty (tgt : N) : inst := inst_base IPhi [tgt] [] [].
Definition inst_label (l : N) : inst := inst_base ILabel [] [] [l].

Definition is_phi (i : inst) : bool := bool_decide (i_t i = IPhi).
Definition is_cond_goto (i : inst) : bool := bool_decide (i_t i = ICondGoto).

Definition set_tgts (i : inst) (t : list N) : inst := Inst (i_t i) t (i_args i) (i_spreads i) (i_labels i) (i_bin i) (i_un i) (i_foreign i) (i_unknown i).
Definition set_args (i : inst) (a : list arg) : inst := Inst (i_t i) (i_tgts i) a (i_spreads i) (i_labels i) (i_bin i) (i_un i) (i_foreign i) (i_unknown i).
Definition set_labels (i : inst) (l : list N) : inst := Inst (i_t i) (i_tgts i) (i_args i) (i_spreads i) l (i_bin i) (i_un i) (i_foreign i) (i_unknown i).

(** ** graph/mod.rs *)
(** 38-57 [GraphNode], [Graph]. *)
Record gnode := GNode { g_children : gset N; g_parents : gset N }.
Notation graph := (gmap N gnode).
Definition empty_node : gnode := GNode ∅ ∅.

(** 84-101 [parents], [children]. *)
Definition parents (g : graph) (n : N) : gset N := match g !! n with Some x => g_parents x | None => ∅ end.
Definition children (g : graph) (n : N) : gset N := match g !! n with Some x => g_children x | None => ∅ end.
(** 105-118 [connect]. *)
Definition add_child (c : N) (x : gnode) : gnode := GNode ({[c]} ∪ g_children x) (g_parents x).
Definition add_parent (p : N) (x : gnode) : gnode := GNode (g_children x) ({[p]} ∪ g_parents x).
Definition entry_or_default (g : graph) (n : N) : gnode := match g !! n with Some x => x | None => empty_node end.
Definition connect (g : graph) (p c : N) : graph :=
  let g := <[p := add_child c (entry_or_default g p)]> g in
  <[c := add_parent p (entry_or_default g c)]> g.
(** 122-125 [disconnect]; [None] is a panic. *)
Definition del_child (c : N) (x : gnode) : gnode := GNode (g_children x ∖ {[c]}) (g_parents x).
Definition del_parent (p : N) (x : gnode) : gnode := GNode (g_children x) (g_parents x ∖ {[p]}).
Definition get_mut (g : graph) (n : N) (f : gnode -> gnode) : option graph :=
  match g !! n with Some x => Some (<[n := f x]> g) | None => None end.
Definition disconnect (g : graph) (p c : N) : option graph :=
  match get_mut g p (del_child c) with Some g => get_mut g c (del_parent p) | None => None end.
(** 129-133 [pop]. *)
Definition pop (g : graph) (n : N) : option graph :=
  match g !! n with
  | Some x => if bool_decide (g_parents x = ∅) && bool_decide (g_children x = ∅) then Some (delete n g) else None
  | None => None
  end.
(** 136-171 [contract]. *)
Fixpoint get_mut_all (g : graph) (ns : list N) (f : gnode -> gnode) : option graph :=
  match ns with
  | [] => Some g
  | n :: ns => match get_mut g n f with Some g => get_mut_all g ns f | None => None end
  end.
Definition contract (g : graph) (n : N) : option graph :=
  match g !! n with
  | None => None
  | Some x =>
      let cs := g_children x ∖ {[n]} in
      let ps := g_parents x ∖ {[n]} in
      let g := delete n g in
      match get_mut_all g (elements ps) (fun y => GNode (g_children y ∪ cs) (g_parents y)) with
      | None => None
      | Some g =>
          match get_mut_all g (elements cs) (fun y => GNode (g_children y) (g_parents y ∪ ps)) with
          | None => None
          | Some g =>
              match get_mut_all g (elements ps) (del_child n) with
              | None => None
              | Some g => get_mut_all g (elements cs) (del_parent n)
              end
          end
      end
  end.

(** ** cfg/cfg.rs *)
(** [sort_unstable] on labels. *)
Definition sorted (s : gset N) : list N := sort_by N.compare (elements s).
(** 41-45 [labels_sorted], 63-67 [parents_sorted], 77-81 [children_sorted]. *)
Definition labels (g : graph) : gset N := dom g.
Definition labels_sorted (g : graph) : list N := sorted (labels g).
Definition children_sorted (g : graph) (n : N) : list N := sorted (children g n).
Definition parents_sorted (g : graph) (n : N) : list N := sorted (parents g n).

(** 95-99 [delete_many]. *)
Fixpoint delete_many (g : graph) (ns : list N) : option graph :=
  match ns with
  | [] => Some g
  | n :: ns => match contract g n with Some g => delete_many g ns | None => None end
  end.

(** 115-130 [find_unreachable]: breadth first; the fuel bounds the number of queue pops. *)
Definition visit_children (seen : gset N) (q cs : list N) : gset N * list N :=
  fold_left (fun '(seen, q) c => if bool_decide (c ∈ seen) then (seen, q) else ({[c]} ∪ seen, q ++ [c])) cs (seen, q).
Fixpoint bfs (fuel : nat) (g : graph) (seen : gset N) (q : list N) : option (gset N) :=
  match q with
  | [] => Some seen
  | n :: q =>
      match fuel with
      | O => None
      | S fuel => let '(seen, q) := visit_children seen q (children_sorted g n) in bfs fuel g seen q
      end
  end.
Definition find_unreachable (g : graph) (entry : N) : option (list N) :=
  match bfs (S (size (labels g))) g {[entry]} [entry] with
  | Some seen => Some (filter (fun n => n ∉ seen) (labels_sorted g))
  | None => None
  end.

(** 160-204 [CfgBBlocks], [Cfg]. *)
Notation block := (list inst).
Record cfg := Cfg { c_graph : graph; c_blocks : gmap N block; c_entry : N }.
(** 179-185 [remove], [remove_many]. *)
Fixpoint remove_many (b : gmap N block) (ns : list N) : option (gmap N block) :=
  match ns with
  | [] => Some b
  | n :: ns => match b !! n with Some _ => remove_many (delete n b) ns | None => None end
  end.
(** 210-215 [Cfg::pop]. *)
Definition cfg_pop (c : cfg) (n : N) : option (cfg * block) :=
  match (if bool_decide (n ∈ labels (c_graph c)) then pop (c_graph c) n else Some (c_graph c)), c_blocks c !! n with
  | Some g, Some b => Some (Cfg g (delete n (c_blocks c)) (c_entry c), b)
  | _, _ => None
  end.
(** 219-224 [find_and_pop_unreachable]. *)
Definition find_and_pop_unreachable (c : cfg) : option (cfg * list N) :=
  match find_unreachable (c_graph c) (c_entry c) with
  | None => None
  | Some dead =>
      match delete_many (c_graph c) dead, remove_many (c_blocks c) dead with
      | Some g, Some b => Some (Cfg g b (c_entry c), dead)
      | _, _ => None
      end
  end.

(** cfg/bblock.rs 10-37 [convert_insts_to_bblocks]; il/s2i/mod.rs [DUMMY_LABEL]; util/counter.rs [bump]. *)
Definition dummy_label : N := 4294967295.
Definition block_of (b : gmap N block) (l : N) : block := match b !! l with Some x => x | None => [] end.
Fixpoint convert (insts : list inst) (cur c_label : N) (b : gmap N block) (order : list N) : option (gmap N block * list N * N) :=
  match insts with
  | [] => Some (b, order, c_label)
  | i :: insts =>
      match i_t i with
      | ILabel =>
          match i_labels i with
          | l :: _ => convert insts l c_label (<[l := block_of b l]> b) (order ++ [l])
          | [] => None
          end
      | IGoto | ICondGoto =>
          let b := <[cur := block_of b cur ++ [i]]> b in
          convert insts c_label (c_label + 1) (<[c_label := block_of b c_label]> b) (order ++ [c_label])
      | _ => convert insts cur c_label (<[cur := block_of b cur ++ [i]]> b) order
      end
  end.
Definition convert_insts_to_bblocks (insts : list inst) (c_label : N) : option (gmap N block * list N * N) :=
  convert insts 0 c_label {[0 := []]} [0].

(** cfg.rs 228-272 [from_bblocks]. *)
Definition connect_all (g : graph) (p : N) (cs : list N) : graph := fold_left (fun g c => connect g p c) cs g.
Fixpoint fix_labels (next : option N) (ls : list N) : option (list N) :=
  match ls with
  | [] => Some []
  | l :: ls =>
      match (if N.eqb l dummy_label then next else Some l), fix_labels next ls with
      | Some l, Some ls => Some (l :: ls)
      | _, _ => None
      end
  end.
Definition link_block (g : graph) (b : gmap N block) (order : list N) (i : nat) (final : bool) : option (graph * gmap N block) :=
  match order !! i with
  | None => None
  | Some p =>
      match b !! p with
      | None => None
      | Some is =>
          match List.rev is with
          | x :: ris =>
              match i_t x with
              | IGoto => match i_labels x with l :: _ => Some (connect g p l, <[p := List.rev ris]> b) | [] => None end
              | ICondGoto =>
                  match fix_labels (order !! S i) (i_labels x) with
                  | Some ls => Some (connect_all g p ls, <[p := List.rev ris ++ [set_labels x ls]]> b)
                  | None => None
                  end
              | _ => if final then Some (g, b) else match order !! S i with Some n => Some (connect g p n, b) | None => None end
              end
          | [] => if final then Some (g, b) else match order !! S i with Some n => Some (connect g p n, b) | None => None end
          end
      end
  end.
Fixpoint link_blocks (n i : nat) (g : graph) (b : gmap N block) (order : list N) : option (graph * gmap N block) :=
  match n with
  | O => Some (g, b)
  | S n => match link_block g b order i (match n with O => true | _ => false end) with Some (g, b) => link_blocks n (S i) g b order | None => None end
  end.
Definition from_bblocks (b : gmap N block) (order : list N) : option cfg :=
  match link_blocks (size b) 0 ∅ b order with Some (g, b) => Some (Cfg g b 0) | None => None end.
