(** * Dominator-based value numbering (optimize-js/src/opt/optpass_dvn.rs)

    The constant evaluator is a parameter; consteval.rs (EvalModel.v) is
    [constant_evaluator].  Hash maps are never iterated: the one keyed by
    instructions is an association list, keys compared bit by bit. *)
From stdpp Require Import base decidable list numbers gmap.
From Coq Require Import NArith ZArith String.
From Verif Require Import VmBase RustStr PrimModel ConvModel ILModel DomModel.
From Verif Require FoldModel EvalModel.

Local Open Scope N_scope.

Import EvalModel (answer, Folded, Declined, Panics).

(** optpass_dvn.rs 18-90 [is_valid_member_ident]. *)
Definition is_start_char (c : N) : bool :=
  ((97 <=? c) && (c <=? 122)) || ((65 <=? c) && (c <=? 90)) || (c =? 95) || (c =? 36).
Definition is_continue_char (c : N) : bool := is_start_char c || ((48 <=? c) && (c <=? 57)).
Definition reserved_words : list rstr :=
  map txt ["await"; "break"; "case"; "catch"; "class"; "const"; "continue"; "debugger"; "default"; "delete"; "do"; "else";
    "enum"; "export"; "extends"; "false"; "finally"; "for"; "function"; "if"; "import"; "in"; "instanceof"; "new"; "null";
    "return"; "super"; "switch"; "this"; "throw"; "true"; "try"; "typeof"; "var"; "void"; "while"; "with"; "yield"; "let";
    "static"; "implements"; "interface"; "package"; "private"; "protected"; "public"]%string.
Definition is_valid_member_ident (name : rstr) : bool :=
  match name with
  | [] => false
  | c :: cs => is_start_char c && forallb is_continue_char cs && negb (bool_decide (name ∈ reserved_words))
  end.

(** The functions of consteval.rs the pass calls; [ev_greater] is the derived
    order of constants. *)
Record evaluator := Evaluator {
  ev_bin : binop -> const -> const -> answer;
  ev_call : rstr -> list const -> option const;
  ev_val : rstr -> option const;
  ev_greater : const -> const -> bool }.
Definition constant_evaluator (R : FoldModel.rust) (libm : rstr -> f64 -> f64) (greater : const -> const -> bool) : evaluator :=
  Evaluator (EvalModel.eval_bin R) (EvalModel.eval_call R libm) EvalModel.eval_val greater.

(** 92-96 [Val]. *)
Inductive val := NBin (l : arg) (op : binop) (r : arg) | NUn (op : unop) (a : arg).
Global Instance val_dec : EqDecision val.
Proof. solve_decision. Defined.
(** 98-105 [State]. *)
Record state := State { val_to_coc : list (val * arg); tgt_to_coc : gmap N arg }.
Fixpoint find_val (v : val) (l : list (val * arg)) : option arg :=
  match l with
  | [] => None
  | (u, a) :: l => if bool_decide (u = v) then Some a else find_val v l
  end.

Section dvn.
Context (ev : evaluator).

(** 119-133 [canon_arg]. *)
Definition canon_arg (s : state) (a : arg) : arg :=
  match a with
  | ABuiltin p => match ev_val ev p with Some k => AConst k | None => ABuiltin p end
  | AConst k => AConst k
  | AFn f => AFn f
  | AVar t => match tgt_to_coc s !! t with Some a => a | None => AVar t end
  end.

(** The asserted insertions into [tgt_to_coc] (260-263, 285 and 295); [None] is a panic. *)
Definition insert_tgt (s : state) (t : N) (a : arg) : option state :=
  match tgt_to_coc s !! t with
  | Some _ => None
  | None => Some (State (val_to_coc s) (<[t := a]> (tgt_to_coc s)))
  end.

(** 211-249: the value of an instruction whose canonical arguments are
    constants; the outer [None] is a panic. *)
Definition is_const (a : arg) : bool := match a with AConst _ => true | _ => false end.
Definition to_consts (l : list arg) : list const := flat_map (fun a => match a with AConst k => [k] | _ => [] end) l.
Definition swaps (op : binop) (l r : const) : bool :=
  match op, l, r with
  | OAdd, KNum _, KNum _ | OMul, KNum _, KNum _ => ev_greater ev l r
  | _, _, _ => false
  end.
Definition evaluate (i : inst) : option (option arg) :=
  match i_t i with
  | IBin =>
      match i_tgts i, i_args i with
      | _ :: _, AConst l :: AConst r :: _ =>
          match (if swaps (i_bin i) l r then ev_bin ev (i_bin i) r l else ev_bin ev (i_bin i) l r) with
          | Folded k => Some (Some (AConst k))
          | Declined => Some None
          | Panics => None
          end
      | _ :: _, ABuiltin o :: AConst (KStr p) :: _ =>
          Some (if bool_decide (i_bin i = OGetProp) && is_valid_member_ident p then Some (ABuiltin (o ++ [46] ++ p)) else None)
      | _ :: _, _ :: _ :: _ => Some None
      | _, _ => None
      end
  | ICall =>
      match i_args i with
      | f :: _ :: args =>
          Some match i_tgts i, f with
               | _ :: _, ABuiltin f =>
                   if bool_decide (i_spreads i = []) && forallb is_const args then AConst <$> ev_call ev f (to_consts args) else None
               | _, _ => None
               end
      | _ => None
      end
  | _ => Some None
  end.

(** 109-117 [upsert_val], with 292-299: number a pure value. *)
Definition number_val (s : state) (v : val) (t : N) (i : inst) : option (state * inst) :=
  match find_val v (val_to_coc s) with
  | Some a => option_map (fun s => (s, inst_var_assign t a)) (insert_tgt s t a)
  | None => option_map (fun s => (s, i)) (insert_tgt (State ((v, AVar t) :: val_to_coc s) (tgt_to_coc s)) t (AVar t))
  end.

(** 197-305, one instruction; [None] is a panic.  It is assigned back only if it
    changed, which is the same. *)
Definition number_inst (s : state) (i : inst) : option (state * inst) :=
  let i := set_args i (map (canon_arg s) (i_args i)) in
  match evaluate i with
  | None => None
  | Some (Some value) =>
      match i_tgts i with
      | t :: _ =>
          let value := canon_arg s value in
          option_map (fun s => (s, inst_var_assign t value)) (insert_tgt s t value)
      | [] => None
      end
  | Some None =>
      match i_t i with
      | IBin => match i_tgts i, i_args i with t :: _, l :: r :: _ => number_val s (NBin l (i_bin i) r) t i | _, _ => None end
      | IUn => match i_tgts i, i_args i with t :: _, a :: _ => number_val s (NUn (i_un i) a) t i | _, _ => None end
      | IVarAssign => match i_tgts i, i_args i with t :: _, a :: _ => option_map (fun s => (s, i)) (insert_tgt s t a) | _, _ => None end
      | _ => Some (s, i)
      end
  end.
(** 196-306: the loop over a block. *)
Fixpoint number_block (s : state) (is : list inst) : option (state * list inst) :=
  match is with
  | [] => Some (s, [])
  | i :: is =>
      match number_inst s i with
      | None => None
      | Some (s, i) => match number_block s is with Some (s, is) => Some (s, i :: is) | None => None end
      end
  end.

(** 142-192 [canonicalize_phi_args_for_child]; its debug assertions are left out. *)
Definition entry_cmp (x y : N * arg) : comparison := N.compare (fst x) (fst y).
Definition canon_phi (s : state) (pred : N) (i : inst) : inst :=
  let entries := map (fun '(l, a) => (l, if N.eqb l pred then canon_arg s a else a)) (zip (i_labels i) (i_args i)) in
  let entries := sort_by entry_cmp entries in
  set_labels (set_args i (map snd entries)) (map fst entries).
Fixpoint canon_phis (s : state) (pred : N) (is : list inst) : list inst :=
  match is with
  | i :: is' => if is_phi i then canon_phi s pred i :: canon_phis s pred is' else is
  | [] => []
  end.
(** 308-310; [None] is the panic of a missing block. *)
Fixpoint canon_children (s : state) (pred : N) (cs : list N) (b : gmap N block) : option (gmap N block) :=
  match cs with
  | [] => Some b
  | c :: cs => match b !! c with Some is => canon_children s pred cs (<[c := canon_phis s pred is]> b) | None => None end
  end.

(** What a run of the pass ends with; [Stuck] is the end of the fuel. *)
Inductive outcome := Done (b : gmap N block) | Panicked | Stuck.
Fixpoint visit (f : gmap N block -> N -> outcome) (b : gmap N block) (ls : list N) : outcome :=
  match ls with
  | [] => Done b
  | l :: ls => match f b l with Done b => visit f b ls | o => o end
  end.
(** 194-317 [inner]: the fuel bounds the depth of the dominator tree.  Giving the
    state by value is its restoration at the end. *)
Fixpoint inner (g : graph) (d : domi) (fuel : nat) (s : state) (b : gmap N block) (l : N) : outcome :=
  match fuel with
  | O => Stuck
  | S fuel =>
      match b !! l with
      | None => Panicked
      | Some is =>
          match number_block s is with
          | None => Panicked
          | Some (s, is) =>
              match canon_children s l (children_sorted g l) (<[l := is]> b) with
              | None => Panicked
              | Some b => visit (inner g d fuel s) b (immediately_dominated_by d l)
              end
          end
      end
  end.
(** 329-334 [optpass_dvn]. *)
Definition optpass_dvn (c : cfg) (d : domi) : outcome :=
  inner (c_graph c) d (S (S (size (labels (c_graph c))))) (State [] ∅) (c_blocks c) (c_entry c).
End dvn.
