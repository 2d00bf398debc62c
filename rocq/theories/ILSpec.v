(** What an optimizer control flow graph means: an abstract machine for the instructions
    of il/inst.rs, used to state that passes preserve behaviour. Values and the outside
    world are arbitrary types: a call, a property write or a store may do anything to the
    world; unary and binary operations, loads and property reads only read it (inst.rs
    77-79 and 131-133 require them to be pure). Instantiating the world with a log of the
    calls and stores made so far gives the sequence of observable effects. *)
From stdpp Require Import base decidable list numbers gmap.
From Coq Require Import NArith ZArith.
From Verif Require Import VmBase RustStr ILModel CfgSpec.

Local Open Scope N_scope.

Record machine (V W : Type) := Machine {
  m_const : const -> V;
  m_builtin : rstr -> V;
  m_fn : N -> V;
  m_truthy : V -> bool;
  m_bin : binop -> V -> V -> W -> V;
  m_un : unop -> V -> W -> V;
  m_call : list N -> list V -> W -> W * V;
  m_prop_assign : V -> V -> V -> W -> W;
  m_foreign_load : N -> W -> V;
  m_foreign_store : N -> V -> W -> W;
  m_unknown_load : rstr -> W -> V;
  m_unknown_store : rstr -> V -> W -> W }.
Arguments m_const {V W}. Arguments m_builtin {V W}. Arguments m_fn {V W}. Arguments m_truthy {V W}.
Arguments m_bin {V W}. Arguments m_un {V W}. Arguments m_call {V W}. Arguments m_prop_assign {V W}.
Arguments m_foreign_load {V W}. Arguments m_foreign_store {V W}. Arguments m_unknown_load {V W}. Arguments m_unknown_store {V W}.

Section sem.
  Context {V W : Type} (m : machine V W).
  Definition undef : V := m_const m KUndefined.
  Definition eval (e : N -> V) (a : arg) : V :=
    match a with
    | ABuiltin p => m_builtin m p
    | AConst k => m_const m k
    | AFn f => m_fn m f
    | AVar x => e x
    end.
  Definition assign (e : N -> V) (xs : list N) (v : V) : N -> V := fun x => if bool_decide (x ∈ xs) then v else e x.

  (** The world after an instruction and the value for its targets. *)
  Definition effect (i : inst) (vs : list V) (w : W) : W * V :=
    match i_t i, vs with
    | IBin, [a; b] => (w, m_bin m (i_bin i) a b w)
    | IUn, [a] => (w, m_un m (i_un i) a w)
    | IVarAssign, [a] => (w, a)
    | IPropAssign, [o; p; v] => (m_prop_assign m o p v w, undef)
    | ICall, _ => m_call m (i_spreads i) vs w
    | IForeignLoad, _ => (w, m_foreign_load m (i_foreign i) w)
    | IForeignStore, [a] => (m_foreign_store m (i_foreign i) a w, undef)
    | IUnknownLoad, _ => (w, m_unknown_load m (i_unknown i) w)
    | IUnknownStore, [a] => (m_unknown_store m (i_unknown i) a w, undef)
    | _, _ => (w, undef)
    end.
  Definition exec_inst (i : inst) (s : (N -> V) * W) : (N -> V) * W :=
    let r := effect i (map (eval s.1) (i_args i)) s.2 in (assign s.1 (i_tgts i) r.2, r.1).
  Fixpoint exec_insts (is : list inst) (s : (N -> V) * W) : (N -> V) * W :=
    match is with [] => s | i :: is => exec_insts is (exec_inst i s) end.

  (** Phi nodes at the start of a block all read the variables as they were at the end of
      the block control comes from. *)
  Fixpoint phi_entry (p : N) (les : list (N * arg)) : option arg :=
    match les with [] => None | (l, a) :: les => if N.eqb l p then Some a else phi_entry p les end.
  Definition phi_value (prev : option N) (e : N -> V) (i : inst) : V :=
    match prev with
    | Some p => match phi_entry p (zip (i_labels i) (i_args i)) with Some a => eval e a | None => undef end
    | None => undef
    end.
  Fixpoint exec_phis (prev : option N) (e0 : N -> V) (is : list inst) (e : N -> V) : N -> V :=
    match is with [] => e | i :: is => exec_phis prev e0 is (assign e (i_tgts i) (phi_value prev e0 i)) end.
  Fixpoint phis_of (is : list inst) : list inst := match is with i :: is' => if is_phi i then i :: phis_of is' else [] | [] => [] end.
  Fixpoint rest_of (is : list inst) : list inst := match is with i :: is' => if is_phi i then rest_of is' else is | [] => [] end.
  Definition exec_block (prev : option N) (is : list inst) (s : (N -> V) * W) : (N -> V) * W :=
    exec_insts (rest_of is) (exec_phis prev s.1 (phis_of is) s.1, s.2).

  (** How a block ends (cfg.rs 279-297 [terminator]). A block with several successors and
      no conditional jump has no meaning; it stops. *)
  Definition next (c : cfg) (l : N) (e : N -> V) : option N :=
    match last (block_of (c_blocks c) l) with
    | Some i =>
        match is_cond_goto i, i_args i, i_labels i with
        | true, [a], [t; f] => Some (if m_truthy m (eval e a) then t else f)
        | true, _, _ => None
        | false, _, _ => match children_sorted (c_graph c) l with [n] => Some n | _ => None end
        end
    | None => match children_sorted (c_graph c) l with [n] => Some n | _ => None end
    end.

  Inductive state := Running (l : N) (prev : option N) (e : N -> V) (w : W) | Stopped (e : N -> V) (w : W).
  Definition step (c : cfg) (s : state) : state :=
    match s with
    | Running l prev e w =>
        let r := exec_block prev (block_of (c_blocks c) l) (e, w) in
        match next c l r.1 with
        | Some n => Running n (Some l) r.1 r.2
        | None => Stopped r.1 r.2
        end
    | Stopped e w => Stopped e w
    end.
  Fixpoint run (c : cfg) (n : nat) (s : state) : state :=
    match n with O => s | S n => run c n (step c s) end.
  Definition start (c : cfg) (e : N -> V) (w : W) : state := Running (c_entry c) None e w.

  (** Two executions that are at the same place, have had the same effects, and agree on
      the variables in [P]. *)
  Definition same_on (P : N -> Prop) (s s' : state) : Prop :=
    match s, s' with
    | Running l p e w, Running l' p' e' w' => l = l' /\ p = p' /\ w = w' /\ forall x, P x -> e x = e' x
    | Stopped e w, Stopped e' w' => w = w' /\ forall x, P x -> e x = e' x
    | _, _ => False
    end.
End sem.

(** Well-formed instructions: as the builders of inst.rs 278-404 make them. *)
Definition inst_ok (i : inst) : Prop :=
  match i_t i with
  | IBin => length (i_tgts i) = 1%nat /\ length (i_args i) = 2%nat
  | IUn | IVarAssign => length (i_tgts i) = 1%nat /\ length (i_args i) = 1%nat
  | IPropAssign => i_tgts i = [] /\ length (i_args i) = 3%nat
  | ICondGoto => i_tgts i = [] /\ length (i_args i) = 1%nat /\ length (i_labels i) = 2%nat
  | ICall => (length (i_tgts i) <= 1)%nat
  | IForeignLoad | IUnknownLoad => length (i_tgts i) = 1%nat /\ i_args i = []
  | IForeignStore | IUnknownStore => i_tgts i = [] /\ length (i_args i) = 1%nat
  | IPhi => length (i_tgts i) = 1%nat /\ length (i_labels i) = length (i_args i)
  | ILabel | IGoto | IDummy => False
  end.
(** Phi nodes come first and a conditional jump last. *)
Definition block_ok (is : list inst) : Prop :=
  (forall i, i ∈ is -> inst_ok i) /\ (forall i, i ∈ rest_of is -> is_phi i = false) /\
  forall is1 i is2, is = is1 ++ i :: is2 -> is_cond_goto i = true -> is2 = [].
(** Jumps agree with the graph. *)
Definition flow_ok (c : cfg) (l : N) : Prop :=
  match last (block_of (c_blocks c) l) with
  | Some i => is_cond_goto i = true -> forall n, n ∈ i_labels i <-> edge (c_graph c) l n
  | None => True
  end.
Definition prog_ok (c : cfg) : Prop :=
  (forall l, block_ok (block_of (c_blocks c) l)) /\ forall l, flow_ok c l.

(** Variables some instruction reads, and those some instruction writes. *)
Definition in_prog (c : cfg) (l : N) (k : nat) (i : inst) : Prop := block_of (c_blocks c) l !! k = Some i.
Definition reads (c : cfg) (x : N) : Prop := exists l k i, in_prog c l k i /\ AVar x ∈ i_args i.
Definition defines (c : cfg) (x : N) (l : N) (k : nat) : Prop := exists i, in_prog c l k i /\ x ∈ i_tgts i.

(** ** Strict SSA *)
(** The block sequences control can follow, latest block first. *)
Inductive path (c : cfg) : list N -> Prop :=
  | path_entry : path c [c_entry c]
  | path_step l n p : path c (l :: p) -> edge (c_graph c) l n -> path c (n :: l :: p).
(** On every way from the entry to instruction [k] of block [l], [x] is written before. *)
Definition available (c : cfg) (x : N) (l : N) (k : nat) : Prop :=
  forall p, path c (l :: p) -> (exists l' k', l' ∈ p /\ defines c x l' k') \/ exists k', (k' < k)%nat /\ defines c x l k'.
Record strict_ssa (c : cfg) : Prop := {
  ssa_once x l k l' k' : defines c x l k -> defines c x l' k' -> l = l' /\ k = k';
  ssa_use x l k i : in_prog c l k i -> is_phi i = false -> AVar x ∈ i_args i -> available c x l k;
  ssa_phi x l k i p : in_prog c l k i -> is_phi i = true -> edge (c_graph c) p l ->
    (p, AVar x) ∈ zip (i_labels i) (i_args i) -> available c x p (length (block_of (c_blocks c) p)) }.
(** Every phi has one entry for each predecessor, and the entry block has none. *)
Definition phis_complete (c : cfg) : Prop :=
  phis_of (block_of (c_blocks c) (c_entry c)) = [] /\
  forall l k i, in_prog c l k i -> is_phi i = true -> NoDup (i_labels i) /\ forall p, edge (c_graph c) p l -> p ∈ i_labels i.
(** The blocks are the nodes of the graph (a program of a single block has no node). *)
Definition blocks_match (c : cfg) : Prop :=
  (forall l, l ∈ labels (c_graph c) -> is_Some (c_blocks c !! l)) /\
  forall l, is_Some (c_blocks c !! l) -> l ∈ labels (c_graph c) \/ l = c_entry c.

(** ECMA-262 ToBoolean. *)
Definition to_boolean (k : const) : bool :=
  match k with
  | KUndefined | KNull => false
  | KBool b => b
  | KNum x => negb (f64_is_nan x || f64_is_zero x)
  | KStr s => match s with [] => false | _ => true end
  | KBigInt z => negb (Z.eqb z 0)
  end.

(** Variables that are assigned copies ([t := a]), and programs where no copy is of a copy. *)
Definition copy (c : cfg) (t : N) (a : arg) : Prop := exists l k i, in_prog c l k i /\ i_t i = IVarAssign /\ i_tgts i = [t] /\ i_args i = [a].
Definition copies_flat (c : cfg) : Prop := forall t a, copy c t a -> forall b a', a = AVar b -> ~ copy c b a'.
Definition copied (c : cfg) (t : N) : Prop := exists a, copy c t a.
