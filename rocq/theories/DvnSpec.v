(** What value numbering relies on. *)
From stdpp Require Import base decidable list numbers gmap.
From Coq Require Import NArith ZArith.
From Verif Require Import VmBase RustStr ILModel CfgSpec ILSpec DvnModel.
From Verif Require EvalModel.

Local Open Scope N_scope.

(** The constants it computes are the values the machine computes, now and
    whenever. *)
Record sound_evaluator {V W} (ev : evaluator) (m : machine V W) : Prop := {
  se_bin op a b k w : ev_bin ev op a b = EvalModel.Folded k -> m_bin m op (m_const m a) (m_const m b) w = m_const m k;
  se_val p k : ev_val ev p = Some k -> m_builtin m p = m_const m k;
  se_call f this ks k w : ev_val ev f = None -> ev_call ev f ks = Some k ->
    m_call m [] (m_builtin m f :: this :: map (m_const m) ks) w = (w, m_const m k);
  se_member o p w : ev_val ev o = None -> is_valid_member_ident p = true ->
    m_bin m OGetProp (m_builtin m o) (m_const m (KStr p)) w = m_builtin m (o ++ [46] ++ p);
  se_commute op x y w : op = OAdd \/ op = OMul ->
    m_bin m op (m_const m (KNum x)) (m_const m (KNum y)) w = m_bin m op (m_const m (KNum y)) (m_const m (KNum x)) w }.

(** What the program does to the world does not change what its operators give. *)
Definition unaffected {V W} (m : machine V W) (c : cfg) : Prop :=
  forall l k i l' k' i' vs w, in_prog c l k i -> in_prog c l' k' i' ->
    (i_t i = IBin -> forall a b, m_bin m (i_bin i) a b (effect m i' vs w).1 = m_bin m (i_bin i) a b w) /\
    (i_t i = IUn -> forall a, m_un m (i_un i) a (effect m i' vs w).1 = m_un m (i_un i) a w).

(** Calls have a callee and a receiver (as [Inst::call] makes them). *)
Definition calls_ok (c : cfg) : Prop := forall l k i, in_prog c l k i -> i_t i = ICall -> (2 <= length (i_args i))%nat.
