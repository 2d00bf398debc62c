(** Early errors of assignments and of [**]: ECMA-262, AssignmentExpression (the left side
    is a name or a property outside an optional chain) and ExponentiationExpression (the
    base is no UnaryExpression of its own). *)
From stdpp Require Import base list.
From Verif Require Import PrintModel GrammarSpec.

(** [P op l] for every infix operation [l op r] in [e]. *)
Fixpoint every_infix (P : binop -> expr -> Prop) (e : expr) : Prop :=
  match e with
  | EId _ | ELit _ => True
  | EUnary _ e | ENew e | EPostfix _ e | EMember _ e _ | EAs _ e _ | ENonNull e => every_infix P e
  | EBinary op l r => P op l /\ every_infix P l /\ every_infix P r
  | ECond t c a => every_infix P t /\ every_infix P c /\ every_infix P a
  | ECall _ f its => every_infix P f /\ every_infix_of P its
  | EIndex _ e i => every_infix P e /\ every_infix P i
  | EArr its => every_infix_of P its
  end
with every_infix_of (P : binop -> expr -> Prop) (its : items) : Prop :=
  match its with
  | INil => True
  | IHole its => every_infix_of P its
  | IItem _ e its => every_infix P e /\ every_infix_of P its
  end.
(** A name or a property. *)
Inductive reference : expr -> Prop :=
  | ref_name x : reference (EId x)
  | ref_member e x : reference (EMember false e x)
  | ref_index e i : reference (EIndex false e i).
(** What a prefix operator other than [++], [--] and [yield] gives. *)
Definition unary_expression (e : expr) : Prop :=
  exists op x, op ∈ [UNot; UBitNot; UPlus; UMinus; UTypeof; UVoid; UDelete; UAwait] /\ e = EUnary op x.
