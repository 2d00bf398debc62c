(** Which printed trees are promised to be expressions of the standard, and what
    parentheses around an optional chain mean. *)
From stdpp Require Import base decidable numbers list.
From Verif Require Import PrintModel PrattModel PrintSpec GrammarSpec.

Definition postfix_expr (e : expr) : bool :=
  match e with EPostfix _ _ => true | _ => false end.

(** An access or call with a [?.] in its chain. *)
Fixpoint in_optional_chain (e : expr) : bool :=
  match e with
  | EMember opt o _ | EIndex opt o _ => opt || in_optional_chain o
  | ECall opt f _ => opt || in_optional_chain f
  | _ => false
  end.

(** The object of a member access. *)
Definition object_of (e : expr) : option expr :=
  match e with EMember _ o _ | EIndex _ o _ => Some o | _ => None end.

(** Assigning to a member of an optional chain needs parentheses around the
    chain. *)
Definition chained_target (op : binop) (l : expr) : bool :=
  is_assignment op && match object_of l with Some o => in_optional_chain o | None => false end.

(** [??] may not be mixed with [||] or [&&] without parentheses. *)
Definition mixed_nullish (op : binop) (l r : expr) : bool :=
  match op with
  | BNullish => is_and_or l || is_and_or r
  | BLAnd | BLOr => is_nullish l || is_nullish r
  | _ => false
  end.

(** Nowhere in the tree: an assignment to a member of an optional chain, a
    postfix operator applied to a postfix expression and, for the HIR printer,
    [??] next to [||] or [&&]. *)
Fixpoint standard (p : printer) (e : expr) : bool :=
  match e with
  | EId _ | ELit _ => true
  | EUnary _ a | ENew a | EAs _ a _ | ENonNull a => standard p a
  | EPostfix _ a => negb (postfix_expr a) && standard p a
  | EBinary op l r =>
      negb (chained_target op l)
      && negb (bool_decide (p = HirPrinter) && mixed_nullish op l r)
      && standard p l && standard p r
  | ECond t c a => standard p t && standard p c && standard p a
  | ECall _ f args => standard p f && standard_items p args
  | EMember _ o _ => standard p o
  | EIndex _ o i => standard p o && standard p i
  | EArr elems => standard_items p elems
  end
with standard_items (p : printer) (its : items) : bool :=
  match its with
  | INil => true
  | IHole rest => standard_items p rest
  | IItem _ e rest => standard p e && standard_items p rest
  end.

(** ** Optional chains and parentheses

    ECMA-262 13.3.9 (Optional Chains): when the object of a [?.] is undefined,
    the whole chain is undefined and the rest of it is not evaluated.  A chain
    ends at a closing parenthesis (13.2.9.2). *)
Inductive access_text : Type :=
  | AName (x : N)
  | AMember (optional : bool) (a : access_text) (x : N)
  | AParens (a : access_text).

Fixpoint text_of (a : access_text) : list token :=
  match a with
  | AName x => [TId x]
  | AMember opt a x => text_of a ++ [if opt then TQDot else TDot; TId x]
  | AParens a => TLPar :: text_of a ++ [TRPar]
  end.

Fixpoint tree_of (a : access_text) : expr :=
  match a with
  | AName x => EId x
  | AMember opt a x => EMember opt (tree_of a) x
  | AParens a => tree_of a
  end.

Inductive jsval : Type := Undefined | Object (id : N).

Inductive outcome : Type :=
  | Value (v : jsval)
  | ShortCircuit
  | TypeError.

(** [names] are the values of the variables, [props] the properties. *)
Fixpoint chain_value (names : N -> jsval) (props : N -> N -> jsval) (a : access_text)
  : outcome :=
  match a with
  | AName x => Value (names x)
  | AMember opt a x =>
      match chain_value names props a with
      | Value Undefined => if opt then ShortCircuit else TypeError
      | Value (Object o) => Value (props o x)
      | o => o
      end
  | AParens a =>
      match chain_value names props a with
      | ShortCircuit => Value Undefined
      | o => o
      end
  end.

Definition access_value (names : N -> jsval) (props : N -> N -> jsval) (a : access_text)
  : outcome := chain_value names props (AParens a).
