(** Which trees the round trip is stated for.

    A tree is [covered] when it is one a parser could have built (assignments
    have a name or a plain member on their left) and none of the shapes below
    occurs in it: each of them is printed as the text of another tree, which
    PrintProperties shows by example.

    - a call, or an access to a call's result, as the target of [new];
    - a [new] without argument list as callee or object;
    - a comma expression as an argument or as an array element;
    - an array literal ending in a hole;
    - [await] as the left operand of [**] (HIR printer);
    - [as] applied to an unparenthesised prefix or power expression;
    - the non-null assertion. *)
From stdpp Require Import base decidable numbers list.
From Verif Require Import PrintModel PrattModel.

(** [new x] without an argument list. *)
Definition bare_new (e : expr) : bool :=
  match e with
  | ENew (ECall false _ _) => false
  | ENew _ => true
  | _ => false
  end.

Definition comma_expr (e : expr) : bool :=
  match e with EBinary BComma _ _ => true | _ => false end.

Definition await_expr (e : expr) : bool :=
  match e with EUnary UAwait _ => true | _ => false end.

(** What can follow [new]: something the printer puts in parentheses, or a
    chain of member accesses that starts at an operand. *)
Fixpoint new_target (p : printer) (e : expr) : bool :=
  optional_chain p e || (prec e <? call_prec) ||
  match e with
  | EId _ | ELit _ | EArr _ => true
  | ENew (ECall false _ _) => true
  | EMember _ o _ | EIndex _ o _ => new_target p o
  | _ => false
  end.

(** Expressions that end in a token of their own. *)
Definition closed_right (e : expr) : bool :=
  match e with
  | EUnary _ _ | EBinary _ _ _ | ECond _ _ _ => false
  | _ => negb (bare_new e)
  end.

Fixpoint covered (p : printer) (ts : bool) (e : expr) : bool :=
  match e with
  | EId _ | ELit _ => true
  | EUnary _ a => covered p ts a
  | ENew a =>
      match a with
      | ECall false f args =>
          new_target p f && covered p ts f && covered_args p ts args
      | _ => bool_decide (p = AstPrinter) && new_target p a && covered p ts a
      end
  | EPostfix _ a => covered p ts a
  | EBinary op l r =>
      bool_decide (op <> BTypeof)
      && negb (ts && bool_decide (op = BLt))
      && (negb (is_assignment op) || good_target l false)
      && negb (bool_decide (p = HirPrinter) && bool_decide (op = BExp) && await_expr l)
      && covered p ts l && covered p ts r
  | ECond t c a => covered p ts t && covered p ts c && covered p ts a
  | ECall _ f args => negb (bare_new f) && covered p ts f && covered_args p ts args
  | EMember _ o _ => negb (bare_new o) && covered p ts o
  | EIndex _ o i => negb (bare_new o) && covered p ts o && covered p ts i
  | EArr elems => covered_elems p ts elems
  | EAs _ a _ =>
      bool_decide (p = AstPrinter) && ts && covered p ts a
      && ((prec a <? as_prec) || closed_right a)
  | ENonNull _ => false
  end
with covered_args (p : printer) (ts : bool) (its : items) : bool :=
  match its with
  | INil => true
  | IHole _ => false
  | IItem _ e rest => negb (comma_expr e) && covered p ts e && covered_args p ts rest
  end
with covered_elems (p : printer) (ts : bool) (its : items) : bool :=
  match its with
  | INil => true
  | IHole INil => false
  | IHole rest => covered_elems p ts rest
  | IItem _ e rest => negb (comma_expr e) && covered p ts e && covered_elems p ts rest
  end.

(** Trees over the operator table: names and literals, prefix, postfix, infix
    and conditional operators. *)
Fixpoint operator_tree (e : expr) : bool :=
  match e with
  | EId _ | ELit _ => true
  | EUnary _ a | EPostfix _ a => operator_tree a
  | EBinary op l r =>
      bool_decide (op <> BTypeof)
      && (negb (is_assignment op) || match l with EId _ => true | _ => false end)
      && operator_tree l && operator_tree r
  | ECond t c a => operator_tree t && operator_tree c && operator_tree a
  | _ => false
  end.

(** Printing and parsing gives the tree back, with the whole input consumed. *)
Definition reparses (p : printer) (e : expr) : Prop :=
  parse_js (print_expr p e) = Ok (e, [TEnd]).
