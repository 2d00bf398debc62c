(** Expression trees, the tokens they are printed as, and the printers of
    emit-js.

    Two printers produce the same kind of text: the AST printer
    (emit-js/src/expr_js.rs, used by [emit_top_level_diagnostic]) and the HIR
    printer (emit-js/src/hir.rs, used by the minifier).  Both decide on
    parentheses by comparing precedences and differ in a few forced
    parentheses only, so one definition serves both, with the printer as a
    parameter.

    Text is modelled as the list of its tokens: identifiers, literals and types
    are opaque numbered tokens, and the printers' spacing rules
    (emit-js/src/emitter.rs) are assumed to keep adjacent tokens apart.
    Functions, classes, object literals, templates, JSX, [import()], [new.target]
    and type arguments are not modelled. *)
From stdpp Require Import base decidable numbers list.

(** The infix operators: parse-js/src/operator.rs 9-75 ([OperatorName]) as far
    as [binary_operator_text] (emit-js/src/expr_js.rs 926-976) prints them, and
    [typeof], which parse-js/src/parse/operator.rs 62 also lists as an infix
    operator. *)
Inductive binop : Type :=
  | BAdd | BSub | BMul | BDiv | BRem | BExp
  | BLt | BLe | BGt | BGe | BEq | BNe | BSEq | BSNe
  | BAnd | BOr | BXor | BShl | BShr | BUShr
  | BLAnd | BLOr | BNullish | BIn | BInstanceof | BComma
  | BAssign | BAssignAdd | BAssignAnd | BAssignShl | BAssignOr | BAssignShr
  | BAssignUShr | BAssignXor | BAssignDiv | BAssignExp | BAssignLAnd
  | BAssignLOr | BAssignMul | BAssignNullish | BAssignRem | BAssignSub
  | BTypeof.

(** The prefix operators other than [new]: emit-js/src/expr_js.rs 978-995. *)
Inductive unop : Type :=
  | UNot | UBitNot | UPlus | UMinus | UInc | UDec | UTypeof | UVoid | UDelete
  | UAwait | UYield | UYieldStar.

#[global] Instance binop_eq_dec : EqDecision binop.
Proof. solve_decision. Defined.
#[global] Instance unop_eq_dec : EqDecision unop.
Proof. solve_decision. Defined.

(** Expressions: parse-js/src/ast/expr/mod.rs.  [EId] is a name (the parser's
    [Id], and [IdPat] when it is assigned to), [ELit] any other one-token
    operand.  [ENew] is [Unary] with operator [New]; the constructor's argument
    list is the [Call] below it, as in the code.  [EAs] is [TypeAssertion]
    ([false]) or [SatisfiesExpr] ([true]), [ENonNull] is [NonNullAssertion].
    [items] are the elements of an array literal or the arguments of a call,
    each with its spread mark; [IHole] is [LitArrElem::Empty]. *)
Inductive expr : Type :=
  | EId (n : N)
  | ELit (n : N)
  | EUnary (op : unop) (e : expr)
  | ENew (e : expr)
  | EPostfix (decrement : bool) (e : expr)
  | EBinary (op : binop) (l r : expr)
  | ECond (t c a : expr)
  | ECall (optional : bool) (f : expr) (args : items)
  | EMember (optional : bool) (e : expr) (name : N)
  | EIndex (optional : bool) (e i : expr)
  | EArr (elems : items)
  | EAs (satisfies : bool) (e : expr) (ty : N)
  | ENonNull (e : expr)
with items : Type :=
  | INil
  | IHole (rest : items)
  | IItem (spread : bool) (e : expr) (rest : items).

(** The keywords and punctuators of statements: parse-js/src/token.rs. *)
Inductive word : Type :=
  | WSemi | WLBrace | WRBrace
  | WIf | WElse | WWhile | WDo | WFor | WOf | WVar | WLet | WConst
  | WSwitch | WCase | WDefault | WTry | WCatch | WFinally
  | WThrow | WReturn | WBreak | WContinue | WWith | WDebugger | WFunction.

#[global] Instance word_eq_dec : EqDecision word.
Proof. solve_decision. Defined.

(** Tokens: parse-js/src/token.rs.  [TOp] is the token of an infix operator;
    some of them are prefix operators too ([+], [-], [typeof]).  [TType] is a
    type, opaque. *)
Inductive token : Type :=
  | TId (n : N) | TLit (n : N) | TType (n : N)
  | TOp (op : binop)
  | TNot | TTilde | TInc | TDec | TVoid | TDelete | TAwait | TYield | TNew
  | TLPar | TRPar | TLBr | TRBr | TQLPar | TQLBr
  | TDot | TQDot | TQuestion | TColon | TDots
  | TAs (satisfies : bool)
  | TStm (w : word)
  | TEnd.

#[global] Instance token_eq_dec : EqDecision token.
Proof. solve_decision. Defined.

(** parse-js/src/operator.rs 100-190, [PRECEDENCE_LEVELS] and [OPERATORS]: 18
    levels, the tightest numbered 18. *)
Definition bin_prec (op : binop) : nat :=
  match op with
  | BTypeof => 16
  | BExp => 15
  | BMul | BDiv | BRem => 14
  | BAdd | BSub => 13
  | BShl | BShr | BUShr => 12
  | BLt | BLe | BGt | BGe | BIn | BInstanceof => 11
  | BEq | BNe | BSEq | BSNe => 10
  | BAnd => 9
  | BXor => 8
  | BOr => 7
  | BLAnd => 6
  | BLOr | BNullish => 5
  | BAssign | BAssignAdd | BAssignAnd | BAssignShl | BAssignOr | BAssignShr
  | BAssignUShr | BAssignXor | BAssignDiv | BAssignExp | BAssignLAnd
  | BAssignLOr | BAssignMul | BAssignNullish | BAssignRem | BAssignSub => 3
  | BComma => 1
  end.

(** parse-js/src/operator.rs, the associativity column: [true] for [Left]. *)
Definition bin_left (op : binop) : bool :=
  match op with
  | BExp | BTypeof
  | BAssign | BAssignAdd | BAssignAnd | BAssignShl | BAssignOr | BAssignShr
  | BAssignUShr | BAssignXor | BAssignDiv | BAssignExp | BAssignLAnd
  | BAssignLOr | BAssignMul | BAssignNullish | BAssignRem | BAssignSub => false
  | _ => true
  end.

(** parse-js/src/operator.rs 78-98, [is_assignment]. *)
Definition is_assignment (op : binop) : bool :=
  match op with
  | BAssign | BAssignAdd | BAssignAnd | BAssignShl | BAssignOr | BAssignShr
  | BAssignUShr | BAssignXor | BAssignDiv | BAssignExp | BAssignLAnd
  | BAssignLOr | BAssignMul | BAssignNullish | BAssignRem | BAssignSub => true
  | _ => false
  end.

(** parse-js/src/operator.rs, prefix operators. *)
Definition un_prec (op : unop) : nat :=
  match op with UYield | UYieldStar => 3 | _ => 16 end.

Definition call_prec : nat := 18.
Definition postfix_prec : nat := 17.
Definition cond_prec : nat := 4.
Definition cond_alt_prec : nat := 2.
Definition as_prec : nat := 15.
Definition primary_prec : nat := 19.

(** emit-js/src/expr_js.rs 65-117, [expr_precedence]; emit-js/src/hir.rs
    1506-1554, [expr_prec], is the same on these trees. *)
Definition prec (e : expr) : nat :=
  match e with
  | EId _ | ELit _ | EArr _ => primary_prec
  | EUnary op _ => un_prec op
  | ENew _ | ECall _ _ _ | EMember _ _ _ | EIndex _ _ _ | ENonNull _ => call_prec
  | EPostfix _ _ => postfix_prec
  | EBinary op _ _ => bin_prec op
  | ECond _ _ _ => cond_prec
  | EAs _ _ _ => as_prec
  end.

(** The two printers. *)
Inductive printer : Type := AstPrinter | HirPrinter.
#[global] Instance printer_eq_dec : EqDecision printer.
Proof. solve_decision. Defined.

(** emit-js/src/precedence.rs 49-64, [child_min_prec_for_binary]. *)
Definition left_min (op : binop) : nat :=
  if bin_left op then bin_prec op else S (bin_prec op).
Definition right_min (op : binop) : nat :=
  if bin_left op then S (bin_prec op) else bin_prec op.

(** emit-js/src/precedence.rs 113-126, [starts_with_optional_chaining];
    emit-js/src/hir.rs 2392-2404, where a [new] expression is a call and so is
    looked through. *)
Fixpoint optional_chain (p : printer) (e : expr) : bool :=
  match e with
  | EMember opt o _ | EIndex opt o _ => opt || optional_chain p o
  | ECall opt f _ => opt || optional_chain p f
  | ENew a =>
      match p with
      | AstPrinter => false
      | HirPrinter =>
          match a with ECall _ f _ => optional_chain p f | _ => optional_chain p a end
      end
  | _ => false
  end.

(** emit-js/src/expr_js.rs 1033-1054, [is_nullish], [is_logical_and_or]. *)
Definition is_nullish (e : expr) : bool :=
  match e with EBinary BNullish _ _ => true | _ => false end.
Definition is_and_or (e : expr) : bool :=
  match e with EBinary BLAnd _ _ | EBinary BLOr _ _ => true | _ => false end.

(** emit-js/src/expr_js.rs 174-183, [force_left_parens]; emit-js/src/hir.rs
    2011-2016, [left_needs_paren] ([Unary] and [Update] there exclude [await],
    [yield] and [new]). *)
Definition force_left (p : printer) (op : binop) (l : expr) : bool :=
  match p with
  | AstPrinter =>
      (bool_decide (op = BExp) &&
       match l with EUnary _ _ | ENew _ | EPostfix _ _ => true | _ => false end)
      || (bool_decide (op = BNullish) && is_and_or l)
      || ((bool_decide (op = BLAnd) || bool_decide (op = BLOr)) && is_nullish l)
  | HirPrinter =>
      bool_decide (op = BExp) &&
      match l with
      | EUnary UAwait _ | EUnary UYield _ | EUnary UYieldStar _ => false
      | EUnary _ _ | EPostfix _ _ => true
      | _ => false
      end
  end.

(** emit-js/src/expr_js.rs 185-189, [force_right_parens]; the HIR printer has
    none. *)
Definition force_right (p : printer) (op : binop) (r : expr) : bool :=
  match p with
  | AstPrinter =>
      (bool_decide (op = BNullish) && is_and_or r)
      || ((bool_decide (op = BLAnd) || bool_decide (op = BLOr)) && is_nullish r)
  | HirPrinter => false
  end.

(** emit-js/src/expr_js.rs 389-410 and 978-995: the tokens of a prefix
    operator. *)
Definition un_tokens (op : unop) : list token :=
  match op with
  | UNot => [TNot]
  | UBitNot => [TTilde]
  | UPlus => [TOp BAdd]
  | UMinus => [TOp BSub]
  | UInc => [TInc]
  | UDec => [TDec]
  | UTypeof => [TOp BTypeof]
  | UVoid => [TVoid]
  | UDelete => [TDelete]
  | UAwait => [TAwait]
  | UYield => [TYield]
  | UYieldStar => [TYield; TOp BMul]
  end.

(** emit-js/src/expr_js.rs 46-65, [emit_expr_with_min_prec] and 258-263,
    [emit_wrapped]: parentheses around the tokens of a subexpression. *)
Definition wrap (parens : bool) (ts : list token) : list token :=
  if parens then TLPar :: ts ++ [TRPar] else ts.

Definition separator (first : bool) : list token :=
  if first then [] else [TOp BComma].
Definition spread_mark (spread : bool) : list token :=
  if spread then [TDots] else [].

(** emit-js/src/expr_js.rs 119-165, [emit_expr_no_parens], with [emit_binary]
    167-248, [emit_conditional] 250-260, [emit_call] 269-324 (arguments at
    minimal precedence 1), [emit_member] 326-343 (a number literal before a dot
    is not special here, since [ELit] is opaque), [emit_computed_member] 345-359,
    [emit_unary] 386-414, [emit_new_expr] 416-462, [emit_postfix] 464-473,
    [emit_array_literal] 475-492 and the type-script wrappers 672-715.
    emit-js/src/hir.rs 1556-1796 and 1954-2035 for the HIR printer, whose [new]
    always has an argument list (hir-js/src/lower.rs 1973-1985 supplies an empty
    one). *)
Fixpoint body (p : printer) (e : expr) : list token :=
  match e with
  | EId n => [TId n]
  | ELit n => [TLit n]
  | EUnary op a => un_tokens op ++ wrap (prec a <? un_prec op) (body p a)
  | ENew a =>
      TNew ::
      match a with
      | ECall false f args =>
          wrap (optional_chain p f) (wrap (prec f <? call_prec) (body p f))
          ++ TLPar :: body_items p true args ++ [TRPar]
      | _ =>
          wrap (optional_chain p a) (wrap (prec a <? call_prec) (body p a))
          ++ match p with AstPrinter => [] | HirPrinter => [TLPar; TRPar] end
      end
  | EPostfix d a =>
      wrap (prec a <? postfix_prec) (body p a) ++ [if d then TDec else TInc]
  | EBinary op l r =>
      wrap (force_left p op l || (prec l <? left_min op)) (body p l)
      ++ TOp op
      :: wrap (force_right p op r || (prec r <? right_min op)) (body p r)
  | ECond t c a =>
      wrap (prec t <? S cond_prec) (body p t)
      ++ TQuestion :: wrap (prec c <? cond_prec) (body p c)
      ++ TColon :: wrap (prec a <? cond_prec) (body p a)
  | ECall opt f args =>
      wrap (prec f <? call_prec) (body p f)
      ++ (if opt then TQLPar else TLPar) :: body_items p true args ++ [TRPar]
  | EMember opt o name =>
      wrap (prec o <? call_prec) (body p o) ++ [if opt then TQDot else TDot; TId name]
  | EIndex opt o i =>
      wrap (prec o <? call_prec) (body p o)
      ++ (if opt then TQLBr else TLBr) :: wrap (prec i <? 1) (body p i) ++ [TRBr]
  | EArr elems => TLBr :: body_items p true elems ++ [TRBr]
  | EAs k a ty => wrap (prec a <? as_prec) (body p a) ++ [TAs k; TType ty]
  | ENonNull a => wrap (prec a <? call_prec) (body p a) ++ [TNot]
  end
with body_items (p : printer) (first : bool) (its : items) : list token :=
  match its with
  | INil => []
  | IHole rest => separator first ++ body_items p false rest
  | IItem spread e rest =>
      separator first ++ spread_mark spread ++ wrap (prec e <? 1) (body p e)
      ++ body_items p false rest
  end.

(** emit-js/src/expr_js.rs 35-44, [emit_expr]: the tokens of a whole
    expression. *)
Definition print_expr (p : printer) (e : expr) : list token :=
  wrap (prec e <? 1) (body p e).
