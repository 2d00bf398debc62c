(** The expression grammar of ECMAScript, written down as in the standard.

    ECMA-262, section 13 (Expressions): each nonterminal is a constructor of
    [nonterminal], each production a rule of [phrase].  [phrase n toks e] says
    that the token list [toks] is an [n] of the grammar and that [e] is its tree:
    the tree with one node for each production that is not a chain production or
    a pair of parentheses.

    Only the productions over the tokens of PrintModel are listed: no functions,
    classes, object literals, templates, [super], [import()], [new.target],
    private names, nor destructuring assignments.  [In], [Yield] and [Await] are
    all allowed.  The early errors of the standard are not part of the grammar,
    except the one about assignment targets, which decides what may stand on the
    left of an assignment.

    Nothing here mentions precedence numbers or associativity: they are in the
    shape of the productions. *)
From stdpp Require Import base decidable numbers list.
From Verif Require Import PrintModel PrattModel.

Inductive nonterminal : Type :=
  | PrimaryExpression
  | MemberExpression
  | NewExpression
  | CallExpression
  | OptionalExpression
  | LeftHandSideExpression
  | AssignmentTarget
  | UpdateExpression
  | UnaryExpression
  | ExponentiationExpression
  | MultiplicativeExpression
  | AdditiveExpression
  | ShiftExpression
  | RelationalExpression
  | EqualityExpression
  | BitwiseANDExpression
  | BitwiseXORExpression
  | BitwiseORExpression
  | LogicalANDExpression
  | LogicalORExpression
  | CoalesceExpressionHead
  | CoalesceExpression
  | ShortCircuitExpression
  | ConditionalExpression
  | AssignmentExpression
  | Expression.

(** Chain productions: [chain n m] is the production [n : m]. *)
Inductive chain : nonterminal -> nonterminal -> Prop :=
  | chain_member : chain MemberExpression PrimaryExpression
  | chain_new : chain NewExpression MemberExpression
  | chain_lhs_new : chain LeftHandSideExpression NewExpression
  | chain_lhs_call : chain LeftHandSideExpression CallExpression
  | chain_lhs_optional : chain LeftHandSideExpression OptionalExpression
  | chain_update : chain UpdateExpression LeftHandSideExpression
  | chain_unary : chain UnaryExpression UpdateExpression
  | chain_exp : chain ExponentiationExpression UnaryExpression
  | chain_mul : chain MultiplicativeExpression ExponentiationExpression
  | chain_add : chain AdditiveExpression MultiplicativeExpression
  | chain_shift : chain ShiftExpression AdditiveExpression
  | chain_relational : chain RelationalExpression ShiftExpression
  | chain_equality : chain EqualityExpression RelationalExpression
  | chain_and : chain BitwiseANDExpression EqualityExpression
  | chain_xor : chain BitwiseXORExpression BitwiseANDExpression
  | chain_or : chain BitwiseORExpression BitwiseXORExpression
  | chain_land : chain LogicalANDExpression BitwiseORExpression
  | chain_lor : chain LogicalORExpression LogicalANDExpression
  | chain_head_coalesce : chain CoalesceExpressionHead CoalesceExpression
  | chain_head_or : chain CoalesceExpressionHead BitwiseORExpression
  | chain_short_lor : chain ShortCircuitExpression LogicalORExpression
  | chain_short_coalesce : chain ShortCircuitExpression CoalesceExpression
  | chain_conditional : chain ConditionalExpression ShortCircuitExpression
  | chain_assignment : chain AssignmentExpression ConditionalExpression
  | chain_expression : chain Expression AssignmentExpression.

(** The operators of AssignmentExpression: [=], AssignmentOperator and the
    logical assignments. *)
Definition assignment_operators : list binop :=
  [BAssign; BAssignMul; BAssignDiv; BAssignRem; BAssignAdd; BAssignSub; BAssignShl;
   BAssignShr; BAssignUShr; BAssignAnd; BAssignXor; BAssignOr; BAssignExp;
   BAssignLAnd; BAssignLOr; BAssignNullish].

(** Infix productions: [infix n l ops r] are the productions [n : l op r] for the
    [op] in [ops]. *)
Inductive infix : nonterminal -> nonterminal -> list binop -> nonterminal -> Prop :=
  | infix_exp : infix ExponentiationExpression UpdateExpression [BExp]
      ExponentiationExpression
  | infix_mul : infix MultiplicativeExpression MultiplicativeExpression
      [BMul; BDiv; BRem] ExponentiationExpression
  | infix_add : infix AdditiveExpression AdditiveExpression [BAdd; BSub]
      MultiplicativeExpression
  | infix_shift : infix ShiftExpression ShiftExpression [BShl; BShr; BUShr]
      AdditiveExpression
  | infix_relational : infix RelationalExpression RelationalExpression
      [BLt; BGt; BLe; BGe; BInstanceof; BIn] ShiftExpression
  | infix_equality : infix EqualityExpression EqualityExpression
      [BEq; BNe; BSEq; BSNe] RelationalExpression
  | infix_and : infix BitwiseANDExpression BitwiseANDExpression [BAnd]
      EqualityExpression
  | infix_xor : infix BitwiseXORExpression BitwiseXORExpression [BXor]
      BitwiseANDExpression
  | infix_or : infix BitwiseORExpression BitwiseORExpression [BOr]
      BitwiseXORExpression
  | infix_land : infix LogicalANDExpression LogicalANDExpression [BLAnd]
      BitwiseORExpression
  | infix_lor : infix LogicalORExpression LogicalORExpression [BLOr]
      LogicalANDExpression
  | infix_coalesce : infix CoalesceExpression CoalesceExpressionHead [BNullish]
      BitwiseORExpression
  | infix_assign : infix AssignmentExpression AssignmentTarget assignment_operators
      AssignmentExpression
  | infix_comma : infix Expression Expression [BComma] AssignmentExpression.

(** Prefix productions: [prefix n toks op] is the production [n : toks m], with
    [op] the operator of the tree. *)
Inductive prefix : nonterminal -> list token -> unop -> nonterminal -> Prop :=
  | prefix_inc : prefix UpdateExpression [TInc] UInc UnaryExpression
  | prefix_dec : prefix UpdateExpression [TDec] UDec UnaryExpression
  | prefix_delete : prefix UnaryExpression [TDelete] UDelete UnaryExpression
  | prefix_void : prefix UnaryExpression [TVoid] UVoid UnaryExpression
  | prefix_typeof : prefix UnaryExpression [TOp BTypeof] UTypeof UnaryExpression
  | prefix_plus : prefix UnaryExpression [TOp BAdd] UPlus UnaryExpression
  | prefix_minus : prefix UnaryExpression [TOp BSub] UMinus UnaryExpression
  | prefix_bitnot : prefix UnaryExpression [TTilde] UBitNot UnaryExpression
  | prefix_not : prefix UnaryExpression [TNot] UNot UnaryExpression
  | prefix_await : prefix UnaryExpression [TAwait] UAwait UnaryExpression
  | prefix_yield : prefix AssignmentExpression [TYield] UYield AssignmentExpression
  | prefix_yield_star :
      prefix AssignmentExpression [TYield; TOp BMul] UYieldStar AssignmentExpression.

(** What a member access, an element access or a call may be applied to, and
    what the result is: [link n m opt] is [n : m .name], [n : m [ e ]]
    ([opt = false]) or [n : m ?.name], [n : m ?.[ e ]] ([opt = true]). *)
Inductive access : nonterminal -> nonterminal -> bool -> Prop :=
  | access_member : access MemberExpression MemberExpression false
  | access_call : access CallExpression CallExpression false
  | access_optional : access OptionalExpression OptionalExpression false
  | access_member_q : access OptionalExpression MemberExpression true
  | access_call_q : access OptionalExpression CallExpression true
  | access_optional_q : access OptionalExpression OptionalExpression true
  | access_target_member : access AssignmentTarget MemberExpression false
  | access_target_call : access AssignmentTarget CallExpression false.

Inductive application : nonterminal -> nonterminal -> bool -> Prop :=
  | application_member : application CallExpression MemberExpression false
  | application_call : application CallExpression CallExpression false
  | application_optional : application OptionalExpression OptionalExpression false
  | application_member_q : application OptionalExpression MemberExpression true
  | application_call_q : application OptionalExpression CallExpression true
  | application_optional_q : application OptionalExpression OptionalExpression true.

Definition spread_tokens (spread : bool) : list token := if spread then [TDots] else [].

(** The grammar.  AssignmentTarget is a LeftHandSideExpression whose
    AssignmentTargetType is simple: a name or a member access outside optional
    chains.  In the standard a parenthesised target is a target too
    ([(a) = 1]); [covered] says whether that production is included. *)
Inductive phrase (covered : bool) : nonterminal -> list token -> expr -> Prop :=
  | p_chain n m toks e : chain n m -> phrase covered m toks e -> phrase covered n toks e
  | p_name x : phrase covered PrimaryExpression [TId x] (EId x)
  | p_literal x : phrase covered PrimaryExpression [TLit x] (ELit x)
  | p_array toks its :
      elements covered toks its ->
      phrase covered PrimaryExpression (TLBr :: toks ++ [TRBr]) (EArr its)
  | p_parens toks e :
      phrase covered Expression toks e ->
      phrase covered PrimaryExpression (TLPar :: toks ++ [TRPar]) e
  | p_member n m opt toks e x :
      access n m opt -> phrase covered m toks e ->
      phrase covered n (toks ++ [if opt : bool then TQDot else TDot; TId x])
        (EMember opt e x)
  | p_index n m opt toks e toks2 i :
      access n m opt -> phrase covered m toks e -> phrase covered Expression toks2 i ->
      phrase covered n (toks ++ (if opt : bool then TQLBr else TLBr) :: toks2 ++ [TRBr])
        (EIndex opt e i)
  | p_call n m opt toks f toks2 args :
      application n m opt -> phrase covered m toks f -> arguments covered toks2 args ->
      phrase covered n (toks ++ (if opt : bool then TQLPar else TLPar) :: toks2 ++ [TRPar])
        (ECall opt f args)
  | p_new_call toks f toks2 args :
      phrase covered MemberExpression toks f -> arguments covered toks2 args ->
      phrase covered MemberExpression (TNew :: toks ++ TLPar :: toks2 ++ [TRPar])
        (ENew (ECall false f args))
  | p_new_bare toks f :
      phrase covered NewExpression toks f ->
      phrase covered NewExpression (TNew :: toks) (ENew f)
  | p_target_name x : phrase covered AssignmentTarget [TId x] (EId x)
  | p_target_parens toks e :
      covered = true -> phrase covered AssignmentTarget toks e ->
      phrase covered AssignmentTarget (TLPar :: toks ++ [TRPar]) e
  | p_postfix toks e (dec : bool) :
      phrase covered LeftHandSideExpression toks e ->
      phrase covered UpdateExpression (toks ++ [if dec then TDec else TInc]) (EPostfix dec e)
  | p_prefix n m ts op toks e :
      prefix n ts op m -> phrase covered m toks e ->
      phrase covered n (ts ++ toks) (EUnary op e)
  | p_yield : phrase covered AssignmentExpression [TYield] (EUnary UYield (EId undefined_name))
  | p_infix n m1 ops m2 op toks1 l toks2 r :
      infix n m1 ops m2 -> op ∈ ops ->
      phrase covered m1 toks1 l -> phrase covered m2 toks2 r ->
      phrase covered n (toks1 ++ TOp op :: toks2) (EBinary op l r)
  | p_conditional toks1 t toks2 c toks3 a :
      phrase covered ShortCircuitExpression toks1 t ->
      phrase covered AssignmentExpression toks2 c ->
      phrase covered AssignmentExpression toks3 a ->
      phrase covered ConditionalExpression
        (toks1 ++ TQuestion :: toks2 ++ TColon :: toks3) (ECond t c a)
(** ArgumentList, with the optional trailing comma of Arguments. *)
with arguments (covered : bool) : list token -> items -> Prop :=
  | a_none : arguments covered [] INil
  | a_last spread toks e :
      phrase covered AssignmentExpression toks e ->
      arguments covered (spread_tokens spread ++ toks) (IItem spread e INil)
  | a_more spread toks e toks2 its :
      phrase covered AssignmentExpression toks e -> arguments covered toks2 its ->
      arguments covered (spread_tokens spread ++ toks ++ TOp BComma :: toks2)
        (IItem spread e its)
(** ElementList and Elision: a comma with no element before it is a hole. *)
with elements (covered : bool) : list token -> items -> Prop :=
  | e_none : elements covered [] INil
  | e_hole toks its :
      elements covered toks its -> elements covered (TOp BComma :: toks) (IHole its)
  | e_last spread toks e :
      phrase covered AssignmentExpression toks e ->
      elements covered (spread_tokens spread ++ toks) (IItem spread e INil)
  | e_more spread toks e toks2 its :
      phrase covered AssignmentExpression toks e -> elements covered toks2 its ->
      elements covered (spread_tokens spread ++ toks ++ TOp BComma :: toks2)
        (IItem spread e its).
