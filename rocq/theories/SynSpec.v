(** The statement grammar of ECMAScript, written down as in the standard.

    ECMA-262, section 14 (Statements and Declarations): [stmt_text toks s rest]
    says that the token list [toks] starts with a Statement whose tree is [s] and
    that [rest] follows it; [item_text] is StatementListItem and [list_text]
    StatementList.  Semicolons may be left out where section 12.10 (Automatic
    Semicolon Insertion) inserts them in a program on one line: before [}], at
    the end of the input and after the parenthesis of a [do].  Expressions are
    the phrases of GrammarSpec, without the assignment targets in parentheses that
    the parser refuses (GrammarProperties).  The productions and checks left out are those
    left out of SynModel; the early error that a [switch] has one [default] is
    part of the grammar of CaseBlock. *)
From stdpp Require Import base decidable numbers list.
From Verif Require Import PrintModel PrattModel PrintSpec GrammarSpec GrammarPrintSpec SynModel.

(** ** The grammar *)

Definition semicolon (toks rest : list token) : Prop :=
  toks = TStm WSemi :: rest \/
  (toks = rest /\ exists t r, rest = t :: r /\ (t = TStm WRBrace \/ t = TEnd)).

(** The [;] of a [do] statement can always be left out. *)
Definition do_semicolon (toks rest : list token) : Prop :=
  toks = TStm WSemi :: rest \/ (toks = rest /\ forall r, rest <> TStm WSemi :: r).

(** [lookahead <> else]. *)
Definition no_else (rest : list token) : Prop := forall r, rest <> TStm WElse :: r.

Definition opens (t : token) : bool :=
  match t with TLPar | TLBr | TQLPar | TQLBr | TQuestion => true | _ => false end.
Definition closes (t : token) : bool :=
  match t with TRPar | TRBr | TColon => true | _ => false end.

(** The parameter [In] of the expression productions: without it, [in] is not an
    operator except inside brackets and between [?] and [:].  [sheltered d toks]:
    no [in] of [toks] is outside all of them, [d] being open at the start. *)
Fixpoint sheltered (d : nat) (toks : list token) : bool :=
  match toks with
  | [] => true
  | t :: rest =>
      if opens t then sheltered (S d) rest
      else if closes t then sheltered (Nat.pred d) rest
      else (negb (bool_decide (t = TOp BIn)) || (0 <? d)) && sheltered d rest
  end.

Definition in_allowed (inn : bool) (toks : list token) : Prop :=
  inn = true \/ sheltered 0 toks = true.

(** VariableDeclarationList and BindingList. *)
Definition init_text (inn : bool) (toks : list token) (i : option expr) : Prop :=
  match i with
  | None => toks = []
  | Some e => exists ts, toks = TOp BAssign :: ts /\
      phrase false AssignmentExpression ts e /\ in_allowed inn ts
  end.

Inductive decls_text (inn : bool) : list token -> list (N * option expr) -> Prop :=
  | ds_one x ts i : init_text inn ts i -> decls_text inn (TId x :: ts) [(x, i)]
  | ds_more x ts i toks ds :
      init_text inn ts i -> decls_text inn toks ds ->
      decls_text inn (TId x :: ts ++ TOp BComma :: toks) ((x, i) :: ds).

Definition opt_text (toks : list token) (e : option expr) : Prop :=
  match e with
  | None => toks = []
  | Some e => phrase false Expression toks e
  end.

Definition for_init_text (toks : list token) (i : for_init) : Prop :=
  match i with
  | ForNone => toks = []
  | ForExpr e => phrase false Expression toks e /\ sheltered 0 toks = true
  | ForDecl k ds => exists ts, toks = TStm (kind_word k) :: ts /\ decls_text false ts ds
  end.

(** The left side of [in] and [of]: a name or a declaration of one name. *)
Definition head_text (toks : list token) (h : for_head) : Prop :=
  match h with
  | HTarget e => exists x, e = EId x /\ toks = [TId x]
  | HDecl k x => toks = [TStm (kind_word k); TId x]
  end.

(** FormalParameters, with the optional trailing comma. *)
Inductive names_text : list token -> list N -> Prop :=
  | ns_none : names_text [] []
  | ns_one x : names_text [TId x] [x]
  | ns_more x toks xs : names_text toks xs -> names_text (TId x :: TOp BComma :: toks) (x :: xs).

Definition label_text (l : option N) : list token :=
  match l with Some l => [TId l] | None => [] end.

Definition catch_text (x : option N) : list token :=
  match x with Some x => [TLPar; TId x; TRPar] | None => [] end.

Fixpoint defaults (cs : cases) : nat :=
  match cs with
  | KNil => 0
  | KCase None _ cs => S (defaults cs)
  | KCase (Some _) _ cs => defaults cs
  end.

Definition is_block (s : stmt) : bool :=
  match s with JBlock _ => true | _ => false end.

Inductive stmt_text : list token -> stmt -> list token -> Prop :=
  | st_empty r : stmt_text (TStm WSemi :: r) JEmpty r
  | st_expr ts e r r' :
      phrase false Expression ts e -> semicolon r r' -> stmt_text (ts ++ r) (JExpr e) r'
  | st_var ts ds r r' :
      decls_text true ts ds -> semicolon r r' ->
      stmt_text (TStm WVar :: ts ++ r) (JDecl DVar ds) r'
  | st_block r ss r' : block_text r ss r' -> stmt_text r (JBlock ss) r'
  | st_if ts e r a r' :
      phrase false Expression ts e -> stmt_text r a r' -> no_else r' ->
      stmt_text (TStm WIf :: TLPar :: ts ++ TRPar :: r) (JIf e a) r'
  | st_if_else ts e r a r1 b r' :
      phrase false Expression ts e ->
      stmt_text r a (TStm WElse :: r1) -> stmt_text r1 b r' ->
      stmt_text (TStm WIf :: TLPar :: ts ++ TRPar :: r) (JIfElse e a b) r'
  | st_while ts e r a r' :
      phrase false Expression ts e -> stmt_text r a r' ->
      stmt_text (TStm WWhile :: TLPar :: ts ++ TRPar :: r) (JWhile e a) r'
  | st_do r a ts e r1 r' :
      stmt_text r a (TStm WWhile :: TLPar :: ts ++ TRPar :: r1) ->
      phrase false Expression ts e -> do_semicolon r1 r' ->
      stmt_text (TStm WDo :: r) (JDo a e) r'
  | st_for t1 i t2 test t3 step r ss r' :
      for_init_text t1 i -> opt_text t2 test -> opt_text t3 step -> body_text r ss r' ->
      stmt_text (TStm WFor :: TLPar :: t1 ++ TStm WSemi :: t2 ++ TStm WSemi :: t3 ++ TRPar :: r)
        (JFor i test step ss) r'
  | st_for_in (of : bool) th h te e r ss r' :
      head_text th h ->
      phrase false (if of then AssignmentExpression else Expression) te e ->
      body_text r ss r' ->
      stmt_text (TStm WFor :: TLPar :: th ++ (if of then TStm WOf else TOp BIn) :: te ++ TRPar :: r)
        (JForIn of h e ss) r'
  | st_switch ts e r cs r' :
      phrase false Expression ts e -> cases_text r cs (TStm WRBrace :: r') ->
      defaults cs <= 1 ->
      stmt_text (TStm WSwitch :: TLPar :: ts ++ TRPar :: TStm WLBrace :: r) (JSwitch e cs) r'
  | st_try_catch r b x r1 h r' :
      block_text r b (TStm WCatch :: catch_text x ++ r1) -> block_text r1 h r' ->
      (forall r2, r' <> TStm WFinally :: r2) ->
      stmt_text (TStm WTry :: r) (JTryCatch b x h) r'
  | st_try_finally r b r1 f r' :
      block_text r b (TStm WFinally :: r1) -> block_text r1 f r' ->
      stmt_text (TStm WTry :: r) (JTryFinally b f) r'
  | st_try_both r b x r1 h r2 f r' :
      block_text r b (TStm WCatch :: catch_text x ++ r1) ->
      block_text r1 h (TStm WFinally :: r2) -> block_text r2 f r' ->
      stmt_text (TStm WTry :: r) (JTryBoth b x h f) r'
  | st_throw ts e r r' :
      phrase false Expression ts e -> semicolon r r' ->
      stmt_text (TStm WThrow :: ts ++ r) (JThrow e) r'
  | st_return ts e r r' :
      opt_text ts e -> semicolon r r' -> stmt_text (TStm WReturn :: ts ++ r) (JReturn e) r'
  | st_break l r r' :
      semicolon r r' -> stmt_text (TStm WBreak :: label_text l ++ r) (JBreak l) r'
  | st_continue l r r' :
      semicolon r r' -> stmt_text (TStm WContinue :: label_text l ++ r) (JContinue l) r'
  | st_label l r a r' : stmt_text r a r' -> stmt_text (TId l :: TColon :: r) (JLabel l a) r'
  | st_with ts e r a r' :
      phrase false Expression ts e -> stmt_text r a r' ->
      stmt_text (TStm WWith :: TLPar :: ts ++ TRPar :: r) (JWith e a) r'
  | st_debugger r r' : semicolon r r' -> stmt_text (TStm WDebugger :: r) JDebugger r'
with block_text : list token -> stmts -> list token -> Prop :=
  | bl_block r ss r' :
      list_text r ss (TStm WRBrace :: r') -> block_text (TStm WLBrace :: r) ss r'
with item_text : list token -> stmt -> list token -> Prop :=
  | im_stmt r s r' : stmt_text r s r' -> item_text r s r'
  | im_lexical k ts ds r r' :
      k <> DVar -> decls_text true ts ds -> semicolon r r' ->
      item_text (TStm (kind_word k) :: ts ++ r) (JDecl k ds) r'
  | im_function f ts ps r ss r' :
      names_text ts ps -> block_text r ss r' ->
      item_text (TStm WFunction :: TId f :: TLPar :: ts ++ TRPar :: r) (JFun f ps ss) r'
with list_text : list token -> stmts -> list token -> Prop :=
  | li_nil r : list_text r JNil r
  | li_cons r s r1 ss r' :
      item_text r s r1 -> list_text r1 ss r' -> list_text r (JCons s ss) r'
(** The body of a [for]: a Statement, of whose tree a block's braces are no
    part. *)
with body_text : list token -> stmts -> list token -> Prop :=
  | bo_block r ss r' : block_text r ss r' -> body_text r ss r'
  | bo_stmt r s r' : stmt_text r s r' -> is_block s = false -> body_text r (JCons s JNil) r'
with cases_text : list token -> cases -> list token -> Prop :=
  | ca_nil r : cases_text r KNil r
  | ca_case ts e r ss r1 cs r' :
      phrase false Expression ts e -> list_text r ss r1 -> cases_text r1 cs r' ->
      cases_text (TStm WCase :: ts ++ TColon :: r) (KCase (Some e) ss cs) r'
  | ca_default r ss r1 cs r' :
      list_text r ss r1 -> cases_text r1 cs r' ->
      cases_text (TStm WDefault :: TColon :: r) (KCase None ss cs) r'.

(** Script: a StatementList that takes all of the input. *)
Definition program (toks : list token) (ss : stmts) : Prop :=
  list_text (toks ++ [TEnd]) ss [TEnd].

(** ** Trees up to empty statements

    An empty statement in a list has no meaning; [strip] leaves them out. *)
Fixpoint strip (s : stmt) : stmt :=
  match s with
  | JFun f ps ss => JFun f ps (strips ss)
  | JBlock ss => JBlock (strips ss)
  | JIf e a => JIf e (strip a)
  | JIfElse e a b => JIfElse e (strip a) (strip b)
  | JWhile e a => JWhile e (strip a)
  | JDo a e => JDo (strip a) e
  | JFor i t u ss => JFor i t u (strips ss)
  | JForIn of h e ss => JForIn of h e (strips ss)
  | JSwitch e cs => JSwitch e (strip_cases cs)
  | JTryCatch b x h => JTryCatch (strips b) x (strips h)
  | JTryFinally b f => JTryFinally (strips b) (strips f)
  | JTryBoth b x h f => JTryBoth (strips b) x (strips h) (strips f)
  | JLabel l a => JLabel l (strip a)
  | JWith e a => JWith e (strip a)
  | _ => s
  end
with strips (ss : stmts) : stmts :=
  match ss with
  | JNil => JNil
  | JCons JEmpty ss => strips ss
  | JCons s ss => JCons (strip s) (strips ss)
  end
with strip_cases (cs : cases) : cases :=
  match cs with
  | KNil => KNil
  | KCase t ss cs => KCase t (strips ss) (strip_cases cs)
  end.

(** ** What the parser is promised to read *)

(** Statements whose last semicolon the parser may leave in the input. *)
Fixpoint leaves_semi (s : stmt) : bool :=
  match s with
  | JBreak (Some _) | JContinue (Some _) | JDebugger | JDo _ _ => true
  | JIf _ a | JIfElse _ _ a | JWhile _ a | JWith _ a | JLabel _ a => leaves_semi a
  | JFor _ _ _ (JCons a JNil) | JForIn _ _ _ (JCons a JNil) => leaves_semi a
  | _ => false
  end.

(** No such statement stands before an [else]. *)
Fixpoint else_safe (s : stmt) : bool :=
  match s with
  | JFun _ _ ss | JBlock ss | JFor _ _ _ ss | JForIn _ _ _ ss => else_safes ss
  | JIf _ a | JWhile _ a | JDo a _ | JLabel _ a | JWith _ a => else_safe a
  | JIfElse _ a b => negb (leaves_semi a) && else_safe a && else_safe b
  | JSwitch _ cs => else_safe_cases cs
  | JTryCatch a _ b | JTryFinally a b => else_safes a && else_safes b
  | JTryBoth a _ b c => else_safes a && else_safes b && else_safes c
  | _ => true
  end
with else_safes (ss : stmts) : bool :=
  match ss with
  | JNil => true
  | JCons s ss => else_safe s && else_safes ss
  end
with else_safe_cases (cs : cases) : bool :=
  match cs with
  | KNil => true
  | KCase _ ss cs => else_safes ss && else_safe_cases cs
  end.

(** The input ends with the word [break], [continue] or [return] (the semicolon
    after it left out). *)
Definition is_jump (t : token) : bool :=
  match t with
  | TStm WBreak | TStm WContinue | TStm WReturn => true
  | _ => false
  end.

Fixpoint jump_at_end (toks : list token) : bool :=
  match toks with
  | [] => false
  | t :: rest =>
      match rest with
      | TEnd :: _ => is_jump t
      | _ => false
      end || jump_at_end rest
  end.

(** ** What the printers are promised to print *)

(** The statement ends in an [if] without [else], so that an [else] after it
    would be taken for its own. *)
Fixpoint ends_open (p : printer) (s : stmt) : bool :=
  match s with
  | JIf _ _ => true
  | JIfElse _ _ a | JWhile _ a | JWith _ a | JLabel _ a => ends_open p a
  | JFor _ _ _ (JCons a JNil) | JForIn _ _ _ (JCons a JNil) =>
      bool_decide (p = AstPrinter) && ends_open p a
  | _ => false
  end.

(** A declaration, which is not a Statement. *)
Definition declaration (s : stmt) : bool :=
  match s with
  | JFun _ _ _ | JDecl DLet _ | JDecl DConst _ => true
  | _ => false
  end.

Definition good (p : printer) (e : expr) : bool := covered p false e && standard p e.
Definition good_opt (p : printer) (e : option expr) : bool :=
  match e with Some e => good p e | None => true end.

(** Initialisers: the AST printer does not parenthesise a comma expression, and
    neither printer an [in] in the header of a [for]. *)
Definition good_init (p : printer) (header : bool) (i : option expr) : bool :=
  match i with
  | None => true
  | Some e =>
      good p e && negb (bool_decide (p = AstPrinter) && comma_expr e)
      && (negb header || sheltered 0 (print_init p e))
  end.

Definition good_decls (p : printer) (header : bool) (ds : list (N * option expr)) : bool :=
  negb (bool_decide (ds = [])) && forallb (fun d => good_init p header d.2) ds.

Definition good_for_init (p : printer) (i : for_init) : bool :=
  match i with
  | ForNone => true
  | ForExpr e => good p e && sheltered 0 (print_expr p e)
  | ForDecl _ ds => good_decls p true ds
  end.

Definition good_head (h : for_head) : bool :=
  match h with
  | HTarget (EId _) | HDecl _ _ => true
  | HTarget _ => false
  end.

(** The body of a [for] that the AST printer prints without braces. *)
Definition bare_body (p : printer) (ss : stmts) : option stmt :=
  match p, ss with
  | AstPrinter, JCons s JNil => Some s
  | _, _ => None
  end.

Fixpoint printable (p : printer) (s : stmt) : bool :=
  match s with
  | JEmpty | JBreak _ | JContinue _ | JDebugger => true
  | JExpr e | JThrow e => good p e
  | JReturn e => good_opt p e
  | JDecl _ ds => good_decls p false ds
  | JFun _ _ ss | JBlock ss => printables p ss
  | JIf e a | JWhile e a | JWith e a | JDo a e =>
      good p e && negb (declaration a) && printable p a
  | JIfElse e a b =>
      good p e && negb (declaration a) && negb (declaration b) && negb (ends_open p a)
      && printable p a && printable p b
  | JLabel _ a => negb (declaration a) && printable p a
  | JFor i t u ss =>
      good_for_init p i && good_opt p t && good_opt p u && printables p ss
      && match bare_body p ss with Some a => negb (declaration a || is_block a) | None => true end
  | JForIn of h e ss =>
      good_head h && good p e && negb (of && comma_expr e) && printables p ss
      && match bare_body p ss with Some a => negb (declaration a || is_block a) | None => true end
  | JSwitch e cs => good p e && (defaults cs <=? 1) && printable_cases p cs
  | JTryCatch a _ b | JTryFinally a b => printables p a && printables p b
  | JTryBoth a _ b c => printables p a && printables p b && printables p c
  end
with printables (p : printer) (ss : stmts) : bool :=
  match ss with
  | JNil => true
  | JCons s ss => printable p s && printables p ss
  end
with printable_cases (p : printer) (cs : cases) : bool :=
  match cs with
  | KNil => true
  | KCase t ss cs => good_opt p t && printables p ss && printable_cases p cs
  end.
