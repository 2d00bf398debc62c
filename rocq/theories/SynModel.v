(** Statements: the parser (parse-js/src/parse/stmt) and the two printers
    (emit-js/src/stmt.rs and emit-js/src/hir.rs).

    The parser is the strict ECMAScript one (no recovery, no TypeScript) on
    programs without line terminators, which is how the minifier prints them, so
    a semicolon is only inserted before [}] and at the end of the input.  [let]
    and [of] are keywords here.  Left out: classes, modules, [using], [for
    await], patterns (bindings are names), generators, async functions and
    default values of parameters; and the checks that do not look at the shape of
    the text (labels and jumps in scope, [with] in strict mode, [return] outside
    functions, duplicate parameters).  Expressions are those of PrattModel. *)
From stdpp Require Import base decidable numbers list.
From Verif Require Import PrintModel PrattModel.

Inductive decl_kind : Type := DVar | DLet | DConst.

(** What stands before the first semicolon of a [for (;;)]:
    parse-js/src/ast/stmt.rs, [ForTripleStmtInit]. *)
Inductive for_init : Type :=
  | ForNone
  | ForExpr (e : expr)
  | ForDecl (k : decl_kind) (ds : list (N * option expr)).

(** The left side of [for (... in ...)] and [for (... of ...)]:
    [ForInOfLhs]. *)
Inductive for_head : Type :=
  | HTarget (e : expr)
  | HDecl (k : decl_kind) (x : N).

(** parse-js/src/ast/stmt.rs, [Stmt].  The two forms of [if] and the three of
    [try] have their own constructors. *)
Inductive stmt : Type :=
  | JEmpty
  | JExpr (e : expr)
  | JDecl (k : decl_kind) (ds : list (N * option expr))
  | JFun (f : N) (params : list N) (body : stmts)
  | JBlock (body : stmts)
  | JIf (e : expr) (a : stmt)
  | JIfElse (e : expr) (a b : stmt)
  | JWhile (e : expr) (a : stmt)
  | JDo (a : stmt) (e : expr)
  | JFor (i : for_init) (test step : option expr) (body : stmts)
  | JForIn (of : bool) (h : for_head) (e : expr) (body : stmts)
  | JSwitch (e : expr) (cs : cases)
  | JTryCatch (body : stmts) (x : option N) (handler : stmts)
  | JTryFinally (body : stmts) (final : stmts)
  | JTryBoth (body : stmts) (x : option N) (handler : stmts) (final : stmts)
  | JThrow (e : expr)
  | JReturn (e : option expr)
  | JBreak (l : option N)
  | JContinue (l : option N)
  | JLabel (l : N) (a : stmt)
  | JWith (e : expr) (a : stmt)
  | JDebugger
with stmts : Type :=
  | JNil
  | JCons (s : stmt) (ss : stmts)
with cases : Type :=
  | KNil
  | KCase (test : option expr) (body : stmts) (cs : cases).

(** ** The parser *)

(** parse-js/src/parse/expr/mod.rs 97-103, [expr], and [expr_with_asi], whose
    insertion of a semicolon (1281 and 1555-1566) is two more terminators.  The
    fuel is enough for every input (SynProofs). *)
Definition expression (terms toks : list token) : res (expr * list token) :=
  bind (expr_min (4 * length toks + 8) false 1 terms toks) (fun '(e, _, rest) => Ok (e, rest)).

Definition asi_terms : list token := [TStm WSemi; TStm WRBrace; TEnd].

(** A statement's end: stmt/mod.rs 473-494, the [;] or a place where one is
    inserted. *)
Definition end_stmt (toks : list token) : res (list token) :=
  match toks with
  | TStm WSemi :: rest => Ok rest
  | TStm WRBrace :: _ | TEnd :: _ => Ok toks
  | _ => Err
  end.

(** A parenthesised expression: [if], [while], [do], [with] and [switch]. *)
Definition paren_expr (toks : list token) : res (expr * list token) :=
  bind (require TLPar toks) (fun rest =>
  bind (expression [TRPar] rest) (fun '(e, rest) =>
  bind (require TRPar rest) (fun rest => Ok (e, rest)))).

(** stmt/mod.rs 467-497, [expr_stmt]. *)
Definition expr_stmt (toks : list token) : res (stmt * list token) :=
  bind (expression asi_terms toks) (fun '(e, rest) =>
  bind (end_stmt rest) (fun rest => Ok (JExpr e, rest))).

(** stmt/decl.rs 97-117: the initialiser of a declarator, in a [for] header
    ([VarDeclParseMode::Leftmost]) and elsewhere. *)
Definition decl_terms (header : bool) : list token :=
  if header then [TStm WSemi; TOp BComma; TOp BIn; TStm WOf]
  else [TStm WSemi; TOp BComma; TStm WRBrace; TEnd].

Definition initialiser (header : bool) (toks : list token) : res (option expr * list token) :=
  match consume_if (TOp BAssign) toks with
  | Some rest =>
      bind (expression (decl_terms header) rest) (fun '(e, rest) => Ok (Some e, rest))
  | None => Ok (None, toks)
  end.

(** stmt/decl.rs 66-136, the loop of [var_decl]. *)
Fixpoint declarators (n : nat) (header : bool) (toks : list token)
  : res (list (N * option expr) * list token) :=
  match n with
  | 0 => OutOfFuel
  | S n =>
      match take_name toks with
      | Some (x, rest) =>
          bind (initialiser header rest) (fun '(i, rest) =>
          match (if header
                 then if consume_if (TOp BComma) rest then Err else Ok rest
                 else end_stmt rest) with
          | Ok rest => Ok ([(x, i)], rest)
          | _ =>
              bind (require (TOp BComma) rest) (fun rest =>
              bind (declarators n header rest) (fun '(ds, rest) => Ok ((x, i) :: ds, rest)))
          end)
      | None => Err
      end
  end.

(** stmt/decl.rs 30-58, [var_decl_mode].  A [let] that is not followed by a name
    is an identifier, which is not modelled. *)
Definition kind_of (w : word) : option decl_kind :=
  match w with
  | WVar => Some DVar
  | WLet => Some DLet
  | WConst => Some DConst
  | _ => None
  end.

(** func.rs 18-20 and 100-140, [func_params], and [list_with_loc]: names
    separated by commas, up to the closing parenthesis. *)
Fixpoint names (n : nat) (toks : list token) : res (list N * list token) :=
  match n with
  | 0 => OutOfFuel
  | S n =>
      match consume_if TRPar toks with
      | Some rest => Ok ([], rest)
      | None =>
          match take_name toks with
          | Some (x, rest) =>
              match consume_if (TOp BComma) rest with
              | Some rest => bind (names n rest) (fun '(xs, rest) => Ok (x :: xs, rest))
              | None => bind (require TRPar rest) (fun rest => Ok ([x], rest))
              end
          | None => Err
          end
      end
  end.

(** stmt/mod.rs 388-404, [break_or_continue_label]: after a label the semicolon
    is left in the input, and one is not inserted at the end of the input. *)
Definition jump_label (toks : list token) : res (option N * list token) :=
  match toks with
  | TId l :: rest => Ok (Some l, rest)
  | TStm WSemi :: rest => Ok (None, rest)
  | TStm WRBrace :: _ => Ok (None, toks)
  | _ => Err
  end.

(** stmt/mod.rs 924-946, [return_stmt]. *)
Definition return_stmt (toks : list token) : res (stmt * list token) :=
  match toks with
  | TStm WRBrace :: _ => Ok (JReturn None, toks)
  | TStm WSemi :: rest => Ok (JReturn None, rest)
  | _ =>
      bind (expression asi_terms toks) (fun '(e, rest) =>
      bind (end_stmt rest) (fun rest => Ok (JReturn (Some e), rest)))
  end.

(** stmt/mod.rs 784-904: which of the three [for] statements this is, found by
    reading ahead ([Type::determine]).  The input starts after the opening
    parenthesis. *)
Inductive for_kind : Type := KIn | KOf | KTriple.

Definition kind_at (toks : list token) : for_kind :=
  match toks with
  | TOp BIn :: _ => KIn
  | TStm WOf :: _ => KOf
  | _ => KTriple
  end.

Definition starts_decl (toks : list token) : option (decl_kind * list token) :=
  match toks with
  | TStm w :: rest =>
      match kind_of w with
      | Some k => Some (k, rest)
      | None => None
      end
  | _ => None
  end.

Definition determine (toks : list token) : res for_kind :=
  match starts_decl toks with
  | Some (_, rest) =>
      bind (declarators (S (length rest)) true rest) (fun '(_, rest) => Ok (kind_at rest))
  | None =>
      if consume_if (TStm WSemi) toks then Ok KTriple
      else
        match expression [TOp BIn; TStm WOf] toks with
        | Ok (_, rest) => Ok (kind_at rest)
        | Err => Ok KTriple
        | OutOfFuel => OutOfFuel
        end
  end.

(** stmt/mod.rs 523-569: the header of a [for (;;)], up to the closing
    parenthesis. *)
Definition triple_init (toks : list token) : res (for_init * list token) :=
  match starts_decl toks with
  | Some (k, rest) =>
      bind (declarators (S (length rest)) true rest) (fun '(ds, rest) => Ok (ForDecl k ds, rest))
  | None =>
      if consume_if (TStm WSemi) toks then Ok (ForNone, toks)
      else bind (expression [TStm WSemi] toks) (fun '(e, rest) => Ok (ForExpr e, rest))
  end.

Definition until (t : token) (toks : list token) : res (option expr * list token) :=
  match consume_if t toks with
  | Some rest => Ok (None, rest)
  | None =>
      bind (expression [t] toks) (fun '(e, rest) =>
      bind (require t rest) (fun rest => Ok (Some e, rest)))
  end.

Definition triple_header (toks : list token)
  : res (for_init * option expr * option expr * list token) :=
  bind (triple_init toks) (fun '(i, rest) =>
  bind (require (TStm WSemi) rest) (fun rest =>
  bind (until (TStm WSemi) rest) (fun '(test, rest) =>
  bind (until TRPar rest) (fun '(step, rest) => Ok (i, test, step, rest))))).

(** stmt/mod.rs 596-726, [for_in_of_lhs]: a declaration of one name, or an
    expression that can be assigned to. *)
Definition in_of_head (toks : list token) : res (for_head * list token) :=
  match starts_decl toks with
  | Some (k, rest) =>
      match take_name rest with
      | Some (x, rest) => Ok (HDecl k x, rest)
      | None => Err
      end
  | None =>
      bind (expr_min (4 * length toks + 8) false 1 [TOp BIn; TStm WOf] toks)
        (fun '(e, par, rest) => if good_target e par then Ok (HTarget e, rest) else Err)
  end.

(** stmt/mod.rs 714-778, [for_in_stmt] and [for_of_stmt], up to the body; the
    keyword need not be there. *)
Definition in_of_header (of : bool) (toks : list token)
  : res (for_head * expr * list token) :=
  bind (in_of_head toks) (fun '(h, rest) =>
  let rest :=
    match consume_if (if of then TStm WOf else TOp BIn) rest with
    | Some rest => rest
    | None => rest
    end in
  bind (expression [TRPar] rest) (fun '(e, rest) =>
  bind (require TRPar rest) (fun rest => Ok (h, e, rest)))).

(** The parameter of a [catch]: stmt/mod.rs 969-986. *)
Definition catch_param (toks : list token) : res (option N * list token) :=
  match consume_if TLPar toks with
  | None => Ok (None, toks)
  | Some rest =>
      match take_name rest with
      | Some (x, rest) => bind (require TRPar rest) (fun rest => Ok (Some x, rest))
      | None => Err
      end
  end.

(** stmt/mod.rs 1043-1062: the optional semicolon after the body of a [do]. *)
Definition skip_semi (toks : list token) : list token :=
  match consume_if (TStm WSemi) toks with
  | Some rest => rest
  | None => toks
  end.

(** A label: stmt/mod.rs 179, two tokens of lookahead. *)
Definition label_of (toks : list token) : option (N * list token) :=
  match toks with
  | TId l :: TColon :: rest => Some (l, rest)
  | _ => None
  end.

(** [statement] is stmt/mod.rs 71-183, [stmt], with the functions it calls
    (333-355, 463, 906-922, 948-1062) written out; [statements] is 67-69 and the
    loop at 1083-1093 ([ends] are the tokens it stops at); [block] is 378-386;
    [for_body] is 499-521; [switch_cases] is 1073-1094. *)
Fixpoint statement (n : nat) (toks : list token) : res (stmt * list token) :=
  match n with
  | 0 => OutOfFuel
  | S n =>
      match toks with
      | [] => Err
      | TStm w :: rest =>
          match w with
          | WSemi => Ok (JEmpty, rest)
          | WLBrace => bind (block n toks) (fun '(ss, rest) => Ok (JBlock ss, rest))
          | WVar | WLet | WConst =>
              match kind_of w with
              | Some k =>
                  bind (declarators (S (length rest)) false rest) (fun '(ds, rest) =>
                  Ok (JDecl k ds, rest))
              | None => Err
              end
          | WFunction =>
              match take_name rest with
              | Some (f, rest) =>
                  bind (require TLPar rest) (fun rest =>
                  bind (names (S (length rest)) rest) (fun '(ps, rest) =>
                  bind (block n rest) (fun '(ss, rest) => Ok (JFun f ps ss, rest))))
              | None => Err
              end
          | WIf =>
              bind (paren_expr rest) (fun '(e, rest) =>
              bind (statement n rest) (fun '(a, rest) =>
              match consume_if (TStm WElse) rest with
              | Some rest =>
                  bind (statement n rest) (fun '(b, rest) => Ok (JIfElse e a b, rest))
              | None => Ok (JIf e a, rest)
              end))
          | WWhile =>
              bind (paren_expr rest) (fun '(e, rest) =>
              bind (statement n rest) (fun '(a, rest) => Ok (JWhile e a, rest)))
          | WWith =>
              bind (paren_expr rest) (fun '(e, rest) =>
              bind (statement n rest) (fun '(a, rest) => Ok (JWith e a, rest)))
          | WDo =>
              bind (statement n rest) (fun '(a, rest) =>
              bind (require (TStm WWhile) (skip_semi rest)) (fun rest =>
              bind (paren_expr rest) (fun '(e, rest) => Ok (JDo a e, rest))))
          | WFor =>
              bind (require TLPar rest) (fun rest =>
              bind (determine rest) (fun k =>
              match k with
              | KTriple =>
                  bind (triple_header rest) (fun '(i, test, step, rest) =>
                  bind (for_body n rest) (fun '(ss, rest) => Ok (JFor i test step ss, rest)))
              | _ =>
                  let of := match k with KOf => true | _ => false end in
                  bind (in_of_header of rest) (fun '(h, e, rest) =>
                  bind (for_body n rest) (fun '(ss, rest) => Ok (JForIn of h e ss, rest)))
              end))
          | WSwitch =>
              bind (paren_expr rest) (fun '(e, rest) =>
              bind (require (TStm WLBrace) rest) (fun rest =>
              bind (switch_cases n rest) (fun '(cs, rest) =>
              bind (require (TStm WRBrace) rest) (fun rest => Ok (JSwitch e cs, rest)))))
          | WTry =>
              bind (block n rest) (fun '(b, rest) =>
              match consume_if (TStm WCatch) rest with
              | Some rest =>
                  bind (catch_param rest) (fun '(x, rest) =>
                  bind (block n rest) (fun '(h, rest) =>
                  match consume_if (TStm WFinally) rest with
                  | Some rest =>
                      bind (block n rest) (fun '(f, rest) => Ok (JTryBoth b x h f, rest))
                  | None => Ok (JTryCatch b x h, rest)
                  end))
              | None =>
                  bind (require (TStm WFinally) rest) (fun rest =>
                  bind (block n rest) (fun '(f, rest) => Ok (JTryFinally b f, rest)))
              end)
          | WThrow =>
              bind (expression asi_terms rest) (fun '(e, rest) =>
              bind (end_stmt rest) (fun rest => Ok (JThrow e, rest)))
          | WReturn => return_stmt rest
          | WBreak => bind (jump_label rest) (fun '(l, rest) => Ok (JBreak l, rest))
          | WContinue => bind (jump_label rest) (fun '(l, rest) => Ok (JContinue l, rest))
          | WDebugger => Ok (JDebugger, rest)
          | _ => Err
          end
      | _ =>
          match label_of toks with
          | Some (l, rest) => bind (statement n rest) (fun '(a, rest) => Ok (JLabel l a, rest))
          | None => expr_stmt toks
          end
      end
  end
with statements (n : nat) (ends toks : list token) : res (stmts * list token) :=
  match n with
  | 0 => OutOfFuel
  | S n =>
      match toks with
      | [] => Err
      | t :: _ =>
          if is_term ends t then Ok (JNil, toks)
          else
            bind (statement n toks) (fun '(s, rest) =>
            bind (statements n ends rest) (fun '(ss, rest) => Ok (JCons s ss, rest)))
      end
  end
with block (n : nat) (toks : list token) : res (stmts * list token) :=
  match n with
  | 0 => OutOfFuel
  | S n =>
      bind (require (TStm WLBrace) toks) (fun rest =>
      bind (statements n [TStm WRBrace] rest) (fun '(ss, rest) =>
      bind (require (TStm WRBrace) rest) (fun rest => Ok (ss, rest))))
  end
with for_body (n : nat) (toks : list token) : res (stmts * list token) :=
  match n with
  | 0 => OutOfFuel
  | S n =>
      if consume_if (TStm WLBrace) toks then block n toks
      else bind (statement n toks) (fun '(s, rest) => Ok (JCons s JNil, rest))
  end
with switch_cases (n : nat) (toks : list token) : res (cases * list token) :=
  match n with
  | 0 => OutOfFuel
  | S n =>
      if consume_if (TStm WRBrace) toks then Ok (KNil, toks)
      else
        bind (match consume_if (TStm WCase) toks with
              | Some rest =>
                  bind (expression [TColon] rest) (fun '(e, rest) => Ok (Some e, rest))
              | None => bind (require (TStm WDefault) toks) (fun rest => Ok (None, rest))
              end) (fun '(test, rest) =>
        bind (require TColon rest) (fun rest =>
        bind (statements n [TStm WCase; TStm WDefault; TStm WRBrace] rest) (fun '(ss, rest) =>
        bind (switch_cases n rest) (fun '(cs, rest) => Ok (KCase test ss cs, rest)))))
  end.

(** parse-js/src/parse/mod.rs, [parse_top_level]: statements up to the end of
    the input. *)
Definition parse_program (toks : list token) : res stmts :=
  bind (statements (4 * length toks + 8) [TEnd] (toks ++ [TEnd])) (fun '(ss, _) => Ok ss).

(** ** The printers

    emit-js/src/stmt.rs 33-395 ([AstPrinter]) and emit-js/src/hir.rs 998-1390
    ([HirPrinter]). *)

Definition kind_word (k : decl_kind) : word :=
  match k with DVar => WVar | DLet => WLet | DConst => WConst end.

(** stmt.rs 373-390, [emit_var_declarator]; hir.rs 1353-1390: only the HIR
    printer parenthesises a comma expression. *)
Definition print_init (p : printer) (e : expr) : list token :=
  match p with
  | AstPrinter => print_expr p e
  | HirPrinter => wrap (prec e <? 2) (body p e)
  end.

Definition print_declarator (p : printer) (d : N * option expr) : list token :=
  TId d.1 ::
  match d.2 with
  | Some e => TOp BAssign :: print_init p e
  | None => []
  end.

Fixpoint print_declarators (p : printer) (ds : list (N * option expr)) : list token :=
  match ds with
  | [] => []
  | [d] => print_declarator p d
  | d :: ds => print_declarator p d ++ TOp BComma :: print_declarators p ds
  end.

Definition print_decl (p : printer) (k : decl_kind) (ds : list (N * option expr)) : list token :=
  TStm (kind_word k) :: print_declarators p ds.

Definition print_for_init (p : printer) (i : for_init) : list token :=
  match i with
  | ForNone => []
  | ForExpr e => print_expr p e
  | ForDecl k ds => print_decl p k ds
  end.

Definition print_opt (p : printer) (e : option expr) : list token :=
  match e with Some e => print_expr p e | None => [] end.

Definition print_head (p : printer) (h : for_head) : list token :=
  match h with
  | HTarget e => print_expr p e
  | HDecl k x => [TStm (kind_word k); TId x]
  end.

Fixpoint print_names (xs : list N) : list token :=
  match xs with
  | [] => []
  | [x] => [TId x]
  | x :: xs => TId x :: TOp BComma :: print_names xs
  end.

Definition print_label (l : option N) : list token :=
  match l with Some l => [TId l] | None => [] end.

Definition print_catch (x : option N) : list token :=
  TStm WCatch :: match x with Some x => [TLPar; TId x; TRPar] | None => [] end.

Definition print_paren (p : printer) (e : expr) : list token :=
  TLPar :: print_expr p e ++ [TRPar].

(** [print_stmt] with [body = false] is [emit_stmt]; with [body = true] it is
    [emit_stmt_as_body] (stmt.rs 116-125, hir.rs 1018-1030).  [print_stmts] is
    [emit_stmt_list] (stmt.rs 33-38, hir.rs 998-1016).  The body of a [for] is
    printed by [emit_for_body] (stmt.rs 210-221) or is a block of the HIR
    (hir-js/src/lower.rs 1791-1801). *)
Fixpoint print_stmt (p : printer) (as_body : bool) (s : stmt) : list token :=
  match s with
  | JEmpty => if as_body then [TStm WSemi] else []
  | JExpr e => print_expr p e ++ [TStm WSemi]
  | JDecl k ds => print_decl p k ds ++ [TStm WSemi]
  | JFun f ps ss =>
      TStm WFunction :: TId f :: TLPar :: print_names ps
      ++ TRPar :: TStm WLBrace :: print_stmts p ss ++ [TStm WRBrace]
  | JBlock ss => TStm WLBrace :: print_stmts p ss ++ [TStm WRBrace]
  | JIf e a => TStm WIf :: print_paren p e ++ print_stmt p true a
  | JIfElse e a b =>
      TStm WIf :: print_paren p e ++ print_stmt p true a
      ++ TStm WElse :: print_stmt p true b
  | JWhile e a => TStm WWhile :: print_paren p e ++ print_stmt p true a
  | JDo a e =>
      TStm WDo :: print_stmt p true a ++ TStm WWhile :: print_paren p e ++ [TStm WSemi]
  | JFor i test step ss =>
      TStm WFor :: TLPar :: print_for_init p i ++ TStm WSemi :: print_opt p test
      ++ TStm WSemi :: print_opt p step ++ TRPar :: print_for_body p ss
  | JForIn of h e ss =>
      TStm WFor :: TLPar :: print_head p h
      ++ (if of then TStm WOf else TOp BIn) :: print_expr p e ++ TRPar :: print_for_body p ss
  | JSwitch e cs =>
      TStm WSwitch :: print_paren p e ++ TStm WLBrace :: print_cases p cs ++ [TStm WRBrace]
  | JTryCatch b x h =>
      TStm WTry :: TStm WLBrace :: print_stmts p b ++ TStm WRBrace ::
      print_catch x ++ TStm WLBrace :: print_stmts p h ++ [TStm WRBrace]
  | JTryFinally b f =>
      TStm WTry :: TStm WLBrace :: print_stmts p b ++ TStm WRBrace ::
      TStm WFinally :: TStm WLBrace :: print_stmts p f ++ [TStm WRBrace]
  | JTryBoth b x h f =>
      TStm WTry :: TStm WLBrace :: print_stmts p b ++ TStm WRBrace ::
      print_catch x ++ TStm WLBrace :: print_stmts p h ++ TStm WRBrace ::
      TStm WFinally :: TStm WLBrace :: print_stmts p f ++ [TStm WRBrace]
  | JThrow e => TStm WThrow :: print_expr p e ++ [TStm WSemi]
  | JReturn e => TStm WReturn :: print_opt p e ++ [TStm WSemi]
  | JBreak l => TStm WBreak :: print_label l ++ [TStm WSemi]
  | JContinue l => TStm WContinue :: print_label l ++ [TStm WSemi]
  | JLabel l a => TId l :: TColon :: print_stmt p true a
  | JWith e a => TStm WWith :: print_paren p e ++ print_stmt p true a
  | JDebugger => [TStm WDebugger; TStm WSemi]
  end
with print_stmts (p : printer) (ss : stmts) : list token :=
  match ss with
  | JNil => []
  | JCons s ss => print_stmt p false s ++ print_stmts p ss
  end
with print_for_body (p : printer) (ss : stmts) : list token :=
  match p, ss with
  | AstPrinter, JCons s JNil => print_stmt p true s
  | _, _ =>
      TStm WLBrace ::
      match ss with
      | JNil => []
      | JCons s ss => print_stmt p false s ++ print_stmts p ss
      end ++ [TStm WRBrace]
  end
with print_cases (p : printer) (cs : cases) : list token :=
  match cs with
  | KNil => []
  | KCase test ss cs =>
      match test with
      | Some e => TStm WCase :: print_expr p e
      | None => [TStm WDefault]
      end ++ TColon :: print_stmts p ss ++ print_cases p cs
  end.
