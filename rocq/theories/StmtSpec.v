(** * What a statement does: ECMA-262, sections 14.2 to 14.15

    The runtime semantics of statements as the standard gives them, as a
    relation: a statement, its label set, the running lexical environment
    and the world before, the completion and the world after.  The
    environment is passed down and never changed, which is what the
    standard's "set the running execution context's LexicalEnvironment to
    oldEnv" amounts to.

    Expressions, bindings and iterators are what [machine] says they are.
    An evaluation that stops the engine has no completion and is not
    derivable. *)
From stdpp Require Import base decidable numbers list.
From Verif Require Import StmtModel.

(** 6.2.4.2 UpdateEmpty ( completionRecord, value ). *)
Definition UpdateEmpty {V} (c : completion V) (v : option V) : completion V :=
  match c with
  | CNormal w => CNormal (match w with Some _ => w | None => v end)
  | CBreak l w => CBreak l (match w with Some _ => w | None => v end)
  | CContinue l w => CContinue l (match w with Some _ => w | None => v end)
  | CReturn _ | CThrow _ => c
  end.

(** 14.7.1.1 LoopContinues ( completion, labelSet ). *)
Definition LoopContinues {V} (c : completion V) (labels : list N) : Prop :=
  match c with
  | CNormal _ => True
  | CContinue None _ => True
  | CContinue (Some l) _ => l ∈ labels
  | _ => False
  end.

(** The [[Value]] of a completion, or an older one where it is empty. *)
Definition value_or {V} (c : completion V) (v : V) : V :=
  match c with
  | CNormal (Some x) | CBreak _ (Some x) | CContinue _ (Some x) => x
  | CReturn x | CThrow x => x
  | _ => v
  end.

Definition abrupt {V} (c : completion V) : Prop :=
  match c with CNormal _ => False | _ => True end.

(** 14.1.1 LabelledEvaluation of a BreakableStatement, steps 2 and 3. *)
Definition unbroken {V} (undef : V) (c : completion V) : completion V :=
  match c with
  | CBreak None None => CNormal (Some undef)
  | CBreak None (Some v) => CNormal (Some v)
  | _ => c
  end.

(** 14.13.4 LabelledEvaluation of a LabelledStatement. *)
Definition unlabelled {V} (l : N) (c : completion V) : completion V :=
  match c with
  | CBreak (Some l') v => if decide (l' = l) then CNormal v else c
  | _ => c
  end.

(** Completions that do the same: the values of normal completions and
    jumps, which only `eval` and a script's result show, may differ. *)
Definition same_control {V} (c c' : completion V) : Prop :=
  match c, c' with
  | CNormal _, CNormal _ => True
  | CThrow v, CThrow v' => v = v'
  | CReturn v, CReturn v' => v = v'
  | CBreak l _, CBreak l' _ => l = l'
  | CContinue l _, CContinue l' _ => l = l'
  | _, _ => False
  end.

Section Semantics.
Context (M : machine).

(** How an `if` statement treats the completion of the branch taken.  In
    ECMA-262 this is [ecma_if]: 14.6.2, "Return ? UpdateEmpty(stmtCompletion,
    undefined)". *)
Context (if_completion : completion (value M) -> completion (value M)).

(** 13.14.1 Conditional operator, 13.13.1 logical AND. *)
Inductive expr_ev (E : env M) : expr -> world M -> res (value M) (value M) -> world M -> Prop :=
  | ev_atom n w r w' :
      atom M n E w = (r, w') -> r <> RFatal ->
      expr_ev E (EAtom n) w r w'
  | ev_lit l w v w' :
      lit M l w = (Some v, w') ->
      expr_ev E (ELit l) w (RVal v) w'
  | ev_cond_throw t c a w x w' :
      expr_ev E t w (RThrow x) w' ->
      expr_ev E (ECond t c a) w (RThrow x) w'
  | ev_cond t c a w v w1 r w' :
      expr_ev E t w (RVal v) w1 ->
      expr_ev E (if to_boolean M v w1 then c else a) w1 r w' ->
      expr_ev E (ECond t c a) w r w'
  | ev_and_throw l r w x w' :
      expr_ev E l w (RThrow x) w' ->
      expr_ev E (EAnd l r) w (RThrow x) w'
  | ev_and_false l r w v w' :
      expr_ev E l w (RVal v) w' ->
      to_boolean M v w' = false ->
      expr_ev E (EAnd l r) w (RVal v) w'
  | ev_and_true l r w v w1 x w' :
      expr_ev E l w (RVal v) w1 ->
      to_boolean M v w1 = true ->
      expr_ev E r w1 x w' ->
      expr_ev E (EAnd l r) w x w'.

(** 14.3.2.1: each initialiser is evaluated and assigned in turn; [Some]
    a thrown value ends it. *)
Inductive vars_ev (E : env M) : list (N * option expr) -> world M -> option (value M) -> world M -> Prop :=
  | ev_vars_nil w : vars_ev E [] w None w
  | ev_vars_bare x ds w t w' :
      vars_ev E ds w t w' ->
      vars_ev E ((x, None) :: ds) w t w'
  | ev_vars_throw x e ds w t w' :
      expr_ev E e w (RThrow t) w' ->
      vars_ev E ((x, Some e) :: ds) w (Some t) w'
  | ev_vars_put_throw x e ds w v w1 t w' :
      expr_ev E e w (RVal v) w1 ->
      put_var M x v E w1 = (RThrow t, w') ->
      vars_ev E ((x, Some e) :: ds) w (Some t) w'
  | ev_vars_put x e ds w v w1 w2 t w' :
      expr_ev E e w (RVal v) w1 ->
      put_var M x v E w1 = (RVal tt, w2) ->
      vars_ev E ds w2 t w' ->
      vars_ev E ((x, Some e) :: ds) w t w'.

(** 14.2.3 BlockDeclarationInstantiation: every declaration is bound. *)
Inductive decls_ev (E : env M) : list decl -> world M -> world M -> Prop :=
  | ev_decls_nil w : decls_ev E [] w w
  | ev_decls_cons d ds w w1 w' :
      instantiate M d E w = (Some tt, w1) ->
      decls_ev E ds w1 w' ->
      decls_ev E (d :: ds) w w'.

(** The completion of a `var` statement. *)
Definition vars_completion (t : option (value M)) : completion (value M) :=
  match t with Some x => CThrow x | None => CNormal None end.

(** The first expression of a `for`: what it throws, if it throws. *)
Definition init_ev (E : env M) (i : for_init) (w : world M) (t : option (value M)) (w' : world M) : Prop :=
  match i with
  | InitNone => t = None /\ w' = w
  | InitExpr e => exists r, expr_ev E e w r w' /\
      match r with RVal _ => t = None | RThrow x => t = Some x | RFatal => False end
  | InitVar ds => vars_ev E ds w t w'
  end.

(** A test that may be left out: the truth value, or what was thrown. *)
Definition test_ev (E : env M) (t : option expr) (w : world M) (r : bool + value M) (w' : world M) : Prop :=
  match t with
  | None => r = inl true /\ w' = w
  | Some e => exists x, expr_ev E e w x w' /\
      match x with
      | RVal v => r = inl (to_boolean M v w')
      | RThrow t => r = inr t
      | RFatal => False
      end
  end.

(** The last expression of a `for`. *)
Definition post_ev (E : env M) (p : option expr) (w : world M) (t : option (value M)) (w' : world M) : Prop :=
  init_ev E (match p with Some e => InitExpr e | None => InitNone end) w t w'.

(** 7.4.11 IteratorClose ( iteratorRecord, completion ): a throw completion
    stands, otherwise what closing throws replaces it. *)
Definition closed (it : iter M) (c : completion (value M)) (w : world M)
    (c' : completion (value M)) (w' : world M) : Prop :=
  exists r, close M it w = (r, w') /\ r <> RFatal /\
    c' = match c, r with
         | CThrow _, _ => c
         | _, RThrow x => CThrow x
         | _, _ => c
         end.

(** 14.12.3 CaseClauseIsSelected, clause after clause: the bodies from the
    selected clause on, nothing, or what a selector threw. *)
Inductive search_ev : env M -> value M -> list (expr * list stmt) ->
    world M -> option (list (list stmt)) + value M -> world M -> Prop :=
  | ev_search_nil E v w : search_ev E v [] w (inl None) w
  | ev_selector_throw E v e s l w x w' :
      expr_ev E e w (RThrow x) w' ->
      search_ev E v ((e, s) :: l) w (inr x) w'
  | ev_selected E v e s l w u w' :
      expr_ev E e w (RVal u) w' ->
      strict_equal M v u w' = true ->
      search_ev E v ((e, s) :: l) w (inl (Some (s :: map snd l))) w'
  | ev_not_selected E v e s l w u w1 r w' :
      expr_ev E e w (RVal u) w1 ->
      strict_equal M v u w1 = false ->
      search_ev E v l w1 r w' ->
      search_ev E v ((e, s) :: l) w r w'.

Inductive stmt_ev : env M -> list N -> stmt -> world M -> completion (value M) -> world M -> Prop :=
  (* 14.4.1 *)
  | ev_empty E ls w : stmt_ev E ls SEmpty w (CNormal None) w
  (* 14.5.1 *)
  | ev_expr E ls e w v w' :
      expr_ev E e w (RVal v) w' ->
      stmt_ev E ls (SExpr e) w (CNormal (Some v)) w'
  | ev_expr_throw E ls e w x w' :
      expr_ev E e w (RThrow x) w' ->
      stmt_ev E ls (SExpr e) w (CThrow x) w'
  (* 14.3.2.1 *)
  | ev_var E ls ds w t w' :
      vars_ev E ds w t w' ->
      stmt_ev E ls (SVar ds) w (vars_completion t) w'
  (* 14.3.1.2 *)
  | ev_lexical E ls d w w' :
      lexical M d E w = (RVal tt, w') ->
      stmt_ev E ls (SLexical d) w (CNormal None) w'
  | ev_lexical_throw E ls d w x w' :
      lexical M d E w = (RThrow x, w') ->
      stmt_ev E ls (SLexical d) w (CThrow x) w'
  (* 15.2.6 *)
  | ev_function E ls d w : stmt_ev E ls (SFunction d) w (CNormal None) w
  (* 14.2.2 *)
  | ev_block E ls body w c w' :
      block_ev E body w c w' ->
      stmt_ev E ls (SBlock body) w c w'
  (* 14.6.2 *)
  | ev_if_throw E ls t s a w x w' :
      expr_ev E t w (RThrow x) w' ->
      stmt_ev E ls (SIf t s a) w (CThrow x) w'
  | ev_if_true E ls t s a w v w1 c w' :
      expr_ev E t w (RVal v) w1 ->
      to_boolean M v w1 = true ->
      stmt_ev E [] s w1 c w' ->
      stmt_ev E ls (SIf t s a) w (if_completion c) w'
  | ev_if_false E ls t s s' w v w1 c w' :
      expr_ev E t w (RVal v) w1 ->
      to_boolean M v w1 = false ->
      stmt_ev E [] s' w1 c w' ->
      stmt_ev E ls (SIf t s (Some s')) w (if_completion c) w'
  | ev_if_none E ls t s w v w1 :
      expr_ev E t w (RVal v) w1 ->
      to_boolean M v w1 = false ->
      stmt_ev E ls (SIf t s None) w (if_completion (CNormal None)) w1
  (* 14.14.1 *)
  | ev_throw E ls e w v w' :
      expr_ev E e w (RVal v) w' ->
      stmt_ev E ls (SThrow e) w (CThrow v) w'
  | ev_throw_throw E ls e w x w' :
      expr_ev E e w (RThrow x) w' ->
      stmt_ev E ls (SThrow e) w (CThrow x) w'
  (* 14.10.1 *)
  | ev_return_none E ls w : stmt_ev E ls (SReturn None) w (CReturn (undefined M)) w
  | ev_return E ls e w v w' :
      expr_ev E e w (RVal v) w' ->
      stmt_ev E ls (SReturn (Some e)) w (CReturn v) w'
  | ev_return_throw E ls e w x w' :
      expr_ev E e w (RThrow x) w' ->
      stmt_ev E ls (SReturn (Some e)) w (CThrow x) w'
  (* 14.15.3 *)
  | ev_try E ls body h f w b w1 c w2 r w' :
      block_ev E body w b w1 ->
      handled E b h w1 c w2 ->
      finished E c f w2 r w' ->
      stmt_ev E ls (STry body h f) w (UpdateEmpty r (Some (undefined M))) w'
  (* 14.7.3, 14.7.2, 14.7.4, 14.7.5, 14.12 *)
  | ev_while E ls t s w c w' :
      while_ev E ls t s (undefined M) w c w' ->
      stmt_ev E ls (SWhile t s) w (unbroken (undefined M) c) w'
  | ev_do E ls s t w c w' :
      do_ev E ls s t (undefined M) w c w' ->
      stmt_ev E ls (SDoWhile s t) w (unbroken (undefined M) c) w'
  | ev_for_throw E ls i t p body w x w' :
      init_ev E i w (Some x) w' ->
      stmt_ev E ls (SFor i t p body) w (CThrow x) w'
  | ev_for E ls i t p body w w1 c w' :
      init_ev E i w None w1 ->
      for_ev E ls t p body (undefined M) w1 c w' ->
      stmt_ev E ls (SFor i t p body) w (unbroken (undefined M) c) w'
  | ev_for_of_throw E ls b e body w x w' :
      expr_ev E e w (RThrow x) w' ->
      stmt_ev E ls (SForOf b e body) w (CThrow x) w'
  | ev_for_of_iterator_throw E ls b e body w v w1 x w' :
      expr_ev E e w (RVal v) w1 ->
      get_iterator M v w1 = (RThrow x, w') ->
      stmt_ev E ls (SForOf b e body) w (CThrow x) w'
  | ev_for_of E ls b e body w v w1 it w2 c w' :
      expr_ev E e w (RVal v) w1 ->
      get_iterator M v w1 = (RVal it, w2) ->
      for_of_ev E ls b it body (undefined M) w2 c w' ->
      stmt_ev E ls (SForOf b e body) w (unbroken (undefined M) c) w'
  | ev_switch_throw E ls e a d w x w' :
      expr_ev E e w (RThrow x) w' ->
      stmt_ev E ls (SSwitch e a d) w (CThrow x) w'
  | ev_switch E ls e a d w v w1 E' w2 w3 c w' :
      expr_ev E e w (RVal v) w1 ->
      new_env M true E w1 = (Some E', w2) ->
      decls_ev E' (switch_decls a d) w2 w3 ->
      case_block_ev E' v a d w3 c w' ->
      stmt_ev E ls (SSwitch e a d) w (unbroken (undefined M) c) w'
  (* 14.13.4 *)
  | ev_label E ls l s w c w' :
      stmt_ev E (l :: ls) s w c w' ->
      stmt_ev E ls (SLabel l s) w (unlabelled l c) w'
  (* 14.9.2, 14.8.2 *)
  | ev_break E ls l w : stmt_ev E ls (SBreak l) w (CBreak l None) w
  | ev_continue E ls l w : stmt_ev E ls (SContinue l) w (CContinue l None) w

(** 14.2.2, StatementList : StatementList StatementListItem. *)
with list_ev : env M -> list stmt -> world M -> completion (value M) -> world M -> Prop :=
  | ev_nil E w : list_ev E [] w (CNormal None) w
  | ev_snoc_abrupt E ss s w c w' :
      list_ev E ss w c w' -> abrupt c ->
      list_ev E (ss ++ [s]) w c w'
  | ev_snoc E ss s w v w1 c w' :
      list_ev E ss w (CNormal v) w1 ->
      stmt_ev E [] s w1 c w' ->
      list_ev E (ss ++ [s]) w (UpdateEmpty c v) w'

(** 14.2.2, Block : { StatementList }. *)
with block_ev : env M -> list stmt -> world M -> completion (value M) -> world M -> Prop :=
  | ev_in_block E body w E' w1 w2 c w' :
      new_env M (declares body) E w = (Some E', w1) ->
      decls_ev E' (decls body) w1 w2 ->
      list_ev E' body w2 c w' ->
      block_ev E body w c w'

(** The body of a `for`: its braces are not kept by the parser.  A block
    that declares nothing is run where it stands: no program can tell its
    empty environment from none. *)
with body_ev : env M -> list stmt -> world M -> completion (value M) -> world M -> Prop :=
  | ev_body_plain E body w c w' :
      decls body = [] ->
      list_ev E body w c w' ->
      body_ev E body w c w'
  | ev_body_block E body w c w' :
      decls body <> [] ->
      block_ev E body w c w' ->
      body_ev E body w c w'

(** 14.15.3: a throw completion of the block goes to the handler. *)
with handled : env M -> completion (value M) -> option (catch_param * list stmt) ->
    world M -> completion (value M) -> world M -> Prop :=
  | ev_no_handler E b w : handled E b None w b w
  | ev_not_thrown E b h w :
      (forall x, b <> CThrow x) ->
      handled E b (Some h) w b w
  | ev_handled E x p body w c w' :
      catch_ev E p body x w c w' ->
      handled E (CThrow x) (Some (p, body)) w c w'

(** 14.15.2 CatchClauseEvaluation.  With a name for a parameter, or none,
    the parameter and the declarations of the block go into one
    environment, the declarations first: their names are distinct (14.15.1)
    and no code runs in between.  A pattern runs code when it is bound, and
    the declarations of the block are not in scope there. *)
with catch_ev : env M -> catch_param -> list stmt -> value M ->
    world M -> completion (value M) -> world M -> Prop :=
  | ev_catch_bare E body x w E' w1 w2 c w' :
      new_env M true E w = (Some E', w1) ->
      decls_ev E' (decls body) w1 w2 ->
      list_ev E' body w2 c w' ->
      catch_ev E CatchNone body x w c w'
  | ev_catch_name E n body x w E' w1 w2 w3 c w' :
      new_env M true E w = (Some E', w1) ->
      decls_ev E' (decls body) w1 w2 ->
      bind_name M n x E' w2 = (Some tt, w3) ->
      list_ev E' body w3 c w' ->
      catch_ev E (CatchName n) body x w c w'
  | ev_catch_pattern_throw E n body x w E' w1 y w' :
      new_env M true E w = (Some E', w1) ->
      bind_pattern M n x E' w1 = (RThrow y, w') ->
      catch_ev E (CatchPattern n) body x w (CThrow y) w'
  | ev_catch_pattern E n body x w E' w1 w2 c w' :
      new_env M true E w = (Some E', w1) ->
      bind_pattern M n x E' w1 = (RVal tt, w2) ->
      body_ev E' body w2 c w' ->
      catch_ev E (CatchPattern n) body x w c w'

(** 14.15.3: the `finally` block is always run, and wins unless it
    completes normally. *)
with finished : env M -> completion (value M) -> option (list stmt) ->
    world M -> completion (value M) -> world M -> Prop :=
  | ev_no_finally E c w : finished E c None w c w
  | ev_finally_normal E c body w v w' :
      block_ev E body w (CNormal v) w' ->
      finished E c (Some body) w c w'
  | ev_finally_abrupt E c body w f w' :
      block_ev E body w f w' -> abrupt f ->
      finished E c (Some body) w f w'

(** 14.7.3.2 WhileLoopEvaluation. *)
with while_ev : env M -> list N -> expr -> stmt -> value M ->
    world M -> completion (value M) -> world M -> Prop :=
  | ev_while_throw E ls t s V w x w' :
      expr_ev E t w (RThrow x) w' ->
      while_ev E ls t s V w (CThrow x) w'
  | ev_while_end E ls t s V w v w' :
      expr_ev E t w (RVal v) w' ->
      to_boolean M v w' = false ->
      while_ev E ls t s V w (CNormal (Some V)) w'
  | ev_while_leave E ls t s V w v w1 c w' :
      expr_ev E t w (RVal v) w1 ->
      to_boolean M v w1 = true ->
      stmt_ev E [] s w1 c w' ->
      ~ LoopContinues c ls ->
      while_ev E ls t s V w (UpdateEmpty c (Some V)) w'
  | ev_while_again E ls t s V w v w1 c w2 c' w' :
      expr_ev E t w (RVal v) w1 ->
      to_boolean M v w1 = true ->
      stmt_ev E [] s w1 c w2 ->
      LoopContinues c ls ->
      while_ev E ls t s (value_or c V) w2 c' w' ->
      while_ev E ls t s V w c' w'

(** 14.7.2.2 DoWhileLoopEvaluation. *)
with do_ev : env M -> list N -> stmt -> expr -> value M ->
    world M -> completion (value M) -> world M -> Prop :=
  | ev_do_leave E ls s t V w c w' :
      stmt_ev E [] s w c w' ->
      ~ LoopContinues c ls ->
      do_ev E ls s t V w (UpdateEmpty c (Some V)) w'
  | ev_do_throw E ls s t V w c w1 x w' :
      stmt_ev E [] s w c w1 ->
      LoopContinues c ls ->
      expr_ev E t w1 (RThrow x) w' ->
      do_ev E ls s t V w (CThrow x) w'
  | ev_do_end E ls s t V w c w1 v w' :
      stmt_ev E [] s w c w1 ->
      LoopContinues c ls ->
      expr_ev E t w1 (RVal v) w' ->
      to_boolean M v w' = false ->
      do_ev E ls s t V w (CNormal (Some (value_or c V))) w'
  | ev_do_again E ls s t V w c w1 v w2 c' w' :
      stmt_ev E [] s w c w1 ->
      LoopContinues c ls ->
      expr_ev E t w1 (RVal v) w2 ->
      to_boolean M v w2 = true ->
      do_ev E ls s t (value_or c V) w2 c' w' ->
      do_ev E ls s t V w c' w'

(** 14.7.4.3 ForBodyEvaluation, without per-iteration bindings. *)
with for_ev : env M -> list N -> option expr -> option expr -> list stmt -> value M ->
    world M -> completion (value M) -> world M -> Prop :=
  | ev_for_test_throw E ls t p body V w x w' :
      test_ev E t w (inr x) w' ->
      for_ev E ls t p body V w (CThrow x) w'
  | ev_for_end E ls t p body V w w' :
      test_ev E t w (inl false) w' ->
      for_ev E ls t p body V w (CNormal (Some V)) w'
  | ev_for_leave E ls t p body V w w1 c w' :
      test_ev E t w (inl true) w1 ->
      body_ev E body w1 c w' ->
      ~ LoopContinues c ls ->
      for_ev E ls t p body V w (UpdateEmpty c (Some V)) w'
  | ev_for_post_throw E ls t p body V w w1 c w2 x w' :
      test_ev E t w (inl true) w1 ->
      body_ev E body w1 c w2 ->
      LoopContinues c ls ->
      post_ev E p w2 (Some x) w' ->
      for_ev E ls t p body V w (CThrow x) w'
  | ev_for_again E ls t p body V w w1 c w2 w3 c' w' :
      test_ev E t w (inl true) w1 ->
      body_ev E body w1 c w2 ->
      LoopContinues c ls ->
      post_ev E p w2 None w3 ->
      for_ev E ls t p body (value_or c V) w3 c' w' ->
      for_ev E ls t p body V w c' w'

(** 14.7.5.7 ForIn/OfBodyEvaluation, the target not a `let` or `const`:
    the iterator is closed when a round is left early, but not when it
    has itself failed. *)
with for_of_ev : env M -> list N -> N -> iter M -> list stmt -> value M ->
    world M -> completion (value M) -> world M -> Prop :=
  | ev_of_step_throw E ls b it body V w x w' :
      step M it w = (RThrow x, w') ->
      for_of_ev E ls b it body V w (CThrow x) w'
  | ev_of_end E ls b it body V w w' :
      step M it w = (RVal None, w') ->
      for_of_ev E ls b it body V w (CNormal (Some V)) w'
  | ev_of_bind_throw E ls b it body V w v w1 x w2 c w' :
      step M it w = (RVal (Some v), w1) ->
      bind_each M b v E w1 = (RThrow x, w2) ->
      closed it (CThrow x) w2 c w' ->
      for_of_ev E ls b it body V w c w'
  | ev_of_leave E ls b it body V w v w1 w2 c w3 c' w' :
      step M it w = (RVal (Some v), w1) ->
      bind_each M b v E w1 = (RVal tt, w2) ->
      body_ev E body w2 c w3 ->
      ~ LoopContinues c ls ->
      closed it (UpdateEmpty c (Some V)) w3 c' w' ->
      for_of_ev E ls b it body V w c' w'
  | ev_of_again E ls b it body V w v w1 w2 c w3 c' w' :
      step M it w = (RVal (Some v), w1) ->
      bind_each M b v E w1 = (RVal tt, w2) ->
      body_ev E body w2 c w3 ->
      LoopContinues c ls ->
      for_of_ev E ls b it body (value_or c V) w3 c' w' ->
      for_of_ev E ls b it body V w c' w'

(** 14.12.2 CaseBlockEvaluation.  The clauses are searched for one whose
    selector equals the value: first those before the default clause,
    then those after it.  From the first found on, all clauses run; with
    none found, the default clause and those after it run. *)
with case_block_ev : env M -> value M -> list (expr * list stmt) ->
    option (list stmt * list (expr * list stmt)) ->
    world M -> completion (value M) -> world M -> Prop :=
  | ev_search_throw E v a d w x w' :
      search_ev E v a w (inr x) w' ->
      case_block_ev E v a d w (CThrow x) w'
  | ev_found E v a d w bodies w1 c w' :
      search_ev E v a w (inl (Some bodies)) w1 ->
      clauses_ev E (bodies ++ match d with Some (s, b) => s :: map snd b | None => [] end)
        (undefined M) w1 c w' ->
      case_block_ev E v a d w c w'
  | ev_no_default E v a w w' :
      search_ev E v a w (inl None) w' ->
      case_block_ev E v a None w (CNormal (Some (undefined M))) w'
  | ev_search_after_throw E v a s b w w1 x w' :
      search_ev E v a w (inl None) w1 ->
      search_ev E v b w1 (inr x) w' ->
      case_block_ev E v a (Some (s, b)) w (CThrow x) w'
  | ev_found_after E v a s b w w1 bodies w2 c w' :
      search_ev E v a w (inl None) w1 ->
      search_ev E v b w1 (inl (Some bodies)) w2 ->
      clauses_ev E bodies (undefined M) w2 c w' ->
      case_block_ev E v a (Some (s, b)) w c w'
  | ev_default E v a s b w w1 w2 c w' :
      search_ev E v a w (inl None) w1 ->
      search_ev E v b w1 (inl None) w2 ->
      clauses_ev E (s :: map snd b) (undefined M) w2 c w' ->
      case_block_ev E v a (Some (s, b)) w c w'

(** Clauses run one after the other. *)
with clauses_ev : env M -> list (list stmt) -> value M ->
    world M -> completion (value M) -> world M -> Prop :=
  | ev_clauses_nil E V w : clauses_ev E [] V w (CNormal (Some V)) w
  | ev_clause_abrupt E s l V w c w' :
      list_ev E s w c w' -> abrupt c ->
      clauses_ev E (s :: l) V w (UpdateEmpty c (Some V)) w'
  | ev_clause E s l V w v w1 c w' :
      list_ev E s w (CNormal v) w1 ->
      clauses_ev E l (value_or (CNormal v) V) w1 c w' ->
      clauses_ev E (s :: l) V w c w'.
End Semantics.

(** 14.6.2: an `if` statement has a value. *)
Definition ecma_if (M : machine) (c : completion (value M)) : completion (value M) :=
  UpdateEmpty c (Some (undefined M)).

(** The semantics of ECMA-262. *)
Definition ecma (M : machine) := stmt_ev M (ecma_if M).

(** 10.2.1.4 OrdinaryCallEvaluateBody and 10.2.1, steps 9 to 11: the result
    of a call, given the completion of the function's statements. *)
Definition call_gives (M : machine) (E : env M) (body : list stmt) (w : world M)
    (r : res (value M) (value M)) (w' : world M) : Prop :=
  exists c, list_ev M (ecma_if M) E body w c w' /\
    match c with
    | CNormal _ => r = RVal (undefined M)
    | CReturn v => r = RVal v
    | CThrow x => r = RThrow x
    | _ => False
    end.

(** ** What the theorems leave out *)

Section Structural.
(** [for_of]: whether `for`-`of` loops are allowed. *)
Context (for_of : bool).

(** The body of a loop declares nothing of its own; a `catch` clause that
    binds a pattern declares nothing either and has no `finally` next to
    it. *)
Fixpoint regular (s : stmt) : bool :=
  match s with
  | SBlock body => forallb regular body
  | SIf _ c a => regular c && match a with Some s => regular s | None => true end
  | STry body h f =>
      forallb regular body &&
      match h with
      | Some (p, hbody) =>
          forallb regular hbody &&
          match p with
          | CatchPattern _ => match f, decls hbody with None, [] => true | _, _ => false end
          | _ => true
          end
      | None => true
      end &&
      match f with Some fbody => forallb regular fbody | None => true end
  | SWhile _ s | SDoWhile s _ | SLabel _ s => regular s
  | SFor _ _ _ body => forallb regular body && match decls body with [] => true | _ => false end
  | SForOf _ _ body =>
      for_of && forallb regular body && match decls body with [] => true | _ => false end
  | SSwitch _ a d =>
      forallb (fun b => forallb regular (snd b)) a &&
      match d with
      | Some (s, b) => forallb regular s && forallb (fun b => forallb regular (snd b)) b
      | None => true
      end
  | _ => true
  end.
End Structural.

(** No `if` statement anywhere in a statement. *)
Fixpoint if_free (s : stmt) : bool :=
  match s with
  | SIf _ _ _ => false
  | SBlock body | SFor _ _ _ body | SForOf _ _ body => forallb if_free body
  | STry body h f =>
      forallb if_free body &&
      match h with Some (_, hbody) => forallb if_free hbody | None => true end &&
      match f with Some fbody => forallb if_free fbody | None => true end
  | SWhile _ s | SDoWhile s _ | SLabel _ s => if_free s
  | SSwitch _ a d =>
      forallb (fun b => forallb if_free (snd b)) a &&
      match d with
      | Some (s, b) => forallb if_free s && forallb (fun b => forallb if_free (snd b)) b
      | None => true
      end
  | _ => true
  end.

(** Iterators that never throw when stepped, and that can always be
    closed, such as those of arrays. *)
Definition quiet_iterators (M : machine) : Prop :=
  (forall it w x w', step M it w <> (RThrow x, w')) /\
  (forall it w, exists w', close M it w = (RVal tt, w')).
