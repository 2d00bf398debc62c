(** Programs: the statement parser and the statement printers against the
    ECMAScript grammar. *)
From stdpp Require Import base decidable numbers sets list.
From Verif Require Import PrintModel PrattModel PrintSpec PrattProofs PrintProofs
  GrammarSpec GrammarProofs GrammarPrintSpec GrammarPrintProofs
  SynModel SynSpec SynExprProofs SynProofs SynReadProofs SynPrintProofs.

(** The parser ends on every input, with a program or an error. *)
Theorem statement_parser_total : forall toks, parse_program toks <> OutOfFuel.
Proof. apply parse_program_total. Qed.
Print Assumptions statement_parser_total.

(** A program of the grammar is read, and as the grammar says, up to empty
    statements.  Left out: a [break l], [continue l], [debugger] or [do] before an
    [else], and [break], [continue] and [return] as the last word of the input
    (see the refutations). *)
Theorem standard_program_read_partial : forall toks ss,
  program toks ss -> else_safes ss = true -> jump_at_end (toks ++ [TEnd]) = false ->
  exists ss', parse_program toks = Ok ss' /\ strips ss' = strips ss.
Proof. apply program_read. Qed.
Print Assumptions standard_program_read_partial.

(** The grammar with the rule for [else] and the rules for semicolons gives a
    text one program. *)
Theorem standard_program_unique_partial : forall toks ss1 ss2,
  program toks ss1 -> program toks ss2 ->
  else_safes ss1 = true -> else_safes ss2 = true -> jump_at_end (toks ++ [TEnd]) = false ->
  strips ss1 = strips ss2.
Proof.
  intros toks ss1 ss2 H1 H2 S1 S2 Hj.
  destruct (program_read _ _ H1 S1 Hj) as (s1 & E1 & <-).
  destruct (program_read _ _ H2 S2 Hj) as (s2 & E2 & <-). congruence.
Qed.
Print Assumptions standard_program_unique_partial.

(** What either printer writes is a program of the grammar, the one that was
    printed up to empty statements. *)
Theorem printed_program_is_standard_partial : forall p ss,
  printables p ss = true ->
  exists ss', program (print_stmts p ss) ss' /\ strips ss' = strips ss.
Proof. apply printed_program. Qed.
Print Assumptions printed_program_is_standard_partial.

(** And the parser reads it back. *)
Theorem printed_program_read_back_partial : forall p ss,
  printables p ss = true -> else_safes (strips ss) = true ->
  exists ss', parse_program (print_stmts p ss) = Ok ss' /\ strips ss' = strips ss.
Proof. apply printed_read. Qed.
Print Assumptions printed_program_read_back_partial.

(** A program with most of the statements:
    [l: for (var i = 0, j; i < n; i++) { if (a) { if (b) continue l; ; } else c(); }
     function f(x, y) { do { try { throw x } catch (e) { return e } finally { } } while (y);
     switch (x) { case 1: break; default: debugger; } } let z = a in b, w; for (const k of z) ;]. *)
Local Open Scope N_scope.
Definition sample : stmts :=
  JCons (JLabel 1 (JFor (ForDecl DVar [(2, Some (ELit 0)); (3, None)])
          (Some (EBinary BLt (EId 2) (EId 4))) (Some (EPostfix true (EId 2)))
          (JCons (JIfElse (EId 5) (JBlock (JCons (JIf (EId 6) (JContinue (Some 1))) (JCons JEmpty JNil)))
                   (JExpr (ECall false (EId 7) INil))) JNil)))
  (JCons (JFun 8 [9; 10] (JCons (JDo (JBlock (JCons
            (JTryBoth (JCons (JThrow (EId 9)) JNil) (Some 11)
               (JCons (JReturn (Some (EId 11))) JNil) JNil) JNil)) (EId 10))
          (JCons (JSwitch (EId 9) (KCase (Some (ELit 1)) (JCons (JBreak None) JNil)
             (KCase None (JCons JDebugger JNil) KNil))) JNil)))
  (JCons (JDecl DLet [(12, Some (EBinary BIn (EId 5) (EId 6))); (13, None)])
  (JCons (JForIn true (HDecl DConst 14) (EId 12) (JCons JEmpty JNil)) JNil))).
Local Close Scope N_scope.

Example sample_meets : forall p,
  printables p sample = true /\ else_safes (strips sample) = true /\ else_safes sample = true /\
  jump_at_end (print_stmts p sample ++ [TEnd]) = false /\ 60 < length (print_stmts p sample).
Proof. intros []; vm_compute; repeat split; repeat constructor. Qed.

Example sample_read_back : forall p,
  exists ss, parse_program (print_stmts p sample) = Ok ss /\ strips ss = strips sample.
Proof. intros []; eexists; (split; [vm_compute; reflexivity|vm_compute; reflexivity]). Qed.

(** ** Programs the parser refuses *)

(** [if (a) debugger; else b;] is refused: the semicolon after [debugger] is not
    read.  So are [break l], [continue l] and [do] before [else]. *)
Theorem semicolon_before_else_refuted : exists toks ss,
  toks = [TStm WIf; TLPar; TId 1; TRPar; TStm WDebugger; TStm WSemi; TStm WElse; TId 2; TStm WSemi]%N /\
  program toks ss /\ parse_program toks = Err.
Proof.
  eexists _, (JCons (JIfElse (EId 1) JDebugger (JExpr (EId 2))) JNil)%N. split; [reflexivity|].
  split; [|vm_compute; reflexivity]. unfold program. cbn [app].
  eapply li_cons; [|apply li_nil]. apply im_stmt.
  eapply (st_if_else [TId 1%N]); [name| |].
  - constructor. by left.
  - apply (st_expr [TId 2%N]); [name|by left].
Qed.
Print Assumptions semicolon_before_else_refuted.

Theorem label_before_else_refuted : exists toks ss,
  toks = [TId 3; TColon; TStm WWhile; TLPar; TId 1; TRPar; TStm WIf; TLPar; TId 1; TRPar;
          TStm WBreak; TId 3; TStm WSemi; TStm WElse; TId 2; TStm WSemi]%N /\
  program toks ss /\ parse_program toks = Err.
Proof.
  eexists _, (JCons (JLabel 3 (JWhile (EId 1)
    (JIfElse (EId 1) (JBreak (Some 3)) (JExpr (EId 2))))) JNil)%N. split; [reflexivity|].
  split; [|vm_compute; reflexivity]. unfold program. cbn [app].
  eapply li_cons; [|apply li_nil]. apply im_stmt, st_label.
  apply (st_while [TId 1%N]); [name|].
  eapply (st_if_else [TId 1%N]); [name| |].
  - apply (st_break (Some 3%N)). by left.
  - apply (st_expr [TId 2%N]); [name|by left].
Qed.
Print Assumptions label_before_else_refuted.

Theorem do_before_else_refuted : exists toks ss,
  toks = [TStm WIf; TLPar; TId 1; TRPar; TStm WDo; TStm WSemi; TStm WWhile; TLPar; TId 2; TRPar;
          TStm WSemi; TStm WElse; TId 2; TStm WSemi]%N /\
  program toks ss /\ parse_program toks = Err.
Proof.
  eexists _, (JCons (JIfElse (EId 1) (JDo JEmpty (EId 2)) (JExpr (EId 2))) JNil)%N.
  split; [reflexivity|].
  split; [|vm_compute; reflexivity]. unfold program. cbn [app].
  eapply li_cons; [|apply li_nil]. apply im_stmt.
  eapply (st_if_else [TId 1%N]); [name| |].
  - eapply (st_do _ _ [TId 2%N]); [apply st_empty|name|by left].
  - apply (st_expr [TId 2%N]); [name|by left].
Qed.
Print Assumptions do_before_else_refuted.

(** [while (a) break] is refused at the end of the input. *)
Theorem break_at_end_refuted : exists toks ss,
  toks = [TStm WWhile; TLPar; TId 1; TRPar; TStm WBreak]%N /\
  program toks ss /\ parse_program toks = Err.
Proof.
  eexists _, (JCons (JWhile (EId 1) (JBreak None)) JNil)%N. split; [reflexivity|].
  split; [|vm_compute; reflexivity]. unfold program. cbn [app].
  eapply li_cons; [|apply li_nil]. apply im_stmt.
  apply (st_while [TId 1%N]); [name|]. apply (st_break None). right. split; [done|]. eauto.
Qed.
Print Assumptions break_at_end_refuted.

(** ** Texts the parser takes that are no programs *)

(** [debugger a;]: no semicolon between two statements. *)
Theorem missing_semicolon_refuted : exists toks ss,
  toks = [TStm WDebugger; TId 1; TStm WSemi]%N /\
  parse_program toks = Ok ss /\ ~ exists ss', program toks ss'.
Proof.
  eexists _, _. split; [reflexivity|]. split; [vm_compute; reflexivity|].
  intros (ss' & H). first_stmt H.
  match goal with H : semicolon _ _ |- _ => destruct H as [?|(<- & ? & ? & [= <- _] & [?|?])] end;
    done.
Qed.
Print Assumptions missing_semicolon_refuted.

(** [if (a) let b;]: a declaration where a statement is needed. *)
Theorem declaration_as_body_refuted : exists toks ss,
  toks = [TStm WIf; TLPar; TId 1; TRPar; TStm WLet; TId 2; TStm WSemi]%N /\
  parse_program toks = Ok ss /\ ~ exists ss', program toks ss'.
Proof.
  eexists _, _. split; [reflexivity|]. split; [vm_compute; reflexivity|].
  intros (ss' & H). first_stmt H.
  - between. no_stmt.
  - between. no_stmt.
Qed.
Print Assumptions declaration_as_body_refuted.

(** [do {}; while (a);]: an empty statement after the body of a [do]. *)
Theorem do_body_refuted : exists toks ss,
  toks = [TStm WDo; TStm WLBrace; TStm WRBrace; TStm WSemi; TStm WWhile; TLPar; TId 1; TRPar;
          TStm WSemi]%N /\
  parse_program toks = Ok ss /\ ~ exists ss', program toks ss'.
Proof.
  eexists _, _. split; [reflexivity|]. split; [vm_compute; reflexivity|].
  intros (ss' & H). first_stmt H. no_stmt.
  match goal with K : block_text _ _ _ |- _ => inversion K as [? ? ? Hl]; subst end.
  inversion Hl as [|? ? ? ? ? Hi]; subst.
  apply item_not_end in Hi as (? & ? & [= <- _] & Hi). set_solver.
Qed.
Print Assumptions do_body_refuted.

(** [switch (a) { default: default: }]. *)
Theorem two_defaults_refuted : exists toks ss,
  toks = [TStm WSwitch; TLPar; TId 1; TRPar; TStm WLBrace; TStm WDefault; TColon; TStm WDefault;
          TColon; TStm WRBrace]%N /\
  parse_program toks = Ok ss /\ ~ exists ss', program toks ss'.
Proof.
  eexists _, _. split; [reflexivity|]. split; [vm_compute; reflexivity|].
  assert (Hno : forall w r ss r', list_text (TStm w :: r) ss r' -> w ∈ [WDefault; WRBrace] ->
    r' = TStm w :: r /\ ss = JNil).
  { intros w r ss r' Hl Hw. inversion Hl as [|? ? ? ? ? Hi]; subst; [done|exfalso].
    apply item_not_end in Hi as (? & ? & [= <- _] & Hi). set_solver. }
  intros (ss' & H). first_stmt H. between.
  match goal with K : cases_text _ _ _ |- _ => inversion K as [| |? ? ? ? ? Hl1 Hc1]; subst end.
  apply Hno in Hl1 as [-> ->]; [|set_solver].
  inversion Hc1 as [| |? ? ? ? ? Hl2 Hc2]; subst.
  match goal with K : _ <= 1 |- _ => cbn [defaults] in K; lia end.
Qed.
Print Assumptions two_defaults_refuted.

(** ** Programs printed as something else *)

(** From [for (a of (b, c));] both printers write [for (a of b, c) ...], which is
    no program: after [of] comes an AssignmentExpression.  The parser takes it. *)
Theorem of_comma_refuted : exists toks ss,
  toks = [TStm WFor; TLPar; TId 1; TStm WOf; TLPar; TId 2; TOp BComma; TId 3; TRPar; TRPar; TStm WSemi]%N /\
  program toks ss /\ parse_program toks = Ok ss /\
  forall p, ~ exists ss', program (print_stmts p ss) ss'.
Proof.
  eexists _, (JCons (JForIn true (HTarget (EId 1)) (EBinary BComma (EId 2) (EId 3))
    (JCons JEmpty JNil)) JNil)%N. split; [reflexivity|]. split; [|split; [vm_compute; reflexivity|]].
  - unfold program. cbn [app]. eapply li_cons; [|apply li_nil]. apply im_stmt.
    apply (st_for_in true [TId 1%N] _ [TLPar; TId 2; TOp BComma; TId 3; TRPar]%N).
    + by eexists.
    + parens [TId 2; TOp BComma; TId 3]%N.
      apply (p_infix false _ _ _ _ BComma [TId 2]%N _ [TId 3]%N _ infix_comma);
        [set_solver|name|name].
    + apply bo_stmt; [constructor|done].
  - assert (Hof : forall (of : bool) th h te e r rest, head_text th h -> TRPar ∉ rest ->
      phrase false (if of then AssignmentExpression else Expression) te e ->
      th ++ (if of then TStm WOf else TOp BIn) :: te ++ TRPar :: r
      = TId 1%N :: TStm WOf :: TId 2%N :: TOp BComma :: TId 3%N :: TRPar :: rest -> False).
    { intros of th h te e r rest Hh Hr Hp E. destruct h as [h|k x]; cbn [head_text] in Hh.
      - destruct Hh as (x & -> & ->). cbn [app] in E. injection E as -> Ek E.
        destruct of; [|done]. between.
        + by eapply no_comma_operand.
        + apply Hr. set_solver.
      - subst th. done. }
    intros p (ss' & H). destruct p.
    + change (program [TStm WFor; TLPar; TId 1; TStm WOf; TId 2; TOp BComma; TId 3; TRPar;
        TStm WSemi]%N ss') in H. first_stmt H; [between|]. eapply Hof; try eassumption. set_solver.
    + change (program [TStm WFor; TLPar; TId 1; TStm WOf; TId 2; TOp BComma; TId 3; TRPar;
        TStm WLBrace; TStm WRBrace]%N ss') in H. first_stmt H; [between|].
      eapply Hof; try eassumption. set_solver.
Qed.
Print Assumptions of_comma_refuted.

(** From [var a = (b, c);] the AST printer writes [var a = b, c;], which declares
    [c]. *)
Theorem declared_comma_refuted : exists toks ss ss',
  toks = [TStm WVar; TId 1; TOp BAssign; TLPar; TId 2; TOp BComma; TId 3; TRPar; TStm WSemi]%N /\
  program toks ss /\ parse_program toks = Ok ss /\
  program (print_stmts AstPrinter ss) ss' /\ parse_program (print_stmts AstPrinter ss) = Ok ss' /\
  ss' = JCons (JDecl DVar [(1, Some (EId 2)); (3, None)]%N) JNil /\ strips ss' <> strips ss.
Proof.
  eexists _, (JCons (JDecl DVar [(1, Some (EBinary BComma (EId 2) (EId 3)))]%N) JNil),
    (JCons (JDecl DVar [(1, Some (EId 2)); (3, None)]%N) JNil).
  split; [reflexivity|]. split; [|split; [vm_compute; reflexivity|split; [|split; [vm_compute; reflexivity|done]]]].
  - unfold program. cbn [app]. eapply li_cons; [|apply li_nil]. apply im_stmt.
    apply (st_var [TId 1; TOp BAssign; TLPar; TId 2; TOp BComma; TId 3; TRPar]%N); [|by left].
    apply ds_one. eexists. split; [reflexivity|]. split; [|by left].
    parens [TId 2; TOp BComma; TId 3]%N.
    apply (p_infix false _ _ _ _ BComma [TId 2]%N _ [TId 3]%N _ infix_comma);
      [set_solver|name|name].
  - change (program [TStm WVar; TId 1; TOp BAssign; TId 2; TOp BComma; TId 3; TStm WSemi]%N
      (JCons (JDecl DVar [(1, Some (EId 2)); (3, None)]%N) JNil)).
    unfold program. cbn [app]. eapply li_cons; [|apply li_nil]. apply im_stmt.
    apply (st_var [TId 1; TOp BAssign; TId 2; TOp BComma; TId 3]%N); [|by left].
    apply (ds_more true 1%N [TOp BAssign; TId 2]%N (Some (EId 2%N)) [TId 3]%N).
    + eexists. split; [reflexivity|]. split; [name|by left].
    + by apply (ds_one true 3%N []).
Qed.
Print Assumptions declared_comma_refuted.

(** From [for (var a = (b in c); ; );] both printers write
    [for (var a = b in c; ; ) ...], which is no program. *)
Theorem header_in_refuted : exists toks ss,
  toks = [TStm WFor; TLPar; TStm WVar; TId 1; TOp BAssign; TLPar; TId 2; TOp BIn; TId 3; TRPar;
          TStm WSemi; TStm WSemi; TRPar; TStm WSemi]%N /\
  program toks ss /\ parse_program toks = Ok ss /\
  forall p, ~ exists ss', program (print_stmts p ss) ss'.
Proof.
  eexists _, (JCons (JFor (ForDecl DVar [(1, Some (EBinary BIn (EId 2) (EId 3)))]%N) None None
    (JCons JEmpty JNil)) JNil)%N. split; [reflexivity|]. split; [|split; [vm_compute; reflexivity|]].
  - unfold program. cbn [app]. eapply li_cons; [|apply li_nil]. apply im_stmt.
    apply (st_for [TStm WVar; TId 1; TOp BAssign; TLPar; TId 2; TOp BIn; TId 3; TRPar]%N _ [] None
      [] None); [|done|done|].
    + eexists. split; [reflexivity|]. apply ds_one. eexists. split; [reflexivity|].
      split; [|by right]. parens [TId 2; TOp BIn; TId 3]%N.
      do 10 (eapply p_chain; [constructor|]).
      apply (p_infix false _ _ _ _ BIn [TId 2]%N _ [TId 3]%N _ infix_relational);
        [set_solver|name|name].
    + apply bo_stmt; [constructor|done].
  - intros p. apply not_program; destruct p; try (vm_compute; reflexivity);
      vm_compute; set_solver.
Qed.
Print Assumptions header_in_refuted.

(** From [for (; ; ) { let a; }] the AST printer writes [for (; ; ) let a;], which
    is no program. *)
Theorem bare_declaration_refuted : exists toks ss,
  toks = [TStm WFor; TLPar; TStm WSemi; TStm WSemi; TRPar; TStm WLBrace; TStm WLet; TId 1; TStm WSemi;
          TStm WRBrace]%N /\
  program toks ss /\ parse_program toks = Ok ss /\
  ~ exists ss', program (print_stmts AstPrinter ss) ss'.
Proof.
  eexists _, (JCons (JFor ForNone None None (JCons (JDecl DLet [(1, None)]%N) JNil)) JNil)%N.
  split; [reflexivity|]. split; [|split; [vm_compute; reflexivity|]].
  - unfold program. cbn [app]. eapply li_cons; [|apply li_nil]. apply im_stmt.
    apply (st_for [] _ [] None [] None); [done..|]. apply bo_block. constructor.
    eapply li_cons; [|apply li_nil]. apply (im_lexical DLet [TId 1%N]); [done| |by left].
    by apply (ds_one true 1%N []).
  - intros (ss' & H).
    change (program [TStm WFor; TLPar; TStm WSemi; TStm WSemi; TRPar; TStm WLet; TId 1; TStm WSemi]%N
      ss') in H. first_stmt H.
    + between. match goal with K : body_text _ _ _ |- _ => inversion K; subst end.
      * match goal with K : block_text (TStm _ :: _) _ _ |- _ => by inversion K end.
      * no_stmt.
    + match goal with K : head_text _ ?h |- _ => destruct h as [?|k ?]; cbn [head_text] in K end.
      * match goal with K : exists _, _ |- _ => destruct K as (? & -> & ->) end. done.
      * subst. by destruct k.
Qed.
Print Assumptions bare_declaration_refuted.

(** From [if (a) for (; ; ) { if (b) c; } else d;] the AST printer writes
    [if (a) for (; ; ) if (b) c; else d;], where the [else] belongs to the inner
    [if]. *)
Theorem bare_body_else_refuted : exists toks ss ss',
  toks = [TStm WIf; TLPar; TId 1; TRPar; TStm WFor; TLPar; TStm WSemi; TStm WSemi; TRPar; TStm WLBrace;
          TStm WIf; TLPar; TId 2; TRPar; TId 3; TStm WSemi; TStm WRBrace; TStm WElse; TId 4; TStm WSemi]%N /\
  program toks ss /\ parse_program toks = Ok ss /\
  program (print_stmts AstPrinter ss) ss' /\ parse_program (print_stmts AstPrinter ss) = Ok ss' /\
  ss' = JCons (JIf (EId 1) (JFor ForNone None None
    (JCons (JIfElse (EId 2) (JExpr (EId 3)) (JExpr (EId 4))) JNil))) JNil /\
  strips ss' <> strips ss.
Proof.
  eexists _, (JCons (JIfElse (EId 1) (JFor ForNone None None
    (JCons (JIf (EId 2) (JExpr (EId 3))) JNil)) (JExpr (EId 4))) JNil)%N, _.
  split; [reflexivity|].
  split; [|split; [vm_compute; reflexivity|split; [|split; [vm_compute; reflexivity|done]]]].
  - unfold program. cbn [app]. eapply li_cons; [|apply li_nil]. apply im_stmt.
    eapply (st_if_else [TId 1%N]); [name| |].
    + apply (st_for [] _ [] None [] None); [done..|]. apply bo_block. constructor.
      eapply li_cons; [|apply li_nil]. apply im_stmt. apply (st_if [TId 2%N]); [name| |done].
      apply (st_expr [TId 3%N]); [name|by left].
    + apply (st_expr [TId 4%N]); [name|by left].
  - change (program [TStm WIf; TLPar; TId 1; TRPar; TStm WFor; TLPar; TStm WSemi; TStm WSemi; TRPar;
      TStm WIf; TLPar; TId 2; TRPar; TId 3; TStm WSemi; TStm WElse; TId 4; TStm WSemi]%N
      (JCons (JIf (EId 1) (JFor ForNone None None
        (JCons (JIfElse (EId 2) (JExpr (EId 3)) (JExpr (EId 4))) JNil))) JNil)%N).
    unfold program. cbn [app]. eapply li_cons; [|apply li_nil]. apply im_stmt.
    apply (st_if [TId 1%N]); [name| |done]. apply (st_for [] _ [] None [] None); [done..|].
    apply bo_stmt; [|done]. eapply (st_if_else [TId 2%N]); [name| |].
    + apply (st_expr [TId 3%N]); [name|by left].
    + apply (st_expr [TId 4%N]); [name|by left].
Qed.
Print Assumptions bare_body_else_refuted.

(** Neither printer puts the branch of an [if] in braces: the tree of
    [if (a) { if (b) c; } else d;] without the braces (a tree of the grammar only
    with them) is printed as another program. *)
Theorem open_branch_refuted : exists s, forall p, exists ss',
  s = JIfElse (EId 1) (JIf (EId 2) (JExpr (EId 3))) (JExpr (EId 4)) /\
  parse_program (print_stmts p (JCons s JNil)) = Ok ss' /\ strips ss' <> strips (JCons s JNil).
Proof.
  eexists. intros p. eexists. split; [reflexivity|].
  destruct p; (split; [vm_compute; reflexivity|done]).
Qed.
Print Assumptions open_branch_refuted.
