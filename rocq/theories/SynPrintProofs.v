(** What the printers write is a program of the statement grammar. *)
From stdpp Require Import base decidable numbers sets list.
From Verif Require Import PrintModel PrattModel PrintSpec PrattProofs PrintProofs
  GrammarSpec GrammarProofs GrammarPrintSpec GrammarPrintProofs
  SynModel SynSpec SynExprProofs SynProofs SynReadProofs.

(** ** The parser, from a program of the grammar *)

Lemma program_read toks ss :
  program toks ss -> else_safes ss = true -> jump_at_end (toks ++ [TEnd]) = false ->
  exists ss', parse_program toks = Ok ss' /\ strips ss' = strips ss.
Proof.
  intros Hp Hs Hj. destruct (proj1 (proj2 (proj2 (proj2 reading))) _ _ _ Hp Hj Hs
    [TEnd] TEnd [] eq_refl ltac:(set_solver) ltac:(set_solver)) as (ss' & [N H] & Hst).
  exists ss'. split; [|done].
  pose proof (parse_program_total toks) as Ht. unfold parse_program in *.
  set (n := 4 * length toks + 8) in *.
  destruct (smono n (n + N) ltac:(lia)) as (_ & Hm & _).
  specialize (Hm [TEnd] (toks ++ [TEnd])). rewrite (H (n + N)) in Hm by lia.
  rewrite <- Hm; [done|]. intros E. by rewrite E in Ht.
Qed.

(** ** Pieces *)

Scheme stmt_mut := Induction for stmt Sort Prop
  with stmts_mut := Induction for stmts Sort Prop
  with cases_mut := Induction for cases Sort Prop.
Combined Scheme stmt_stmts_ind from stmt_mut, stmts_mut, cases_mut.

Lemma good_phrase p e : good p e = true -> phrase false Expression (print_expr p e) e.
Proof.
  intros H. apply andb_prop in H as [H1 H2]. apply (printed_at p 1 e H1 H2). lia.
Qed.

Lemma no_comma_prec p e :
  covered p false e = true -> comma_expr e = false -> (prec e <? 1) = false /\ (prec e <? 2) = false.
Proof. destruct e as [| |u| | |b| | | | | | |]; try done; [by destruct u|by destruct b]. Qed.

Lemma assign_phrase p e :
  good p e = true -> comma_expr e = false -> phrase false AssignmentExpression (print_expr p e) e.
Proof.
  intros H Hc. apply andb_prop in H as [H1 H2].
  pose proof (printed_at p 2 e H1 H2 ltac:(lia)) as H. cbn [at_least] in H.
  destruct (no_comma_prec p e H1 Hc) as [E1 E2]. unfold print_expr. by rewrite E1, E2 in *.
Qed.

Lemma good_init_text p (header : bool) i :
  good_init p header i = true ->
  init_text (negb header) (match i with Some e => TOp BAssign :: print_init p e | None => [] end) i.
Proof.
  destruct i as [e|]; [|done]. cbn [good_init init_text]. intros H.
  apply andb_prop in H as [H Hh]. apply andb_prop in H as [Hg Hc].
  eexists. split; [done|]. split.
  - destruct p; cbn [print_init].
    + apply assign_phrase; [done|]. rewrite bool_decide_true in Hc by done.
      by destruct (comma_expr e).
    + apply andb_prop in Hg as [H1 H2]. apply (printed_at HirPrinter 2 e H1 H2). lia.
  - unfold in_allowed. destruct header; cbn [negb orb] in *; auto.
Qed.

Lemma good_decls_text p (header : bool) ds :
  good_decls p header ds = true -> decls_text (negb header) (print_declarators p ds) ds.
Proof.
  intros H. apply andb_prop in H as [Hne H].
  apply negb_true_iff, bool_decide_eq_false in Hne.
  induction ds as [|[x i] ds IH]; [done|]. clear Hne.
  cbn [forallb snd] in H. apply andb_prop in H as [Hi H].
  apply good_init_text in Hi. destruct ds as [|d ds].
  - cbn [print_declarators]. unfold print_declarator. cbn [fst snd]. by constructor.
  - change (print_declarators p ((x, i) :: d :: ds))
      with (print_declarator p (x, i) ++ TOp BComma :: print_declarators p (d :: ds)).
    unfold print_declarator at 1. cbn [fst snd app]. constructor; [done|]. by apply IH.
Qed.

Lemma good_opt_text p e : good_opt p e = true -> opt_text (print_opt p e) e.
Proof. destruct e as [e|]; [|done]. apply good_phrase. Qed.

Lemma good_for_init_text p i : good_for_init p i = true -> for_init_text (print_for_init p i) i.
Proof.
  destruct i as [|e|k ds]; cbn; [done| |].
  - intros H. apply andb_prop in H as [H Hs]. split; [by apply good_phrase|done].
  - intros H. eexists. split; [done|]. by apply (good_decls_text p true).
Qed.

Lemma good_head_text p h : good_head h = true -> head_text (print_head p h) h.
Proof. destruct h as [[]|k x]; cbn; try done. intros _. by eexists. Qed.

Lemma print_names_text xs : names_text (print_names xs) xs.
Proof.
  induction xs as [|x [|y xs] IH]; [constructor..|]. by constructor.
Qed.

Lemma print_for_body_eq p ss :
  print_for_body p ss = match bare_body p ss with
    | Some s => print_stmt p true s
    | None => TStm WLBrace :: print_stmts p ss ++ [TStm WRBrace] end.
Proof. by destruct p, ss as [|s [|]]. Qed.

Lemma print_item p s : s <> JEmpty -> print_stmt p false s = print_stmt p true s.
Proof. by destruct s. Qed.

Lemma strip_block s s' : strip s' = strip s -> is_block s' = is_block s.
Proof. intros H. apply (f_equal is_block) in H. by destruct s, s'. Qed.

Lemma defaults_strip cs : defaults (strip_cases cs) = defaults cs.
Proof. induction cs as [|[e|] ss cs IH]; cbn; congruence. Qed.

(** ** Statements *)

Definition no_finally (r : list token) : Prop := forall r0, r <> TStm WFinally :: r0.

Definition follows (p : printer) (s : stmt) (r : list token) : Prop :=
  (ends_open p s = true -> no_else r) /\ no_finally r.

Definition Pps (p : printer) (s : stmt) : Prop := forall r,
  printable p s = true -> follows p s r ->
  exists s', strip s' = strip s /\ item_text (print_stmt p true s ++ r) s' r /\
    (declaration s = false -> stmt_text (print_stmt p true s ++ r) s' r).
Definition Ppl (p : printer) (ss : stmts) : Prop := forall r,
  printables p ss = true -> no_else r -> no_finally r ->
  (exists ss', strips ss' = strips ss /\ list_text (print_stmts p ss ++ r) ss' r) /\
  (forall s, bare_body p ss = Some s -> Pps p s).
Definition Ppc (p : printer) (cs : cases) : Prop := forall r,
  printable_cases p cs = true -> no_else r -> no_finally r ->
  exists cs', strip_cases cs' = strip_cases cs /\ cases_text (print_cases p cs ++ r) cs' r.

Lemma block_head_text r ss r' : block_text r ss r' -> exists r0, r = TStm WLBrace :: r0.
Proof. destruct 1. eauto. Qed.

Lemma stmt_first toks s r : stmt_text toks s r ->
  forall w r0, toks = TStm w :: r0 -> w <> WElse /\ w <> WFinally.
Proof.
  destruct 1; intros w r0 E; try (injection E as <- _; done); try done.
  - match goal with H : phrase _ _ _ _ |- _ =>
      destruct (phrase_heads _ _ _ H) as (u & ts' & -> & Hu) end.
    cbn [app] in E. injection E as -> _. done.
  - match goal with H : block_text _ _ _ |- _ =>
      destruct (block_head_text _ _ _ H) as [r1 ->] end. by injection E as <- _.
Qed.

Lemma list_heads toks ss r : list_text toks ss r ->
  (no_else r -> no_else toks) /\ (no_finally r -> no_finally toks).
Proof.
  destruct 1 as [|r s r1 ss r' Hi _]; [done|].
  assert (Hw : forall w r0, r = TStm w :: r0 -> w <> WElse /\ w <> WFinally).
  { destruct Hi as [r2 s r3 Hs|k|]; intros w r0 E.
    - by eapply stmt_first.
    - injection E as <- _. by destruct k.
    - by injection E as <- _. }
  split; intros _ r0 E; by apply Hw in E as [? ?].
Qed.

Lemma brace_ok r : no_else (TStm WRBrace :: r) /\ no_finally (TStm WRBrace :: r).
Proof. by split. Qed.

Lemma block_printed p ss r : Ppl p ss -> printables p ss = true ->
  exists ss', strips ss' = strips ss /\
    block_text (TStm WLBrace :: print_stmts p ss ++ TStm WRBrace :: r) ss' r.
Proof.
  intros H Hp. destruct (brace_ok r) as [H1 H2].
  destruct (H (TStm WRBrace :: r) Hp H1 H2) as [(ss' & Hst & Hl) _].
  exists ss'. split; [done|]. by constructor.
Qed.

Lemma body_printed p ss r : Ppl p ss -> printables p ss = true ->
  match bare_body p ss with Some a => negb (declaration a || is_block a) | None => true end = true ->
  no_finally r ->
  (match bare_body p ss with Some a => ends_open p a | None => false end = true -> no_else r) ->
  exists ss', strips ss' = strips ss /\ body_text (print_for_body p ss ++ r) ss' r.
Proof.
  intros H Hp Hb Hf He. rewrite print_for_body_eq.
  destruct (brace_ok r) as [H1 H2].
  destruct (H (TStm WRBrace :: r) Hp H1 H2) as [(ss' & Hst & Hl) Hbare].
  destruct (bare_body p ss) as [a|] eqn:E.
  - apply negb_true_iff, orb_false_elim in Hb as [Hd Hb].
    destruct p; [|done]. destruct ss as [|b [|]]; try done. injection E as ->.
    cbn [printables] in Hp. apply andb_prop in Hp as [Hp _].
    destruct (Hbare a eq_refl r Hp) as (a' & Hsa & _ & Hta); [by split|].
    exists (JCons a' JNil). split; [by apply strips_cons|].
    apply bo_stmt; [by apply Hta|]. by rewrite (strip_block _ _ Hsa).
  - exists ss'. split; [done|]. apply bo_block. cbn [app]. rewrite <- app_assoc. by constructor.
Qed.

Lemma for_ends_open p i t u ss :
  ends_open p (JFor i t u ss) = match bare_body p ss with Some a => ends_open p a | None => false end.
Proof. by destruct p, ss as [|a [|]]. Qed.
Lemma for_in_ends_open p of h e ss :
  ends_open p (JForIn of h e ss) = match bare_body p ss with Some a => ends_open p a | None => false end.
Proof. by destruct p, ss as [|a [|]]. Qed.

Ltac bands := repeat match goal with H : _ && _ = true |- _ => apply andb_prop in H as [? ?] end.

Lemma as_stmt s s' toks r :
  strip s' = strip s -> stmt_text toks s' r ->
  strip s' = strip s /\ item_text toks s' r /\ (declaration s = false -> stmt_text toks s' r).
Proof. intros H1 H2. split; [done|]. split; [by apply im_stmt|done]. Qed.

Lemma printing p :
  (forall s, Pps p s) /\ (forall ss, Ppl p ss) /\ (forall cs, Ppc p cs).
Proof.
  apply stmt_stmts_ind.
  - (* empty *)
    intros r _ _. exists JEmpty. apply as_stmt; [done|]. constructor.
  - (* expression *)
    intros e r Hp Hf. exists (JExpr e). apply as_stmt; [done|]. cbn [print_stmt].
    rewrite <- app_assoc. econstructor; [by apply good_phrase|by left].
  - (* declaration *)
    intros k ds r Hp Hf. exists (JDecl k ds). split; [done|]. cbn [print_stmt]. unfold print_decl.
    cbn [printable] in Hp. apply (good_decls_text p false) in Hp. cbn [app negb] in *.
    rewrite <- app_assoc. cbn [app]. split.
    + destruct k; [apply im_stmt; econstructor; [done|by left]|..];
        (econstructor; [done|done|by left]).
    + destruct k; try done. intros _. econstructor; [done|by left].
  - (* function *)
    intros f ps ss IH r Hp Hf. cbn [printable] in Hp.
    destruct (block_printed p ss r IH Hp) as (ss' & Hst & Hb).
    exists (JFun f ps ss'). split; [cbn; congruence|]. split; [|done]. cbn [print_stmt app].
    rewrite <- app_assoc. cbn [app]. rewrite <- app_assoc. cbn [app].
    constructor; [apply print_names_text|done].
  - (* block *)
    intros ss IH r Hp Hf. cbn [printable] in Hp.
    destruct (block_printed p ss r IH Hp) as (ss' & Hst & Hb).
    exists (JBlock ss'). apply as_stmt; [cbn; congruence|]. cbn [print_stmt app].
    rewrite <- app_assoc. cbn [app]. by constructor.
  - (* if *)
    intros e a IH r Hp [He Hf]. cbn [printable] in Hp. bands.
    assert (no_else r) as Hne by (by apply He).
    destruct (IH r) as (a' & Hst & _ & Ht); [done|by split|].
    exists (JIf e a'). apply as_stmt; [cbn; congruence|]. cbn [print_stmt]. unfold print_paren.
    cbn [app]. rewrite <- !app_assoc. cbn [app]. constructor; [by apply good_phrase| |done].
    apply Ht. by apply negb_true_iff.
  - (* if else *)
    intros e a IHa b IHb r Hp [He Hf]. cbn [printable] in Hp. bands.
    destruct (IHb r) as (b' & Hstb & _ & Hb); [done|by split|].
    destruct (IHa (TStm WElse :: print_stmt p true b ++ r)) as (a' & Hsta & _ & Ha); [done| |].
    { split; [|done]. intros Ho.
      match goal with H : negb (ends_open p a) = true |- _ => by rewrite Ho in H end. }
    exists (JIfElse e a' b'). apply as_stmt; [cbn; congruence|]. cbn [print_stmt].
    unfold print_paren. cbn [app]. rewrite <- !app_assoc. cbn [app].
    econstructor; [by apply good_phrase| |].
    + apply Ha. by apply negb_true_iff.
    + apply Hb. by apply negb_true_iff.
  - (* while *)
    intros e a IH r Hp Hf. cbn [printable] in Hp. bands.
    destruct (IH r) as (a' & Hst & _ & Ht); [done|done|].
    exists (JWhile e a'). apply as_stmt; [cbn; congruence|]. cbn [print_stmt]. unfold print_paren.
    cbn [app]. rewrite <- !app_assoc. cbn [app]. constructor; [by apply good_phrase|].
    apply Ht. by apply negb_true_iff.
  - (* do *)
    intros a IH e r Hp Hf. cbn [printable] in Hp. bands.
    destruct (IH (TStm WWhile :: TLPar :: print_expr p e ++ TRPar :: TStm WSemi :: r))
      as (a' & Hst & _ & Ht); [done|by split|].
    exists (JDo a' e). apply as_stmt; [cbn; congruence|]. cbn [print_stmt]. unfold print_paren.
    cbn [app]. rewrite <- !app_assoc. cbn [app]. rewrite <- !app_assoc. cbn [app].
    econstructor; [apply Ht; by apply negb_true_iff|by apply good_phrase|by left].
  - (* for *)
    intros i t u ss IH r Hp [He Hf]. cbn [printable] in Hp. bands. rewrite for_ends_open in He.
    destruct (body_printed p ss r IH) as (ss' & Hst & Hb); [done..|].
    exists (JFor i t u ss'). apply as_stmt; [cbn; congruence|]. cbn [print_stmt app].
    repeat (rewrite <- app_assoc; cbn [app]).
    constructor; [by apply good_for_init_text|by apply good_opt_text|by apply good_opt_text|done].
  - (* for in, for of *)
    intros of h e ss IH r Hp [He Hf]. cbn [printable] in Hp. bands. rewrite for_in_ends_open in He.
    destruct (body_printed p ss r IH) as (ss' & Hst & Hb); [done..|].
    exists (JForIn of h e ss'). apply as_stmt; [cbn; congruence|]. cbn [print_stmt app].
    repeat (rewrite <- app_assoc; cbn [app]).
    constructor; [by apply good_head_text| |done].
    destruct of; [|by apply good_phrase]. apply assign_phrase; [done|].
    match goal with H : negb (true && comma_expr e) = true |- _ => by apply negb_true_iff in H end.
  - (* switch *)
    intros e cs IH r Hp Hf. cbn [printable] in Hp. bands.
    destruct (brace_ok r) as [H1' H2'].
    destruct (IH (TStm WRBrace :: r)) as (cs' & Hst & Hc); [done..|].
    exists (JSwitch e cs'). apply as_stmt; [cbn; congruence|]. cbn [print_stmt].
    unfold print_paren. repeat (cbn [app]; rewrite <- app_assoc). cbn [app].
    constructor; [by apply good_phrase|done|].
    rewrite <- defaults_strip, Hst, defaults_strip. by apply Nat.leb_le.
  - (* try catch *)
    intros b IHb x h IHh r Hp [He Hf]. cbn [printable] in Hp. bands.
    destruct (block_printed p h r IHh) as (h' & Hsth & Hh); [done|].
    destruct (block_printed p b (print_catch x ++ TStm WLBrace :: print_stmts p h
      ++ TStm WRBrace :: r) IHb) as (b' & Hstb & Hb); [done|].
    exists (JTryCatch b' x h'). apply as_stmt; [cbn; congruence|]. cbn [print_stmt].
    repeat (cbn [app]; rewrite <- app_assoc). cbn [app].
    econstructor; [exact Hb|exact Hh|done].
  - (* try finally *)
    intros b IHb h IHh r Hp [He Hf]. cbn [printable] in Hp. bands.
    destruct (block_printed p h r IHh) as (h' & Hsth & Hh); [done|].
    destruct (block_printed p b (TStm WFinally :: TStm WLBrace :: print_stmts p h
      ++ TStm WRBrace :: r) IHb) as (b' & Hstb & Hb); [done|].
    exists (JTryFinally b' h'). apply as_stmt; [cbn; congruence|]. cbn [print_stmt].
    repeat (cbn [app]; rewrite <- app_assoc). cbn [app].
    econstructor; [exact Hb|exact Hh].
  - (* try catch finally *)
    intros b IHb x h IHh f IHf r Hp [He Hf]. cbn [printable] in Hp. bands.
    destruct (block_printed p f r IHf) as (f' & Hstf & Hff); [done|].
    destruct (block_printed p h (TStm WFinally :: TStm WLBrace :: print_stmts p f
      ++ TStm WRBrace :: r) IHh) as (h' & Hsth & Hh); [done|].
    destruct (block_printed p b (print_catch x ++ TStm WLBrace :: print_stmts p h
      ++ TStm WRBrace :: TStm WFinally :: TStm WLBrace :: print_stmts p f ++ TStm WRBrace :: r) IHb)
      as (b' & Hstb & Hb); [done|].
    exists (JTryBoth b' x h' f'). apply as_stmt; [cbn; congruence|]. cbn [print_stmt].
    repeat (cbn [app]; rewrite <- app_assoc). cbn [app].
    econstructor; [exact Hb|exact Hh|exact Hff].
  - (* throw *)
    intros e r Hp Hf. exists (JThrow e). apply as_stmt; [done|]. cbn [print_stmt app].
    rewrite <- app_assoc. econstructor; [by apply good_phrase|by left].
  - (* return *)
    intros e r Hp Hf. exists (JReturn e). apply as_stmt; [done|]. cbn [print_stmt app].
    rewrite <- app_assoc. econstructor; [by apply good_opt_text|by left].
  - (* break *)
    intros l r Hp Hf. exists (JBreak l). apply as_stmt; [done|]. cbn [print_stmt app].
    rewrite <- app_assoc. apply st_break. by left.
  - (* continue *)
    intros l r Hp Hf. exists (JContinue l). apply as_stmt; [done|]. cbn [print_stmt app].
    rewrite <- app_assoc. apply st_continue. by left.
  - (* label *)
    intros l a IH r Hp Hf. cbn [printable] in Hp. bands.
    destruct (IH r) as (a' & Hst & _ & Ht); [done|done|].
    exists (JLabel l a'). apply as_stmt; [cbn; congruence|]. cbn [print_stmt app].
    constructor. apply Ht. by apply negb_true_iff.
  - (* with *)
    intros e a IH r Hp Hf. cbn [printable] in Hp. bands.
    destruct (IH r) as (a' & Hst & _ & Ht); [done|done|].
    exists (JWith e a'). apply as_stmt; [cbn; congruence|]. cbn [print_stmt]. unfold print_paren.
    cbn [app]. rewrite <- !app_assoc. cbn [app]. constructor; [by apply good_phrase|].
    apply Ht. by apply negb_true_iff.
  - (* debugger *)
    intros r Hp Hf. exists JDebugger. apply as_stmt; [done|]. cbn [print_stmt app].
    constructor. by left.
  - (* no statements *)
    intros r Hp He Hf. split; [|by destruct p]. exists JNil. split; [done|]. constructor.
  - (* statements *)
    intros s IHs ss IHss r Hp He Hf. cbn [printables] in Hp. bands. split.
    + destruct (IHss r) as [(ss' & Hst & Hl) _]; [done..|].
      assert (s = JEmpty \/ s <> JEmpty) as [->|Hne] by (destruct s; (by left) || (by right)).
      * exists ss'. split; [done|]. done.
      * destruct (list_heads _ _ _ Hl) as [K1 K2].
        destruct (IHs (print_stmts p ss ++ r)) as (s' & Hs & Hi & _); [done|split; auto|].
        exists (JCons s' ss'). split; [by apply strips_cons|]. cbn [print_stmts].
        rewrite print_item by done. rewrite <- app_assoc. econstructor; [exact Hi|exact Hl].
    + intros a Ha. destruct p; [|done]. destruct ss; [|done]. by injection Ha as <-.
  - (* no cases *)
    intros r Hp He Hf. exists KNil. split; [done|]. constructor.
  - (* cases *)
    intros t ss IHss cs IHcs r Hp He Hf. cbn [printable_cases] in Hp. bands.
    destruct (IHcs r) as (cs' & Hstc & Hc); [done..|].
    assert (no_else (print_cases p cs ++ r) /\ no_finally (print_cases p cs ++ r)) as [K1 K2].
    { destruct cs as [|[e|] ? ?]; [done|..]; by split. }
    destruct (IHss (print_cases p cs ++ r)) as [(ss' & Hsts & Hss) _]; [done..|].
    exists (KCase t ss' cs'). split; [cbn; congruence|]. cbn [print_cases].
    destruct t as [e|]; repeat (cbn [app]; rewrite <- app_assoc); cbn [app].
    + econstructor; [by apply good_phrase|exact Hss|exact Hc].
    + econstructor; [exact Hss|exact Hc].
Qed.

(** ** Reading back *)

Lemma leaves_strip s : leaves_semi s = true -> leaves_semi (strip s) = true.
Proof.
  assert ((forall s, leaves_semi s = true -> leaves_semi (strip s) = true) /\
    (forall ss, leaky_body ss = true -> leaky_body (strips ss) = true) /\ (forall cs : cases, True))
    as (H & _); [|apply H].
  apply stmt_stmts_ind; try (by intros; cbn [strip leaves_semi] in *; auto).
  - intros x IH ss _ H. destruct ss; [|done]. cbn [leaky_body] in H. specialize (IH H).
    by destruct x.
Qed.

Lemma safe_strip ss : else_safes (strips ss) = true -> else_safes ss = true.
Proof.
  assert ((forall s, else_safe (strip s) = true -> else_safe s = true) /\
    (forall ss, else_safes (strips ss) = true -> else_safes ss = true) /\
    (forall cs, else_safe_cases (strip_cases cs) = true -> else_safe_cases cs = true))
    as (_ & H & _); [|apply H].
  assert (Hcons : forall s ss, else_safes (strips (JCons s ss)) = true ->
    else_safe (strip s) = true /\ else_safes (strips ss) = true).
  { intros x xs H.
    assert (x = JEmpty \/ x <> JEmpty) as [->|Hne] by (destruct x; (by left) || (by right)); [done|].
    assert (strips (JCons x xs) = JCons (strip x) (strips xs)) as E by (by destruct x).
    rewrite E in H. cbn [else_safes] in H. by apply andb_prop in H. }
  apply stmt_stmts_ind; try done; cbn [strip else_safe strip_cases else_safe_cases]; intros; bands;
    repeat (apply andb_true_intro; split); auto.
  - apply negb_true_iff. destruct (leaves_semi a) eqn:E; [|done]. apply leaves_strip in E.
    by rewrite E in *.
  - apply H. by apply Hcons in H1 as [? _].
  - apply H0. by apply Hcons in H1 as [_ ?].
Qed.

Definition plain_text (ts : list token) : Prop := Forall (fun t => t <> TEnd) ts.
Definition sealed (ts : list token) : Prop :=
  plain_text ts /\ exists ts' t, ts = ts' ++ [t] /\ t ∈ [TStm WSemi; TStm WRBrace].

Lemma sealed_app a b : plain_text a -> sealed b -> sealed (a ++ b).
Proof.
  intros Ha (Hb & ts & t & -> & Ht). split; [by apply Forall_app_2|].
  exists (a ++ ts), t. by rewrite <- app_assoc.
Qed.
Lemma sealed_cons t b : t <> TEnd -> sealed b -> sealed (t :: b).
Proof. intros Ht Hb. apply (sealed_app [t]); [by constructor|done]. Qed.
Lemma sealed_semi : sealed [TStm WSemi].
Proof. split; [by repeat constructor|]. exists [], (TStm WSemi). split; [done|set_solver]. Qed.
Lemma sealed_brace : sealed [TStm WRBrace].
Proof. split; [by repeat constructor|]. exists [], (TStm WRBrace). split; [done|set_solver]. Qed.
Lemma sealed_plain a : sealed a -> plain_text a.
Proof. by intros [? _]. Qed.

Lemma plain_app a b : plain_text a -> plain_text b -> plain_text (a ++ b).
Proof. apply Forall_app_2. Qed.
Lemma plain_cons t b : t <> TEnd -> plain_text b -> plain_text (t :: b).
Proof. by constructor. Qed.

Lemma phrase_plain n ts e : phrase false n ts e -> plain_text ts.
Proof.
  intros H. apply phrase_balanced in H. apply Forall_forall. intros t Ht.
  by apply (balanced_words _ H).
Qed.
Lemma good_plain p e : good p e = true -> plain_text (print_expr p e).
Proof. intros H. by eapply phrase_plain, good_phrase. Qed.
Lemma opt_plain p e : good_opt p e = true -> plain_text (print_opt p e).
Proof. destruct e; [apply good_plain|by constructor]. Qed.
Lemma decls_plain inn ts ds : decls_text inn ts ds -> plain_text ts.
Proof.
  assert (forall ts i, init_text inn ts i -> plain_text ts) as Hi.
  { intros ts0 [e|] H; cbn in H; [|subst; by constructor].
    destruct H as (ts' & -> & H & _). constructor; [done|]. by eapply phrase_plain. }
  induction 1.
  - constructor; [done|]. by eapply Hi.
  - constructor; [done|]. apply plain_app; [by eapply Hi|]. by constructor.
Qed.
Lemma for_init_plain p i : good_for_init p i = true -> plain_text (print_for_init p i).
Proof.
  destruct i; cbn; [constructor| |].
  - intros H. bands. by apply good_plain.
  - intros H. apply (good_decls_text p true), decls_plain in H. unfold print_decl. by constructor.
Qed.
Lemma names_plain xs : plain_text (print_names xs).
Proof. induction xs as [|x [|y xs] IH]; [by repeat constructor..|]. by repeat constructor. Qed.
Lemma catch_plain x : plain_text (print_catch x).
Proof. destruct x; by repeat constructor. Qed.
Lemma label_plain x : plain_text (print_label x).
Proof. destruct x; by repeat constructor. Qed.
Lemma head_plain p h : good_head h = true -> plain_text (print_head p h).
Proof. destruct h as [[]|]; try done; intros _; by repeat constructor. Qed.
Lemma paren_plain p e : good p e = true -> plain_text (print_paren p e).
Proof. intros H. constructor; [done|]. apply plain_app; [by apply good_plain|by repeat constructor]. Qed.

Ltac seal := repeat match goal with
  | |- sealed [TStm WSemi] => apply sealed_semi
  | |- sealed [TStm WRBrace] => apply sealed_brace
  | |- sealed (_ ++ _) => apply sealed_app
  | |- sealed (_ :: _) => apply sealed_cons; [done|]
  | |- plain_text (_ ++ _) => apply plain_app
  | |- plain_text (_ :: _) => apply plain_cons; [done|]
  | |- plain_text [] => constructor
  | |- plain_text (print_expr _ _) => apply good_plain
  | |- plain_text (print_opt _ _) => apply opt_plain
  | |- plain_text (print_for_init _ _) => apply for_init_plain
  | |- plain_text (print_names _) => apply names_plain
  | |- plain_text (print_catch _) => apply catch_plain
  | |- plain_text (print_label _) => apply label_plain
  | |- plain_text (print_head _ _) => apply head_plain
  | |- plain_text (print_paren _ _) => apply paren_plain
  | |- plain_text (print_stmt _ _ _) => apply sealed_plain
  end; auto.

Lemma print_sealed p :
  (forall s, printable p s = true -> sealed (print_stmt p true s)) /\
  (forall ss, printables p ss = true -> plain_text (print_stmts p ss) /\
    (print_stmts p ss = [] \/ sealed (print_stmts p ss)) /\
    (forall s, bare_body p ss = Some s -> sealed (print_stmt p true s))) /\
  (forall cs, printable_cases p cs = true -> plain_text (print_cases p cs)).
Proof.
  assert (Hbody : forall ss, (plain_text (print_stmts p ss) /\
    (print_stmts p ss = [] \/ sealed (print_stmts p ss)) /\
    (forall s, bare_body p ss = Some s -> sealed (print_stmt p true s))) ->
    sealed (print_for_body p ss)).
  { intros ss (H & _ & Hb). rewrite print_for_body_eq. destruct (bare_body p ss) eqn:E; [by apply Hb|].
    seal. }
  apply stmt_stmts_ind; cbn [printable printable_cases printables print_stmt print_cases]; intros;
    bands; repeat match goal with
    | H : printables p ?ss = true -> _, K : printables p ?ss = true |- _ => specialize (H K)
    | H : printable p ?s = true -> _, K : printable p ?s = true |- _ => specialize (H K)
    | H : printable_cases p ?s = true -> _, K : printable_cases p ?s = true |- _ => specialize (H K)
    end; lazymatch goal with
    | |- plain_text (print_stmts p (JCons _ _)) /\ _ => idtac
    | _ => repeat match goal with
      | H : plain_text (print_stmts p ?ss) /\ _ |- _ =>
          pose proof (proj1 H); pose proof (Hbody ss H); clear H
      end
    end; try (by seal).
  - apply (good_decls_text p false), decls_plain in H. unfold print_decl. by seal.
  - destruct of; by seal.
  - split; [by constructor|]. split; [by left|]. by destruct p.
  - assert (s = JEmpty \/ s <> JEmpty) as [->|Hne] by (destruct s; (by left) || (by right)).
    + cbn [print_stmts print_stmt app]. split; [tauto|]. split; [tauto|].
      intros a Ha. destruct p; [|done]. destruct ss; [|done]. injection Ha as <-. done.
    + cbn [print_stmts]. rewrite print_item by done. split; [seal; tauto|]. split.
      * right. destruct H0 as (_ & [E|Hs] & _); [by rewrite E, app_nil_r|]. by seal.
      * intros a Ha. destruct p; [|done]. destruct ss; [|done]. by injection Ha as <-.
  - destruct test as [e|]; cbn [good_opt] in *; seal.
Qed.

Lemma sealed_no_jump ts : plain_text ts -> ts = [] \/ sealed ts -> jump_at_end (ts ++ [TEnd]) = false.
Proof.
  intros Hp [->|(_ & ts' & t & -> & Ht)]; [done|]. rewrite <- app_assoc. cbn [app].
  assert (jump_at_end [t; TEnd] = false) as H.
  { apply elem_of_cons in Ht as [->|Ht]; [done|]. apply elem_of_list_singleton in Ht as ->. done. }
  apply Forall_app in Hp as [Hp Hpt]. apply Forall_cons in Hpt as [Hpt _].
  induction ts' as [|u ts' IH]; [done|]. apply Forall_cons in Hp as [Hu Hp].
  cbn [app jump_at_end]. rewrite (IH Hp). rewrite orb_false_r.
  destruct ts' as [|v ts']; cbn [app]; [by destruct t|].
  apply Forall_cons in Hp as [Hv _]. by destruct v.
Qed.

Lemma printed_program p ss :
  printables p ss = true ->
  exists ss', program (print_stmts p ss) ss' /\ strips ss' = strips ss.
Proof.
  intros H. destruct (proj1 (proj2 (printing p)) ss [TEnd] H) as [(ss' & Hs & Hl) _]; [done..|].
  by exists ss'.
Qed.

Lemma printed_read p ss :
  printables p ss = true -> else_safes (strips ss) = true ->
  exists ss', parse_program (print_stmts p ss) = Ok ss' /\ strips ss' = strips ss.
Proof.
  intros H Hs. destruct (printed_program p ss H) as (s1 & Hp & Hst).
  destruct (proj1 (proj2 (print_sealed p)) ss H) as (Hpl & Hse & _).
  destruct (program_read (print_stmts p ss) s1) as (s2 & Hr & Hst2);
    [done|apply safe_strip; by rewrite Hst|by apply sealed_no_jump|].
  exists s2. split; [done|]. congruence.
Qed.

(** ** Texts that are no programs *)

Lemma item_is_stmt w r s r' :
  item_text (TStm w :: r) s r' -> w ∉ [WLet; WConst; WFunction] -> stmt_text (TStm w :: r) s r'.
Proof.
  inversion 1; subst; [done| |set_solver]. destruct k; [done|set_solver|set_solver].
Qed.

Lemma program_first w r ss :
  program (TStm w :: r) ss -> w ∉ [WLet; WConst; WFunction] ->
  exists s ss' r', stmt_text (TStm w :: r ++ [TEnd]) s r' /\ list_text r' ss' [TEnd] /\
    ss = JCons s ss'.
Proof.
  unfold program. cbn [app]. intros H Hw. inversion H as [|? s r1 ss' ? Hi Hl]; subst.
  exists s, ss', r1. split; [by apply item_is_stmt|done].
Qed.

(** A text without [else] that the parser refuses. *)
Lemma else_words :
  (forall toks s r, stmt_text toks s r -> TStm WElse ∉ toks -> else_safe s = true) /\
  (forall toks ss r, block_text toks ss r -> TStm WElse ∉ toks -> else_safes ss = true) /\
  (forall toks s r, item_text toks s r -> TStm WElse ∉ toks -> else_safe s = true) /\
  (forall toks ss r, list_text toks ss r -> TStm WElse ∉ toks -> else_safes ss = true) /\
  (forall toks ss r, body_text toks ss r -> TStm WElse ∉ toks -> else_safes ss = true) /\
  (forall toks cs r, cases_text toks cs r -> TStm WElse ∉ toks -> else_safe_cases cs = true).
Proof.
  assert (Hsuf : forall (a b : list token), b `suffix_of` a -> TStm WElse ∉ a -> TStm WElse ∉ b)
    by (intros a b [k ->]; set_solver).
  apply text_ind; intros; cbn [else_safe else_safes else_safe_cases];
    try done;
    try match goal with Ha : stmt_text _ _ (TStm WElse :: _), Hn : _ ∉ _ |- _ =>
      exfalso; apply text_suffix in Ha; apply Hn;
      match type of Ha with ?b `suffix_of` ?a =>
        destruct Ha as [kk ->] end; set_solver end;
    repeat (apply andb_true_intro; split); try reflexivity;
    match goal with IH : TStm WElse ∉ ?b -> ?g |- ?g =>
      apply IH; match goal with Hn : TStm WElse ∉ ?a |- _ => apply (Hsuf a b); [|exact Hn];
      clear IH Hn end end;
    repeat match goal with
    | H : stmt_text _ _ _ |- _ => apply text_suffix in H
    | H : block_text _ _ _ |- _ => apply text_suffix in H
    | H : item_text _ _ _ |- _ => apply text_suffix in H
    | H : list_text _ _ _ |- _ => apply text_suffix in H
    | H : body_text _ _ _ |- _ => apply text_suffix in H
    | H : cases_text _ _ _ |- _ => apply text_suffix in H
    end; sfx.
Qed.

Lemma not_program toks :
  parse_program toks = Err -> TStm WElse ∉ toks -> jump_at_end (toks ++ [TEnd]) = false ->
  ~ exists ss, program toks ss.
Proof.
  intros He Hn Hj (ss & H).
  destruct (program_read toks ss H) as (ss' & E & _); [|done|congruence].
  apply (proj1 (proj2 (proj2 (proj2 else_words))) _ _ _ H). set_solver.
Qed.

(** What stands between a parenthesis and its end. *)
Lemma phrase_no_word n ts e w : phrase false n ts e -> TStm w ∉ ts.
Proof.
  intros H Hin. apply phrase_balanced in H.
  destruct (balanced_words _ H _ Hin) as [Hw _]. by apply (Hw w).
Qed.

Ltac name := repeat first [apply p_name | eapply p_chain; [constructor|]].

Ltac parens ts := first [apply (p_parens false ts) | eapply p_chain; [constructor|]; parens ts].

(** Finds the expression between two parentheses of a text. *)
Ltac nophrase := match goal with H : phrase _ _ ?ts _, E : ?ts ++ _ = TStm _ :: _ |- _ =>
  destruct (phrase_heads _ _ _ H) as (? & ? & -> & Hhead); cbn [app] in E;
  injection E as -> _; discriminate Hhead end.
Ltac between := repeat match goal with E : ?ts ++ _ :: _ = _ :: _ |- _ =>
    is_var ts; destruct ts as [|? ts]; cbn [app] in E; [injection E as E|injection E as -> E];
    try discriminate E; subst
  end; try match goal with E : ?ts ++ _ :: _ = [] |- _ => by destruct ts end.
Ltac first_stmt H := apply program_first in H as (? & ? & ? & H & _ & _); [|set_solver];
  cbn [app] in H; inversion H; subst; try nophrase;
  try match goal with K : block_text (TStm _ :: _) _ _ |- _ => by inversion K end.

Ltac no_stmt := match goal with H : stmt_text (TStm _ :: _) _ _ |- _ => inversion H; subst end;
  try nophrase;
  try match goal with K : block_text (TStm _ :: _) _ _ |- _ => by inversion K end.

Lemma no_comma_operand e : ~ phrase false AssignmentExpression [TId 2; TOp BComma; TId 3]%N e.
Proof.
  intros H. pose proof (read_assign _ e [TOp BComma; TEnd] TEnd [] H
    ltac:(apply terms_ok_2; set_solver) ltac:(set_solver)) as E. vm_compute in E. discriminate E.
Qed.
