(** The statement parser reads the programs of the grammar. *)
From stdpp Require Import base decidable numbers sets list.
From Verif Require Import PrintModel PrattModel PrintSpec PrattProofs PrintProofs
  GrammarSpec GrammarProofs GrammarPrintSpec SynModel SynSpec SynExprProofs SynProofs.

Scheme stmt_text_mut := Induction for stmt_text Sort Prop
  with block_text_mut := Induction for block_text Sort Prop
  with item_text_mut := Induction for item_text Sort Prop
  with list_text_mut := Induction for list_text Sort Prop
  with body_text_mut := Induction for body_text Sort Prop
  with cases_text_mut := Induction for cases_text Sort Prop.
Combined Scheme text_ind from stmt_text_mut, block_text_mut, item_text_mut, list_text_mut,
  body_text_mut, cases_text_mut.

(** ** Pieces of statements *)

Lemma consume_eq t r : consume_if t (t :: r) = Some r.
Proof. cbn. by rewrite decide_True. Qed.

Lemma require_eq t r : require t (t :: r) = Ok r.
Proof. unfold require. by rewrite consume_eq. Qed.

Lemma asi_terms_ok : terms_ok asi_terms.
Proof. intros t Ht. unfold asi_terms in Ht. set_solver. Qed.

Lemma semicolon_end r r' :
  semicolon r r' -> exists t r0, r = t :: r0 /\ t ∈ asi_terms /\ end_stmt r = Ok r'.
Proof.
  intros [-> | (-> & t & r0 & -> & [-> | ->])].
  - exists (TStm WSemi), r'. split; [done|]. split; [unfold asi_terms; set_solver|done].
  - exists (TStm WRBrace), r0. split; [done|]. split; [unfold asi_terms; set_solver|done].
  - exists TEnd, r0. split; [done|]. split; [unfold asi_terms; set_solver|done].
Qed.

Lemma read_expr_end {A} (k : expr -> A) ts e r r' :
  phrase false Expression ts e -> semicolon r r' ->
  bind (expression asi_terms (ts ++ r)) (fun '(e, rest) =>
    bind (end_stmt rest) (fun rest => Ok (k e, rest))) = Ok (k e, r').
Proof.
  intros H Hs. apply semicolon_end in Hs as (t & r0 & -> & Ht & He).
  rewrite (read_expr ts e asi_terms t r0); [|done|apply asi_terms_ok| |done].
  - cbn [bind]. by rewrite He.
  - unfold asi_terms. set_solver.
Qed.

Lemma read_paren ts e r :
  phrase false Expression ts e -> paren_expr (TLPar :: ts ++ TRPar :: r) = Ok (e, r).
Proof.
  intros H. unfold paren_expr. rewrite require_eq. cbn [bind].
  rewrite (read_expr ts e [TRPar] TRPar r); [|done| | |set_solver].
  - cbn [bind]. by rewrite require_eq.
  - apply terms_ok_1. set_solver.
  - set_solver.
Qed.

Lemma init_read_asi ts i t r :
  init_text true ts i -> t ∈ [TStm WSemi; TOp BComma; TStm WRBrace; TEnd] ->
  initialiser false (ts ++ t :: r) = Ok (i, t :: r).
Proof.
  intros H Ht. unfold initialiser. destruct i as [e|]; cbn in H.
  - destruct H as (ts' & -> & H & _). cbn [app]. rewrite consume_eq.
    rewrite (read_assign ts' e (decl_terms false) t r); [done|done| |done].
    intros u Hu. unfold decl_terms in Hu. set_solver.
  - subst ts. cbn [app]. destruct (consume_if (TOp BAssign) (t :: r)) eqn:E; [|done].
    apply consume_some in E. injection E as -> _. set_solver.
Qed.

Lemma init_read_header ts i t r :
  init_text false ts i -> t ∈ [TStm WSemi; TOp BComma] ->
  initialiser true (ts ++ t :: r) = Ok (i, t :: r).
Proof.
  intros H Ht. unfold initialiser. destruct i as [e|]; cbn in H.
  - destruct H as (ts' & -> & H & [?|Hs]); [done|]. cbn [app]. rewrite consume_eq.
    by rewrite (read_header ts' e t r).
  - subst ts. cbn [app]. destruct (consume_if (TOp BAssign) (t :: r)) eqn:E; [|done].
    apply consume_some in E. injection E as -> _. set_solver.
Qed.

Lemma decls_read ts ds r r' n :
  decls_text true ts ds -> semicolon r r' -> length ts < n ->
  declarators n false (ts ++ r) = Ok (ds, r').
Proof.
  intros H Hs. apply semicolon_end in Hs as (t & r0 & -> & Ht & He). revert n.
  induction H as [x ts i Hi|x ts i toks ds Hi _ IH]; intros n Hn; (destruct n as [|n]; [lia|]);
    cbn [declarators app take_name].
  - rewrite (init_read_asi ts i t r0); [|done|unfold asi_terms in Ht; set_solver].
    cbn [bind]. by rewrite He.
  - rewrite <- app_assoc. cbn [app].
    rewrite (init_read_asi ts i (TOp BComma)); [|done|set_solver]. cbn [bind end_stmt].
    rewrite require_eq. cbn [bind]. rewrite IH; [done|].
    cbn [length] in Hn. rewrite app_length in Hn. cbn [length] in Hn. lia.
Qed.

Lemma decls_header_read ts ds r n :
  decls_text false ts ds -> length ts < n ->
  declarators n true (ts ++ TStm WSemi :: r) = Ok (ds, TStm WSemi :: r).
Proof.
  intros H. revert n.
  induction H as [x ts i Hi|x ts i toks ds Hi _ IH]; intros n Hn; (destruct n as [|n]; [lia|]);
    cbn [declarators app take_name].
  - rewrite (init_read_header ts i (TStm WSemi)); [|done|set_solver]. done.
  - rewrite <- app_assoc. cbn [app].
    rewrite (init_read_header ts i (TOp BComma)); [|done|set_solver]. cbn [bind].
    rewrite consume_eq. rewrite require_eq. cbn [bind]. rewrite IH; [done|].
    cbn [length] in Hn. rewrite app_length in Hn. cbn [length] in Hn. lia.
Qed.

Lemma names_read ts xs r n :
  names_text ts xs -> length ts < n -> names n (ts ++ TRPar :: r) = Ok (xs, r).
Proof.
  intros H. revert n. induction H as [|x|x toks xs _ IH]; intros n Hn; (destruct n as [|n]; [lia|]);
    cbn [names app].
  - by rewrite consume_eq.
  - cbn [take_name]. done.
  - cbn [take_name]. cbn [length] in Hn.
    change (consume_if TRPar (TId x :: TOp BComma :: toks ++ TRPar :: r)) with (@None (list token)).
    cbn iota. rewrite consume_eq. rewrite IH by lia. done.
Qed.

(** Tokens an expression starts with. *)
Lemma operand_start t : starts_operand t = true -> (forall w, t <> TStm w) /\ t <> TRPar.
Proof. by destruct t. Qed.

Lemma starts_none t r : (forall w, t <> TStm w) -> starts_decl (t :: r) = None.
Proof. intros H. destruct t; try done. by destruct (H w). Qed.

Lemma consume_other t u r : u <> t -> consume_if t (u :: r) = None.
Proof. intros H. cbn. by rewrite decide_False. Qed.

Lemma until_read t ts e r :
  opt_text ts e -> t ∈ [TStm WSemi; TRPar] -> until t (ts ++ t :: r) = Ok (e, r).
Proof.
  intros H Ht. unfold until. destruct e as [e|]; cbn in H.
  - destruct (phrase_heads _ _ _ H) as (u & ts' & E & Hu).
    assert (consume_if t (ts ++ t :: r) = None) as ->.
    { rewrite E. cbn [app]. apply consume_other. intros ->.
      apply operand_start in Hu as [Hu1 Hu2].
      apply elem_of_cons in Ht as [->|Ht]; [by apply (Hu1 WSemi)|].
      apply elem_of_list_singleton in Ht. done. }
    rewrite (read_expr ts e [t] t r); [|done| | |set_solver].
    + cbn [bind]. by rewrite require_eq.
    + apply terms_ok_1. set_solver.
    + intros Hc. apply elem_of_list_singleton in Hc. subst t. set_solver.
  - subst ts. cbn [app]. by rewrite consume_eq.
Qed.

Lemma kind_of_word k : kind_of (kind_word k) = Some k.
Proof. by destruct k. Qed.

Lemma triple_read t1 i t2 test t3 step r :
  for_init_text t1 i -> opt_text t2 test -> opt_text t3 step ->
  determine (t1 ++ TStm WSemi :: t2 ++ TStm WSemi :: t3 ++ TRPar :: r) = Ok KTriple /\
  triple_header (t1 ++ TStm WSemi :: t2 ++ TStm WSemi :: t3 ++ TRPar :: r)
  = Ok (i, test, step, r).
Proof.
  intros H1 H2 H3. set (r1 := t2 ++ TStm WSemi :: t3 ++ TRPar :: r).
  assert (Hboth : determine (t1 ++ TStm WSemi :: r1) = Ok KTriple /\
    triple_init (t1 ++ TStm WSemi :: r1) = Ok (i, TStm WSemi :: r1)).
  { unfold determine, triple_init. destruct i as [|e|k ds]; cbn in H1.
    - subst t1. done.
    - destruct H1 as [H1 Hs]. destruct (phrase_heads _ _ _ H1) as (u & ts & E & Hu).
      apply operand_start in Hu as [Hu _].
      assert (starts_decl (t1 ++ TStm WSemi :: r1) = None) as ->
        by (rewrite E; by apply starts_none).
      assert (consume_if (TStm WSemi) (t1 ++ TStm WSemi :: r1) = None) as ->
        by (rewrite E; by apply consume_other).
      split.
      + pose proof (expression_fin [TOp BIn; TStm WOf] (t1 ++ TStm WSemi :: r1)) as Hf.
        destruct (expression _ _) as [[e' r']| |] eqn:E'; [|done|done].
        by rewrite (no_in_ahead _ _ _ _ _ H1 Hs E').
      + rewrite (read_expr t1 e [TStm WSemi] (TStm WSemi) r1); [done|done| | |set_solver].
        * apply terms_ok_1. set_solver.
        * set_solver.
    - destruct H1 as (ts & -> & H1). cbn [app starts_decl]. rewrite kind_of_word.
      rewrite (decls_header_read ts ds); [done|done|]. rewrite app_length. lia. }
  split; [apply Hboth|]. unfold triple_header. rewrite (proj2 Hboth). cbn [bind].
  rewrite require_eq. cbn [bind]. unfold r1.
  rewrite (until_read (TStm WSemi) t2 test); [|done|set_solver]. cbn [bind].
  rewrite (until_read TRPar t3 step); [|done|set_solver]. done.
Qed.

Lemma in_of_read (of : bool) th h te e r :
  head_text th h -> phrase false (if of then AssignmentExpression else Expression) te e ->
  let toks := th ++ (if of then TStm WOf else TOp BIn) :: te ++ TRPar :: r in
  determine toks = Ok (if of then KOf else KIn) /\ in_of_header of toks = Ok (h, e, r).
Proof.
  intros Hh He toks. set (kw := if of then TStm WOf else TOp BIn) in *.
  assert (He' : phrase false Expression te e).
  { destruct of; [|done]. by apply (p_chain false _ _ _ _ chain_expression). }
  assert (Hrhs : expression [TRPar] (te ++ TRPar :: r) = Ok (e, TRPar :: r)).
  { apply read_expr; [done| | |set_solver].
    - apply terms_ok_1. set_solver.
    - set_solver. }
  set (r1 := te ++ TRPar :: r) in *.
  assert (Hboth : determine toks = Ok (if of then KOf else KIn) /\
    in_of_head toks = Ok (h, kw :: r1)).
  { unfold toks, determine, in_of_head. destruct h as [x|k x]; cbn in Hh.
    - destruct Hh as (y & -> & ->). cbn [app].
      rewrite starts_none by done. rewrite consume_other by done.
      assert (Hp : pe false 1 [TOp BIn; TStm WOf] (TId y :: kw :: r1) (EId y, false, kw :: r1)).
      { exists 3. cbn [expr_min operand start_of bind loop bare_yield andb Nat.ltb Nat.leb].
        assert (is_term [TOp BIn; TStm WOf] kw = true) as ->
          by (unfold kw; destruct of; apply bool_decide_eq_true; set_solver). done. }
      apply expression_of in Hp as [Hp1 Hp2]. rewrite Hp1, Hp2. cbn [bind good_target negb].
      split; [|done]. unfold kw. by destruct of.
    - subst th. cbn [app starts_decl]. rewrite kind_of_word. cbn [take_name].
      split; [|done]. cbn [declarators take_name]. unfold initialiser.
      assert (consume_if (TOp BAssign) (kw :: r1) = None) as ->
        by (apply consume_other; unfold kw; by destruct of). cbn [bind].
      assert (consume_if (TOp BComma) (kw :: r1) = None) as ->
        by (apply consume_other; unfold kw; by destruct of). cbn [bind].
      unfold kw. by destruct of. }
  split; [apply Hboth|]. unfold in_of_header. rewrite (proj2 Hboth). cbn [bind]. cbn zeta.
  fold kw. rewrite consume_eq. rewrite Hrhs. cbn [bind]. by rewrite require_eq.
Qed.

(** ** The texts *)

Lemma semicolon_suffix r r' : semicolon r r' -> r' `suffix_of` r.
Proof. intros [-> | [-> _]]; [by exists [TStm WSemi]|done]. Qed.

Lemma do_semicolon_suffix r r' : do_semicolon r r' -> r' `suffix_of` r.
Proof. intros [-> | [-> _]]; [by exists [TStm WSemi]|done]. Qed.

Ltac sfx := repeat first
  [ reflexivity | assumption
  | match goal with H : ?x `suffix_of` ?y |- _ `suffix_of` ?y =>
      is_var y; transitivity x; [clear H|exact H] end
  | apply suffix_cons_r | apply suffix_app_r ].

Lemma text_suffix :
  (forall toks s r, stmt_text toks s r -> r `suffix_of` toks) /\
  (forall toks ss r, block_text toks ss r -> r `suffix_of` toks) /\
  (forall toks s r, item_text toks s r -> r `suffix_of` toks) /\
  (forall toks ss r, list_text toks ss r -> r `suffix_of` toks) /\
  (forall toks ss r, body_text toks ss r -> r `suffix_of` toks) /\
  (forall toks cs r, cases_text toks cs r -> r `suffix_of` toks).
Proof.
  apply text_ind; intros;
    repeat match goal with
    | H : semicolon _ _ |- _ => apply semicolon_suffix in H
    | H : do_semicolon _ _ |- _ => apply do_semicolon_suffix in H
    end.
  all: try done.
  all: sfx.
Qed.

Lemma jump_suffix a b : b `suffix_of` a -> jump_at_end a = false -> jump_at_end b = false.
Proof.
  intros [k ->]. induction k as [|t k IH]; [done|]. cbn [app jump_at_end].
  intros H. apply orb_false_elim in H as [_ H]. by apply IH.
Qed.

Definition not_end (toks : list token) : Prop :=
  exists t r, toks = t :: r /\ t ∉ [TEnd; TStm WRBrace; TStm WCase; TStm WDefault].

Lemma phrase_not_end n ts e r : phrase false n ts e -> not_end (ts ++ r).
Proof.
  intros H. destruct (phrase_heads _ _ _ H) as (u & ts' & -> & Hu).
  exists u, (ts' ++ r). split; [done|]. intros Hin.
  repeat (apply elem_of_cons in Hin as [->|Hin]; [done|]). by apply elem_of_nil in Hin.
Qed.

Lemma word_not_end w r : w ∉ [WRBrace; WCase; WDefault] -> not_end (TStm w :: r).
Proof.
  intros H. exists (TStm w), r. split; [done|]. intros Hin. apply H. clear H.
  apply elem_of_cons in Hin as [E|Hin]; [done|].
  repeat (apply elem_of_cons in Hin as [[= ->]|Hin]; [set_solver|]). by apply elem_of_nil in Hin.
Qed.

Lemma stmt_not_end toks s r : stmt_text toks s r -> not_end toks.
Proof.
  destruct 1; try (apply word_not_end; set_solver).
  - by eapply phrase_not_end.
  - match goal with H : block_text _ _ _ |- _ => destruct H end. apply word_not_end. set_solver.
  - exists (TId l), (TColon :: r). split; [done|]. set_solver.
Qed.

Lemma item_not_end toks s r : item_text toks s r -> not_end toks.
Proof.
  destruct 1; [by eapply stmt_not_end| |apply word_not_end; set_solver].
  apply word_not_end. destruct k; set_solver.
Qed.

Lemma stmt_no_brace toks s r :
  stmt_text toks s r -> is_block s = false -> consume_if (TStm WLBrace) toks = None.
Proof.
  destruct 1; try done. intros _.
  match goal with H : phrase _ _ _ _ |- _ =>
    destruct (phrase_heads _ _ _ H) as (u & ts' & -> & Hu) end.
  apply consume_other. intros ->. done.
Qed.

Lemma cases_head r cs r0 :
  cases_text r cs (TStm WRBrace :: r0) ->
  exists t r1, r = t :: r1 /\ t ∈ [TStm WCase; TStm WDefault; TStm WRBrace].
Proof.
  inversion 1; subst; eexists _, _; (split; [reflexivity|]); set_solver.
Qed.

(** ** The parser *)

Definition ev {A} (f : nat -> res A) (r : A) : Prop :=
  exists N, forall n, N <= n -> f n = Ok r.

Lemma ev_next {A} (f : nat -> res A) r : ev (fun n => f (S n)) r -> ev f r.
Proof.
  intros [N H]. exists (S N). intros [|n] Hn; [lia|]. apply H. lia.
Qed.

Lemma ev_bind {A B} (f : nat -> res A) (g : nat -> A -> res B) a r :
  ev f a -> ev (fun n => g n a) r -> ev (fun n => bind (f n) (g n)) r.
Proof.
  intros [N H] [M K]. exists (N + M). intros n Hn. rewrite H by lia. cbn. apply K. lia.
Qed.

Lemma ev_const {A} (m : res A) r : m = Ok r -> ev (fun _ => m) r.
Proof. intros ->. by exists 0. Qed.

Lemma ev_ext {A} (f g : nat -> res A) r : (forall n, f n = g n) -> ev g r -> ev f r.
Proof. intros H [N K]. exists N. intros n Hn. rewrite H. by apply K. Qed.

Lemma statement_other t toks n :
  (forall w, t <> TStm w) ->
  statement (S n) (t :: toks) = match label_of (t :: toks) with
    | Some (l, rest) => bind (statement n rest) (fun '(a, rest) => Ok (JLabel l a, rest))
    | None => expr_stmt (t :: toks) end.
Proof. intros H. destruct t; try done. by destruct (H w). Qed.

Lemma no_label ts e r r' :
  phrase false Expression ts e -> semicolon r r' -> label_of (ts ++ r) = None.
Proof.
  intros H Hs. apply semicolon_end in Hs as (t & r0 & -> & Ht & _).
  pose proof (phrase_balanced _ _ _ H) as Hb.
  destruct ts as [|u [|v ts]].
  - destruct (phrase_heads _ _ _ H) as (u & ts' & E & _). done.
  - cbn [app]. destruct u; try done. cbn. destruct t; try done. unfold asi_terms in Ht. set_solver.
  - cbn [app]. destruct u; try done. destruct v; try done. exfalso.
    inversion Hb as [|? ? _ Hb2|]; subst; [|done]. inversion Hb2; subst; done.
Qed.

Lemma strips_cons s s' ss ss' :
  strip s' = strip s -> strips ss' = strips ss -> strips (JCons s' ss') = strips (JCons s ss).
Proof.
  intros H1 H2. cbn [strips].
  assert (s = JEmpty \/ s <> JEmpty) as [->|Hne] by (destruct s; (by left) || (by right)).
  - assert (s' = JEmpty) as -> by (by destruct s'). done.
  - assert (s' <> JEmpty) by (intros ->; by destruct s).
    assert (forall x xs, x <> JEmpty ->
      (match x with JEmpty => strips xs | _ => JCons (strip x) (strips xs) end) = JCons (strip x) (strips xs))
      as Hx by (by intros []).
    rewrite !Hx by done. by rewrite H1, H2.
Qed.

Definition leaky_body (ss : stmts) : bool :=
  match ss with JCons a JNil => leaves_semi a | _ => false end.

Definition Pst (toks : list token) (s : stmt) (r : list token) : Prop :=
  jump_at_end toks = false -> else_safe s = true ->
  exists s' r', ev (fun n => statement n toks) (s', r') /\ strip s' = strip s /\
    (r' = r \/ (leaves_semi s = true /\ r' = TStm WSemi :: r)).
Definition Pbl (toks : list token) (ss : stmts) (r : list token) : Prop :=
  jump_at_end toks = false -> else_safes ss = true ->
  exists ss', ev (fun n => block n toks) (ss', r) /\ strips ss' = strips ss.
Definition Pli (toks : list token) (ss : stmts) (r : list token) : Prop :=
  jump_at_end toks = false -> else_safes ss = true ->
  forall ends t r0, r = t :: r0 -> t ∈ ends ->
  (forall u, u ∈ ends -> u ∈ [TEnd; TStm WRBrace; TStm WCase; TStm WDefault]) ->
  exists ss', ev (fun n => statements n ends toks) (ss', r) /\ strips ss' = strips ss.
Definition Pbo (toks : list token) (ss : stmts) (r : list token) : Prop :=
  jump_at_end toks = false -> else_safes ss = true ->
  exists ss' r', ev (fun n => for_body n toks) (ss', r') /\ strips ss' = strips ss /\
    (r' = r \/ (leaky_body ss = true /\ r' = TStm WSemi :: r)).
Definition Pca (toks : list token) (cs : cases) (r : list token) : Prop :=
  jump_at_end toks = false -> else_safe_cases cs = true ->
  (exists r0, r = TStm WRBrace :: r0) ->
  exists cs', ev (fun n => switch_cases n toks) (cs', r) /\ strip_cases cs' = strip_cases cs.

Ltac jump := match goal with H : jump_at_end ?a = false |- jump_at_end ?b = false =>
  apply (jump_suffix a b); [|exact H]; clear H;
  repeat match goal with
  | H : stmt_text _ _ _ |- _ => apply text_suffix in H
  | H : block_text _ _ _ |- _ => apply text_suffix in H
  | H : item_text _ _ _ |- _ => apply text_suffix in H
  | H : list_text _ _ _ |- _ => apply text_suffix in H
  | H : cases_text _ _ _ |- _ => apply text_suffix in H
  end; sfx end.

Ltac evb H := eapply ev_bind; [exact H|]; cbn beta iota.

Ltac left_over := match goal with H : _ \/ _ |- _ \/ _ =>
  destruct H as [-> | [? ->]]; [left; reflexivity|right; split; [assumption|reflexivity]] end.

Lemma step_statements ends toks s r ss r' :
  not_end toks -> (forall u, u ∈ ends -> u ∈ [TEnd; TStm WRBrace; TStm WCase; TStm WDefault]) ->
  ev (fun n => statement n toks) (s, r) -> ev (fun n => statements n ends r) (ss, r') ->
  ev (fun n => statements n ends toks) (JCons s ss, r').
Proof.
  intros (t & r0 & -> & Ht) He Hs Hss. apply ev_next. cbn [statements].
  assert (is_term ends t = false) as ->.
  { unfold is_term. apply bool_decide_eq_false. intros Hin. by apply He in Hin. }
  evb Hs. evb Hss. by apply ev_const.
Qed.

Lemma if_reads ts e r a r1 :
  phrase false Expression ts e -> ev (fun n => statement n r) (a, r1) -> no_else r1 ->
  ev (fun n => statement n (TStm WIf :: TLPar :: ts ++ TRPar :: r)) (JIf e a, r1).
Proof.
  intros He Ha Hne. apply ev_next. cbn [statement]. rewrite (read_paren ts e r He). cbn [bind].
  evb Ha. assert (consume_if (TStm WElse) r1 = None) as ->.
  { destruct (consume_if _ r1) eqn:E; [|done]. apply consume_some in E. by apply Hne in E. }
  by apply ev_const.
Qed.

Lemma catch_reads x r1 t r0 :
  r1 = t :: r0 -> t <> TLPar -> catch_param (catch_text x ++ r1) = Ok (x, r1).
Proof.
  intros -> Ht. unfold catch_param. destruct x as [x|]; cbn [catch_text app].
  - rewrite consume_eq. cbn [take_name]. by rewrite require_eq.
  - by rewrite consume_other.
Qed.

Lemma block_head r ss r' : block_text r ss r' -> exists r0, r = TStm WLBrace :: r0.
Proof. destruct 1. eauto. Qed.

Lemma jump_reads w l r r' :
  is_jump (TStm w) = true -> jump_at_end (TStm w :: label_text l ++ r) = false -> semicolon r r' ->
  exists r1, jump_label (label_text l ++ r) = Ok (l, r1) /\
    (r1 = r' \/ (exists x, l = Some x) /\ r1 = TStm WSemi :: r').
Proof.
  intros Hw Hj Hs. destruct l as [x|]; cbn [label_text app] in *.
  - exists r. split; [done|]. destruct Hs as [-> | [-> _]]; eauto.
  - exists r'. split; [|by left]. destruct Hs as [-> | (-> & t & r0 & -> & [-> | ->])]; [done..|].
    cbn [jump_at_end] in Hj. rewrite Hw in Hj. done.
Qed.

Lemma return_reads ts e r r' :
  jump_at_end (TStm WReturn :: ts ++ r) = false -> opt_text ts e -> semicolon r r' ->
  return_stmt (ts ++ r) = Ok (JReturn e, r').
Proof.
  intros Hj He Hs. destruct e as [e|]; cbn [opt_text] in He.
  - pose proof (read_expr_end (fun e => JReturn (Some e)) ts e r r' He Hs) as H.
    destruct (phrase_heads _ _ _ He) as (u & ts' & E & Hu). subst ts.
    apply operand_start in Hu as [Hu _]. unfold return_stmt. cbn [app] in *.
    destruct u; try exact H. by destruct (Hu w).
  - subst ts. cbn [app] in *. destruct Hs as [-> | (-> & t & r0 & -> & [-> | ->])]; done.
Qed.

Lemma reading :
  (forall toks s r, stmt_text toks s r -> Pst toks s r) /\
  (forall toks ss r, block_text toks ss r -> Pbl toks ss r) /\
  (forall toks s r, item_text toks s r -> Pst toks s r) /\
  (forall toks ss r, list_text toks ss r -> Pli toks ss r) /\
  (forall toks ss r, body_text toks ss r -> Pbo toks ss r) /\
  (forall toks cs r, cases_text toks cs r -> Pca toks cs r).
Proof.
  apply text_ind.
  - (* empty *)
    intros r Hj Hs. exists JEmpty, r. split; [|auto]. apply ev_next. cbn [statement].
    by apply ev_const.
  - (* expression *)
    intros ts e r r' He Hsc Hj Hs. exists (JExpr e), r'. split; [|auto].
    apply ev_next. destruct (phrase_heads _ _ _ He) as (u & ts' & E & Hu).
    pose proof (no_label _ _ _ _ He Hsc) as Hl.
    eapply ev_ext.
    { intros n. rewrite E. cbn [app]. rewrite statement_other by (by apply operand_start).
      change (u :: ts' ++ r) with ((u :: ts') ++ r). rewrite <- E, Hl. reflexivity. }
    apply ev_const. unfold expr_stmt. by apply (read_expr_end JExpr).
  - (* var *)
    intros ts ds r r' Hd Hsc Hj Hs. exists (JDecl DVar ds), r'. split; [|auto].
    apply ev_next. cbn [statement kind_of]. apply ev_const.
    rewrite (decls_read ts ds r r'); [done|done|done|]. rewrite app_length. lia.
  - (* block *)
    intros r ss r' Hb IH Hj Hs. cbn in Hs. destruct (IH Hj Hs) as (ss' & He & Hst).
    exists (JBlock ss'), r'. split; [|split; [cbn; congruence|auto]].
    apply ev_next. destruct (block_head _ _ _ Hb) as [r0 ->]. cbn [statement].
    evb He. by apply ev_const.
  - (* if *)
    intros ts e r a r' He Ht IH Hne Hj Hs. cbn [else_safe] in Hs.
    destruct (IH ltac:(jump) Hs) as (a' & r1 & Ha & Hst & Hr).
    exists (JIf e a'), r1. split; [|split; [cbn; congruence|exact Hr]].
    apply if_reads; [done|done|]. destruct Hr as [-> | [_ ->]]; [done|]. intros r2. done.
  - (* if else *)
    intros ts e r a r1 b r' He Ha IHa Hb IHb Hj Hs. cbn [else_safe] in Hs.
    apply andb_prop in Hs as [Hs Hsb]. apply andb_prop in Hs as [Hl Hsa].
    destruct (IHa ltac:(jump) Hsa) as (a' & ra & Hea & Hsta & Hra).
    destruct (IHb ltac:(jump) Hsb) as (b' & rb & Heb & Hstb & Hrb).
    exists (JIfElse e a' b'), rb. split; [|split; [cbn; congruence|exact Hrb]].
    destruct Hra as [-> | [Hc _]]; [|by rewrite Hc in Hl].
    apply ev_next. cbn [statement]. rewrite (read_paren ts e r He). cbn [bind].
    evb Hea. rewrite consume_eq. evb Heb. by apply ev_const.
  - (* while *)
    intros ts e r a r' He Ht IH Hj Hs. cbn [else_safe] in Hs.
    destruct (IH ltac:(jump) Hs) as (a' & r1 & Ha & Hst & Hr).
    exists (JWhile e a'), r1. split; [|split; [cbn; congruence|exact Hr]].
    apply ev_next. cbn [statement]. rewrite (read_paren ts e r He). cbn [bind].
    evb Ha. by apply ev_const.
  - (* do *)
    intros r a ts e r1 r' Ha IH He Hd Hj Hs. cbn [else_safe] in Hs.
    destruct (IH ltac:(jump) Hs) as (a' & ra & Hea & Hst & Hr).
    exists (JDo a' e), r1. split; [|split; [cbn; congruence|]].
    + apply ev_next. cbn [statement]. evb Hea.
      assert (skip_semi ra = TStm WWhile :: TLPar :: ts ++ TRPar :: r1) as ->
        by (destruct Hr as [-> | [_ ->]]; done).
      rewrite require_eq. cbn [bind]. rewrite (read_paren ts e r1 He). cbn [bind].
      by apply ev_const.
    + destruct Hd as [-> | [-> _]]; [right; split; done|by left].
  - (* for *)
    intros t1 i t2 test t3 step r ss r' H1 H2 H3 Hb IH Hj Hs. cbn [else_safe] in Hs.
    destruct (IH ltac:(jump) Hs) as (ss' & r1 & Hss & Hst & Hr).
    exists (JFor i test step ss'), r1. split; [|split; [cbn; congruence|]].
    + destruct (triple_read t1 i t2 test t3 step r H1 H2 H3) as [Hd Hh].
      apply ev_next. cbn [statement]. rewrite require_eq. cbn [bind]. rewrite Hd. cbn [bind].
      rewrite Hh. cbn [bind]. evb Hss. by apply ev_const.
    + destruct Hr as [-> | [Hl ->]]; [by left|right]. split; [|done].
      destruct ss as [|a [|]]; done.
  - (* for in, for of *)
    intros of th h te e r ss r' Hh He Hb IH Hj Hs. cbn [else_safe] in Hs.
    destruct (IH ltac:(jump) Hs) as (ss' & r1 & Hss & Hst & Hr).
    exists (JForIn of h e ss'), r1. split; [|split; [cbn; congruence|]].
    + destruct (in_of_read of th h te e r Hh He) as [Hd Hi].
      apply ev_next. cbn [statement]. rewrite require_eq. cbn [bind]. rewrite Hd. cbn [bind].
      destruct of; rewrite Hi; cbn [bind]; evb Hss; by apply ev_const.
    + destruct Hr as [-> | [Hl ->]]; [by left|right]. split; [|done].
      destruct ss as [|a [|]]; done.
  - (* switch *)
    intros ts e r cs r' He Hc IH Hd Hj Hs. cbn [else_safe] in Hs.
    destruct (IH ltac:(jump) Hs ltac:(eauto)) as (cs' & Hcs & Hst).
    exists (JSwitch e cs'), r'. split; [|split; [cbn; congruence|by left]].
    apply ev_next. cbn [statement]. rewrite (read_paren ts e _ He). cbn [bind].
    rewrite require_eq. cbn [bind]. evb Hcs. rewrite require_eq. cbn [bind]. by apply ev_const.
  - (* try catch *)
    intros r b x r1 h r' Hb IHb Hh IHh Hf Hj Hs. cbn [else_safe] in Hs.
    apply andb_prop in Hs as [Hsb Hsh].
    destruct (IHb ltac:(jump) Hsb) as (b' & Heb & Hstb).
    destruct (IHh ltac:(jump) Hsh) as (h' & Heh & Hsth).
    exists (JTryCatch b' x h'), r'. split; [|split; [cbn; congruence|by left]].
    apply ev_next. cbn [statement]. evb Heb. rewrite consume_eq.
    destruct (block_head _ _ _ Hh) as [r0 E]. rewrite (catch_reads x r1 _ r0 E) by done.
    cbn [bind]. evb Heh. assert (consume_if (TStm WFinally) r' = None) as ->.
    { destruct (consume_if _ r') eqn:E'; [|done]. apply consume_some in E'. by apply Hf in E'. }
    by apply ev_const.
  - (* try finally *)
    intros r b r1 f r' Hb IHb Hf IHf Hj Hs. cbn [else_safe] in Hs.
    apply andb_prop in Hs as [Hsb Hsf].
    destruct (IHb ltac:(jump) Hsb) as (b' & Heb & Hstb).
    destruct (IHf ltac:(jump) Hsf) as (f' & Hef & Hstf).
    exists (JTryFinally b' f'), r'. split; [|split; [cbn; congruence|by left]].
    apply ev_next. cbn [statement]. evb Heb. rewrite consume_other by done.
    rewrite require_eq. cbn [bind]. evb Hef. by apply ev_const.
  - (* try catch finally *)
    intros r b x r1 h r2 f r' Hb IHb Hh IHh Hf IHf Hj Hs. cbn [else_safe] in Hs.
    apply andb_prop in Hs as [Hs Hsf]. apply andb_prop in Hs as [Hsb Hsh].
    destruct (IHb ltac:(jump) Hsb) as (b' & Heb & Hstb).
    destruct (IHh ltac:(jump) Hsh) as (h' & Heh & Hsth).
    destruct (IHf ltac:(jump) Hsf) as (f' & Hef & Hstf).
    exists (JTryBoth b' x h' f'), r'. split; [|split; [cbn; congruence|by left]].
    apply ev_next. cbn [statement]. evb Heb. rewrite consume_eq.
    destruct (block_head _ _ _ Hh) as [r0 E]. rewrite (catch_reads x r1 _ r0 E) by done.
    cbn [bind]. evb Heh. rewrite consume_eq. evb Hef. by apply ev_const.
  - (* throw *)
    intros ts e r r' He Hsc Hj Hs. exists (JThrow e), r'. split; [|auto].
    apply ev_next. cbn [statement]. apply ev_const. by apply (read_expr_end JThrow).
  - (* return *)
    intros ts e r r' He Hsc Hj Hs. exists (JReturn e), r'. split; [|auto].
    apply ev_next. cbn [statement]. apply ev_const. by apply return_reads.
  - (* break *)
    intros l r r' Hsc Hj Hs.
    destruct (jump_reads WBreak l r r' eq_refl Hj Hsc) as (r1 & E & Hr).
    exists (JBreak l), r1. split; [|split; [done|]].
    + apply ev_next. cbn [statement]. rewrite E. by apply ev_const.
    + destruct Hr as [-> | [[x ->] ->]]; auto.
  - (* continue *)
    intros l r r' Hsc Hj Hs.
    destruct (jump_reads WContinue l r r' eq_refl Hj Hsc) as (r1 & E & Hr).
    exists (JContinue l), r1. split; [|split; [done|]].
    + apply ev_next. cbn [statement]. rewrite E. by apply ev_const.
    + destruct Hr as [-> | [[x ->] ->]]; auto.
  - (* label *)
    intros l r a r' Ht IH Hj Hs. cbn [else_safe] in Hs.
    destruct (IH ltac:(jump) Hs) as (a' & r1 & Ha & Hst & Hr).
    exists (JLabel l a'), r1. split; [|split; [cbn; congruence|exact Hr]].
    apply ev_next. cbn [statement label_of]. evb Ha. by apply ev_const.
  - (* with *)
    intros ts e r a r' He Ht IH Hj Hs. cbn [else_safe] in Hs.
    destruct (IH ltac:(jump) Hs) as (a' & r1 & Ha & Hst & Hr).
    exists (JWith e a'), r1. split; [|split; [cbn; congruence|exact Hr]].
    apply ev_next. cbn [statement]. rewrite (read_paren ts e r He). cbn [bind].
    evb Ha. by apply ev_const.
  - (* debugger *)
    intros r r' Hsc Hj Hs. exists JDebugger, r. split; [|split; [done|]].
    + apply ev_next. cbn [statement]. by apply ev_const.
    + destruct Hsc as [-> | [-> _]]; auto.
  - (* block *)
    intros r ss r' Hl IH Hj Hs.
    destruct (IH ltac:(jump) Hs [TStm WRBrace] (TStm WRBrace) r' eq_refl ltac:(set_solver)
      ltac:(set_solver)) as (ss' & Hss & Hst).
    exists ss'. split; [|done]. apply ev_next. cbn [block]. rewrite require_eq. cbn [bind].
    evb Hss. rewrite require_eq. by apply ev_const.
  - (* statement *) done.
  - (* let, const *)
    intros k ts ds r r' Hk Hd Hsc Hj Hs. exists (JDecl k ds), r'. split; [|auto].
    apply ev_next. destruct k; [done| |]; cbn [statement kind_word kind_of]; apply ev_const;
      (rewrite (decls_read ts ds r r'); [done|done|done|]; rewrite app_length; lia).
  - (* function *)
    intros f ts ps r ss r' Hn Hb IH Hj Hs. cbn [else_safe] in Hs.
    destruct (IH ltac:(jump) Hs) as (ss' & Hss & Hst).
    exists (JFun f ps ss'), r'. split; [|split; [cbn; congruence|by left]].
    apply ev_next. cbn [statement take_name]. rewrite require_eq. cbn [bind].
    rewrite (names_read ts ps r) by (done || (rewrite app_length; lia)). cbn [bind].
    evb Hss. by apply ev_const.
  - (* no more items *)
    intros r Hj Hs ends t r0 -> Ht He. exists JNil. split; [|done].
    apply ev_next. cbn [statements]. unfold is_term. rewrite bool_decide_eq_true_2 by done.
    by apply ev_const.
  - (* one more item *)
    intros r s r1 ss r' Hi IHi Hl IHl Hj Hs ends t r0 -> Ht He. cbn [else_safes] in Hs.
    apply andb_prop in Hs as [Hs1 Hs2].
    destruct (IHi Hj Hs1) as (s' & ra & Ha & Hst & Hr).
    destruct (IHl ltac:(jump) Hs2 ends t r0 eq_refl Ht He) as (ss' & Hss & Hsts).
    destruct Hr as [-> | [_ ->]].
    + exists (JCons s' ss'). split; [|by apply strips_cons].
      eapply step_statements; [by eapply item_not_end|done|exact Ha|exact Hss].
    + exists (JCons s' (JCons JEmpty ss')). split; [|by apply strips_cons].
      eapply step_statements; [by eapply item_not_end|done|exact Ha|].
      eapply step_statements; [apply word_not_end; set_solver|done| |exact Hss].
      apply ev_next. cbn [statement]. by apply ev_const.
  - (* block body *)
    intros r ss r' Hb IH Hj Hs. destruct (IH Hj Hs) as (ss' & Hss & Hst).
    exists ss', r'. split; [|auto]. apply ev_next. destruct (block_head _ _ _ Hb) as [r0 ->].
    cbn [for_body]. rewrite consume_eq. exact Hss.
  - (* other body *)
    intros r s r' Ht IH Hb Hj Hs. cbn [else_safes] in Hs. apply andb_prop in Hs as [Hs _].
    destruct (IH Hj Hs) as (s' & r1 & Ha & Hst & Hr).
    exists (JCons s' JNil), r1. split; [|split; [by apply strips_cons|exact Hr]].
    apply ev_next. cbn [for_body]. rewrite (stmt_no_brace _ _ _ Ht Hb).
    evb Ha. by apply ev_const.
  - (* no more cases *)
    intros r Hj Hs [r0 ->]. exists KNil. split; [|done]. apply ev_next. cbn [switch_cases].
    rewrite consume_eq. by apply ev_const.
  - (* case *)
    intros ts e r ss r1 cs r' He Hl IHl Hc IHc Hj Hs [r0 ->]. cbn [else_safe_cases] in Hs.
    apply andb_prop in Hs as [Hs1 Hs2].
    destruct (cases_head _ _ _ Hc) as (t & r2 & E & Ht).
    destruct (IHl ltac:(jump) Hs1 [TStm WCase; TStm WDefault; TStm WRBrace] t r2 E Ht
      ltac:(set_solver)) as (ss' & Hss & Hst).
    destruct (IHc ltac:(jump) Hs2 ltac:(eauto)) as (cs' & Hcs & Hstc).
    exists (KCase (Some e) ss' cs'). split; [|cbn; congruence].
    apply ev_next. cbn [switch_cases]. rewrite consume_other by done. rewrite consume_eq.
    rewrite (read_expr ts e [TColon] TColon r); [|done| | |set_solver].
    + cbn [bind]. rewrite require_eq. cbn [bind]. evb Hss. evb Hcs. by apply ev_const.
    + apply terms_ok_1. set_solver.
    + set_solver.
  - (* default *)
    intros r ss r1 cs r' Hl IHl Hc IHc Hj Hs [r0 ->]. cbn [else_safe_cases] in Hs.
    apply andb_prop in Hs as [Hs1 Hs2].
    destruct (cases_head _ _ _ Hc) as (t & r2 & E & Ht).
    destruct (IHl ltac:(jump) Hs1 [TStm WCase; TStm WDefault; TStm WRBrace] t r2 E Ht
      ltac:(set_solver)) as (ss' & Hss & Hst).
    destruct (IHc ltac:(jump) Hs2 ltac:(eauto)) as (cs' & Hcs & Hstc).
    exists (KCase None ss' cs'). split; [|cbn; congruence].
    apply ev_next. cbn [switch_cases]. rewrite consume_other by done.
    rewrite consume_other by done. rewrite require_eq. cbn [bind].
    rewrite require_eq. cbn [bind]. evb Hss. evb Hcs. by apply ev_const.
Qed.
