(** The parser reads every phrase of the grammar as its tree. *)
From stdpp Require Import base decidable numbers sets list.
From Coq Require Import ZifyBool.
From Verif Require Import PrintModel PrattModel PrintSpec PrattProofs PrintProofs GrammarSpec.

(** The precedence of the loosest operator a phrase may have at its root. *)
Definition lvl (n : nonterminal) : nat :=
  match n with
  | PrimaryExpression | MemberExpression | NewExpression | CallExpression
  | OptionalExpression | LeftHandSideExpression | AssignmentTarget => 18
  | UpdateExpression => 17
  | UnaryExpression => 16
  | ExponentiationExpression => 15
  | MultiplicativeExpression => 14
  | AdditiveExpression => 13
  | ShiftExpression => 12
  | RelationalExpression => 11
  | EqualityExpression => 10
  | BitwiseANDExpression => 9
  | BitwiseXORExpression => 8
  | BitwiseORExpression => 7
  | LogicalANDExpression => 6
  | LogicalORExpression => 5
  | CoalesceExpressionHead | CoalesceExpression | ShortCircuitExpression => 5
  | ConditionalExpression => 4
  | AssignmentExpression => 3
  | Expression => 1
  end.

(** A phrase keeps out what follows it if that binds less tightly. *)
Definition edge (n : nonterminal) : nat :=
  match n with
  | PrimaryExpression | MemberExpression | CallExpression | OptionalExpression
  | AssignmentTarget => 100
  | NewExpression | LeftHandSideExpression => 18
  | UpdateExpression | UnaryExpression => 16
  | ExponentiationExpression => 15
  | MultiplicativeExpression => 15
  | AdditiveExpression => 14
  | ShiftExpression => 13
  | RelationalExpression => 12
  | EqualityExpression => 11
  | BitwiseANDExpression => 10
  | BitwiseXORExpression => 9
  | BitwiseORExpression => 8
  | LogicalANDExpression => 7
  | LogicalORExpression => 6
  | CoalesceExpressionHead | CoalesceExpression | ShortCircuitExpression => 6
  | ConditionalExpression | AssignmentExpression | Expression => 2
  end.

Definition reads (n : nonterminal) (toks : list token) (e : expr) (par : bool) : Prop :=
  forall terms q rest r,
  terms_ok terms -> q <= lvl n -> (TOp BComma ∈ terms -> n <> Expression) ->
  keeps_out false (edge n) terms rest ->
  pl false q terms e par rest r ->
  pe false q terms (toks ++ rest) r.

Definition heads (toks : list token) : Prop :=
  exists t r, toks = t :: r /\ starts_operand t = true.

Definition plain (n : nonterminal) : Prop := 4 <= lvl n.

(** Targets of [new]. *)
Definition new_reads (toks : list token) (f : expr) (rest : list token) : Prop :=
  forall terms, terms_ok terms -> exists f0 b r0,
  po false terms (toks ++ rest) (f0, b, r0) /\
  forall r, pc false f rest r -> pc false f0 r0 r.

Definition no_link (rest : list token) : Prop :=
  fst (link_of rest) = LEnd /\ consume_if TLPar rest = None.

Definition G (n : nonterminal) (toks : list token) (e : expr) : Prop :=
  heads toks /\
  (exists par,
    (plain n -> bare_yield e par = false) /\
    (17 <= lvl n -> bad_exp_base e par = false) /\
    (n = AssignmentTarget -> good_target e par = true) /\
    reads n toks e par) /\
  (n = PrimaryExpression \/ n = MemberExpression -> forall rest, new_reads toks e rest) /\
  (n = NewExpression -> forall rest, no_link rest -> new_reads toks e rest).

Definition GA (toks : list token) (its : items) : Prop :=
  forall rest, pa false (toks ++ TRPar :: rest) (its, TRPar :: rest).
Definition GE (toks : list token) (its : items) : Prop :=
  forall rest, pi false (toks ++ TRBr :: rest) (its, TRBr :: rest).

Lemma heads_app toks rest : heads toks -> heads (toks ++ rest).
Proof. intros (t & r & -> & H). by exists t, (r ++ rest). Qed.

Lemma heads_no_dot toks rest : heads toks -> consume_if TDot (toks ++ rest) = None.
Proof.
  intros (t & r & -> & H). cbn [app]. apply consume_ne. intros ->. done.
Qed.

(** Reading a phrase in brackets, and up to a terminator. *)
Lemma reads_until n toks e par t rest :
  reads n toks e par ->
  t ∈ [TRPar; TRBr; TColon; TEnd; TStm WSemi; TStm WRBrace] ->
  1 <= lvl n ->
  pe false 1 [t] (toks ++ t :: rest) (e, par, t :: rest).
Proof.
  intros HR Ht Hl.
  assert (Hterm : is_term [t] t = true)
    by (apply bool_decide_eq_true, elem_of_list_singleton; done).
  apply HR.
  - apply terms_ok_1. set_solver.
  - done.
  - intros Hc. apply elem_of_list_singleton in Hc. subst t. set_solver.
  - by left.
  - apply loop_stop; [lia|]. by left.
Qed.

Lemma G_until n toks e t rest :
  G n toks e -> t ∈ [TRPar; TRBr; TColon; TEnd; TStm WSemi; TStm WRBrace] ->
  exists par, pe false 1 [t] (toks ++ t :: rest) (e, par, t :: rest).
Proof.
  intros (_ & (par & _ & _ & _ & HR) & _) Ht. exists par.
  eapply reads_until; [done..|]. destruct n; cbn; lia.
Qed.

(** An element of a list, up to the comma or the closing token. *)
Lemma G_element toks e t u rest :
  G AssignmentExpression toks e -> t ∈ [TRPar; TRBr] -> u = TOp BComma \/ u = t ->
  exists par, pe false 1 [TOp BComma; t] (toks ++ u :: rest) (e, par, u :: rest).
Proof.
  intros (_ & (par & _ & _ & _ & HR) & _) Ht Hu. exists par.
  assert (Hterm : is_term [TOp BComma; t] u = true).
  { apply bool_decide_eq_true. destruct Hu as [->| ->]; set_solver. }
  apply HR.
  - apply terms_ok_2; set_solver.
  - cbn. lia.
  - done.
  - by left.
  - apply loop_stop; [lia|]. by left.
Qed.

Lemma spread_taken sp toks rest :
  heads toks ->
  take_spread ((spread_tokens sp ++ toks) ++ rest) = (sp, toks ++ rest) /\
  (forall t, t ∈ [TRPar; TRBr; TOp BComma] ->
    consume_if t ((spread_tokens sp ++ toks) ++ rest) = None).
Proof.
  intros (t & r & -> & H). destruct sp; cbn [spread_tokens app]; split.
  - unfold take_spread. by rewrite consume_hd.
  - intros u Hu. apply consume_ne. intros <-. revert Hu. notin.
  - unfold take_spread. rewrite consume_ne; [done|]. by intros ->.
  - intros u Hu. apply consume_ne. intros ->.
    repeat (apply elem_of_cons in Hu as [->|Hu]; [done|]). by apply elem_of_nil in Hu.
Qed.

Lemma GA_none : GA [] INil.
Proof. intros rest. apply pa_nil. Qed.

Lemma GA_last sp toks e :
  G AssignmentExpression toks e -> GA (spread_tokens sp ++ toks) (IItem sp e INil).
Proof.
  intros HG rest.
  destruct (G_element toks e TRPar TRPar rest HG) as (par & n & H); [set_solver|by right|].
  destruct (spread_taken sp toks (TRPar :: rest) (proj1 HG)) as [E1 E2].
  exists (S n). cbn [call_args]. rewrite E2 by set_solver. rewrite E1, H. cbn [bind].
  by rewrite consume_ne.
Qed.

Lemma GA_more sp toks e toks2 its :
  G AssignmentExpression toks e -> GA toks2 its ->
  GA (spread_tokens sp ++ toks ++ TOp BComma :: toks2) (IItem sp e its).
Proof.
  intros HG HA rest.
  destruct (G_element toks e TRPar (TOp BComma) (toks2 ++ TRPar :: rest) HG)
    as (par & n & H); [set_solver|by left|].
  destruct (HA rest) as (n2 & H2).
  destruct (spread_taken sp toks (TOp BComma :: toks2 ++ TRPar :: rest) (proj1 HG)) as [E1 E2].
  replace ((spread_tokens sp ++ toks ++ TOp BComma :: toks2) ++ TRPar :: rest)
    with ((spread_tokens sp ++ toks) ++ TOp BComma :: toks2 ++ TRPar :: rest)
    by (by rewrite <- !app_assoc).
  exists (S (n `max` n2)). cbn [call_args]. rewrite E2 by set_solver. rewrite E1.
  rewrite (up_e _ _ _ _ _ _ _ H) by lia. cbn [bind]. rewrite consume_hd.
  rewrite (up_a _ _ _ _ _ H2) by lia. done.
Qed.

Lemma GE_none : GE [] INil.
Proof. intros rest. exists 1. done. Qed.

Lemma GE_hole toks its : GE toks its -> GE (TOp BComma :: toks) (IHole its).
Proof.
  intros HE rest. destruct (HE rest) as (n & H). exists (S n). cbn [array_items app].
  rewrite consume_hd. by rewrite H.
Qed.

Lemma GE_last sp toks e :
  G AssignmentExpression toks e -> GE (spread_tokens sp ++ toks) (IItem sp e INil).
Proof.
  intros HG rest.
  destruct (G_element toks e TRBr TRBr rest HG) as (par & n & H); [set_solver|by right|].
  destruct (spread_taken sp toks (TRBr :: rest) (proj1 HG)) as [E1 E2].
  exists (S n). cbn [array_items]. rewrite !E2 by set_solver. rewrite E1, H. cbn [bind].
  by rewrite consume_hd.
Qed.

Lemma GE_more sp toks e toks2 its :
  G AssignmentExpression toks e -> GE toks2 its ->
  GE (spread_tokens sp ++ toks ++ TOp BComma :: toks2) (IItem sp e its).
Proof.
  intros HG HA rest.
  destruct (G_element toks e TRBr (TOp BComma) (toks2 ++ TRBr :: rest) HG)
    as (par & n & H); [set_solver|by left|].
  destruct (HA rest) as (n2 & H2).
  destruct (spread_taken sp toks (TOp BComma :: toks2 ++ TRBr :: rest) (proj1 HG)) as [E1 E2].
  replace ((spread_tokens sp ++ toks ++ TOp BComma :: toks2) ++ TRBr :: rest)
    with ((spread_tokens sp ++ toks) ++ TOp BComma :: toks2 ++ TRBr :: rest)
    by (by rewrite <- !app_assoc).
  exists (S (n `max` n2)). cbn [array_items]. rewrite !E2 by set_solver. rewrite E1.
  rewrite (up_e _ _ _ _ _ _ _ H) by lia. cbn [bind]. rewrite consume_ne by done.
  rewrite require_hd. cbn [bind]. rewrite (up_i _ _ _ _ _ H2) by lia. done.
Qed.

(** *** Operands *)

Lemma operand_reads n toks e par :
  (forall terms rest, terms_ok terms -> keeps_out false (edge n) terms rest ->
     po false terms (toks ++ rest) (e, par, rest)) ->
  (4 <= lvl n -> bare_yield e par = false) ->
  reads n toks e par.
Proof.
  intros HO Hy terms q rest r Ht Hq _ Hk Hl.
  eapply pe_intro; [by apply HO| |done].
  destruct (3 <? q) eqn:E; [|done]. cbn [andb]. apply Hy. lia.
Qed.

Lemma new_reads_operand toks e :
  (forall terms rest, terms_ok terms -> exists b,
     po false terms (toks ++ rest) (e, b, rest)) ->
  forall rest, new_reads toks e rest.
Proof.
  intros HO rest terms Ht. destruct (HO terms rest Ht) as (b & H).
  exists e, b, rest. done.
Qed.

Lemma G_chain n m toks e : chain n m -> G m toks e -> G n toks e.
Proof.
  intros Hc (Hh & (par & H1 & H2 & H3 & HR) & H4 & H5).
  assert (Hl : lvl n <= lvl m) by (destruct Hc; cbn; lia).
  assert (He : edge n <= edge m) by (destruct Hc; cbn; lia).
  assert (Hx : m <> Expression) by (by destruct Hc).
  assert (Hn : n <> AssignmentTarget) by (by destruct Hc).
  split; [done|]. split; [|split].
  - exists par. split; [|split; [|split]].
    + unfold plain in *. intros Hp. apply H1. lia.
    + intros Hp. apply H2. lia.
    + done.
    + intros terms q rest r Ht Hq _ Hk Hp. apply HR; try done.
      * lia.
      * eapply keeps_out_weaken; [done|lia].
  - intros [->| ->]; inversion Hc; subst. apply H4. by left.
  - intros ->; inversion Hc; subst. intros rest _. apply H4. by right.
Qed.

Lemma G_atom t e :
  start_of t = SName e -> starts_operand t = true ->
  bare_yield e false = false -> bad_exp_base e false = false ->
  G PrimaryExpression [t] e.
Proof.
  intros Hs Hh Hy Hb. split; [by exists t, []|]. split; [|split; [|done]].
  - exists false. split; [done|]. split; [done|]. split; [done|].
    apply operand_reads; [|done]. intros. by apply po_name.
  - intros _. apply new_reads_operand. intros. eexists. by apply po_name.
Qed.

Lemma G_array toks its : GE toks its -> G PrimaryExpression (TLBr :: toks ++ [TRBr]) (EArr its).
Proof.
  intros HE.
  assert (HO : forall terms rest,
    po false terms ((TLBr :: toks ++ [TRBr]) ++ rest) (EArr its, false, rest)).
  { intros. cbn [app]. rewrite <- app_assoc. apply po_array, HE. }
  split; [by eexists _, _|]. split; [|split; [|done]].
  - exists false. do 3 (split; [done|]). by apply operand_reads.
  - intros _. apply new_reads_operand. eauto.
Qed.

Lemma bare_par e : bare_yield e true = false.
Proof. by destruct e as [| |[] ?| | | | | | | | | |]. Qed.
Lemma bad_par e : bad_exp_base e true = false.
Proof. by destruct e as [| |[] ?| | | | | | | | |[]|]. Qed.

Lemma G_parens toks e : G Expression toks e -> G PrimaryExpression (TLPar :: toks ++ [TRPar]) e.
Proof.
  intros HG.
  assert (HO : forall terms rest,
    po false terms ((TLPar :: toks ++ [TRPar]) ++ rest) (e, true, rest)).
  { intros. cbn [app]. rewrite <- app_assoc.
    destruct (G_until _ _ _ TRPar rest HG) as (par & H); [set_solver|].
    by eapply po_group. }
  split; [by eexists _, _|]. split; [|split; [|done]].
  - exists true. split; [intros; apply bare_par|]. split; [intros; apply bad_par|].
    split; [done|]. apply operand_reads; [done|]. intros; apply bare_par.
  - intros _. apply new_reads_operand. eauto.
Qed.

(** *** Postfix chains *)

Lemma keeps_any terms t rest j :
  tok_prec false t = Some j -> j < 100 -> keeps_out false 100 terms (t :: rest).
Proof. intros H Hj. right. eauto. Qed.

Lemma access_shape n m opt :
  access n m opt ->
  edge n = 100 /\ edge m = 100 /\ lvl n = 18 /\ lvl m = 18 /\ n <> PrimaryExpression /\
  n <> NewExpression /\ m <> Expression /\
  (n = AssignmentTarget -> opt = false) /\
  (n = MemberExpression -> opt = false /\ m = MemberExpression).
Proof. destruct 1; repeat split; done. Qed.

Lemma application_shape n m opt :
  application n m opt ->
  edge n = 100 /\ edge m = 100 /\ lvl n = 18 /\ lvl m = 18 /\ n <> PrimaryExpression /\
  n <> NewExpression /\ m <> Expression /\ n <> AssignmentTarget /\ n <> MemberExpression.
Proof. destruct 1; repeat split; done. Qed.

Lemma G_member n m opt toks e x :
  access n m opt -> G m toks e ->
  G n (toks ++ [if opt : bool then TQDot else TDot; TId x]) (EMember opt e x).
Proof.
  intros Ha (Hh & (par & H1 & H2 & _ & HR) & H4 & H5).
  destruct (access_shape _ _ _ Ha) as (En & Em & Ln & Lm & Np & Nn & Nx & Nt & Nm).
  split; [by apply heads_app|]. split; [|split].
  - exists false. do 2 (split; [done|]). split.
    { intros ->. by rewrite Nt. }
    intros terms q rest r Ht Hq _ Hk Hl. rewrite <- app_assoc. cbn [app].
    apply HR; [done|lia|done|..].
    + rewrite Em. destruct opt; eapply keeps_any; try done; cbn; unfold call_prec; lia.
    + apply pl_member; try done.
      * apply term_ok_not; [done|]. destruct opt; notin.
      * unfold call_prec. lia.
      * apply H1. unfold plain. lia.
  - intros [->| ->]; [done|]. destruct (Nm eq_refl) as [-> ->].
    intros rest terms Ht. rewrite <- app_assoc. cbn [app].
    destruct (H4 (or_intror eq_refl) (TDot :: TId x :: rest) terms Ht) as (f0 & b & r0 & HO & HC).
    exists f0, b, r0. split; [done|]. intros r Hr. by apply HC, pc_member.
  - done.
Qed.

Lemma G_index n m opt toks e toks2 i :
  access n m opt -> G m toks e -> G Expression toks2 i ->
  G n (toks ++ (if opt : bool then TQLBr else TLBr) :: toks2 ++ [TRBr]) (EIndex opt e i).
Proof.
  intros Ha (Hh & (par & H1 & H2 & _ & HR) & H4 & H5) HI.
  destruct (access_shape _ _ _ Ha) as (En & Em & Ln & Lm & Np & Nn & Nx & Nt & Nm).
  split; [by apply heads_app|]. split; [|split].
  - exists false. do 2 (split; [done|]). split.
    { intros ->. by rewrite Nt. }
    intros terms q rest r Ht Hq _ Hk Hl. rewrite <- app_assoc. cbn [app].
    rewrite <- app_assoc. cbn [app].
    destruct (G_until _ _ _ TRBr rest HI) as (pi & HP); [set_solver|].
    apply HR; [done|lia|done|..].
    + rewrite Em. destruct opt; eapply keeps_any; try done; cbn; unfold call_prec; lia.
    + eapply pl_index; try done.
      * apply term_ok_not; [done|]. destruct opt; notin.
      * unfold call_prec. lia.
      * apply H1. unfold plain. lia.
  - intros [->| ->]; [done|]. destruct (Nm eq_refl) as [-> ->].
    intros rest terms Ht. rewrite <- app_assoc. cbn [app].
    rewrite <- app_assoc. cbn [app].
    destruct (G_until _ _ _ TRBr rest HI) as (pi & HP); [set_solver|].
    destruct (H4 (or_intror eq_refl) (TLBr :: toks2 ++ TRBr :: rest) terms Ht)
      as (f0 & b & r0 & HO & HC).
    exists f0, b, r0. split; [done|]. intros r Hr. apply HC. by eapply pc_index.
  - done.
Qed.

Lemma G_call n m opt toks f toks2 args :
  application n m opt -> G m toks f -> GA toks2 args ->
  G n (toks ++ (if opt : bool then TQLPar else TLPar) :: toks2 ++ [TRPar]) (ECall opt f args).
Proof.
  intros Ha (Hh & (par & H1 & H2 & _ & HR) & H4 & H5) HI.
  destruct (application_shape _ _ _ Ha) as (En & Em & Ln & Lm & Np & Nn & Nx & Nt & Nm).
  split; [by apply heads_app|]. split; [|split].
  - exists false. do 3 (split; [done|]).
    intros terms q rest r Ht Hq _ Hk Hl. rewrite <- app_assoc. cbn [app].
    rewrite <- app_assoc. cbn [app].
    apply HR; [done|lia|done|..].
    + rewrite Em. destruct opt; eapply keeps_any; try done; cbn; unfold call_prec; lia.
    + eapply pl_call; try done.
      * apply term_ok_not; [done|]. destruct opt; notin.
      * unfold call_prec. lia.
      * apply H1. unfold plain. lia.
  - by intros [->| ->].
  - done.
Qed.

Lemma G_new_call toks f toks2 args :
  G MemberExpression toks f -> GA toks2 args ->
  G MemberExpression (TNew :: toks ++ TLPar :: toks2 ++ [TRPar]) (ENew (ECall false f args)).
Proof.
  intros (Hh & _ & H4 & _) HA.
  assert (HO : forall terms rest, terms_ok terms ->
    po false terms ((TNew :: toks ++ TLPar :: toks2 ++ [TRPar]) ++ rest)
       (ENew (ECall false f args), false, rest)).
  { intros terms rest Ht. cbn [app]. rewrite <- app_assoc. cbn [app].
    rewrite <- app_assoc. cbn [app].
    destruct (H4 (or_intror eq_refl) (TLPar :: toks2 ++ TRPar :: rest) terms Ht)
      as (f0 & b & r0 & HO & HC).
    eapply po_new_call; [by apply heads_no_dot|done| |apply HA].
    apply HC, pc_end. done. }
  split; [by eexists _, _|]. split; [|split; [|done]].
  - exists false. do 3 (split; [done|]). apply operand_reads; [|done]. auto.
  - intros _. apply new_reads_operand. eauto.
Qed.

Lemma keeps_no_link terms rest :
  terms_ok terms -> keeps_out false 18 terms rest -> no_link rest.
Proof.
  intros Ht. destruct rest as [|t rest]; [done|]. intros [H|(j & H1 & H2)].
  - apply bool_decide_eq_true in H. apply Ht in H.
    repeat (apply elem_of_cons in H as [->|H]; [by split|]). by apply elem_of_nil in H.
  - split.
    + destruct t; try done; cbn in H1; injection H1 as <-; unfold call_prec in H2; lia.
    + apply consume_ne. intros ->. cbn in H1. injection H1 as <-. unfold call_prec in H2. lia.
Qed.

Lemma G_new_bare toks f :
  G NewExpression toks f -> G NewExpression (TNew :: toks) (ENew f).
Proof.
  intros (Hh & _ & _ & H5).
  assert (HO : forall terms rest, terms_ok terms -> no_link rest ->
    po false terms ((TNew :: toks) ++ rest) (ENew f, false, rest)).
  { intros terms rest Ht Hl. cbn [app].
    destruct (H5 eq_refl rest Hl terms Ht) as (f0 & b & r0 & HO & HC).
    eapply po_new_bare; [by apply heads_no_dot|done| |apply Hl].
    apply HC, pc_end, Hl. }
  split; [by eexists _, _|]. split; [|split].
  - exists false. do 3 (split; [done|]). apply operand_reads; [|done].
    intros terms rest Ht Hk. apply HO; [done|]. by eapply keeps_no_link.
  - by intros [?|?].
  - intros _ rest Hl terms Ht. exists (ENew f), false, rest. auto.
Qed.

Lemma G_target_name x : G AssignmentTarget [TId x] (EId x).
Proof.
  split; [by eexists _, _|]. split; [|split; [by intros [?|?]|done]].
  exists false. do 3 (split; [done|]). apply operand_reads; [|done].
  intros. by apply po_name.
Qed.

(** *** Operators *)

Lemma G_postfix toks e (dec : bool) :
  G LeftHandSideExpression toks e ->
  G UpdateExpression (toks ++ [if dec then TDec else TInc]) (EPostfix dec e).
Proof.
  intros (Hh & (par & H1 & H2 & _ & HR) & _).
  split; [by apply heads_app|]. split; [|split; [by intros [?|?]|done]].
  exists false. do 3 (split; [done|]).
  intros terms q rest r Ht Hq _ Hk Hl. rewrite <- app_assoc. cbn [app].
  cbn [lvl] in Hq. apply HR; [done|cbn; lia|done|..].
  - right. exists 17. split; [by destruct dec|cbn; lia].
  - apply pl_postfix; [|unfold postfix_prec; lia|done].
    apply term_ok_not; [done|]. destruct dec; notin.
Qed.

Lemma keeps_operand n toks e terms rest q k :
  G n toks e -> terms_ok terms -> q <= 16 -> q <= lvl n -> n <> Expression ->
  k <= edge n -> k <= q -> keeps_out false k terms rest ->
  exists par, pe false q terms (toks ++ rest) (e, par, rest).
Proof.
  intros (_ & (par & _ & _ & _ & HR) & _) Ht Hq16 Hq Hx He Hkq Hk. exists par.
  apply HR; try done.
  - by eapply keeps_out_weaken.
  - apply keeps_out_stop; [lia|]. by eapply keeps_out_weaken.
Qed.

Lemma G_prefix n m ts op toks e :
  prefix n ts op m -> G m toks e -> G n (ts ++ toks) (EUnary op e).
Proof.
  intros Hp HG. pose proof (proj1 HG) as Hh.
  assert (Hs : exists t op0 ts', ts = t :: ts' /\ starts_operand t = true /\
    start_of t = SUnary op0 /\
    (forall rest, unary_op op0 (ts' ++ toks ++ rest) = (op, toks ++ rest))).
  { destruct Hh as (h & hr & -> & Hh).
    destruct Hp; eexists _, _, _; repeat split; try done; intros rest; cbn [app unary_op].
    rewrite consume_ne; [done|]. by intros ->. }
  destruct Hs as (t & op0 & ts' & -> & Hst & Hop & Hun).
  assert (Hm : m <> Expression) by (by destruct Hp).
  assert (Hop_m : un_prec op <= lvl m /\ un_prec op <= 16) by (destruct Hp; cbn; lia).
  assert (Hed : edge n <= un_prec op) by (destruct Hp; cbn; lia).
  assert (Hhas : forall terms rest, terms_ok terms ->
    has_operand op terms (toks ++ rest) = true).
  { intros terms rest Ht. destruct Hh as (h & hr & -> & Hh). cbn [app has_operand].
    rewrite (starts_not_term _ _ Ht Hh), Hh. by destruct op. }
  assert (HO : forall terms rest, terms_ok terms -> keeps_out false (edge n) terms rest ->
    po false terms (((t :: ts') ++ toks) ++ rest) (EUnary op e, false, rest)).
  { intros terms rest Ht Hk. cbn [app]. rewrite <- app_assoc.
    destruct HG as (_ & (par & _ & _ & _ & HR) & _).
    eapply (po_unary _ _ _ _ _ _ _ _ par); [done|apply Hun|by apply Hhas|].
    apply HR; [done|lia|done|..].
    - eapply keeps_out_weaken; [done|]. destruct Hp; cbn; lia.
    - apply keeps_out_stop; [lia|]. by eapply keeps_out_weaken. }
  split; [by exists t, (ts' ++ toks)|]. split; [|split].
  - exists false. split; [destruct Hp; cbn; try done; intros H; unfold plain in H; cbn in H; lia|].
    split; [destruct Hp; cbn; try done; lia|]. split; [by destruct Hp|].
    apply operand_reads; [done|]. destruct Hp; cbn; try done; lia.
  - destruct Hp; by intros [?|?].
  - by destruct Hp.
Qed.

Lemma G_yield : G AssignmentExpression [TYield] (EUnary UYield (EId undefined_name)).
Proof.
  split; [by eexists _, _|]. split; [|split; [by intros [?|?]|done]].
  exists false. split; [unfold plain; cbn; lia|]. split; [cbn; lia|]. split; [done|].
  apply operand_reads; [|cbn; lia].
  intros terms rest Ht Hk. exists 1. cbn [app operand start_of unary_of].
  destruct rest as [|t rest]; [done|].
  assert (Hn : t <> TOp BMul /\ (negb (is_term terms t) && starts_operand t) = false).
  { destruct Hk as [H|(j & H1 & H2)].
    - split; [|by rewrite H]. intros ->. apply bool_decide_eq_true, Ht in H. revert H. notin.
    - cbn in H2. destruct t as [| | |op| | | | | | | | | | | | | | | | | | | | |k| |];
        cbn in H1; try done;
        injection H1 as <-; unfold postfix_prec, call_prec, cond_prec in H2; try lia.
      destruct op; cbn in H2; try lia. split; [done|]. apply andb_false_r. }
  destruct Hn as [Hn1 Hn2]. unfold unary_op. rewrite (consume_ne _ _ _ Hn1).
  cbn [has_operand]. rewrite Hn2. done.
Qed.

Lemma infix_shape n m1 ops m2 op :
  infix n m1 ops m2 -> op ∈ ops ->
  lvl n <= bin_prec op /\ bin_prec op < edge m1 /\ right_min op <= lvl m2 /\
  right_min op <= 16 /\ edge n <= edge m2 /\ edge n <= right_min op /\
  lvl n <= lvl m1 /\ m2 <> Expression /\
  (m1 = Expression -> n = Expression) /\ (op = BComma -> n = Expression) /\
  (n = Expression -> op = BComma) /\
  (3 < bin_prec op -> 4 <= lvl m1) /\
  (op = BExp -> 17 <= lvl m1) /\
  (is_assignment op = true -> m1 = AssignmentTarget).
Proof.
  intros Hi Ho. destruct Hi; unfold assignment_operators in *;
    repeat (apply elem_of_cons in Ho as [->|Ho]; [cbn; repeat split; try done; lia|]);
    by apply elem_of_nil in Ho.
Qed.

Lemma G_infix n m1 ops m2 op toks1 l toks2 r :
  infix n m1 ops m2 -> op ∈ ops -> G m1 toks1 l -> G m2 toks2 r ->
  G n (toks1 ++ TOp op :: toks2) (EBinary op l r).
Proof.
  intros Hi Ho (Hh & (par & H1 & H2 & H3 & HR) & _) HG2.
  destruct (infix_shape _ _ _ _ _ Hi Ho)
    as (S1 & S2 & S3 & S4 & S5 & S6 & S7 & S8 & S9 & S10 & S11 & S12 & S13 & S14).
  split; [by apply heads_app|].
  split; [|split; [by destruct Hi; intros [?|?]|by destruct Hi]].
  exists false. do 2 (split; [done|]). split; [by destruct Hi|].
  intros terms q rest rr Ht Hq Hc Hk Hl. rewrite <- app_assoc. cbn [app].
  assert (Hnt : is_term terms (TOp op) = false).
  { apply (op_not_term _ _ l); [done|]. intros H ->. by apply Hc; [|apply S10]. }
  destruct (keeps_operand m2 toks2 r terms rest (right_min op) (edge n) HG2) as (p2 & HP);
    try done.
  apply HR; [done|lia| |..].
  - intros H ->. by apply Hc; [|apply S9].
  - right. exists (bin_prec op). split; [done|lia].
  - eapply pl_bin; try done.
    + lia.
    + destruct (3 <? bin_prec op) eqn:E; [|by rewrite andb_false_r].
      rewrite andb_true_r. apply H1. unfold plain. apply S12. lia.
    + destruct (decide (op = BExp)) as [He|He].
      * rewrite bool_decide_true by done. cbn [andb]. apply H2. by apply S13.
      * by rewrite bool_decide_false.
    + destruct (is_assignment op) eqn:E; [|done]. by rewrite H3; [|apply S14].
Qed.

Lemma G_conditional toks1 t toks2 c toks3 a :
  G ShortCircuitExpression toks1 t -> G AssignmentExpression toks2 c ->
  G AssignmentExpression toks3 a ->
  G ConditionalExpression (toks1 ++ TQuestion :: toks2 ++ TColon :: toks3) (ECond t c a).
Proof.
  intros (Hh & (par & H1 & H2 & H3 & HR) & _) HC HA.
  split; [by apply heads_app|]. split; [|split; [by intros [?|?]|done]].
  exists false. do 3 (split; [done|]).
  intros terms q rest rr Ht Hq _ Hk Hl. cbn in Hq, Hk.
  rewrite <- app_assoc. cbn [app]. rewrite <- app_assoc. cbn [app].
  destruct (G_until _ _ _ TColon (toks3 ++ rest) HC) as (p2 & HP2); [set_solver|].
  destruct (keeps_operand _ toks3 a terms rest cond_alt_prec 2 HA) as (p3 & HP3);
    try done; try (unfold cond_alt_prec; cbn; lia).
  apply HR; [done|cbn; lia|done|..].
  - right. exists 4. split; [done|cbn; lia].
  - eapply pl_cond; try done.
    + apply term_ok_not; [done|]. notin.
    + apply H1. unfold plain. cbn. lia.
Qed.

Scheme phrase_mind := Minimality for phrase Sort Prop
  with arguments_mind := Minimality for arguments Sort Prop
  with elements_mind := Minimality for elements Sort Prop.
Combined Scheme grammar_ind from phrase_mind, arguments_mind, elements_mind.

Lemma grammar_read :
  (forall n toks e, phrase false n toks e -> G n toks e) /\
  (forall toks its, arguments false toks its -> GA toks its) /\
  (forall toks its, elements false toks its -> GE toks its).
Proof.
  apply grammar_ind; intros.
  - by eapply G_chain.
  - by apply G_atom.
  - by apply G_atom.
  - by apply G_array.
  - by apply G_parens.
  - by eapply G_member.
  - by eapply G_index.
  - by eapply G_call.
  - by apply G_new_call.
  - by apply G_new_bare.
  - apply G_target_name.
  - done.
  - by apply G_postfix.
  - by eapply G_prefix.
  - apply G_yield.
  - by eapply G_infix.
  - by apply G_conditional.
  - apply GA_none.
  - by apply GA_last.
  - by apply GA_more.
  - apply GE_none.
  - by apply GE_hole.
  - by apply GE_last.
  - by apply GE_more.
Qed.

Lemma phrase_parsed toks e :
  phrase false Expression toks e -> parse_js toks = Ok (e, [TEnd]).
Proof.
  intros H. pose proof (proj1 grammar_read _ _ _ H) as HG.
  destruct (G_until _ _ _ TEnd [] HG) as (par & n & HP); [set_solver|].
  apply (parse_js_complete n). unfold parse_with. by rewrite HP.
Qed.

(** *** Inputs outside the grammar *)

(** Without parentheses there are no parenthesised targets. *)
Lemma uncovered :
  (forall n toks e, phrase true n toks e -> TLPar ∉ toks -> phrase false n toks e) /\
  (forall toks its, arguments true toks its -> TLPar ∉ toks -> arguments false toks its) /\
  (forall toks its, elements true toks its -> TLPar ∉ toks -> elements false toks its).
Proof.
  apply grammar_ind; intros.
  - econstructor; eauto.
  - constructor.
  - constructor.
  - constructor. set_solver.
  - set_solver.
  - eapply p_member; [done|]. set_solver.
  - eapply p_index; [done|..]; set_solver.
  - destruct opt; [|set_solver].
    apply (p_call false n m true); [done|..]; set_solver.
  - set_solver.
  - constructor. set_solver.
  - constructor.
  - set_solver.
  - constructor. set_solver.
  - econstructor; [done|]. set_solver.
  - constructor.
  - econstructor; [done..| |]; set_solver.
  - constructor; set_solver.
  - constructor.
  - constructor. set_solver.
  - constructor; set_solver.
  - constructor.
  - constructor. set_solver.
  - constructor. set_solver.
  - constructor; set_solver.
Qed.

(** The operator at the root of an unparenthesised phrase. *)
Lemma phrase_root n toks e :
  phrase false n toks e -> TLPar ∉ toks ->
  forall op l r, e = EBinary op l r ->
  op <> BTypeof /\ lvl n <= bin_prec op /\
  (op = BNullish -> n <> LogicalORExpression) /\
  (op = BLOr -> ~ exists x y, l = EBinary BNullish x y).
Proof.
  induction 1 as [n m toks e Hc _ IH| | | | | | | | | | | | | | |
                  n m1 ops m2 op toks1 l toks2 r Hi Ho _ IH1 _ IH2|]; intros Hn op' l' r' E; try done.
  - destruct (IH Hn op' l' r' E) as (H1 & H2 & H3 & H4).
    split; [done|]. split; [destruct Hc; cbn in *; lia|]. split; [|done].
    intros ->. specialize (H3 eq_refl). destruct Hc; try done. cbn in H2. lia.
  - exfalso. set_solver.
  - injection E as <- <- <-.
    destruct (infix_shape _ _ _ _ _ Hi Ho) as (S1 & _).
    split; [intros ->; destruct Hi; set_solver|]. split; [done|].
    split; [intros ->; destruct Hi; set_solver|].
    intros -> (x & y & ->).
    assert (n = LogicalORExpression /\ m1 = LogicalORExpression) as [-> ->]
      by (destruct Hi; set_solver).
    destruct (IH1 ltac:(set_solver) _ _ _ eq_refl) as (_ & _ & H & _). by apply H.
Qed.

Lemma phrase_cond n toks e :
  phrase false n toks e -> TLPar ∉ toks ->
  forall t l r a, e <> ECond t (EBinary BComma l r) a.
Proof.
  induction 1 as [n m toks e Hc _ IH| | | | | | | | | | | | | | | |
                  toks1 t toks2 c toks3 a _ _ Hc _ _ _]; intros Hn t' l' r' a' E; try done.
  - by eapply IH.
  - set_solver.
  - injection E as -> -> ->.
    destruct (phrase_root _ _ _ Hc ltac:(set_solver) _ _ _ eq_refl) as (_ & H & _).
    cbn in H. lia.
Qed.

Lemma phrase_new n toks e :
  phrase false n toks e -> TLPar ∉ toks ->
  forall op a, (e = EUnary op a -> lvl n <= 17) /\ e <> ENew (EUnary op a).
Proof.
  induction 1 as [n m toks e Hc _ IH| | | | | | | | |toks f Hf IH| | | |n m ts u toks e Hp _ IH| | |];
    intros Hn op' a'; try done.
  - destruct (IH Hn op' a') as [H1 H2]. split; [|done]. intros E. specialize (H1 E).
    destruct Hc; cbn in *; lia.
  - set_solver.
  - split; [done|]. intros [= ->].
    destruct (IH ltac:(set_solver) op' a') as [H1 _]. specialize (H1 eq_refl). cbn in H1. lia.
  - split; [|done]. intros _. destruct Hp; cbn; lia.
  - split; [|done]. intros _. cbn; lia.
Qed.

(** A tree the parser gives to an unparenthesised input is its only candidate. *)
Lemma only_tree toks e e' :
  parse_js toks = Ok (e, [TEnd]) -> TLPar ∉ toks ->
  phrase true Expression toks e' -> phrase false Expression toks e.
Proof.
  intros Hp Hn H. pose proof (proj1 uncovered _ _ _ H Hn) as H'.
  pose proof (phrase_parsed _ _ H') as Hp'. congruence.
Qed.
