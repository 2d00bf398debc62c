(** * Statements: the converse, and the treatment of `if` *)
From stdpp Require Import base decidable numbers list.
From Verif Require Import StmtModel StmtSpec StmtProofs.

Scheme stmt_ev_mut := Minimality for stmt_ev Sort Prop
  with list_ev_mut := Minimality for list_ev Sort Prop
  with block_ev_mut := Minimality for block_ev Sort Prop
  with body_ev_mut := Minimality for body_ev Sort Prop
  with handled_mut := Minimality for handled Sort Prop
  with catch_ev_mut := Minimality for catch_ev Sort Prop
  with finished_mut := Minimality for finished Sort Prop
  with while_ev_mut := Minimality for while_ev Sort Prop
  with do_ev_mut := Minimality for do_ev Sort Prop
  with for_ev_mut := Minimality for for_ev Sort Prop
  with for_of_ev_mut := Minimality for for_of_ev Sort Prop
  with case_block_ev_mut := Minimality for case_block_ev Sort Prop
  with clauses_ev_mut := Minimality for clauses_ev Sort Prop.
Combined Scheme semantics_ind from stmt_ev_mut, list_ev_mut, block_ev_mut, body_ev_mut, handled_mut,
  catch_ev_mut, finished_mut, while_ev_mut, do_ev_mut, for_ev_mut, for_of_ev_mut, case_block_ev_mut,
  clauses_ev_mut.

(** ** The value of an `if` statement does not influence control *)

Section IfValue.
Context {M : machine}.
Context (u1 u2 : completion (value M) -> completion (value M)).
Context (Hu : forall c c', same_control c c' -> same_control (u1 c) (u2 c')).

Lemma same_refl {V} (c : completion V) : same_control c c.
Proof. by destruct c. Qed.

Lemma same_update {V} (c c' : completion V) v v' :
  same_control c c' -> same_control (UpdateEmpty c v) (UpdateEmpty c' v').
Proof. by destruct c, c'. Qed.

Lemma same_unbroken {V} (u : V) (c c' : completion V) :
  same_control c c' -> same_control (unbroken u c) (unbroken u c').
Proof. destruct c as [| | |[] []|], c' as [| | |[] []|]; cbn; intros; by simplify_eq. Qed.

Lemma same_unlabelled {V} l (c c' : completion V) :
  same_control c c' -> same_control (unlabelled l c) (unlabelled l c').
Proof.
  destruct c as [| | |[]|], c' as [| | |[]|]; cbn; intros; simplify_eq; try done. by case_decide.
Qed.

Lemma same_continues {V} (c c' : completion V) ls :
  same_control c c' -> LoopContinues c ls -> LoopContinues c' ls.
Proof. destruct c as [| | | |[]], c' as [| | | |[]]; cbn; intros; by simplify_eq. Qed.

Lemma same_sym {V} (c c' : completion V) : same_control c c' -> same_control c' c.
Proof. by destruct c, c'. Qed.

Lemma same_leaves {V} (c c' : completion V) ls :
  same_control c c' -> ~ LoopContinues c ls -> ~ LoopContinues c' ls.
Proof. intros H Hn Hc. apply Hn. by eapply same_continues; [apply same_sym|]. Qed.

Lemma same_abrupt {V} (c c' : completion V) : same_control c c' -> abrupt c -> abrupt c'.
Proof. by destruct c, c'. Qed.

Lemma same_closed it (c c' : completion (value M)) w r w' :
  same_control c c' -> closed M it c w r w' ->
  exists r', closed M it c' w r' w' /\ same_control r r'.
Proof.
  intros H (x & Hx & Hf & ->). eexists. split; [by exists x|].
  destruct c, c', x; try done; by apply same_refl.
Qed.

Ltac use H := let c := fresh "c'" in let Hc := fresh "Hc" in let Hs := fresh "Hs" in
  destruct H as (c & Hc & Hs).

Lemma if_irrelevant :
  (forall E ls s w c w', stmt_ev M u1 E ls s w c w' ->
     exists c', stmt_ev M u2 E ls s w c' w' /\ same_control c c') /\
  (forall E ss w c w', list_ev M u1 E ss w c w' ->
     exists c', list_ev M u2 E ss w c' w' /\ same_control c c') /\
  (forall E ss w c w', block_ev M u1 E ss w c w' ->
     exists c', block_ev M u2 E ss w c' w' /\ same_control c c') /\
  (forall E ss w c w', body_ev M u1 E ss w c w' ->
     exists c', body_ev M u2 E ss w c' w' /\ same_control c c') /\
  (forall E b h w c w', handled M u1 E b h w c w' -> forall b', same_control b b' ->
     exists c', handled M u2 E b' h w c' w' /\ same_control c c') /\
  (forall E p ss x w c w', catch_ev M u1 E p ss x w c w' ->
     exists c', catch_ev M u2 E p ss x w c' w' /\ same_control c c') /\
  (forall E b f w c w', finished M u1 E b f w c w' -> forall b', same_control b b' ->
     exists c', finished M u2 E b' f w c' w' /\ same_control c c') /\
  (forall E ls t s V w c w', while_ev M u1 E ls t s V w c w' -> forall V',
     exists c', while_ev M u2 E ls t s V' w c' w' /\ same_control c c') /\
  (forall E ls s t V w c w', do_ev M u1 E ls s t V w c w' -> forall V',
     exists c', do_ev M u2 E ls s t V' w c' w' /\ same_control c c') /\
  (forall E ls t p ss V w c w', for_ev M u1 E ls t p ss V w c w' -> forall V',
     exists c', for_ev M u2 E ls t p ss V' w c' w' /\ same_control c c') /\
  (forall E ls b it ss V w c w', for_of_ev M u1 E ls b it ss V w c w' -> forall V',
     exists c', for_of_ev M u2 E ls b it ss V' w c' w' /\ same_control c c') /\
  (forall E v a d w c w', case_block_ev M u1 E v a d w c w' ->
     exists c', case_block_ev M u2 E v a d w c' w' /\ same_control c c') /\
  (forall E l V w c w', clauses_ev M u1 E l V w c w' -> forall V',
     exists c', clauses_ev M u2 E l V' w c' w' /\ same_control c c').
Proof.
  apply semantics_ind.
  - eexists; split; [apply ev_empty|done].
  - eexists; split; [by apply ev_expr|done].
  - eexists; split; [by apply ev_expr_throw|done].
  - eexists; split; [by apply ev_var|apply same_refl].
  - eexists; split; [by apply ev_lexical|done].
  - eexists; split; [by apply ev_lexical_throw|done].
  - eexists; split; [apply ev_function|done].
  - intros E ls body w c w' _ IH. use IH. eexists; split; [by apply ev_block|done].
  - eexists; split; [by apply ev_if_throw|done].
  - intros E ls t s a w v w1 c w' He Hb _ IH. use IH. eexists; split; [by eapply ev_if_true|by apply Hu].
  - intros E ls t s s' w v w1 c w' He Hb _ IH. use IH. eexists; split; [by eapply ev_if_false|by apply Hu].
  - intros. eexists; split; [by eapply ev_if_none|by apply Hu].
  - eexists; split; [by apply ev_throw|done].
  - eexists; split; [by apply ev_throw_throw|done].
  - eexists; split; [by apply ev_return_none|done].
  - eexists; split; [by apply ev_return|done].
  - eexists; split; [by apply ev_return_throw|done].
  - intros E ls body h f w b w1 c w2 r w' _ IH1 _ IH2 _ IH3. use IH1.
    destruct (IH2 _ Hs) as (c2 & Hc2 & Hs2). destruct (IH3 _ Hs2) as (c3 & Hc3 & Hs3).
    eexists; split; [by eapply ev_try|by apply same_update].
  - intros E ls t s w c w' _ IH. destruct (IH (undefined M)) as (c' & ? & ?).
    eexists; split; [by apply ev_while|by apply same_unbroken].
  - intros E ls s t w c w' _ IH. destruct (IH (undefined M)) as (c' & ? & ?).
    eexists; split; [by apply ev_do|by apply same_unbroken].
  - eexists; split; [by apply ev_for_throw|done].
  - intros E ls i t p body w w1 c w' Hi _ IH. destruct (IH (undefined M)) as (c' & ? & ?).
    eexists; split; [by eapply ev_for|by apply same_unbroken].
  - eexists; split; [by apply ev_for_of_throw|done].
  - intros. eexists; split; [by eapply ev_for_of_iterator_throw|done].
  - intros E ls b e body w v w1 it w2 c w' He Hg _ IH. destruct (IH (undefined M)) as (c' & ? & ?).
    eexists; split; [by eapply ev_for_of|by apply same_unbroken].
  - eexists; split; [by apply ev_switch_throw|done].
  - intros E ls e a d w v w1 E' w2 w3 c w' He Hn Hd _ IH. use IH.
    eexists; split; [by eapply ev_switch|by apply same_unbroken].
  - intros E ls l s w c w' _ IH. use IH. eexists; split; [by apply ev_label|by apply same_unlabelled].
  - eexists; split; [apply ev_break|done].
  - eexists; split; [apply ev_continue|done].
  (* list *)
  - eexists; split; [apply ev_nil|done].
  - intros E ss s w c w' _ IH Ha. use IH. eexists; split; [apply ev_snoc_abrupt; [done|by eapply same_abrupt]|done].
  - intros E ss s w v w1 c w' _ IH1 _ IH2. use IH1. use IH2. destruct c'; try done.
    eexists; split; [by eapply ev_snoc|by apply same_update].
  - intros E body w E' w1 w2 c w' Hn Hd _ IH. use IH. eexists; split; [by eapply ev_in_block|done].
  - intros E body w c w' Hd _ IH. use IH. eexists; split; [by apply ev_body_plain|done].
  - intros E body w c w' Hd _ IH. use IH. eexists; split; [by apply ev_body_block|done].
  (* try *)
  - intros E b w b' Hb. eexists; split; [apply ev_no_handler|done].
  - intros E b h w Hn b' Hb. eexists; split; [apply ev_not_thrown|done].
    intros x ->. destruct b; try done. cbn in Hb. subst. by destruct (Hn x).
  - intros E x p body w c w' _ IH b' Hb. use IH. destruct b'; try done. cbn in Hb. subst.
    eexists; split; [by apply ev_handled|done].
  - intros E body x w E' w1 w2 c w' Hn Hd _ IH. use IH. eexists; split; [by eapply ev_catch_bare|done].
  - intros E n body x w E' w1 w2 w3 c w' Hn Hd Hb _ IH. use IH. eexists; split; [by eapply ev_catch_name|done].
  - intros. eexists; split; [by eapply ev_catch_pattern_throw|done].
  - intros E n body x w E' w1 w2 c w' Hn Hb _ IH. use IH. eexists; split; [by eapply ev_catch_pattern|done].
  - intros E c w b' Hb. eexists; split; [apply ev_no_finally|done].
  - intros E c body w v w' _ IH b' Hb. use IH. destruct c'; try done.
    eexists; split; [by eapply ev_finally_normal|done].
  - intros E c body w f w' _ IH Ha b' Hb. use IH.
    eexists; split; [apply ev_finally_abrupt; [done|by eapply same_abrupt]|done].
  (* loops *)
  - intros. eexists; split; [by apply ev_while_throw|done].
  - intros. eexists; split; [by eapply ev_while_end|done].
  - intros E ls t s V w v w1 c w' He Hb _ IH Hn V'. use IH.
    eexists; split; [eapply ev_while_leave; [done|done|done|by eapply same_leaves]|by apply same_update].
  - intros E ls t s V w v w1 c w2 c2 w' He Hb _ IH Hl _ IH2 V'. use IH.
    destruct (IH2 (value_or c' V')) as (c3 & ? & ?).
    eexists; split; [eapply ev_while_again; [done|done|done|by eapply same_continues|done]|done].
  - intros E ls s t V w c w' _ IH Hn V'. use IH.
    eexists; split; [eapply ev_do_leave; [done|by eapply same_leaves]|by apply same_update].
  - intros E ls s t V w c w1 x w' _ IH Hl He V'. use IH.
    eexists; split; [eapply ev_do_throw; [done|by eapply same_continues|done]|done].
  - intros E ls s t V w c w1 v w' _ IH Hl He Hb V'. use IH.
    eexists; split; [eapply ev_do_end; [done|by eapply same_continues|done|done]|done].
  - intros E ls s t V w c w1 v w2 c2 w' _ IH Hl He Hb _ IH2 V'. use IH.
    destruct (IH2 (value_or c' V')) as (c3 & ? & ?).
    eexists; split; [eapply ev_do_again; [done|by eapply same_continues|done|done|done]|done].
  - intros. eexists; split; [by apply ev_for_test_throw|done].
  - intros. eexists; split; [by eapply ev_for_end|done].
  - intros E ls t p body V w w1 c w' Ht _ IH Hn V'. use IH.
    eexists; split; [eapply ev_for_leave; [done|done|by eapply same_leaves]|by apply same_update].
  - intros E ls t p body V w w1 c w2 x w' Ht _ IH Hl Hp V'. use IH.
    eexists; split; [eapply ev_for_post_throw; [done|done|by eapply same_continues|done]|done].
  - intros E ls t p body V w w1 c w2 w3 c2 w' Ht _ IH Hl Hp _ IH2 V'. use IH.
    destruct (IH2 (value_or c' V')) as (c3 & ? & ?).
    eexists; split; [eapply ev_for_again; [done|done|by eapply same_continues|done|done]|done].
  - intros. eexists; split; [by apply ev_of_step_throw|done].
  - intros. eexists; split; [by eapply ev_of_end|done].
  - intros. eexists; split; [by eapply ev_of_bind_throw|apply same_refl].
  - intros E ls b it body V w v w1 w2 c w3 c2 w' Hs Hb _ IH Hn Hcl V'. use IH.
    destruct (same_closed _ _ _ _ _ _ (same_update _ _ (Some V) (Some V') Hs0) Hcl) as (r & Hr & Hsr).
    eexists; split; [eapply ev_of_leave; [done|done|done|by eapply same_leaves|exact Hr]|done].
  - intros E ls b it body V w v w1 w2 c w3 c2 w' Hs Hb _ IH Hl _ IH2 V'. use IH.
    destruct (IH2 (value_or c' V')) as (c3 & ? & ?).
    eexists; split; [eapply ev_of_again; [done|done|done|by eapply same_continues|done]|done].
  (* switch *)
  - intros. eexists; split; [by apply ev_search_throw|done].
  - intros E v a d w bodies w1 c w' Hs _ IH. destruct (IH (undefined M)) as (c' & ? & ?).
    eexists; split; [by eapply ev_found|done].
  - intros. eexists; split; [by apply ev_no_default|done].
  - intros. eexists; split; [by eapply ev_search_after_throw|done].
  - intros E v a s b w w1 bodies w2 c w' Hs Hs2 _ IH. destruct (IH (undefined M)) as (c' & ? & ?).
    eexists; split; [by eapply ev_found_after|done].
  - intros E v a s b w w1 w2 c w' Hs Hs2 _ IH. destruct (IH (undefined M)) as (c' & ? & ?).
    eexists; split; [by eapply ev_default|done].
  - intros. eexists; split; [apply ev_clauses_nil|done].
  - intros E s l V w c w' _ IH Ha V'. use IH.
    eexists; split; [apply ev_clause_abrupt; [done|by eapply same_abrupt]|by apply same_update].
  - intros E s l V w v w1 c w' _ IH _ IH2 V'. use IH. destruct c' as [v'| | | |]; try done.
    destruct (IH2 (value_or (CNormal v') V')) as (c3 & ? & ?).
    eexists; split; [by eapply ev_clause|done].
Qed.

(** ** Without an `if`, nothing of it matters *)

Definition free_bodies (l : list (expr * list stmt)) : bool := forallb (fun b => forallb if_free (snd b)) l.

Lemma search_free E v l w bodies w' :
  search_ev M E v l w (inl (Some bodies)) w' -> free_bodies l = true ->
  forallb (forallb if_free) bodies = true.
Proof.
  intros H Hf. remember (inl (Some bodies)) as o eqn:Ho. revert bodies Ho Hf.
  induction H as [| |E v e s l w u w' He Hs|E v e s l w u w1 r w' He Hs Hr IH]; intros bodies Ho Hf; simplify_eq.
  - cbn in *. apply andb_prop in Hf as [Hf1 Hf2]. rewrite Hf1. cbn.
    clear -Hf2. induction l as [|[e s] l IH]; [done|]. cbn in *. apply andb_prop in Hf2 as [-> ?]. by apply IH.
  - cbn in Hf. apply andb_prop in Hf as [_ Hf]. by eapply IH.
Qed.

Lemma free_map l : free_bodies l = forallb (forallb if_free) (map snd l).
Proof. induction l as [|[e s] l IH]; [done|]. cbn. by rewrite <- IH. Qed.

Ltac splitb := repeat match goal with
  | H : (_ && _)%bool = true |- _ => apply andb_prop in H as [? ?]
  end.

Lemma if_free_same :
  (forall E ls s w c w', stmt_ev M u1 E ls s w c w' -> if_free s = true -> stmt_ev M u2 E ls s w c w') /\
  (forall E ss w c w', list_ev M u1 E ss w c w' -> forallb if_free ss = true -> list_ev M u2 E ss w c w') /\
  (forall E ss w c w', block_ev M u1 E ss w c w' -> forallb if_free ss = true -> block_ev M u2 E ss w c w') /\
  (forall E ss w c w', body_ev M u1 E ss w c w' -> forallb if_free ss = true -> body_ev M u2 E ss w c w') /\
  (forall E b h w c w', handled M u1 E b h w c w' ->
     match h with Some (_, hb) => forallb if_free hb = true | None => True end -> handled M u2 E b h w c w') /\
  (forall E p ss x w c w', catch_ev M u1 E p ss x w c w' -> forallb if_free ss = true ->
     catch_ev M u2 E p ss x w c w') /\
  (forall E b f w c w', finished M u1 E b f w c w' ->
     match f with Some fb => forallb if_free fb = true | None => True end -> finished M u2 E b f w c w') /\
  (forall E ls t s V w c w', while_ev M u1 E ls t s V w c w' -> if_free s = true ->
     while_ev M u2 E ls t s V w c w') /\
  (forall E ls s t V w c w', do_ev M u1 E ls s t V w c w' -> if_free s = true ->
     do_ev M u2 E ls s t V w c w') /\
  (forall E ls t p ss V w c w', for_ev M u1 E ls t p ss V w c w' -> forallb if_free ss = true ->
     for_ev M u2 E ls t p ss V w c w') /\
  (forall E ls b it ss V w c w', for_of_ev M u1 E ls b it ss V w c w' -> forallb if_free ss = true ->
     for_of_ev M u2 E ls b it ss V w c w') /\
  (forall E v a d w c w', case_block_ev M u1 E v a d w c w' -> free_bodies a = true ->
     match d with Some (s, b) => forallb if_free s = true /\ free_bodies b = true | None => True end ->
     case_block_ev M u2 E v a d w c w') /\
  (forall E l V w c w', clauses_ev M u1 E l V w c w' -> forallb (forallb if_free) l = true ->
     clauses_ev M u2 E l V w c w').
Proof.
  apply semantics_ind; intros; cbn [if_free] in *; try done; splitb.
  - apply ev_empty.
  - by apply ev_expr.
  - by apply ev_expr_throw.
  - by apply ev_var.
  - by apply ev_lexical.
  - by apply ev_lexical_throw.
  - apply ev_function.
  - apply ev_block; auto.
  - by apply ev_throw.
  - by apply ev_throw_throw.
  - apply ev_return_none.
  - by apply ev_return.
  - by apply ev_return_throw.
  - eapply ev_try; eauto.
    + match goal with IH : _ -> handled _ _ _ _ _ _ _ _ |- _ => apply IH end. by destruct h as [[]|].
    + match goal with IH : _ -> finished _ _ _ _ _ _ _ _ |- _ => apply IH end. by destruct f.
  - apply ev_while; auto.
  - apply ev_do; auto.
  - by apply ev_for_throw.
  - eapply ev_for; eauto.
  - by apply ev_for_of_throw.
  - by eapply ev_for_of_iterator_throw.
  - eapply ev_for_of; eauto.
  - by apply ev_switch_throw.
  - eapply ev_switch; eauto.
    match goal with IH : _ -> _ -> case_block_ev _ _ _ _ _ _ _ _ _ |- _ => apply IH; [done|] end.
    destruct d as [[]|]; [|done]. by splitb.
  - apply ev_label; auto.
  - apply ev_break.
  - apply ev_continue.
  - apply ev_nil.
  - rewrite forallb_app in *. splitb. apply ev_snoc_abrupt; auto.
  - rewrite forallb_app in *. splitb. cbn in *. splitb. eapply ev_snoc; eauto.
  - eapply ev_in_block; eauto.
  - apply ev_body_plain; auto.
  - apply ev_body_block; auto.
  - apply ev_no_handler.
  - by apply ev_not_thrown.
  - apply ev_handled; auto.
  - eapply ev_catch_bare; eauto.
  - eapply ev_catch_name; eauto.
  - eapply ev_catch_pattern_throw; eauto.
  - eapply ev_catch_pattern; eauto.
  - apply ev_no_finally.
  - eapply ev_finally_normal; eauto.
  - apply ev_finally_abrupt; auto.
  - by apply ev_while_throw.
  - by eapply ev_while_end.
  - eapply ev_while_leave; eauto.
  - eapply ev_while_again; eauto.
  - eapply ev_do_leave; eauto.
  - eapply ev_do_throw; eauto.
  - eapply ev_do_end; eauto.
  - eapply ev_do_again; eauto.
  - by apply ev_for_test_throw.
  - by eapply ev_for_end.
  - eapply ev_for_leave; eauto.
  - eapply ev_for_post_throw; eauto.
  - eapply ev_for_again; eauto.
  - by apply ev_of_step_throw.
  - by apply ev_of_end.
  - by eapply ev_of_bind_throw.
  - eapply ev_of_leave; eauto.
  - eapply ev_of_again; eauto.
  - by apply ev_search_throw.
  - eapply ev_found; [eassumption|]. match goal with IH : _ -> clauses_ev _ _ _ _ _ _ _ _ |- _ => apply IH end.
    rewrite forallb_app. apply andb_true_intro. split; [by eapply search_free|].
    destruct d as [[s b]|]; [|done]. cbn. destruct_and!. rewrite <- free_map. by apply andb_true_intro.
  - by apply ev_no_default.
  - by eapply ev_search_after_throw.
  - eapply ev_found_after; eauto.
    match goal with IH : _ -> clauses_ev _ _ _ _ _ _ _ _ |- _ => apply IH end.
    destruct_and!. by eapply search_free.
  - eapply ev_default; eauto.
    match goal with IH : _ -> clauses_ev _ _ _ _ _ _ _ _ |- _ => apply IH end.
    cbn. destruct_and!. rewrite <- free_map. by apply andb_true_intro.
  - apply ev_clauses_nil.
  - cbn in *. splitb. apply ev_clause_abrupt; auto.
  - cbn in *. splitb. eapply ev_clause; eauto.
Qed.
End IfValue.
