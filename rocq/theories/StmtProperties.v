(** * Statements: the theorems *)
From stdpp Require Import base decidable numbers list.
From Verif Require Import StmtModel StmtSpec StmtProofs StmtMoreProofs StmtDetProofs StmtBackProofs StmtExamples.

(** C68.  Whatever completion the interpreter ends a statement with, the
    standard prescribes: the same kind of completion with the same label
    and the same thrown or returned value, in the same world.  Without an
    `if` in it, the completion value is the standard's as well.

    Missing from the full claim: loops whose body declares something,
    `for`-`of` over iterators that throw, and `catch` clauses with a
    pattern and a `finally` or declarations of their own, for which it is
    refuted below; and the completion value after an `if`, likewise. *)
Theorem statements_follow_ecma_partial :
  forall (M : machine) (for_of : bool) n labels s E w c st',
    regular for_of s = true -> (for_of = true -> quiet_iterators M) ->
    eval_stmt n labels s (State E w) = (XOk c, st') ->
    exists c', ecma M E labels s w c' (rest st') /\ same_control c c' /\
      (if_free s = true -> c' = c).
Proof.
  intros M q n L s E w c st' Hr Hq H.
  destruct (sound_all q Hq n) as [HS _].
  destruct (HS L L s E w (RVal c) st' Hr (fun x => iff_refl _)) as (c0 & w' & Hc & -> & Hev); [done|].
  injection Hc as ->.
  destruct (proj1 (if_irrelevant plain_if (ecma_if M) plain_ecma) _ _ _ _ _ _ Hev) as (c' & Hc' & Hs).
  destruct (if_free s) eqn:Hf.
  - exists c0. split; [|split; [apply same_refl|done]].
    by apply (proj1 (if_free_same plain_if (ecma_if M))).
  - exists c'. done.
Qed.
Print Assumptions statements_follow_ecma_partial.

(** Conversely, what the standard prescribes the interpreter does, given
    enough steps. *)
Theorem ecma_statements_run_partial :
  forall (M : machine) (for_of : bool) labels s E w c w',
    regular for_of s = true -> (for_of = true -> quiet_iterators M) ->
    ecma M E labels s w c w' ->
    exists n c', (forall m, n <= m -> eval_stmt m labels s (State E w) = (XOk c', State E w')) /\
      same_control c c' /\ (if_free s = true -> c' = c).
Proof.
  intros M q L s E w c w' Hr Hq H.
  destruct (if_free s) eqn:Hf.
  - apply (proj1 (if_free_same (ecma_if M) plain_if)) in H; [|done].
    destruct (proj1 (back_all q Hq) _ _ _ _ _ _ H Hr L (fun x => iff_refl _)) as [n Hn].
    exists n, c. split; [|split; [apply same_refl|done]]. intros m Hm. apply (proj1 (Hn m Hm)).
  - destruct (proj1 (if_irrelevant (ecma_if M) plain_if ecma_plain) _ _ _ _ _ _ H) as (c' & Hc' & Hs).
    destruct (proj1 (back_all q Hq) _ _ _ _ _ _ Hc' Hr L (fun x => iff_refl _)) as [n Hn].
    exists n, c'. split; [|done]. intros m Hm. apply (proj1 (Hn m Hm)).
Qed.
Print Assumptions ecma_statements_run_partial.

(** A call of a function gives what the standard says: the value returned,
    `undefined` at its end, or the value thrown. *)
Theorem calls_follow_ecma_partial :
  forall (M : machine) (for_of : bool) n body E w st',
    forallb (regular for_of) body = true -> (for_of = true -> quiet_iterators M) ->
    (forall v, run_function n body (State E w) = (XOk v, st') ->
       call_gives M E body w (RVal v) (rest st')) /\
    (forall x, run_function n body (State E w) = (XErr x, st') ->
       call_gives M E body w (RThrow x) (rest st')).
Proof.
  intros M q n body E w st' Hr Hq.
  assert (K : forall r c st1,
    ends (eval_list n body None) (State E w) r st1 -> r = RVal c ->
    exists c', list_ev M (ecma_if M) E body w c' (rest st1) /\ same_control c c').
  { intros r c st1 H ->. destruct (sound_all q Hq n) as (_ & HL & _).
    destruct (HL [] body None w E w _ _ Hr (ev_nil _ _ _ _) H) as (c0 & w1 & Hc & -> & Hev).
    injection Hc as ->. apply (if_irrelevant plain_if (ecma_if M) plain_ecma) in Hev as (c' & ? & ?).
    exists c'. done. }
  assert (KE : forall x st1, ends (eval_list n body None) (State E w) (RThrow x) st1 -> False).
  { intros x st1 H. destruct (sound_all q Hq n) as (_ & HL & _).
    destruct (HL [] body None w E w _ _ Hr (ev_nil _ _ _ _) H) as (c0 & w1 & Hc & _). done. }
  split.
  - intros v H. unfold run_function, bind in H.
    destruct (eval_list n body None (State E w)) as [[c|y| |] st1] eqn:He; try done.
    assert (Hx : ends (eval_list n body None) (State E w) (RVal c) st1) by done.
    apply (K _ c) in Hx as (c' & Hl & Hs); [|done].
    destruct c; simplify_eq; exists c'; (split; [done|]); destruct c'; try done; cbn in Hs; by subst.
  - intros x H. unfold run_function, bind in H.
    destruct (eval_list n body None (State E w)) as [[c|y| |] st1] eqn:He; try done.
    + assert (Hx : ends (eval_list n body None) (State E w) (RVal c) st1) by done.
      apply (K _ c) in Hx as (c' & Hl & Hs); [|done].
      destruct c; simplify_eq; exists c'; (split; [done|]); destruct c'; try done; cbn in Hs; by subst.
    + destruct (KE y st1). done.
Qed.
Print Assumptions calls_follow_ecma_partial.

(** However a statement ends, by a completion, an engine error, or not
    within the steps given, the environment current before it is current
    after it.  No exceptions. *)
Theorem environment_restored :
  forall (M : machine) n labels s (st : state M),
    lexical_env (snd (eval_stmt n labels s st)) = lexical_env st.
Proof. intros M n L s st. apply (proj1 (keeps_all n) L s st). Qed.
Print Assumptions environment_restored.

(** The semantics prescribes at most one outcome, so that the theorems
    above leave the interpreter no choice. *)
Theorem ecma_deterministic :
  forall (M : machine) E labels s w c1 w1 c2 w2,
    ecma M E labels s w c1 w1 -> ecma M E labels s w c2 w2 -> c1 = c2 /\ w1 = w2.
Proof. intros M E L s w c1 w1 c2 w2 H1 H2. exact (proj1 (semantics_det (ecma_if M)) _ _ _ _ _ _ H1 _ _ H2). Qed.
Print Assumptions ecma_deterministic.

(** Non-vacuity: a labelled loop around a `switch` with a `try`, `catch`
    and `finally` in it, left by a labelled `continue`; the program is
    regular, the interpreter completes it, and so does the standard. *)
Example statements_case :
  regular false toy_program = true /\
  exists n c st', eval_stmt n [] toy_program (State (0%N : env (toy false false)) toy_start) = (XOk c, st') /\
    c = CNormal (Some 2%N) /\ log (rest st') = [4; 2; 3]%N /\
    ecma (toy false false) 0%N [] toy_program toy_start c (rest st').
Proof.
  split; [done|].
  assert (H : exists st', eval_stmt 30 [] toy_program (State (0%N : env (toy false false)) toy_start)
                = (XOk (CNormal (Some 2%N)), st') /\ log (rest st') = [4; 2; 3]%N).
  { eexists. split; [vm_compute; reflexivity|]. vm_compute. reflexivity. }
  destruct H as (st' & H & Hl). exists 30, (CNormal (Some 2%N)), st'. split; [done|]. split; [done|]. split; [done|].
  destruct (statements_follow_ecma_partial (toy false false) false 30 [] toy_program 0%N toy_start _ _ eq_refl
              ltac:(done) H) as (c' & He & _ & Hc). by rewrite <- (Hc eq_refl).
Qed.

(** Its iterators never fail, so `for`-`of` is covered as well:
    `for (x of e) { say 2; break }` runs and closes the iterator. *)
Example for_of_case :
  quiet_iterators (toy false false) /\
  let s := SForOf 1 (ELit LNull) [say 2; SBreak None] in
  regular true s = true /\
  exists st', eval_stmt 20 [] s (State (0%N : env (toy false false)) toy_start) = (XOk (CNormal (Some 2%N)), st') /\
    log (rest st') = [2; 99]%N /\
    ecma (toy false false) 0%N [] s toy_start (CNormal (Some 2%N)) (rest st').
Proof.
  assert (Hq : quiet_iterators (toy false false)) by (split; [done|intros it w; eexists; reflexivity]).
  split; [done|]. intros s. split; [done|].
  assert (H : exists st', eval_stmt 20 [] s (State (0%N : env (toy false false)) toy_start)
                = (XOk (CNormal (Some 2%N)), st') /\ log (rest st') = [2; 99]%N).
  { eexists. split; [vm_compute; reflexivity|reflexivity]. }
  destruct H as (st' & H & Hl). exists st'. split; [done|]. split; [done|].
  destruct (statements_follow_ecma_partial (toy false false) true 20 [] s 0%N toy_start _ _ eq_refl
              (fun _ => Hq) H) as (c' & He & _ & Hc). by rewrite <- (Hc eq_refl).
Qed.

(** A function whose `finally` returns over a `throw`. *)
Example call_case :
  let body := [STry [SThrow (EAtom 4)] None (Some [SReturn (Some (EAtom 5))])] in
  exists st', run_function 20 body (State (0%N : env (toy false false)) toy_start) = (XOk 5%N, st') /\
    call_gives (toy false false) 0%N body toy_start (RVal 5%N) (rest st').
Proof.
  intros body.
  assert (H : exists st', run_function 20 body (State (0%N : env (toy false false)) toy_start) = (XOk 5%N, st'))
    by (eexists; vm_compute; reflexivity).
  destruct H as (st' & H). exists st'. split; [done|].
  exact (proj1 (calls_follow_ecma_partial (toy false false) false 20 body 0%N toy_start st' eq_refl ltac:(done)) _ H).
Qed.

(** Refuted: an `if` whose branch has no value leaves the value of the
    statement before it, where the standard gives `undefined`:
    `1; if (true) {}`. *)
Theorem if_value_refuted :
  let M := toy false false in
  let script := [say 1; SIf (ELit (LBool true)) (SBlock []) None] in
  exists n st' w',
    run_script n script (State (0%N : env M) toy_start) = (XOk 1%N, st') /\
    list_ev M (ecma_if M) 0%N script toy_start (CNormal (Some 0%N)) w'.
Proof.
  eexists 20, _, _. split; [vm_compute; reflexivity|].
  eapply (ev_snoc (toy false false) _ _ [say 1] _ _ (Some 1%N) (logged 1 toy_start) (CNormal (Some 0%N))).
  - eapply (ev_snoc (toy false false) _ _ [] _ _ None toy_start (CNormal (Some 1%N))); [apply ev_nil|].
    apply ev_expr, ev_atom; [reflexivity|done].
  - eapply (ev_if_true (toy false false) (ecma_if (toy false false)) 0%N [] _ _ _ _ 1%N (logged 1 toy_start) (CNormal None)).
    + apply ev_lit. reflexivity.
    + reflexivity.
    + apply ev_block. eapply ev_in_block; [reflexivity|apply ev_decls_nil|apply ev_nil].
Qed.
Print Assumptions if_value_refuted.

(** Refuted: a `catch` pattern that throws skips the `finally` block:
    `try { throw 4 } catch ({a}) {} finally { say 3 }`. *)
Theorem finally_always_runs_refuted :
  let M := toy false false in
  let s := STry [SThrow (EAtom 4)] (Some (CatchPattern 1, [])) (Some [say 3]) in
  exists n st' w',
    eval_stmt n [] s (State (0%N : env M) toy_start) = (XOk (CThrow 66%N), st') /\
    log (rest st') = [4]%N /\
    ecma M 0%N [] s toy_start (CThrow 66%N) w' /\ log w' = [4; 3]%N.
Proof.
  eexists 20, _, _. split; [vm_compute; reflexivity|]. split; [reflexivity|]. split.
  - eapply (ev_try (toy false false) _ _ _ _ _ _ _ (CThrow 4%N) (ToyWorld 1 [] [4%N])
             (CThrow 66%N) (ToyWorld 2 [] [4%N]) (CThrow 66%N)).
    + eapply ev_in_block; [reflexivity|apply ev_decls_nil|].
      eapply (ev_snoc (toy false false) _ _ [] _ _ None _ (CThrow 4%N)); [apply ev_nil|].
      apply ev_throw, ev_atom; [reflexivity|done].
    + apply ev_handled. eapply ev_catch_pattern_throw; reflexivity.
    + eapply ev_finally_normal. eapply ev_in_block; [reflexivity|apply ev_decls_nil|].
      eapply (ev_snoc (toy false false) _ _ [] _ _ None _ (CNormal (Some 3%N))); [apply ev_nil|].
      apply ev_expr, ev_atom; [reflexivity|done].
  - reflexivity.
Qed.
Print Assumptions finally_always_runs_refuted.

(** Refuted: an iterator that fails is closed all the same, and an error
    in closing an iterator is lost: `for (x of e) {}` with a failing
    `next`, and `for (x of e) break` with a failing `return`. *)
Theorem for_of_refuted :
  (let M := toy true false in let s := SForOf 1 (ELit LNull) [] in
   exists n st' w',
     eval_stmt n [] s (State (0%N : env M) toy_start) = (XOk (CThrow 77%N), st') /\
     log (rest st') = [99]%N /\
     ecma M 0%N [] s toy_start (CThrow 77%N) w' /\ log w' = []) /\
  (let M := toy false true in let s := SForOf 1 (ELit LNull) [SBreak None] in
   exists n st' v w',
     eval_stmt n [] s (State (0%N : env M) toy_start) = (XOk (CNormal v), st') /\
     ecma M 0%N [] s toy_start (CThrow 88%N) w').
Proof.
  split.
  - eexists 20, _, _. split; [vm_compute; reflexivity|]. split; [reflexivity|]. split; cycle 1; [instantiate (1 := toy_start); reflexivity|].
    eapply (ev_for_of (toy true false) _ _ _ _ _ _ _ 0%N toy_start tt toy_start (CThrow 77%N)).
    + apply ev_lit. reflexivity.
    + reflexivity.
    + apply ev_of_step_throw. reflexivity.
  - eexists 20, _, _, _. split; [vm_compute; reflexivity|].
    eapply (ev_for_of (toy false true) _ _ _ _ _ _ _ 0%N toy_start tt toy_start (CThrow 88%N)).
    + apply ev_lit. reflexivity.
    + reflexivity.
    + eapply (ev_of_leave (toy false true) _ _ _ _ _ _ _ _ 3%N toy_start toy_start (CBreak None None) toy_start).
      * reflexivity.
      * reflexivity.
      * apply ev_body_plain; [done|].
        eapply (ev_snoc (toy false true) _ _ [] _ _ None _ (CBreak None None)); [apply ev_nil|apply ev_break].
      * cbn. tauto.
      * exists (RThrow 88%N). split; [reflexivity|]. done.
Qed.
Print Assumptions for_of_refuted.

(** Refuted: the body of a `for` has no scope of its own, so that its
    declarations are initialised in the scope around it; the second round
    stops the engine: `for (; more; say 5) { let x }`. *)
Theorem loop_scope_refuted :
  let M := toy false false in
  let s := SFor InitNone (Some (EAtom 0)) (Some (EAtom 5)) [SLexical 1] in
  exists n st' w',
    eval_stmt n [] s (State (0%N : env M) toy_start) = (XFatal, st') /\
    ecma M 0%N [] s toy_start (CNormal (Some 0%N)) w' /\ log w' = [5; 5]%N.
Proof.
  eexists 20, _, _. split; [vm_compute; reflexivity|]. split.
  - eapply (ev_for (toy false false) _ _ _ _ _ _ _ _ toy_start (CNormal (Some 0%N))); [done|].
    eapply (ev_for_again (toy false false) _ _ _ _ _ _ _ _ toy_start (CNormal None)
              (ToyWorld 2 [(1, 1)]%N []) (ToyWorld 2 [(1, 1)]%N [5%N])).
    { exists (RVal 1%N). split; [by apply ev_atom|done]. }
    { apply ev_body_block; [done|]. eapply ev_in_block; [reflexivity|..].
      { eapply ev_decls_cons; [reflexivity|apply ev_decls_nil]. }
      eapply (ev_snoc (toy false false) _ _ [] _ _ None _ (CNormal None)); [apply ev_nil|]. apply ev_lexical. reflexivity. }
    { done. }
    { exists (RVal 5%N). split; [by apply ev_atom|done]. }
    eapply (ev_for_again (toy false false) _ _ _ _ _ _ _ _ _ (CNormal None)
              (ToyWorld 3 [(2, 1); (1, 1)]%N [5%N]) (ToyWorld 3 [(2, 1); (1, 1)]%N [5; 5]%N)).
    { exists (RVal 1%N). split; [by apply ev_atom|done]. }
    { apply ev_body_block; [done|]. eapply ev_in_block; [reflexivity|..].
      { eapply ev_decls_cons; [reflexivity|apply ev_decls_nil]. }
      eapply (ev_snoc (toy false false) _ _ [] _ _ None _ (CNormal None)); [apply ev_nil|]. apply ev_lexical. reflexivity. }
    { done. }
    { exists (RVal 5%N). split; [by apply ev_atom|done]. }
    apply ev_for_end. exists (RVal 0%N). split; [by apply ev_atom|done].
  - reflexivity.
Qed.
Print Assumptions loop_scope_refuted.
