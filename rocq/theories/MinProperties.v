(** * C69: the statement passes of the minifier keep what a function does *)
From stdpp Require Import base decidable numbers gmap sets list.
From Verif Require Import StmtModel StmtSpec StmtExamples StmtProperties MinModel MinSpec MinProofs MinRunProofs MinExamples.
Local Open Scope N_scope.

(** For every function body with a directive prologue, without labels
    misused, and without a function declaration as the branch of an `if`
    or a string as a statement: whatever passes are run, in whatever order
    and how often, a call of the function ends in the same way, with the
    same value, thrown value and effects, as before, whatever the world
    and the function's environment are like.  Missing: the other passes
    (const_fold.rs, prop_rewrite.rs, dce.rs, sem_rewrite.rs), and the
    bodies left out, for which it is refuted below. *)
Theorem minified_calls_partial :
  forall (M : machine) of_vars hoists passes body setup w r w',
    lawful M -> Forall (informed hoists) passes -> sound_body body ->
    function_call of_vars hoists M setup (run_passes of_vars passes body) w r w' <->
    function_call of_vars hoists M setup body w r w'.
Proof.
  intros M of_vars hoists passes body setup w r w' HM Hi Hs.
  symmetry. apply alike_call. by apply passes_alike.
Qed.
Print Assumptions minified_calls_partial.

(** The same for a list of statements that is not the body of a function,
    as in a script: the completions do the same, and the same names are
    declared, directives given and labels used as allowed. *)
Theorem minified_statements_partial :
  forall (M : machine) of_vars hoists passes body,
    lawful M -> Forall (informed hoists) passes -> sound_body body ->
    let body' := run_passes of_vars passes body in
    directives body' = directives body /\
    body_vars of_vars hoists body' = body_vars of_vars hoists body /\
    decls body' = decls body /\
    sound_body body' /\
    (forall E w c w', list_ev M (ecma_if M) E body w c w' ->
       exists c', list_ev M (ecma_if M) E body' w c' w' /\ same_control c c') /\
    (forall E w c w', list_ev M (ecma_if M) E body' w c w' ->
       exists c', list_ev M (ecma_if M) E body w c' w' /\ same_control c c').
Proof.
  intros M of_vars hoists passes body HM Hi Hs body'.
  destruct (passes_alike HM of_vars hoists passes body Hi Hs) as [(D & V & [T1 T2] & [B1 B2]) Hs'].
  split_and!; try done.
  - intros E w c w' H. destruct (T2 E w (erase c) w') as (c' & H' & He); [by exists c|].
    exists c'. split; [done|]. by apply erase_same.
  - intros E w c w' H. destruct (B2 E w (erase c) w') as (c' & H' & He); [by exists c|].
    exists c'. split; [done|]. by apply erase_same.
Qed.
Print Assumptions minified_statements_partial.

(** Non-vacuity: the function of [MinExamples] shrinks from 10 statements
    to 9, with fewer in them, and still logs 2, 3, 4 and 6 and throws 7. *)
Example minified_case :
  lawful neat /\ Forall (informed (fun _ => false)) all_passes /\ sound_body long_body /\
  run_passes (fun _ => []) all_passes long_body = short_body /\
  exists w', log w' = [2; 3; 4; 6; 7] /\
    function_call (fun _ => []) (fun _ => false) neat neat_setup short_body toy_start (RThrow 7) w' /\
    function_call (fun _ => []) (fun _ => false) neat neat_setup long_body toy_start (RThrow 7) w'.
Proof.
  assert (HM : lawful neat).
  { split; [|done]. intros l w. eexists. split; [reflexivity|]. cbn. destruct (literal_truth l) eqn:Hl; [|done].
    destruct l; try done. cbn in Hl. destruct bits; [done|done]. }
  assert (Hi : Forall (informed (fun _ => false)) all_passes) by (repeat constructor).
  assert (Hs : sound_body long_body) by (by exists [[117]], (tail long_body)).
  assert (Hr : run_passes (fun _ => []) all_passes long_body = short_body) by (vm_compute; reflexivity).
  split_and!; try done.
  assert (Hc : exists w', log w' = [2; 3; 4; 6; 7] /\
    function_call (fun _ => []) (fun _ => false) neat neat_setup short_body toy_start (RThrow 7) w').
  { assert (H : exists st', run_function 40 short_body (State (fst (neat_setup [[117]] (body_vars (fun _ => []) (fun _ => false) short_body) [] toy_start))
       (snd (neat_setup [[117]] (body_vars (fun _ => []) (fun _ => false) short_body) [] toy_start))) = (XErr 7, st') /\
       log (rest st') = [2; 3; 4; 6; 7]).
    { eexists. split; [vm_compute; reflexivity|vm_compute; reflexivity]. }
    destruct H as (st' & H & Hl). exists (rest st'). split; [done|].
    exact (proj2 (calls_follow_ecma_partial neat false 40 short_body _ _ st' eq_refl ltac:(done)) _ H). }
  destruct Hc as (w' & Hl & Hc). exists w'. split; [done|]. split; [done|].
  rewrite <- Hr in Hc. by apply (minified_calls_partial neat (fun _ => []) (fun _ => false) all_passes).
Qed.

(** Refuted: a function declaration that is the branch of an `if` is
    moved out of it.  `let f; if (1) function f() {}` is a program;
    `let f; function f() {}` declares a name twice, which is an early
    error (14.2.1). *)
Theorem minify_function_branch_refuted :
  let body := [SLexical 1; SIf (ELit (LNum 1)) (SFunction 1) None] in
  let body' := run_passes (fun _ => []) [RewriteStmts false] body in
  Forall (informed (fun _ => false)) [RewriteStmts false] /\
  forallb (labels_valid [] [] []) body = true /\
  decls body = [DLexical 1] /\ decls body' = [DLexical 1; DFunction 1].
Proof. split_and!; try done. by repeat constructor. Qed.
Print Assumptions minify_function_branch_refuted.

(** Refuted: a string that was not a directive becomes one.  Both `;
    "use strict"` and `if (1) "use strict"` become `"use strict"`, so that
    the function is run in strict mode: here, in another world. *)
Theorem minify_directive_refuted :
  exists (body1 body2 : list stmt) w',
    let P := [RewriteStmts false; Cleanup] in
    let run := function_call (fun _ => []) (fun _ => false) neat neat_setup in
    lawful neat /\ Forall (informed (fun _ => false)) P /\
    directives body1 = [] /\ directives body2 = [] /\
    (run body1 toy_start (RVal 0) w' /\ ~ run (run_passes (fun _ => []) P body1) toy_start (RVal 0) w') /\
    (run body2 toy_start (RVal 0) w' /\ ~ run (run_passes (fun _ => []) P body2) toy_start (RVal 0) w').
Proof.
  destruct minified_case as (HM & _).
  exists [SEmpty; str [117]], [SIf (ELit (LNum 1)) (str [117]) None], toy_start. cbv zeta.
  assert (Hno : ~ function_call (fun _ => []) (fun _ => false) neat neat_setup [str [117]] toy_start (RVal 0) toy_start).
  { intros (c & H & _). assert (Hl : lists (M := neat) 0%N [str [117]] (ToyWorld 11 [] []) (erase c) toy_start) by (by exists c).
    apply lists_one, does_expr in Hl as (r & He & _). by inversion He. }
  assert (Hlit : forall w, does (M := neat) 0%N [] (str [117]) w (CNormal None) w).
  { intros w. apply does_expr. exists (RVal 1). split; [by apply ev_lit|done]. }
  split_and!; try done.
  - by repeat constructor.
  - enough (H : lists (M := neat) 0%N [SEmpty; str [117]] toy_start (CNormal None) toy_start).
    { destruct H as (c & H & He). exists c. split; [exact H|]. destruct c; done. }
    apply lists_cons. right. exists toy_start. split; [by apply does_empty|]. by apply lists_one.
  - enough (H : lists (M := neat) 0%N [SIf (ELit (LNum 1)) (str [117]) None] toy_start (CNormal None) toy_start).
    { destruct H as (c & H & He). exists c. split; [exact H|]. destruct c; done. }
    apply lists_one, does_if. exists (RVal 1), toy_start. split; [by apply ev_lit|]. apply Hlit.
Qed.
Print Assumptions minify_directive_refuted.

(** Refuted: the value of a script.  `1; if (false) 2` gives `undefined`;
    without the `if` it gives 1. *)
Theorem minify_script_value_refuted :
  let body := [say 1; SIf (ELit (LBool false)) (say 2) None] in
  exists passes w',
    lawful neat /\ Forall (informed (fun _ => false)) passes /\ sound_body body /\
    list_ev neat (ecma_if neat) 0%N body toy_start (CNormal (Some 0)) w' /\
    list_ev neat (ecma_if neat) 0%N (run_passes (fun _ => []) passes body) toy_start (CNormal (Some 1)) w'.
Proof.
  destruct minified_case as (HM & _). intros body. exists [RewriteStmts false], (logged 1 toy_start).
  assert (H1 : list_ev neat (ecma_if neat) 0%N [say 1] toy_start (CNormal (Some 1)) (logged 1 toy_start)).
  { eapply (ev_snoc neat _ _ [] _ _ None toy_start (CNormal (Some 1))); [apply ev_nil|].
    apply ev_expr, ev_atom; [reflexivity|done]. }
  split_and!; try done.
  - by repeat constructor.
  - by exists [], body.
  - eapply (ev_snoc neat _ _ [say 1] _ _ (Some 1) (logged 1 toy_start) (CNormal (Some 0))); [exact H1|].
    eapply (ev_if_none neat (ecma_if neat) 0%N [] _ _ _ 0); [by apply ev_lit|reflexivity].
Qed.
Print Assumptions minify_script_value_refuted.
