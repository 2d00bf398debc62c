(** * Statements: the semantics is deterministic; the environment is kept *)
From stdpp Require Import base decidable numbers list.
From Verif Require Import StmtModel StmtSpec StmtProofs StmtMoreProofs.

Section Det.
Context {M : machine} (u : completion (value M) -> completion (value M)).
Implicit Types (E : env M) (w : world M).

Lemma expr_det E e w r1 w1 r2 w2 :
  expr_ev M E e w r1 w1 -> expr_ev M E e w r2 w2 -> r1 = r2 /\ w1 = w2.
Proof.
  intros H1 H2.
  assert (K1 : ends (eval_expr e) (State E w) r1 (State E w1)) by (apply ends_expr; eauto).
  assert (K2 : ends (eval_expr e) (State E w) r2 (State E w2)) by (apply ends_expr; eauto).
  destruct (ends_fun _ _ _ _ _ _ K1 K2) as [? ?]. by simplify_eq.
Qed.

Lemma vars_det E ds w r1 w1 r2 w2 :
  vars_ev M E ds w r1 w1 -> vars_ev M E ds w r2 w2 -> r1 = r2 /\ w1 = w2.
Proof.
  intros H1 H2.
  assert (K1 : ends (eval_var ds) (State E w) (thrown_or r1) (State E w1)) by (apply ends_var; eauto).
  assert (K2 : ends (eval_var ds) (State E w) (thrown_or r2) (State E w2)) by (apply ends_var; eauto).
  destruct (ends_fun _ _ _ _ _ _ K1 K2) as [? ?]. by destruct r1, r2; simplify_eq/=.
Qed.

Lemma decls_det E ds w w1 w2 : decls_ev M E ds w w1 -> decls_ev M E ds w w2 -> w1 = w2.
Proof.
  intros H1 H2.
  assert (K1 : ends (instantiate_decls ds E) (State E w) (RVal tt) (State E w1)) by (apply ends_decls; eauto).
  assert (K2 : ends (instantiate_decls ds E) (State E w) (RVal tt) (State E w2)) by (apply ends_decls; eauto).
  destruct (ends_fun _ _ _ _ _ _ K1 K2) as [? ?]. by simplify_eq.
Qed.

Lemma init_det E i w r1 w1 r2 w2 : init_ev M E i w r1 w1 -> init_ev M E i w r2 w2 -> r1 = r2 /\ w1 = w2.
Proof.
  destruct i; cbn.
  - naive_solver.
  - intros (x & Hx & Ho) (y & Hy & Ho'). destruct (expr_det _ _ _ _ _ _ _ Hx Hy) as [-> ->].
    destruct y; naive_solver.
  - apply vars_det.
Qed.

Lemma test_det E t w r1 w1 r2 w2 : test_ev M E t w r1 w1 -> test_ev M E t w r2 w2 -> r1 = r2 /\ w1 = w2.
Proof.
  destruct t; cbn.
  - intros (x & Hx & Ho) (y & Hy & Ho'). destruct (expr_det _ _ _ _ _ _ _ Hx Hy) as [-> ->].
    destruct y; naive_solver.
  - naive_solver.
Qed.

Lemma post_det E t w r1 w1 r2 w2 : post_ev M E t w r1 w1 -> post_ev M E t w r2 w2 -> r1 = r2 /\ w1 = w2.
Proof. apply init_det. Qed.

Lemma closed_det it c w r1 w1 r2 w2 : closed M it c w r1 w1 -> closed M it c w r2 w2 -> r1 = r2 /\ w1 = w2.
Proof. intros (x & Hx & _ & ->) (y & Hy & _ & ->). rewrite Hx in Hy. by simplify_eq. Qed.

Lemma search_det E v l w r1 w1 r2 w2 :
  search_ev M E v l w r1 w1 -> search_ev M E v l w r2 w2 -> r1 = r2 /\ w1 = w2.
Proof.
  intros H1. revert r2 w2.
  induction H1; intros r2 w2 H2; inversion H2; subst; try done;
    match goal with H1 : expr_ev _ _ _ _ _ _, H2 : expr_ev _ _ _ _ _ _ |- _ =>
      destruct (expr_det _ _ _ _ _ _ _ H1 H2); simplify_eq end; try done; try congruence; auto.
Qed.

Ltac dets := repeat match goal with
  | H1 : ?x = (_, _), H2 : ?x = (_, _) |- _ => rewrite H1 in H2; simplify_eq
  | H1 : expr_ev _ ?E ?e ?w _ _, H2 : expr_ev _ ?E ?e ?w _ _ |- _ =>
      destruct (expr_det _ _ _ _ _ _ _ H1 H2) as [? ?]; clear H2; simplify_eq
  | H1 : vars_ev _ ?E ?e ?w _ _, H2 : vars_ev _ ?E ?e ?w _ _ |- _ =>
      destruct (vars_det _ _ _ _ _ _ _ H1 H2) as [? ?]; clear H2; simplify_eq
  | H1 : decls_ev _ ?E ?e ?w _, H2 : decls_ev _ ?E ?e ?w _ |- _ =>
      pose proof (decls_det _ _ _ _ _ H1 H2); clear H2; simplify_eq
  | H1 : init_ev _ ?E ?e ?w _ _, H2 : init_ev _ ?E ?e ?w _ _ |- _ =>
      destruct (init_det _ _ _ _ _ _ _ H1 H2) as [? ?]; clear H2; simplify_eq
  | H1 : test_ev _ ?E ?e ?w _ _, H2 : test_ev _ ?E ?e ?w _ _ |- _ =>
      destruct (test_det _ _ _ _ _ _ _ H1 H2) as [? ?]; clear H2; simplify_eq
  | H1 : post_ev _ ?E ?e ?w _ _, H2 : post_ev _ ?E ?e ?w _ _ |- _ =>
      destruct (post_det _ _ _ _ _ _ _ H1 H2) as [? ?]; clear H2; simplify_eq
  | H1 : closed _ ?i ?c ?w _ _, H2 : closed _ ?i ?c ?w _ _ |- _ =>
      destruct (closed_det _ _ _ _ _ _ _ H1 H2) as [? ?]; clear H2; simplify_eq
  | H1 : search_ev _ ?E ?v ?l ?w _ _, H2 : search_ev _ ?E ?v ?l ?w _ _ |- _ =>
      destruct (search_det _ _ _ _ _ _ _ _ H1 H2) as [? ?]; clear H2; simplify_eq
  | IH : forall c2 w2, stmt_ev _ _ ?E ?ls ?s ?w c2 w2 -> _, H : stmt_ev _ _ ?E ?ls ?s ?w _ _ |- _ =>
      destruct (IH _ _ H) as [? ?]; clear H; simplify_eq
  | IH : forall c2 w2, list_ev _ _ ?E ?s ?w c2 w2 -> _, H : list_ev _ _ ?E ?s ?w _ _ |- _ =>
      destruct (IH _ _ H) as [? ?]; clear H; simplify_eq
  | IH : forall c2 w2, block_ev _ _ ?E ?s ?w c2 w2 -> _, H : block_ev _ _ ?E ?s ?w _ _ |- _ =>
      destruct (IH _ _ H) as [? ?]; clear H; simplify_eq
  | IH : forall c2 w2, body_ev _ _ ?E ?s ?w c2 w2 -> _, H : body_ev _ _ ?E ?s ?w _ _ |- _ =>
      destruct (IH _ _ H) as [? ?]; clear H; simplify_eq
  | IH : forall c2 w2, handled _ _ ?E ?b ?h ?w c2 w2 -> _, H : handled _ _ ?E ?b ?h ?w _ _ |- _ =>
      destruct (IH _ _ H) as [? ?]; clear H; simplify_eq
  | IH : forall c2 w2, catch_ev _ _ ?E ?p ?s ?x ?w c2 w2 -> _, H : catch_ev _ _ ?E ?p ?s ?x ?w _ _ |- _ =>
      destruct (IH _ _ H) as [? ?]; clear H; simplify_eq
  | IH : forall c2 w2, finished _ _ ?E ?b ?h ?w c2 w2 -> _, H : finished _ _ ?E ?b ?h ?w _ _ |- _ =>
      destruct (IH _ _ H) as [? ?]; clear H; simplify_eq
  | IH : forall c2 w2, while_ev _ _ ?E ?ls ?t ?s ?V ?w c2 w2 -> _, H : while_ev _ _ ?E ?ls ?t ?s ?V ?w _ _ |- _ =>
      destruct (IH _ _ H) as [? ?]; clear H; simplify_eq
  | IH : forall c2 w2, do_ev _ _ ?E ?ls ?t ?s ?V ?w c2 w2 -> _, H : do_ev _ _ ?E ?ls ?t ?s ?V ?w _ _ |- _ =>
      destruct (IH _ _ H) as [? ?]; clear H; simplify_eq
  | IH : forall c2 w2, for_ev _ _ ?E ?ls ?t ?p ?s ?V ?w c2 w2 -> _, H : for_ev _ _ ?E ?ls ?t ?p ?s ?V ?w _ _ |- _ =>
      destruct (IH _ _ H) as [? ?]; clear H; simplify_eq
  | IH : forall c2 w2, for_of_ev _ _ ?E ?ls ?t ?p ?s ?V ?w c2 w2 -> _, H : for_of_ev _ _ ?E ?ls ?t ?p ?s ?V ?w _ _ |- _ =>
      destruct (IH _ _ H) as [? ?]; clear H; simplify_eq
  | IH : forall c2 w2, case_block_ev _ _ ?E ?v ?a ?d ?w c2 w2 -> _, H : case_block_ev _ _ ?E ?v ?a ?d ?w _ _ |- _ =>
      destruct (IH _ _ H) as [? ?]; clear H; simplify_eq
  | IH : forall c2 w2, clauses_ev _ _ ?E ?l ?V ?w c2 w2 -> _, H : clauses_ev _ _ ?E ?l ?V ?w _ _ |- _ =>
      destruct (IH _ _ H) as [? ?]; clear H; simplify_eq
  end.

Ltac fin := dets; try done; try congruence; try (by exfalso; eauto); try (by split; congruence).

Lemma semantics_det :
  (forall E ls s w c w', stmt_ev M u E ls s w c w' -> forall c2 w2, stmt_ev M u E ls s w c2 w2 -> c = c2 /\ w' = w2) /\
  (forall E ss w c w', list_ev M u E ss w c w' -> forall c2 w2, list_ev M u E ss w c2 w2 -> c = c2 /\ w' = w2) /\
  (forall E ss w c w', block_ev M u E ss w c w' -> forall c2 w2, block_ev M u E ss w c2 w2 -> c = c2 /\ w' = w2) /\
  (forall E ss w c w', body_ev M u E ss w c w' -> forall c2 w2, body_ev M u E ss w c2 w2 -> c = c2 /\ w' = w2) /\
  (forall E b h w c w', handled M u E b h w c w' -> forall c2 w2, handled M u E b h w c2 w2 -> c = c2 /\ w' = w2) /\
  (forall E p ss x w c w', catch_ev M u E p ss x w c w' -> forall c2 w2, catch_ev M u E p ss x w c2 w2 -> c = c2 /\ w' = w2) /\
  (forall E b f w c w', finished M u E b f w c w' -> forall c2 w2, finished M u E b f w c2 w2 -> c = c2 /\ w' = w2) /\
  (forall E ls t s V w c w', while_ev M u E ls t s V w c w' -> forall c2 w2, while_ev M u E ls t s V w c2 w2 -> c = c2 /\ w' = w2) /\
  (forall E ls s t V w c w', do_ev M u E ls s t V w c w' -> forall c2 w2, do_ev M u E ls s t V w c2 w2 -> c = c2 /\ w' = w2) /\
  (forall E ls t p ss V w c w', for_ev M u E ls t p ss V w c w' -> forall c2 w2, for_ev M u E ls t p ss V w c2 w2 -> c = c2 /\ w' = w2) /\
  (forall E ls b it ss V w c w', for_of_ev M u E ls b it ss V w c w' -> forall c2 w2, for_of_ev M u E ls b it ss V w c2 w2 -> c = c2 /\ w' = w2) /\
  (forall E v a d w c w', case_block_ev M u E v a d w c w' -> forall c2 w2, case_block_ev M u E v a d w c2 w2 -> c = c2 /\ w' = w2) /\
  (forall E l V w c w', clauses_ev M u E l V w c w' -> forall c2 w2, clauses_ev M u E l V w c2 w2 -> c = c2 /\ w' = w2).
Proof.
  apply semantics_ind.
  all: intros;
    match goal with |- ?a = ?b /\ ?c = ?d =>
      match goal with
      | H : stmt_ev M u _ _ _ _ b d |- _ => inversion H; subst
      | H : list_ev M u _ _ _ b d |- _ => inversion H; subst
      | H : block_ev M u _ _ _ b d |- _ => inversion H; subst
      | H : body_ev M u _ _ _ b d |- _ => inversion H; subst
      | H : handled M u _ _ _ _ b d |- _ => inversion H; subst
      | H : catch_ev M u _ _ _ _ _ b d |- _ => inversion H; subst
      | H : finished M u _ _ _ _ b d |- _ => inversion H; subst
      | H : while_ev M u _ _ _ _ _ _ b d |- _ => inversion H; subst
      | H : do_ev M u _ _ _ _ _ _ b d |- _ => inversion H; subst
      | H : for_ev M u _ _ _ _ _ _ _ b d |- _ => inversion H; subst
      | H : for_of_ev M u _ _ _ _ _ _ _ b d |- _ => inversion H; subst
      | H : case_block_ev M u _ _ _ _ _ b d |- _ => inversion H; subst
      | H : clauses_ev M u _ _ _ _ b d |- _ => inversion H; subst
      end
    end.
  all: try done.
  all: repeat match goal with
    | H : _ ++ [_] = [] |- _ => by destruct (app_cons_not_nil _ _ _ (eq_sym H))
    | H : [] = _ ++ [_] |- _ => by destruct (app_cons_not_nil _ _ _ H)
    | H : _ ++ [_] = _ ++ [_] |- _ => apply app_inj_tail in H as [? ?]; subst
    end.
  all: try (fin; fail).
  all: fin.
Qed.
End Det.

(** ** The environment is put back, whatever happens *)

Section Keeps.
Context {M : machine}.

Definition keeps {A} (m : @act M A) : Prop := forall st, lexical_env (snd (m st)) = lexical_env st.

Lemma keeps_ret {A} (a : A) : keeps (ret a).
Proof. done. Qed.

Lemma keeps_bind {A B} (m : act A) (k : A -> act B) :
  keeps m -> (forall a, keeps (k a)) -> keeps (bind m k).
Proof.
  intros Hm Hk st. unfold bind. specialize (Hm st). destruct (m st) as [[a|v| |] st1]; cbn in *; try done.
  by rewrite Hk.
Qed.

Lemma keeps_call {A} (f : env M -> world M -> res (value M) A * world M) : keeps (call f).
Proof. intros st. unfold call. by destruct (f _ _) as [[] ?]. Qed.

Lemma keeps_call_total {A} (f : env M -> world M -> option A * world M) : keeps (call_total f).
Proof. intros st. unfold call_total. by destruct (f _ _) as [[] ?]. Qed.

Lemma keeps_catching m : keeps m -> keeps (catching m).
Proof. intros H st. unfold catching. specialize (H st). by destruct (m st) as [[] ?]. Qed.

Lemma keeps_close (it : iter M) : keeps (close_ignoring it).
Proof. done. Qed.

Lemma keeps_closing {A} it (m : act A) : keeps m -> keeps (closing_on_error it m).
Proof. intros H st. unfold closing_on_error. specialize (H st). by destruct (m st) as [[] ?]. Qed.

Lemma keeps_expr e : keeps (eval_expr e).
Proof.
  induction e; cbn [eval_expr].
  - apply keeps_call.
  - apply keeps_call_total.
  - apply keeps_bind; [done|]. intros v. apply keeps_bind; [done|]. by intros [].
  - apply keeps_bind; [done|]. intros v. apply keeps_bind; [done|]. by intros [].
Qed.

Lemma keeps_var ds : keeps (eval_var ds).
Proof.
  induction ds as [|[x [e|]] ds IH]; cbn [eval_var]; [done| |done].
  apply keeps_bind; [apply keeps_expr|]. intros v. apply keeps_bind; [apply keeps_call|done].
Qed.

Lemma keeps_decls ds E : keeps (instantiate_decls ds E).
Proof.
  induction ds as [|d ds IH]; cbn [instantiate_decls]; [done|]. apply keeps_bind; [apply keeps_call_total|done].
Qed.

(** A scope entered from the environment current at the time. *)
Lemma keeps_scope {A B} b (body : env M -> act A) (k : A -> act B) :
  (forall a, keeps (k a)) ->
  keeps (fun st => bind (env_create b (lexical_env st)) (fun e =>
         bind (set_lexical_env e) (fun _ => bind (restoring (lexical_env st) (body e)) k)) st).
Proof.
  intros Hk st. unfold bind, env_create, call_total.
  destruct (new_env M b (lexical_env st) (rest st)) as [[e|] w]; cbn; [|done].
  unfold restoring. destruct (body e _) as [[a|v| |] st1]; cbn; try done. by rewrite Hk.
Qed.

Lemma keeps_scope' {A} b (body : env M -> act A) :
  keeps (fun st => bind (env_create b (lexical_env st)) (fun e =>
         bind (set_lexical_env e) (fun _ => restoring (lexical_env st) (body e))) st).
Proof.
  intros st. unfold bind, env_create, call_total.
  destruct (new_env M b (lexical_env st) (rest st)) as [[e|] w]; cbn; [|done].
  unfold restoring. by destruct (body e _) as [[a|v| |] st1].
Qed.

Lemma keeps_all n :
  (forall L s, keeps (eval_stmt n L s)) /\ (forall ss v, keeps (eval_list n ss v)) /\
  (forall ss, keeps (eval_block n ss)) /\ (forall p ss x, keeps (eval_catch n p ss x)) /\
  (forall L t s V, keeps (while_loop n L t s V)) /\ (forall L s t V, keeps (do_while_loop n L s t V)) /\
  (forall L t p ss V, keeps (for_loop n L t p ss V)) /\
  (forall L b it ss V, keeps (for_of_loop n L b it ss V)).
Proof.
  induction n as [|n (HS & HL & HB & HC & HW & HD & HF & HO)]; [done|].
  split; [|split; [|split; [|split; [|split; [|split; [|split]]]]]].
  - intros L s. cbn [eval_stmt]. apply keeps_catching.
    destruct s as [|e|ds|d|d|body|t sc sa|e|[e|]|body h f|t sb|sb t|i t p body|b e body|e a d|l sb|l|l];
      try done.
    + apply keeps_bind; [apply keeps_expr|done].
    + apply keeps_bind; [apply keeps_var|done].
    + apply keeps_bind; [apply keeps_call|done].
    + apply keeps_bind; [apply keeps_expr|]. intros v. apply keeps_bind; [done|]. intros [].
      * apply HS.
      * destruct sa; [apply HS|done].
    + apply keeps_bind; [apply keeps_expr|done].
    + apply keeps_bind; [apply keeps_expr|done].
    + apply keeps_bind; [done|]. intros r. apply keeps_bind.
      { destruct r; try done. destruct h as [[]|]; [|done]. apply HC. }
      intros r'. apply keeps_bind; [|done]. destruct f; [|done]. apply keeps_bind; [apply HB|done].
    + apply keeps_bind; [done|done].
    + apply keeps_bind; [done|done].
    + apply keeps_bind.
      { destruct i; [done| |apply keeps_var]. apply keeps_bind; [apply keeps_expr|done]. }
      intros _. apply keeps_bind; done.
    + apply keeps_bind; [apply keeps_expr|]. intros v. apply keeps_bind; [apply keeps_call|].
      intros it. apply keeps_bind; done.
    + apply keeps_bind; [apply keeps_expr|]. intros v. cbv zeta.
      exact (keeps_scope _ (fun e => bind (instantiate_decls (switch_decls a d) e) (fun _ => eval_switch n v a d))
               (fun result => ret (normalise_iteration_break (undefined M) result)) (fun _ => keeps_ret _)).
    + apply keeps_bind; [apply HS|done].
  - intros ss v. cbn [eval_list]. destruct ss; [done|]. apply keeps_bind; [apply HS|].
    intros c. destruct (update_empty c v); try done.
  - intros ss. cbn [eval_block]. cbv zeta.
    exact (keeps_scope' _ (fun e => bind (instantiate_decls (decls ss) e) (fun _ => eval_list n ss None))).
  - intros p ss x. cbn [eval_catch]. cbv zeta.
    exact (keeps_scope' _ (fun e => bind (instantiate_decls (decls ss) e) (fun _ =>
             bind (bind_catch_param p x) (fun _ => eval_list n ss None)))).
  - intros L t s V. cbn [while_loop]. apply keeps_bind; [apply keeps_expr|]. intros v.
    apply keeps_bind; [done|]. intros []; cbn [negb]; [|done]. apply keeps_bind; [apply HS|]. intros c.
    destruct (loop_continues c L); cbn [negb]; [apply HW|done].
  - intros L s t V. cbn [do_while_loop]. apply keeps_bind; [apply HS|]. intros c.
    destruct (loop_continues c L); [|done]. apply keeps_bind; [apply keeps_expr|]. intros v.
    apply keeps_bind; [done|]. intros []; cbn [negb]; [apply HD|done].
  - intros L t p ss V. cbn [for_loop]. apply keeps_bind.
    { destruct t; [|done]. apply keeps_bind; [apply keeps_expr|done]. }
    intros []; [|done]. apply keeps_bind; [apply HL|]. intros c. destruct (loop_continues c L); [|done].
    apply keeps_bind; [|done]. destruct p; [|done]. apply keeps_bind; [apply keeps_expr|done].
  - intros L b it ss V. cbn [for_of_loop]. apply keeps_bind; [apply keeps_closing, keeps_call|].
    intros [v|]; [|done]. apply keeps_bind; [apply keeps_closing, keeps_call|]. intros _.
    apply keeps_bind; [apply keeps_closing, HL|]. intros c. destruct (loop_continues c L); cbn [negb]; [apply HO|].
    apply keeps_bind; done.
Qed.
End Keeps.
