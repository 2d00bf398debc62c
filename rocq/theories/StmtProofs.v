(** * Statements: proofs *)
From stdpp Require Import base decidable numbers list.
From Verif Require Import StmtModel StmtSpec.

Section Ends.
Context {M : machine}.
Implicit Types (E : env M) (w : world M) (st : state M).

(** The outcome of a call that neither stops the engine nor runs out of
    fuel. *)
Definition out {A} (r : res (value M) A) : outcome (value M) A :=
  match r with RVal a => XOk a | RThrow v => XErr v | RFatal => XFatal end.

Definition ends {A} (m : act A) (st : state M) (r : res (value M) A) (st' : state M) : Prop :=
  m st = (out r, st') /\ r <> RFatal.

Lemma ends_ret {A} (a : A) st r st' : ends (ret a) st r st' <-> r = RVal a /\ st' = st.
Proof.
  unfold ends, ret. split.
  - intros [H Hr]. destruct r; simplify_eq/=; done.
  - intros [-> ->]. done.
Qed.

Lemma ends_bind {A B} (m : act A) (k : A -> act B) st r st' :
  ends (bind m k) st r st' <->
  (exists x, r = RThrow x /\ ends m st (RThrow x) st') \/
  (exists a st1, ends m st (RVal a) st1 /\ ends (k a) st1 r st').
Proof.
  unfold ends, bind. split.
  - intros [H Hr]. destruct (m st) as [[a|v| |] st1] eqn:Em.
    + right. eexists a, st1. done.
    + left. exists v. destruct r; simplify_eq/=; done.
    + destruct r; simplify_eq/=.
    + destruct r; simplify_eq/=.
  - intros [(x & -> & Hm & _)|(a & st1 & [Hm _] & Hk & Hr)].
    + by rewrite Hm.
    + by rewrite Hm.
Qed.

Lemma ends_call {A} (f : env M -> world M -> res (value M) A * world M) E w r st' :
  ends (call f) (State E w) r st' <-> exists w', f E w = (r, w') /\ r <> RFatal /\ st' = State E w'.
Proof.
  unfold ends, call; cbn [lexical_env rest]. destruct (f E w) as [r' w1] eqn:Ef. split.
  - intros [H Hr]. exists w1. destruct r', r; simplify_eq/=; done.
  - intros (w' & ? & ? & ->). destruct r'; simplify_eq/=; done.
Qed.

Lemma ends_call_total {A} (f : env M -> world M -> option A * world M) E w r st' :
  ends (call_total f) (State E w) r st' <->
  exists a w', f E w = (Some a, w') /\ r = RVal a /\ st' = State E w'.
Proof.
  unfold ends, call_total; cbn [lexical_env rest]. destruct (f E w) as [[a|] w1] eqn:Ef; split.
  - intros [H Hr]. exists a, w1. destruct r; simplify_eq/=; done.
  - intros (a' & w' & ? & -> & ->). simplify_eq. done.
  - intros [H Hr]. destruct r; simplify_eq/=.
  - intros (a' & w' & ? & ?). done.
Qed.

Lemma ends_truth v E w r st' :
  ends (truth v) (State E w) r st' <-> r = RVal (to_boolean M v w) /\ st' = State E w.
Proof.
  unfold ends, truth; cbn [rest]. split.
  - intros [H Hr]. destruct r; simplify_eq/=; done.
  - intros [-> ->]. done.
Qed.

Lemma ends_same a b E w r st' :
  ends (same a b) (State E w) r st' <-> r = RVal (strict_equal M a b w) /\ st' = State E w.
Proof.
  unfold ends, same; cbn [rest]. split.
  - intros [H Hr]. destruct r; simplify_eq/=; done.
  - intros [-> ->]. done.
Qed.

Lemma ends_set E' E w r st' :
  ends (set_lexical_env E') (State E w) r st' <-> r = RVal tt /\ st' = State E' w.
Proof.
  unfold ends, set_lexical_env; cbn [rest]. split.
  - intros [H Hr]. destruct r; simplify_eq/=; done.
  - intros [-> ->]. done.
Qed.

Lemma ends_restoring {A} o (m : act A) st r st' :
  ends (restoring o m) st r st' <-> exists E1 w', ends m st r (State E1 w') /\ st' = State o w'.
Proof.
  unfold ends, restoring. destruct (m st) as [r' [E1 w1]] eqn:Em. split.
  - intros [H Hr]. simplify_eq/=. eauto.
  - intros (E2 & w' & [? ?] & ->). simplify_eq/=. done.
Qed.

Lemma ends_catching m st r st' :
  ends (catching m) st r st' <->
  exists c, r = RVal c /\
    (ends m st (RVal c) st' \/ exists x, c = CThrow x /\ ends m st (RThrow x) st').
Proof.
  unfold ends, catching. destruct (m st) as [[c|v| |] st1] eqn:Em; split.
  - intros [H Hr]. destruct r; simplify_eq/=. eauto.
  - intros (c' & -> & [[? _]|(x & -> & ? & _)]); simplify_eq/=. done.
  - intros [H Hr]. destruct r; simplify_eq/=. eexists. split; [done|]. right. eauto.
  - intros (c' & -> & [[? _]|(x & -> & ? & _)]); simplify_eq/=. done.
  - intros [H Hr]. destruct r; simplify_eq/=.
  - intros (c' & -> & [[? _]|(x & -> & ? & _)]); simplify_eq/=.
  - intros [H Hr]. destruct r; simplify_eq/=.
  - intros (c' & -> & [[? _]|(x & -> & ? & _)]); simplify_eq/=.
Qed.

Lemma ends_fun {A} (m : act A) st r1 st1 r2 st2 :
  ends m st r1 st1 -> ends m st r2 st2 -> r1 = r2 /\ st1 = st2.
Proof.
  intros [H1 ?] [H2 ?]. rewrite H1 in H2. destruct r1, r2; simplify_eq/=; done.
Qed.

(** ** Expressions, variables, declarations *)

Lemma ends_expr e : forall E w r st',
  ends (eval_expr e) (State E w) r st' <-> exists w', expr_ev M E e w r w' /\ st' = State E w'.
Proof.
  induction e as [n|l|t IHt c IHc a IHa|l IHl r' IHr]; intros E w r st'; cbn [eval_expr].
  - rewrite ends_call. split.
    + intros (w' & ? & ? & ->). exists w'. split; [by apply ev_atom|done].
    + intros (w' & Hev & ->). inversion Hev; subst. eauto.
  - rewrite ends_call_total. split.
    + intros (a & w' & ? & -> & ->). exists w'. split; [by apply ev_lit|done].
    + intros (w' & Hev & ->). inversion Hev; subst. eauto.
  - rewrite ends_bind. split.
    + intros [(x & -> & Ht)|(v & st1 & Ht & Hk)].
      * apply IHt in Ht as (w' & ? & ->). exists w'. split; [by apply ev_cond_throw|done].
      * apply IHt in Ht as (w1 & Ht & ->). apply ends_bind in Hk as [(x & -> & Hx)|(b & st2 & Hb & Hk)].
        { by apply ends_truth in Hx as [? _]. }
        apply ends_truth in Hb as [Hb ->]. injection Hb as ->.
        assert (exists w', expr_ev M E (if to_boolean M v w1 then c else a) w1 r w' /\ st' = State E w')
          as (w' & ? & ->).
        { destruct (to_boolean M v w1); [by apply IHc|by apply IHa]. }
        exists w'. split; [by eapply ev_cond|done].
    + intros (w' & Hev & ->). inversion Hev; subst.
      * left. eexists. split; [done|]. apply IHt. eauto.
      * right. eexists v, _. split; [apply IHt; eauto|].
        apply ends_bind. right. eexists _, _. split; [by apply ends_truth|].
        destruct (to_boolean M v w1); [apply IHc|apply IHa]; eauto.
  - rewrite ends_bind. split.
    + intros [(x & -> & Ht)|(v & st1 & Ht & Hk)].
      * apply IHl in Ht as (w' & ? & ->). exists w'. split; [by apply ev_and_throw|done].
      * apply IHl in Ht as (w1 & Ht & ->). apply ends_bind in Hk as [(x & -> & Hx)|(b & st2 & Hb & Hk)].
        { by apply ends_truth in Hx as [? _]. }
        apply ends_truth in Hb as [Hb ->]. injection Hb as ->.
        destruct (to_boolean M v w1) eqn:Hb; cbn in Hk.
        -- apply IHr in Hk as (w' & ? & ->). exists w'. split; [by eapply ev_and_true|done].
        -- apply ends_ret in Hk as [-> ->]. exists w1. split; [by apply ev_and_false|done].
    + intros (w' & Hev & ->). inversion Hev; subst.
      * left. eexists. split; [done|]. apply IHl. eauto.
      * right. eexists v, _. split; [apply IHl; eauto|].
        apply ends_bind. right. eexists _, _. split; [by apply ends_truth|].
        match goal with H : to_boolean _ _ _ = _ |- _ => rewrite H end. by apply ends_ret.
      * right. eexists v, _. split; [apply IHl; eauto|].
        apply ends_bind. right. eexists _, _. split; [by apply ends_truth|].
        match goal with H : to_boolean _ _ _ = _ |- _ => rewrite H end. apply IHr; eauto.
Qed.

Definition thrown_or (t : option (value M)) : res (value M) unit :=
  match t with None => RVal tt | Some x => RThrow x end.

Lemma ends_var ds : forall E w r st',
  ends (eval_var ds) (State E w) r st' <->
  exists t w', vars_ev M E ds w t w' /\ r = thrown_or t /\ st' = State E w'.
Proof.
  induction ds as [|[x [e|]] ds IH]; intros E w r st'; cbn [eval_var].
  - rewrite ends_ret. split.
    + intros [-> ->]. eexists None, _. split; [apply ev_vars_nil|done].
    + intros (t & w' & Hev & -> & ->). inversion Hev; subst. done.
  - rewrite ends_bind. split.
    + intros [(y & -> & He)|(v & st1 & He & Hk)].
      * apply ends_expr in He as (w' & ? & ->). exists (Some y), w'. split; [by apply ev_vars_throw|done].
      * apply ends_expr in He as (w1 & ? & ->). apply ends_bind in Hk as [(y & -> & Hp)|([] & st2 & Hp & Hk)].
        -- apply ends_call in Hp as (w' & ? & ? & ->). exists (Some y), w'.
           split; [by eapply ev_vars_put_throw|done].
        -- apply ends_call in Hp as (w2 & ? & ? & ->). apply IH in Hk as (t & w' & ? & -> & ->).
           exists t, w'. split; [by eapply ev_vars_put|done].
    + intros (t & w' & Hev & -> & ->). inversion Hev; subst.
      * left. eexists. split; [done|]. apply ends_expr. eauto.
      * right. eexists v, _. split; [apply ends_expr; eauto|]. apply ends_bind. left.
        eexists. split; [done|]. apply ends_call. eauto.
      * right. eexists v, _. split; [apply ends_expr; eauto|]. apply ends_bind. right.
        eexists tt, _. split; [apply ends_call; eauto|]. apply IH. eauto.
  - rewrite IH. split; intros (t & w' & Hev & -> & ->); exists t, w'; (split; [|done]).
    + by apply ev_vars_bare.
    + by inversion Hev; subst.
Qed.

Lemma ends_decls ds e : forall E w r st',
  ends (instantiate_decls ds e) (State E w) r st' <->
  exists w', decls_ev M e ds w w' /\ r = RVal tt /\ st' = State E w'.
Proof.
  induction ds as [|d ds IH]; intros E w r st'; cbn [instantiate_decls].
  - rewrite ends_ret. split.
    + intros [-> ->]. eexists. split; [apply ev_decls_nil|done].
    + intros (w' & Hev & -> & ->). by inversion Hev; subst.
  - rewrite ends_bind. split.
    + intros [(x & -> & Hx)|([] & st1 & H1 & H2)].
      * apply ends_call_total in Hx as (? & ? & _ & ? & _). done.
      * apply ends_call_total in H1 as ([] & w1 & ? & _ & ->).
        apply IH in H2 as (w' & ? & -> & ->). exists w'. split; [by eapply ev_decls_cons|done].
    + intros (w' & Hev & -> & ->). inversion Hev; subst. right. eexists tt, _.
      split; [apply ends_call_total; eauto|]. apply IH. eauto.
Qed.

(** ** Agreement of the auxiliary operations *)

Lemma update_empty_spec {V} (c : completion V) v : update_empty c v = UpdateEmpty c v.
Proof. by destruct c as [[]| | |? []|? []]. Qed.

Lemma value_or_spec {V} (c : completion V) v : default v (completion_value c) = value_or c v.
Proof. by destruct c as [[]| | |? []|? []]. Qed.

Lemma unbroken_spec {V} (u : V) (c : completion V) : normalise_iteration_break u c = unbroken u c.
Proof. by destruct c as [| | |[] []|]. Qed.

Lemma loop_continues_spec {V} (c : completion V) L ls :
  (forall x, x ∈ L <-> x ∈ ls) -> loop_continues c L = true <-> LoopContinues c ls.
Proof.
  intros HL. destruct c as [| | | |[l|] v]; cbn; try done.
  rewrite existsb_exists, <- HL. split.
  - intros (x & Hx%elem_of_list_In & ->%N.eqb_eq). done.
  - intros Hl. exists l. split; [by apply elem_of_list_In|by apply N.eqb_refl].
Qed.

Lemma loop_leaves_spec {V} (c : completion V) L ls :
  (forall x, x ∈ L <-> x ∈ ls) -> loop_continues c L = false <-> ~ LoopContinues c ls.
Proof.
  intros HL. rewrite <- (loop_continues_spec c L ls HL). by destruct (loop_continues c L).
Qed.

Lemma is_abrupt_spec {V} (c : completion V) : is_abrupt c = true <-> abrupt c.
Proof. by destruct c. Qed.

Lemma unlabelled_spec {V} l (c : completion V) :
  match c with
  | CBreak (Some target) v => if (target =? l)%N then CNormal v else c
  | _ => c
  end = unlabelled l c.
Proof.
  destruct c as [| | |[t|] v|]; try done. cbn. case_decide as Hd.
  - by apply N.eqb_eq in Hd as ->.
  - by apply N.eqb_neq in Hd as ->.
Qed.


(** ** The evaluator follows the semantics *)

Context (q : bool) (Hq : q = true -> quiet_iterators M).

(** What the code does with the completion of an `if` branch. *)
Definition plain_if (c : completion (value M)) : completion (value M) := c.

Notation stmt_ev := (stmt_ev M plain_if).
Notation list_ev := (list_ev M plain_if).
Notation block_ev := (block_ev M plain_if).
Notation body_ev := (body_ev M plain_if).
Notation handled := (handled M plain_if).
Notation catch_ev := (catch_ev M plain_if).
Notation finished := (finished M plain_if).
Notation while_ev := (while_ev M plain_if).
Notation do_ev := (do_ev M plain_if).
Notation for_ev := (for_ev M plain_if).
Notation for_of_ev := (for_of_ev M plain_if).
Notation case_block_ev := (case_block_ev M plain_if).
Notation clauses_ev := (clauses_ev M plain_if).

(** A completion, also where the code has it as an error. *)
Definition completes (r : res (value M) (completion (value M))) (c : completion (value M)) : Prop :=
  r = RVal c \/ exists x, r = RThrow x /\ c = CThrow x.

Definition same_set (L ls : list N) : Prop := forall x, x ∈ L <-> x ∈ ls.

Definition sound_stmt n := forall L ls s E w r st',
  regular q s = true -> same_set L ls -> ends (eval_stmt n L s) (State E w) r st' ->
  exists c w', r = RVal c /\ st' = State E w' /\ stmt_ev E ls s w c w'.

Definition sound_list n := forall ss0 ss last w0 E w r st',
  forallb (regular q) ss = true -> list_ev E ss0 w0 (CNormal last) w ->
  ends (eval_list n ss last) (State E w) r st' ->
  exists c w', r = RVal c /\ st' = State E w' /\ list_ev E (ss0 ++ ss) w0 c w'.

Definition sound_block n := forall ss E w r st',
  forallb (regular q) ss = true -> ends (eval_block n ss) (State E w) r st' ->
  exists c w', r = RVal c /\ st' = State E w' /\ block_ev E ss w c w'.

Definition pattern_plain (p : catch_param) (ss : list stmt) : Prop :=
  match p with CatchPattern _ => decls ss = [] | _ => True end.

Definition sound_catch n := forall p ss x E w r st',
  forallb (regular q) ss = true -> pattern_plain p ss ->
  ends (eval_catch n p ss x) (State E w) r st' ->
  exists c w', completes r c /\ st' = State E w' /\ catch_ev E p ss x w c w' /\
    (match p with CatchPattern _ => True | _ => r = RVal c end).

Definition sound_while n := forall L ls t s V E w r st',
  regular q s = true -> same_set L ls -> ends (while_loop n L t s V) (State E w) r st' ->
  exists c w', completes r c /\ st' = State E w' /\ while_ev E ls t s V w c w'.

Definition sound_do n := forall L ls t s V E w r st',
  regular q s = true -> same_set L ls -> ends (do_while_loop n L s t V) (State E w) r st' ->
  exists c w', completes r c /\ st' = State E w' /\ do_ev E ls s t V w c w'.

Definition sound_for n := forall L ls t p ss V E w r st',
  forallb (regular q) ss = true -> decls ss = [] -> same_set L ls ->
  ends (for_loop n L t p ss V) (State E w) r st' ->
  exists c w', completes r c /\ st' = State E w' /\ for_ev E ls t p ss V w c w'.

Definition sound_of n := forall L ls b it ss V E w r st',
  q = true -> forallb (regular q) ss = true -> decls ss = [] -> same_set L ls ->
  ends (for_of_loop n L b it ss V) (State E w) r st' ->
  exists c w', completes r c /\ st' = State E w' /\ for_of_ev E ls b it ss V w c w'.

Definition regular_bodies (l : list (expr * list stmt)) : Prop :=
  forallb (fun b => forallb (regular q) (snd b)) l = true.

(** The clauses [bodies], run from value [V], whatever comes after them. *)
Definition sweeps E (bodies : list (list stmt)) V w (o : completion (value M) + value M) w' : Prop :=
  match o with
  | inl c => forall more, clauses_ev E (bodies ++ more) V w c w'
  | inr V' => forall more c w'', clauses_ev E more V' w' c w'' -> clauses_ev E (bodies ++ more) V w c w''
  end.

Definition sound_run n := forall v l V E w r st',
  regular_bodies l -> ends (eval_cases n v l true V) (State E w) r st' ->
  exists w', st' = State E w' /\
    ((exists c, r = RVal (inl c) /\ sweeps E (map snd l) V w (inl c) w') \/
     (exists V', r = RVal (inr (true, V')) /\ sweeps E (map snd l) V w (inr V') w')).

Definition sound_search n := forall v l V E w r st',
  regular_bodies l -> ends (eval_cases n v l false V) (State E w) r st' ->
  exists w', st' = State E w' /\
    ((exists x, r = RThrow x /\ search_ev M E v l w (inr x) w') \/
     (r = RVal (inr (false, V)) /\ search_ev M E v l w (inl None) w') \/
     (exists bodies w1, search_ev M E v l w (inl (Some bodies)) w1 /\
       ((exists c, r = RVal (inl c) /\ sweeps E bodies V w1 (inl c) w') \/
        (exists V', r = RVal (inr (true, V')) /\ sweeps E bodies V w1 (inr V') w')))).

Definition regular_rest (d : option (list stmt * list (expr * list stmt))) : Prop :=
  match d with Some (s, b) => forallb (regular q) s = true /\ regular_bodies b | None => True end.

Definition sound_switch n := forall v a d E w r st',
  regular_bodies a -> regular_rest d ->
  ends (eval_switch n v a d) (State E w) r st' ->
  exists c w', completes r c /\ st' = State E w' /\ case_block_ev E v a d w c w'.

Ltac inv_bind H := apply ends_bind in H as [(?x & ? & H)|(?a & ?st & ?Ha & H)].

Lemma ends_never {A} (st : state M) r st' : ~ ends (fun st => (@XFuel (value M) A, st)) st r st'.
Proof. intros [H _]. by destruct r. Qed.

Lemma sound_list_S n : sound_stmt n -> sound_list n -> sound_list (S n).
Proof.
  intros HS HL ss0 ss last w0 E w r st' Hr H0 H. cbn [eval_list] in H.
  destruct ss as [|s ss].
  - apply ends_ret in H as [-> ->]. eexists _, _. split; [done|split; [done|]]. by rewrite app_nil_r.
  - cbn [forallb] in Hr. apply andb_prop in Hr as [Hr1 Hr2].
    inv_bind H.
    { subst. eapply (HS [] []) in H as (c & w' & ? & _); done. }
    eapply (HS [] []) in Ha as (c & w1 & Hc & -> & Hev); [|done|done]. injection Hc as ->.
    rewrite update_empty_spec in H.
    assert (Hsn : list_ev E (ss0 ++ [s]) w0 (UpdateEmpty c last) w1) by (by eapply ev_snoc).
    destruct (is_abrupt (UpdateEmpty c last)) eqn:Hab.
    + apply is_abrupt_spec in Hab. assert (r = RVal (UpdateEmpty c last) /\ st' = State E w1) as [-> ->].
      { apply ends_ret. by destruct (UpdateEmpty c last). }
      eexists _, _. split; [done|split; [done|]].
      clear -Hsn Hab. replace (ss0 ++ s :: ss) with ((ss0 ++ [s]) ++ ss) by (by rewrite <- app_assoc).
      revert Hsn. generalize (ss0 ++ [s]) as l. induction ss as [|s' ss IH] using rev_ind; intros l Hl.
      * by rewrite app_nil_r.
      * rewrite app_assoc. apply ev_snoc_abrupt; [by apply IH|done].
    + destruct (UpdateEmpty c last) as [v| | | |] eqn:Hu; try done.
      replace (match v with Some v0 => Some v0 | None => last end) with v in H.
      2:{ destruct v; [done|]. destruct c as [[]| | | |]; simplify_eq/=. done. }
      eapply HL in H as (c' & w' & -> & -> & Hl); [|done|exact Hsn].
      eexists _, _. split; [done|split; [done|]]. by rewrite <- app_assoc in Hl.
Qed.

Lemma sound_block_S n : sound_list n -> sound_block (S n).
Proof.
  intros HL ss E w r st' Hr H. cbn [eval_block lexical_env] in H.
  inv_bind H. { apply ends_call_total in H as (? & ? & _ & ? & _). congruence. }
  apply ends_call_total in Ha as (E' & w1 & Hn & Hv & ->). injection Hv as ->.
  inv_bind H. { apply ends_set in H as [? _]. congruence. }
  apply ends_set in Ha as [_ ->].
  apply ends_restoring in H as (E1 & w' & H & ->).
  inv_bind H. { apply ends_decls in H as (? & _ & ? & _). congruence. }
  apply ends_decls in Ha as (w2 & Hd & _ & ->).
  eapply (HL []) in H as (c & w'' & -> & Hst & Hl); [|done|apply ev_nil].
  injection Hst as -> ->. eexists _, _. split; [done|split; [done|]]. by eapply ev_in_block.
Qed.

Lemma sound_catch_S n : sound_list n -> sound_catch (S n).
Proof.
  intros HL p ss x E w r st' Hr Hp H. cbn [eval_catch lexical_env] in H.
  inv_bind H. { apply ends_call_total in H as (? & ? & _ & ? & _). congruence. }
  apply ends_call_total in Ha as (E' & w1 & Hn & Hv & ->). injection Hv as ->.
  inv_bind H. { apply ends_set in H as [? _]. congruence. }
  apply ends_set in Ha as [_ ->].
  apply ends_restoring in H as (E1 & w' & H & ->).
  inv_bind H. { apply ends_decls in H as (? & _ & ? & _). congruence. }
  apply ends_decls in Ha as (w2 & Hd & _ & ->).
  inv_bind H.
  - destruct p as [|m|m]; cbn [bind_catch_param] in H.
    + apply ends_ret in H as [? _]. congruence.
    + apply ends_call_total in H as (? & ? & _ & ? & _). congruence.
    + apply ends_call in H as (w3 & Hb & _ & Hst). injection Hst as -> ->. subst r.
      exists (CThrow x0), w3. split; [right; eauto|split; [done|split; [|done]]].
      cbn in Hp. rewrite Hp in Hd. inversion Hd; subst. by eapply ev_catch_pattern_throw.
  - destruct p as [|m|m]; cbn [bind_catch_param] in Ha.
    + apply ends_ret in Ha as [_ ->].
      eapply (HL []) in H as (c & w'' & -> & Hst & Hl); [|done|apply ev_nil]. injection Hst as -> ->.
      eexists _, _. split; [by left|split; [done|split; [|done]]]. by eapply ev_catch_bare.
    + apply ends_call_total in Ha as ([] & w3 & Hb & _ & ->).
      eapply (HL []) in H as (c & w'' & -> & Hst & Hl); [|done|apply ev_nil]. injection Hst as -> ->.
      eexists _, _. split; [by left|split; [done|split; [|done]]]. by eapply ev_catch_name.
    + apply ends_call in Ha as (w3 & Hb & _ & ->). destruct a1.
      eapply (HL []) in H as (c & w'' & -> & Hst & Hl); [|done|apply ev_nil]. injection Hst as -> ->.
      eexists _, _. split; [by left|split; [done|split; [|done]]].
      cbn in Hp. rewrite Hp in Hd. inversion Hd; subst.
      eapply ev_catch_pattern; [done|done|]. by apply ev_body_plain.
Qed.

Lemma sound_while_S n : sound_stmt n -> sound_while n -> sound_while (S n).
Proof.
  intros HS HW L ls t s V E w r st' Hr HL H. cbn [while_loop] in H.
  inv_bind H.
  { apply ends_expr in H as (w' & He & ->). subst. eexists _, _.
    split; [right; eauto|split; [done|]]. by apply ev_while_throw. }
  apply ends_expr in Ha as (w1 & He & ->).
  inv_bind H. { apply ends_truth in H as [? _]. congruence. }
  apply ends_truth in Ha as [Hb ->]. injection Hb as ->.
  destruct (to_boolean M a w1) eqn:Hb; cbn [negb] in H.
  - inv_bind H. { subst. eapply (HS [] []) in H as (? & ? & ? & _); done. }
    eapply (HS [] []) in Ha as (c & w2 & Hc & -> & Hs); [|done|done]. injection Hc as ->.
    destruct (loop_continues c L) eqn:Hlc; cbn [negb] in H.
    + apply (loop_continues_spec c L ls HL) in Hlc.
      rewrite value_or_spec in H. eapply HW in H as (c' & w' & Hc & -> & Hw); [|done|done].
      eexists _, _. split; [done|split; [done|]]. by eapply ev_while_again.
    + apply (loop_leaves_spec c L ls HL) in Hlc. apply ends_ret in H as [-> ->].
      eexists _, _. split; [by left|split; [done|]]. rewrite update_empty_spec. by eapply ev_while_leave.
  - apply ends_ret in H as [-> ->]. eexists _, _. split; [by left|split; [done|]]. by eapply ev_while_end.
Qed.

Lemma sound_do_S n : sound_stmt n -> sound_do n -> sound_do (S n).
Proof.
  intros HS HW L ls t s V E w r st' Hr HL H. cbn [do_while_loop] in H.
  inv_bind H. { subst. eapply (HS [] []) in H as (? & ? & ? & _); done. }
  eapply (HS [] []) in Ha as (c & w1 & Hc & -> & Hs); [|done|done]. injection Hc as ->.
  destruct (loop_continues c L) eqn:Hlc; cbn [negb] in H.
  - apply (loop_continues_spec c L ls HL) in Hlc.
    cbv zeta in H. rewrite value_or_spec in H. inv_bind H.
    { apply ends_expr in H as (w' & He & ->). subst. eexists _, _.
      split; [right; eauto|split; [done|]]. by eapply ev_do_throw. }
    apply ends_expr in Ha as (w2 & He & ->).
    inv_bind H. { apply ends_truth in H as [? _]. congruence. }
    apply ends_truth in Ha as [Hb ->]. injection Hb as ->.
    destruct (to_boolean M a w2) eqn:Hb; cbn [negb] in H.
    + eapply HW in H as (c' & w' & Hc & -> & Hw); [|done|done].
      eexists _, _. split; [done|split; [done|]]. by eapply ev_do_again.
    + apply ends_ret in H as [-> ->]. eexists _, _. split; [by left|split; [done|]]. by eapply ev_do_end.
  - apply (loop_leaves_spec c L ls HL) in Hlc. apply ends_ret in H as [-> ->].
    eexists _, _. split; [by left|split; [done|]]. rewrite update_empty_spec. by eapply ev_do_leave.
Qed.

Lemma ends_test (t : option expr) E w r st' :
  ends match t with
       | Some cond => bind (eval_expr cond) (fun test => truth test)
       | None => ret true
       end (State E w) r st' <->
  exists o w', test_ev M E t w o w' /\ st' = State E w' /\
    r = match o with inl b => RVal b | inr x => RThrow x end.
Proof.
  destruct t as [e|]; cbn [test_ev].
  - rewrite ends_bind. split.
    + intros [(x & -> & H)|(v & st1 & H1 & H2)].
      * apply ends_expr in H as (w' & ? & ->). exists (inr x), w'. split; [|done]. by eexists _.
      * apply ends_expr in H1 as (w' & ? & ->). apply ends_truth in H2 as [-> ->].
        exists (inl (to_boolean M v w')), w'. split; [|done]. by eexists _.
    + intros (o & w' & (x & He & Hx) & -> & ->). destruct x as [v|x|]; subst; [| |done].
      * right. eexists v, _. split; [apply ends_expr; eauto|]. by apply ends_truth.
      * left. eexists. split; [done|]. apply ends_expr; eauto.
  - rewrite ends_ret. split.
    + intros [-> ->]. by eexists (inl true), _.
    + intros (o & w' & [-> ->] & -> & ->). done.
Qed.

Lemma ends_init (i : for_init) E w r st' :
  ends match i with
       | InitNone => ret tt
       | InitExpr e => bind (eval_expr e) (fun _ => ret tt)
       | InitVar ds => eval_var ds
       end (State E w) r st' <->
  exists t w', init_ev M E i w t w' /\ st' = State E w' /\ r = thrown_or t.
Proof.
  destruct i as [|e|ds]; cbn [init_ev].
  - rewrite ends_ret. split.
    + intros [-> ->]. by eexists None, _.
    + intros (t & w' & [-> ->] & -> & ->). done.
  - rewrite ends_bind. split.
    + intros [(x & -> & H)|(v & st1 & H1 & H2)].
      * apply ends_expr in H as (w' & ? & ->). exists (Some x), w'. split; [|done]. by eexists _.
      * apply ends_expr in H1 as (w' & ? & ->). apply ends_ret in H2 as [-> ->].
        exists None, w'. split; [|done]. by eexists _.
    + intros (o & w' & (x & He & Hx) & -> & ->). destruct x as [v|x|]; subst; [| |done].
      * right. eexists v, _. split; [apply ends_expr; eauto|]. by apply ends_ret.
      * left. eexists. split; [done|]. apply ends_expr; eauto.
  - rewrite ends_var. naive_solver.
Qed.

Lemma ends_post (p : option expr) E w r st' :
  ends match p with
       | Some e => bind (eval_expr e) (fun _ => ret tt)
       | None => ret tt
       end (State E w) r st' <->
  exists t w', post_ev M E p w t w' /\ st' = State E w' /\ r = thrown_or t.
Proof.
  unfold post_ev. rewrite <- ends_init. by destruct p.
Qed.

Lemma sound_for_S n : sound_list n -> sound_for n -> sound_for (S n).
Proof.
  intros HB HW L ls t p ss V E w r st' Hr Hd HL H. cbn [for_loop] in H.
  inv_bind H.
  { apply ends_test in H as ([]&w'&Ht&->&?); subst; [done|]. simplify_eq.
    eexists _, _. split; [right; eauto|split; [done|]]. by apply ev_for_test_throw. }
  apply ends_test in Ha as ([b|]&w1&Ht&->&Hb); [|done]. injection Hb as ->.
  destruct b; cbn [negb] in H.
  - inv_bind H.
    { subst. eapply (HB []) in H as (? & ? & ? & _); [done|done|apply ev_nil]. }
    eapply (HB []) in Ha as (c & w2 & Hc & -> & Hs); [|done|apply ev_nil]. injection Hc as ->.
    cbn [app] in Hs. apply ev_body_plain in Hs; [|done].
    destruct (loop_continues c L) eqn:Hlc; cbn [negb] in H.
    + apply (loop_continues_spec c L ls HL) in Hlc. rewrite value_or_spec in H. inv_bind H.
      * apply ends_post in H as ([]&w'&Hp&->&?); subst; [|done]. cbn in *. simplify_eq.
        eexists _, _. split; [right; eauto|split; [done|]]. by eapply ev_for_post_throw.
      * apply ends_post in Ha as ([]&w3&Hp&->&?); [done|].
        eapply HW in H as (c' & w' & Hc & -> & Hw); [|done|done|done].
        eexists _, _. split; [done|split; [done|]]. by eapply ev_for_again.
    + apply (loop_leaves_spec c L ls HL) in Hlc. apply ends_ret in H as [-> ->].
      eexists _, _. split; [by left|split; [done|]]. rewrite update_empty_spec. by eapply ev_for_leave.
  - apply ends_ret in H as [-> ->]. eexists _, _. split; [by left|split; [done|]]. by eapply ev_for_end.
Qed.

Lemma ends_closing {A} it (m : act A) st r st' :
  ends (closing_on_error it m) st r st' <->
  (exists a, r = RVal a /\ ends m st (RVal a) st') \/
  (exists x E w1 w', r = RThrow x /\ ends m st (RThrow x) (State E w1) /\
     snd (close M it w1) = w' /\ st' = State E w').
Proof.
  unfold ends, closing_on_error. destruct (m st) as [[a|x| |] [E1 w1]] eqn:Em; split.
  - intros [H ?]. destruct r; simplify_eq/=. eauto.
  - intros [(? & -> & [? _])|(? & ? & ? & ? & -> & [? _] & _ & ->)]; simplify_eq/=. done.
  - intros [H ?]. destruct r; simplify_eq/=. right. eexists _, _, _, _. done.
  - intros [(? & -> & [? _])|(? & ? & ? & ? & -> & [? _] & <- & ->)]; simplify_eq/=. done.
  - intros [H ?]. destruct r; simplify_eq/=.
  - intros [(? & -> & [? _])|(? & ? & ? & ? & -> & [? _] & _ & ->)]; simplify_eq/=.
  - intros [H ?]. destruct r; simplify_eq/=.
  - intros [(? & -> & [? _])|(? & ? & ? & ? & -> & [? _] & _ & ->)]; simplify_eq/=.
Qed.

Lemma ends_close it E w r st' :
  ends (close_ignoring it) (State E w) r st' <-> r = RVal tt /\ st' = State E (snd (close M it w)).
Proof.
  unfold ends, close_ignoring; cbn [rest lexical_env]. split.
  - intros [H ?]. destruct r; simplify_eq/=; done.
  - intros [-> ->]. done.
Qed.

Lemma quiet_closed it c w : q = true -> closed M it c w c (snd (close M it w)).
Proof.
  intros H. destruct (Hq H) as [_ Hc]. destruct (Hc it w) as (w' & Hw). exists (RVal tt).
  rewrite Hw. split; [done|]. split; [done|]. by destruct c.
Qed.

Lemma sound_of_S n : sound_list n -> sound_of n -> sound_of (S n).
Proof.
  intros HB HW L ls b it ss V E w r st' Hqt Hr Hd HL H. cbn [for_of_loop] in H.
  inv_bind H.
  { apply ends_closing in H as [(? & ? & _)|(y & E1 & w1 & w' & _ & H & _)]; [done|].
    apply ends_call in H as (w2 & H & _). destruct (Hq Hqt) as [Hs _]. by destruct (Hs _ _ _ _ H). }
  apply ends_closing in Ha as [(o & Ho & Ha)|(? & ? & ? & ? & ? & _)]; [|done]. injection Ho as <-.
  apply ends_call in Ha as (w1 & Hst & _ & ->).
  destruct a as [v|].
  2:{ apply ends_ret in H as [-> ->]. eexists _, _. split; [by left|split; [done|]]. by apply ev_of_end. }
  inv_bind H.
  { apply ends_closing in H as [(? & ? & _)|(y & E1 & w2 & w' & Hy & H & Hw' & ->)]; [done|].
    injection Hy as ->. apply ends_call in H as (w3 & H & _ & Hst'). injection Hst' as -> ->. subst.
    eexists _, _. split; [right; eauto|split; [done|]].
    eapply ev_of_bind_throw; [done|done|]. by apply quiet_closed. }
  apply ends_closing in Ha as [(o & Ho & Ha)|(? & ? & ? & ? & ? & _)]; [|done]. injection Ho as <-.
  apply ends_call in Ha as (w2 & Hbd & _ & ->). destruct a.
  inv_bind H.
  { apply ends_closing in H as [(? & ? & _)|(y & E1 & w3 & w' & Hy & H & Hw' & ->)]; [done|].
    eapply (HB []) in H as (? & ? & ? & _); [done|done|apply ev_nil]. }
  apply ends_closing in Ha as [(o & Ho & Ha)|(? & ? & ? & ? & ? & _)]; [|done]. injection Ho as <-.
  eapply (HB []) in Ha as (c & w3 & Hc & -> & Hs); [|done|apply ev_nil]. injection Hc as ->.
  cbn [app] in Hs. apply ev_body_plain in Hs; [|done].
  destruct (loop_continues c L) eqn:Hlc; cbn [negb] in H.
  - apply (loop_continues_spec c L ls HL) in Hlc. rewrite value_or_spec in H.
    eapply HW in H as (c' & w' & Hc & -> & Hw); [|done|done|done|done].
    eexists _, _. split; [done|split; [done|]]. by eapply ev_of_again.
  - apply (loop_leaves_spec c L ls HL) in Hlc. inv_bind H.
    { apply ends_close in H as [? _]. congruence. }
    apply ends_close in Ha as [_ ->]. apply ends_ret in H as [-> ->].
    eexists _, _. split; [by left|split; [done|]]. rewrite update_empty_spec.
    eapply ev_of_leave; [done|done|done|done|]. by apply quiet_closed.
Qed.

Lemma sound_run_S n : sound_list n -> sound_run n -> sound_run (S n).
Proof.
  intros HB HR v l V E w r st' Hr H. cbn [eval_cases] in H.
  destruct l as [|[e ss] l].
  - apply ends_ret in H as [-> ->]. eexists. split; [done|]. right. eexists. split; [done|].
    intros more c w'' Hm. exact Hm.
  - unfold regular_bodies in Hr. cbn [forallb snd] in Hr. apply andb_prop in Hr as [Hr1 Hr2].
    inv_bind H. { apply ends_ret in H as [? _]. congruence. }
    apply ends_ret in Ha as [Hb ->]. injection Hb as ->.
    inv_bind H. { subst. eapply (HB []) in H as (? & ? & ? & _); [done|done|apply ev_nil]. }
    eapply (HB []) in Ha as (c & w1 & Hc & -> & Hs); [|done|apply ev_nil]. injection Hc as ->.
    cbn [app] in Hs. cbv zeta in H. rewrite value_or_spec in H.
    destruct (is_abrupt c) eqn:Hab.
    + apply is_abrupt_spec in Hab. apply ends_ret in H as [-> ->]. eexists. split; [done|]. left.
      eexists. split; [done|]. intros more. cbn [map snd app].
      rewrite update_empty_spec.
      replace (UpdateEmpty c (Some (value_or c V))) with (UpdateEmpty c (Some V))
        by (by destruct c as [| | |? []|? []]).
      by apply ev_clause_abrupt.
    + destruct c as [cv| | | |]; try done.
      apply HR in H as (w' & -> & H); [|done]. eexists. split; [done|].
      destruct H as [(c & -> & H)|(V' & -> & H)]; [left|right]; eexists; (split; [done|]).
      * intros more. cbn [map snd app]. eapply ev_clause; [done|]. apply H.
      * intros more c w'' Hm. cbn [map snd app]. eapply ev_clause; [done|]. by apply H.
Qed.

Lemma sound_search_S n : sound_list n -> sound_run n -> sound_search n -> sound_search (S n).
Proof.
  intros HB HR HF v l V E w r st' Hr H. cbn [eval_cases] in H.
  destruct l as [|[e ss] l].
  - apply ends_ret in H as [-> ->]. eexists. split; [done|]. right. left. split; [done|]. apply ev_search_nil.
  - pose proof Hr as Hr'.
    unfold regular_bodies in Hr. cbn [forallb snd] in Hr. apply andb_prop in Hr as [Hr1 Hr2].
    inv_bind H.
    { inv_bind H.
      - apply ends_expr in H as (w' & He & ->). subst. eexists. split; [done|]. left. eexists.
        split; [done|]. simplify_eq. by apply ev_selector_throw.
      - apply ends_expr in Ha as (w' & He & ->). apply ends_same in H as [? _]. congruence. }
    inv_bind Ha; [congruence|].
    apply ends_expr in Ha0 as (w1 & He & ->). apply ends_same in Ha as [Hb ->]. injection Hb as ->.
    destruct (strict_equal M v a0 w1) eqn:Hse.
    + assert (Hx : ends (eval_cases (S n) v ((e, ss) :: l) true V) (State E w1) r st').
      { cbn [eval_cases]. apply ends_bind. right. eexists true, _. split; [by apply ends_ret|]. exact H. }
      apply (sound_run_S n HB HR) in Hx as (w' & -> & Hx); [|done].
      eexists. split; [done|]. right. right. eexists _, w1. split; [by eapply ev_selected|]. exact Hx.
    + apply HF in H as (w' & -> & H); [|done]. eexists. split; [done|].
      destruct H as [(x & -> & H)|[[-> H]|(bodies & w2 & H & Hx)]].
      * left. eexists. split; [done|]. by eapply ev_not_selected.
      * right. left. split; [done|]. by eapply ev_not_selected.
      * right. right. eexists _, w2. split; [by eapply ev_not_selected|]. exact Hx.
Qed.

Lemma sweeps_end E bodies V w V' w' :
  sweeps E bodies V w (inr V') w' -> clauses_ev E bodies V w (CNormal (Some V')) w'.
Proof. intros H. specialize (H [] _ _ (ev_clauses_nil _ _ _ _ _)). by rewrite app_nil_r in H. Qed.

Lemma sweeps_stop E bodies V w c w' :
  sweeps E bodies V w (inl c) w' -> clauses_ev E bodies V w c w'.
Proof. intros H. specialize (H []). by rewrite app_nil_r in H. Qed.

Lemma sound_default n v (s : list stmt) (b : list (expr * list stmt)) V E w r st' :
  sound_list n -> sound_run n ->
  forallb (regular q) s = true -> regular_bodies b ->
  ends (bind (eval_list n s None) (fun default_r =>
                let v0 := default V (completion_value default_r) in
                if is_abrupt default_r then ret (update_empty default_r (Some v0))
                else
                  bind (eval_cases n v b true v0) (fun r =>
                  match r with
                  | inl abrupt => ret abrupt
                  | inr (_, v) => ret (CNormal (Some v))
                  end))) (State E w) r st' ->
  exists c w', r = RVal c /\ st' = State E w' /\ clauses_ev E (s :: map snd b) V w c w'.
Proof.
  intros HB HR Hs Hb H.
  inv_bind H. { subst. eapply (HB []) in H as (? & ? & ? & _); [done|done|apply ev_nil]. }
  eapply (HB []) in Ha as (c & w1 & Hc & -> & Hl); [|done|apply ev_nil]. injection Hc as ->.
  cbn [app] in Hl. cbv zeta in H. rewrite value_or_spec in H.
  destruct (is_abrupt c) eqn:Hab.
  - apply is_abrupt_spec in Hab. apply ends_ret in H as [-> ->]. eexists _, _.
    split; [done|split; [done|]]. rewrite update_empty_spec.
    replace (UpdateEmpty c (Some (value_or c V))) with (UpdateEmpty c (Some V))
      by (by destruct c as [| | |? []|? []]).
    by apply ev_clause_abrupt.
  - destruct c as [cv| | | |]; try done.
    inv_bind H.
    { apply HR in H as (? & _ & [(? & ? & _)|(? & ? & _)]); done. }
    apply HR in Ha as (w2 & -> & [(c & Hc & Hw)|(V' & Hc & Hw)]); [| |done]; injection Hc as ->.
    + apply ends_ret in H as [-> ->]. eexists _, _. split; [done|split; [done|]].
      eapply ev_clause; [done|]. by apply sweeps_stop.
    + apply ends_ret in H as [-> ->]. eexists _, _. split; [done|split; [done|]].
      eapply ev_clause; [done|]. by apply sweeps_end.
Qed.

Lemma sound_switch_S n : sound_list n -> sound_run n -> sound_search n -> sound_switch (S n).
Proof.
  intros HB HR HF v a d E w r st' Ha Hd H. cbn [eval_switch] in H.
  destruct d as [[s b]|].
  - destruct Hd as [Hs Hb]. inv_bind H.
    { apply HF in H as (w' & -> & [(x' & Hx & H)|[[? _]|(? & ? & _ & [(? & ? & _)|(? & ? & _)])]]); try done.
      injection Hx as <-. subst. eexists _, _. split; [right; eauto|split; [done|]]. by apply ev_search_throw. }
    apply HF in Ha0 as (w1 & -> & [(x' & Hx & _)|[[Hx H1]|(bodies & w0 & H1 & [(c & Hx & H2)|(V' & Hx & H2)])]]);
      [done| | | |done]; injection Hx as ->.
    + inv_bind H.
      { apply HF in H as (w' & -> & [(x' & Hx & H)|[[? _]|(? & ? & _ & [(? & ? & _)|(? & ? & _)])]]); try done.
        injection Hx as <-. subst. eexists _, _. split; [right; eauto|split; [done|]].
        by eapply ev_search_after_throw. }
      apply HF in Ha0 as (w2 & -> & [(x' & Hx & _)|[[Hx H3]|(bodies & w0 & H3 & [(c & Hx & H2)|(V' & Hx & H2)])]]);
        [done| | | |done]; injection Hx as ->.
      * eapply sound_default in H as (c & w' & -> & -> & Hc); try done.
        eexists _, _. split; [by left|split; [done|]]. by eapply ev_default.
      * apply ends_ret in H as [-> ->]. eexists _, _. split; [by left|split; [done|]].
        eapply ev_found_after; [done|done|]. by apply sweeps_stop.
      * apply ends_ret in H as [-> ->]. eexists _, _. split; [by left|split; [done|]].
        eapply ev_found_after; [done|done|]. by apply sweeps_end.
    + apply ends_ret in H as [-> ->]. eexists _, _. split; [by left|split; [done|]].
      eapply ev_found; [done|]. apply H2.
    + inv_bind H. { apply ends_ret in H as [? _]. congruence. }
      apply ends_ret in Ha0 as [Hx ->]. injection Hx as ->.
      eapply sound_default in H as (c & w' & -> & -> & Hc); try done.
      eexists _, _. split; [by left|split; [done|]]. eapply ev_found; [done|]. by apply H2.
  - inv_bind H.
    { apply HF in H as (w' & -> & [(x' & Hx & H)|[[? _]|(? & ? & _ & [(? & ? & _)|(? & ? & _)])]]); try done.
      injection Hx as <-. subst. eexists _, _. split; [right; eauto|split; [done|]]. by apply ev_search_throw. }
    apply HF in Ha0 as (w1 & -> & [(x' & Hx & _)|[[Hx H1]|(bodies & w0 & H1 & [(c & Hx & H2)|(V' & Hx & H2)])]]);
      [done| | | |done]; injection Hx as ->.
    + apply ends_ret in H as [-> ->]. eexists _, _. split; [by left|split; [done|]]. by apply ev_no_default.
    + apply ends_ret in H as [-> ->]. eexists _, _. split; [by left|split; [done|]].
      eapply ev_found; [done|]. apply H2.
    + apply ends_ret in H as [-> ->]. eexists _, _. split; [by left|split; [done|]].
      eapply ev_found; [done|]. rewrite app_nil_r. by apply sweeps_end.
Qed.

Lemma same_set_cons L ls l : same_set L ls -> same_set (L ++ [l]) (l :: ls).
Proof.
  intros H x. rewrite elem_of_app, elem_of_list_singleton, elem_of_cons, (H x). naive_solver.
Qed.

(** Every way a statement's own code can end becomes its completion. *)
Lemma sound_of_completes m E ls s w r st' :
  ends (catching m) (State E w) r st' ->
  (forall r st', ends m (State E w) r st' ->
     exists c w', completes r c /\ st' = State E w' /\ stmt_ev E ls s w c w') ->
  exists c w', r = RVal c /\ st' = State E w' /\ stmt_ev E ls s w c w'.
Proof.
  intros H K. apply ends_catching in H as (c & -> & [H|(x & -> & H)]).
  - apply K in H as (c' & w' & [Hc|(x & ? & _)] & -> & Hev); [|done]. injection Hc as ->. eauto.
  - apply K in H as (c' & w' & [?|(y & Hy & ->)] & -> & Hev); [done|]. injection Hy as ->. eauto.
Qed.

Lemma breakable_sound L ls s E w (m : act (completion (value M))) (P : completion (value M) -> world M -> Prop) r st' :
  ends (bind m (fun result => ret (normalise_iteration_break (undefined M) result))) (State E w) r st' ->
  (forall r st', ends m (State E w) r st' ->
     exists c w', completes r c /\ st' = State E w' /\ P c w') ->
  (forall c w', P c w' -> stmt_ev E ls s w (unbroken (undefined M) c) w') ->
  same_set L ls ->
  exists c w', completes r c /\ st' = State E w' /\ stmt_ev E ls s w c w'.
Proof.
  intros H K P1 _. inv_bind H.
  - apply K in H as (c & w' & [?|(y & Hy & ->)] & -> & Hp); [done|]. injection Hy as ->. subst.
    exists (CThrow y), w'. split; [right; eauto|split; [done|]]. exact (P1 _ _ Hp).
  - apply ends_ret in H as [-> ->]. apply K in Ha as (c & w' & [Hc|(y & ? & _)] & -> & Hp); [|done].
    injection Hc as ->. eexists _, _. split; [by left|split; [done|]]. rewrite unbroken_spec. by apply P1.
Qed.

Lemma sound_stmt_S n :
  sound_stmt n -> sound_list n -> sound_block n -> sound_catch n -> sound_while n -> sound_do n ->
  sound_for n -> sound_of n -> sound_switch n -> sound_stmt (S n).
Proof.
  intros HS HB HK HC HW HD HF HO HSW L ls s E w r st' Hr HL H. cbn [eval_stmt] in H.
  eapply sound_of_completes; [exact H|]. clear r st' H. intros r st' H.
  destruct s as [|e|ds|d|d|body|t sc sa|e|oe|body h f|t sb|sb t|i t p body|b e body|e a d|l sb|l|l].
  - apply ends_ret in H as [-> ->]. eexists _, _. split; [by left|split; [done|]]. apply ev_empty.
  - inv_bind H.
    + apply ends_expr in H as (w' & ? & ->). subst. eexists _, _. split; [right; eauto|split; [done|]].
      by apply ev_expr_throw.
    + apply ends_expr in Ha as (w' & ? & ->). apply ends_ret in H as [-> ->].
      eexists _, _. split; [by left|split; [done|]]. by apply ev_expr.
  - inv_bind H.
    + apply ends_var in H as ([y|] & w' & Hv & Hy & ->); [|done]. injection Hy as ->. subst.
      eexists _, _. split; [right; eauto|split; [done|]]. exact (ev_var _ _ _ _ _ _ _ _ Hv).
    + apply ends_var in Ha as ([y|] & w' & Hv & Hy & ->); [done|]. apply ends_ret in H as [-> ->].
      eexists _, _. split; [by left|split; [done|]]. exact (ev_var _ _ _ _ _ _ _ _ Hv).
  - inv_bind H.
    + apply ends_call in H as (w' & ? & _ & ->). subst. eexists _, _.
      split; [right; eauto|split; [done|]]. by apply ev_lexical_throw.
    + apply ends_call in Ha as (w' & ? & _ & ->). destruct a. apply ends_ret in H as [-> ->].
      eexists _, _. split; [by left|split; [done|]]. by apply ev_lexical.
  - apply ends_ret in H as [-> ->]. eexists _, _. split; [by left|split; [done|]]. apply ev_function.
  - apply HK in H as (c & w' & -> & -> & H); [|done].
    eexists _, _. split; [by left|split; [done|]]. by apply ev_block.
  - cbn [regular] in Hr. apply andb_prop in Hr as [Hr1 Hr2].
    inv_bind H.
    { apply ends_expr in H as (w' & ? & ->). subst. eexists _, _. split; [right; eauto|split; [done|]].
      by apply ev_if_throw. }
    apply ends_expr in Ha as (w1 & He & ->).
    inv_bind H. { apply ends_truth in H as [? _]. congruence. }
    apply ends_truth in Ha as [Hb ->]. injection Hb as ->.
    destruct (to_boolean M a w1) eqn:Hb.
    + eapply (HS [] []) in H as (c & w' & -> & -> & H); [|done|done].
      eexists _, _. split; [by left|split; [done|]]. by eapply (ev_if_true M plain_if).
    + destruct sa as [alt|].
      * eapply (HS [] []) in H as (c & w' & -> & -> & H); [|done|done].
        eexists _, _. split; [by left|split; [done|]]. by eapply (ev_if_false M plain_if).
      * apply ends_ret in H as [-> ->]. eexists _, _. split; [by left|split; [done|]].
        by eapply (ev_if_none M plain_if).
  - inv_bind H.
    + apply ends_expr in H as (w' & ? & ->). subst. eexists _, _. split; [right; eauto|split; [done|]].
      by apply ev_throw_throw.
    + apply ends_expr in Ha as (w' & ? & ->). apply ends_ret in H as [-> ->].
      eexists _, _. split; [by left|split; [done|]]. by apply ev_throw.
  - destruct oe as [e|].
    + inv_bind H.
      * apply ends_expr in H as (w' & ? & ->). subst. eexists _, _. split; [right; eauto|split; [done|]].
        by apply ev_return_throw.
      * apply ends_expr in Ha as (w' & ? & ->). apply ends_ret in H as [-> ->].
        eexists _, _. split; [by left|split; [done|]]. by apply ev_return.
    + apply ends_ret in H as [-> ->]. eexists _, _. split; [by left|split; [done|]]. apply ev_return_none.
  - cbn [regular] in Hr. apply andb_prop in Hr as [Hr Hr3]. apply andb_prop in Hr as [Hr1 Hr2].
    inv_bind H. { subst. apply HK in H as (? & ? & ? & _); done. }
    apply HK in Ha as (b & w1 & Hb & -> & Hbl); [|done]. injection Hb as ->.
    assert (Hh : forall r1 st1,
      ends match b, h with
           | CThrow thrown, Some (p, hbody) => eval_catch n p hbody thrown
           | _, _ => ret b
           end (State E w1) r1 st1 ->
      exists c w2, completes r1 c /\ st1 = State E w2 /\ handled E b h w1 c w2 /\
        (r1 = RVal c \/ f = None)).
    { intros r1 st1 H1. destruct h as [[p hbody]|].
      2:{ assert (r1 = RVal b /\ st1 = State E w1) as [-> ->] by (apply ends_ret; by destruct b).
          eexists _, _. split; [by left|split; [done|split; [apply ev_no_handler|by left]]]. }
      apply andb_prop in Hr2 as [Hr2 Hp].
      destruct b as [bv|x|bv|bl bv|bl bv];
        try (apply ends_ret in H1 as [-> ->]; eexists _, _;
             split; [by left|split; [done|split; [by apply ev_not_thrown|by left]]]).
      apply HC in H1 as (c & w2 & Hc & -> & Hev & Hpl); [|done|].
      2:{ destruct p; cbn; try done. destruct f; [done|]. by destruct (decls hbody). }
      eexists _, _. split; [exact Hc|split; [done|split; [by apply ev_handled|]]].
      destruct p; [by left|by left|]. destruct f; [done|by right]. }
    inv_bind H.
    { apply Hh in H as (c & w2 & [?|(y & Hy & ->)] & -> & H1 & [?|Hf]); try done. injection Hy as ->. subst.
      exists (CThrow y), w2. split; [right; eauto|split; [done|]].
      exact (ev_try M plain_if E ls body h None w b w1 (CThrow y) w2 (CThrow y) w2 Hbl H1
               (ev_no_finally M plain_if E (CThrow y) w2)). }
    apply Hh in Ha as (c & w2 & [Hc|(y & ? & _)] & -> & H1 & _); [|done]. injection Hc as ->. clear Hh.
    destruct f as [fbody|].
    + inv_bind H.
      { inv_bind H.
        - apply HK in H as (? & ? & ? & _); [congruence|done].
        - apply ends_ret in H as [? _]. congruence. }
      inv_bind Ha; [congruence|].
      apply HK in Ha0 as (fc & w3 & Hfc & -> & Hfb); [|done]. injection Hfc as ->.
      apply ends_ret in Ha as [Hx ->]. injection Hx as ->.
      apply ends_ret in H as [-> ->]. eexists _, _. split; [by left|split; [done|]].
      rewrite update_empty_spec. eapply ev_try; [done|done|].
      destruct (is_abrupt fc) eqn:Hab.
      * apply is_abrupt_spec in Hab. by apply ev_finally_abrupt.
      * destruct fc; try done. by eapply ev_finally_normal.
    + inv_bind H. { apply ends_ret in H as [? _]. congruence. }
      apply ends_ret in Ha as [Hx ->]. injection Hx as ->.
      apply ends_ret in H as [-> ->]. eexists _, _. split; [by left|split; [done|]].
      rewrite update_empty_spec. eapply ev_try; [done|done|]. apply ev_no_finally.
  - cbn [regular] in Hr.
    eapply (breakable_sound L ls _ E w _ (fun c w' => while_ev E ls t sb (undefined M) w c w')) in H; try done.
    + intros r1 st1 H1. by eapply HW.
    + intros c w'. apply ev_while.
  - cbn [regular] in Hr.
    eapply (breakable_sound L ls _ E w _ (fun c w' => do_ev E ls sb t (undefined M) w c w')) in H; try done.
    + intros r1 st1 H1. by eapply HD.
    + intros c w'. apply ev_do.
  - cbn [regular] in Hr. apply andb_prop in Hr as [Hr1 Hr2].
    assert (Hd : decls body = []) by (by destruct (decls body)).
    inv_bind H.
    { apply ends_init in H as ([y|] & w' & Hi & -> & Hy); [|done]. injection Hy as ->. subst.
      eexists _, _. split; [right; eauto|split; [done|]]. by apply ev_for_throw. }
    apply ends_init in Ha as ([y|] & w1 & Hi & -> & Hy); [done|].
    inv_bind H.
    + eapply HF in H as (c & w' & [?|(y & Hc & ->)] & -> & Hf); try done. injection Hc as ->. subst.
      exists (CThrow y), w'. split; [right; eauto|split; [done|]].
      exact (ev_for M plain_if E ls i t p body w w1 (CThrow y) w' Hi Hf).
    + eapply HF in Ha as (c & w' & [Hc|(y & ? & ->)] & -> & Hf); try done. injection Hc as ->.
      apply ends_ret in H as [-> ->]. eexists _, _. split; [by left|split; [done|]].
      rewrite unbroken_spec. by eapply ev_for.
  - cbn [regular] in Hr. apply andb_prop in Hr as [Hr Hr3]. apply andb_prop in Hr as [Hr1 Hr2].
    assert (Hd : decls body = []) by (by destruct (decls body)).
    inv_bind H.
    { apply ends_expr in H as (w' & ? & ->). subst. eexists _, _. split; [right; eauto|split; [done|]].
      by apply ev_for_of_throw. }
    apply ends_expr in Ha as (w1 & He & ->).
    inv_bind H.
    { apply ends_call in H as (w' & ? & _ & ->). subst. eexists _, _. split; [right; eauto|split; [done|]].
      by eapply ev_for_of_iterator_throw. }
    apply ends_call in Ha as (w2 & Hg & _ & ->).
    inv_bind H.
    + eapply HO in H as (c & w' & [?|(y & Hc & ->)] & -> & Hf); try done. injection Hc as ->. subst.
      exists (CThrow y), w'. split; [right; eauto|split; [done|]].
      exact (ev_for_of M plain_if E ls b e body w _ w1 _ w2 (CThrow y) w' He Hg Hf).
    + eapply HO in Ha as (c & w' & [Hc|(y & ? & ->)] & -> & Hf); try done. injection Hc as ->.
      apply ends_ret in H as [-> ->]. eexists _, _. split; [by left|split; [done|]].
      rewrite unbroken_spec. by eapply ev_for_of.
  - cbn [regular] in Hr. apply andb_prop in Hr as [Hr1 Hr2].
    inv_bind H.
    { apply ends_expr in H as (w' & ? & ->). subst. eexists _, _. split; [right; eauto|split; [done|]].
      by apply ev_switch_throw. }
    apply ends_expr in Ha as (w1 & He & ->). cbn [lexical_env] in H.
    inv_bind H. { apply ends_call_total in H as (? & ? & _ & ? & _). congruence. }
    apply ends_call_total in Ha as (E' & w2 & Hn & Hv & ->). injection Hv as ->.
    inv_bind H. { apply ends_set in H as [? _]. congruence. }
    apply ends_set in Ha as [_ ->].
    inv_bind H.
    + apply ends_restoring in H as (E1 & w' & H & ->).
      inv_bind H. { apply ends_decls in H as (? & _ & ? & _). congruence. }
      apply ends_decls in Ha as (w3 & Hd & _ & ->).
      apply HSW in H as (c & w'' & [?|(y & Hc & ->)] & Hst & Hf); [done| |done|].
      2:{ destruct d as [[? ?]|]; [|done]. by apply andb_prop in Hr2. }
      injection Hc as ->. injection Hst as -> ->. subst.
      exists (CThrow y), w''. split; [right; eauto|split; [done|]].
      exact (ev_switch M plain_if E ls e a d w _ w1 _ w2 w3 (CThrow y) w'' He Hn Hd Hf).
    + apply ends_restoring in Ha as (E1 & w' & Ha & ->).
      inv_bind Ha; [congruence|].
      apply ends_decls in Ha0 as (w3 & Hd & _ & ->).
      apply HSW in Ha as (c & w'' & [Hc|(y & ? & ->)] & Hst & Hf); [|done|done|].
      2:{ destruct d as [[? ?]|]; [|done]. by apply andb_prop in Hr2. }
      injection Hc as ->. injection Hst as -> ->.
      apply ends_ret in H as [-> ->]. eexists _, _. split; [by left|split; [done|]].
      rewrite unbroken_spec. by eapply ev_switch.
  - cbn [regular] in Hr. inv_bind H.
    { eapply (HS _ (l :: ls)) in H as (? & ? & ? & _); [congruence|done|by apply same_set_cons]. }
    eapply (HS _ (l :: ls)) in Ha as (c & w' & Hc & -> & Hev); [|done|by apply same_set_cons].
    injection Hc as ->. apply ends_ret in H as [-> ->]. eexists _, _. split; [by left|split; [done|]].
    rewrite unlabelled_spec. by apply ev_label.
  - apply ends_ret in H as [-> ->]. eexists _, _. split; [by left|split; [done|]]. apply ev_break.
  - apply ends_ret in H as [-> ->]. eexists _, _. split; [by left|split; [done|]]. apply ev_continue.
Qed.

Lemma sound_all n :
  sound_stmt n /\ sound_list n /\ sound_block n /\ sound_catch n /\ sound_while n /\ sound_do n /\
  sound_for n /\ sound_of n /\ sound_switch n /\ sound_run n /\ sound_search n.
Proof.
  induction n as [|n (HS & HB & HK & HC & HW & HD & HF & HO & HSW & HR & HE)].
  - repeat split; (repeat intro); by destruct (ends_never _ _ _ H0) || by destruct (ends_never _ _ _ H1)
      || by destruct (ends_never _ _ _ H2) || by destruct (ends_never _ _ _ H3).
  - repeat split.
    + by apply sound_stmt_S.
    + by apply sound_list_S.
    + by apply sound_block_S.
    + by apply sound_catch_S.
    + by apply sound_while_S.
    + by apply sound_do_S.
    + by apply sound_for_S.
    + by apply sound_of_S.
    + by apply sound_switch_S.
    + by apply sound_run_S.
    + by apply sound_search_S.
Qed.

End Ends.
