(** * Statements: whatever the semantics derives, the evaluator does *)
From stdpp Require Import base decidable numbers list.
From Verif Require Import StmtModel StmtSpec StmtProofs StmtMoreProofs.

Section Back.
Context {M : machine}.
Implicit Types (E : env M) (w : world M) (st : state M).

(** With enough fuel, and with any more. *)
Definition will {A} (f : nat -> @act M A) st (r : res (value M) A) st' : Prop :=
  exists n, forall m, n <= m -> ends (f m) st r st'.

Lemma will_S {A} (f : nat -> act A) st r st' : will (fun m => f (S m)) st r st' -> will f st r st'.
Proof.
  intros [n H]. exists (S n). intros m Hm. destruct m as [|m]; [lia|]. apply H. lia.
Qed.

Lemma will_const {A} (m : act A) st r st' : ends m st r st' -> will (fun _ => m) st r st'.
Proof. intros H. by exists 0. Qed.

Lemma will_bind {A B} (f : nat -> act A) (k : nat -> A -> act B) st a st1 r st' :
  will f st (RVal a) st1 -> will (fun m => k m a) st1 r st' ->
  will (fun m => bind (f m) (k m)) st r st'.
Proof.
  intros [n1 H1] [n2 H2]. exists (n1 `max` n2). intros m Hm. apply ends_bind. right.
  eexists a, st1. split; [apply H1; lia|apply H2; lia].
Qed.

Lemma will_bind_throw {A B} (f : nat -> act A) (k : nat -> A -> act B) st x st' :
  will f st (RThrow x) st' -> will (fun m => bind (f m) (k m)) st (RThrow x) st'.
Proof.
  intros [n1 H1]. exists n1. intros m Hm. apply ends_bind. left. eexists. split; [done|by apply H1].
Qed.

Lemma will_restoring {A} o (f : nat -> act A) st r E1 w' :
  will f st r (State E1 w') -> will (fun m => restoring o (f m)) st r (State o w').
Proof.
  intros [n H]. exists n. intros m Hm. apply ends_restoring. eexists _, _. split; [by apply H|done].
Qed.

Lemma will_catching (f : nat -> act (completion (value M))) st r c st' :
  will f st r st' -> completes r c -> will (fun m => catching (f m)) st (RVal c) st'.
Proof.
  intros [n H] Hc. exists n. intros m Hm. apply ends_catching. exists c. split; [done|].
  destruct Hc as [->|(x & -> & ->)]; [left|right]; [by apply H|]. eexists. split; [done|by apply H].
Qed.

Lemma will_eq {A} (f g : nat -> act A) st r st' :
  (forall m, f m = g m) -> will f st r st' -> will g st r st'.
Proof. intros Hfg [n H]. exists n. intros m Hm. rewrite <- Hfg. by apply H. Qed.

(** A breakable statement, from its loop. *)
Lemma will_breakable (f : nat -> act (completion (value M))) st r c st' :
  will f st r st' -> completes r c ->
  exists r', will (fun m => bind (f m) (fun result => ret (normalise_iteration_break (undefined M) result)))
    st r' st' /\ completes r' (unbroken (undefined M) c).
Proof.
  intros H [->|(x & -> & ->)].
  - eexists. split.
    + eapply (will_bind _ (fun _ result => ret (normalise_iteration_break (undefined M) result)));
        [done|]. apply will_const, ends_ret. done.
    + left. by rewrite unbroken_spec.
  - exists (RThrow x). split; [by apply will_bind_throw|]. right. eauto.
Qed.

Context (q : bool) (Hq : q = true -> quiet_iterators M).

Notation regulars := (forallb (regular q)).

(** The clauses of a `switch`, run by the evaluator. *)
Inductive bodies_run E : list (list stmt) -> value M -> world M -> completion (value M) -> world M -> Prop :=
  | br_nil V w : bodies_run E [] V w (CNormal (Some V)) w
  | br_abrupt s l V w c w' :
      will (fun m => eval_list m s None) (State E w) (RVal c) (State E w') -> abrupt c ->
      bodies_run E (s :: l) V w (UpdateEmpty c (Some V)) w'
  | br_cons s l V w v w1 c w' :
      will (fun m => eval_list m s None) (State E w) (RVal (CNormal v)) (State E w1) ->
      bodies_run E l (value_or (CNormal v) V) w1 c w' ->
      bodies_run E (s :: l) V w c w'.

Lemma update_value_or {V} (c : completion V) v : UpdateEmpty c (Some (value_or c v)) = UpdateEmpty c (Some v).
Proof. by destruct c as [[]| | |? []|? []]. Qed.

Lemma bodies_split E b1 b2 V w c w' :
  bodies_run E (b1 ++ b2) V w c w' ->
  (abrupt c /\ bodies_run E b1 V w c w') \/
  (exists V1 w1, bodies_run E b1 V w (CNormal (Some V1)) w1 /\ bodies_run E b2 V1 w1 c w').
Proof.
  revert V w. induction b1 as [|s b1 IH]; intros V w H.
  - right. eexists _, _. split; [apply br_nil|done].
  - cbn in H. inversion H as [|s' l V' w0 c0 w0' Hl Ha|s' l V' w0 v w1 c0 w0' Hl Hb]; subst.
    + left. split; [by destruct c0|by apply br_abrupt].
    + apply IH in Hb as [[Ha Hb]|(V1 & w2 & Hb1 & Hb2)].
      * left. split; [done|]. by eapply br_cons.
      * right. eexists _, _. split; [by eapply br_cons|done].
Qed.

(** The clauses left over, as `eval_cases` runs them. *)
Definition cases_end (c : completion (value M)) : completion (value M) + bool * value M :=
  match c with CNormal (Some v) => inr (true, v) | _ => inl c end.

Lemma run_cases E v l V w c w' :
  bodies_run E (map snd l) V w c w' ->
  will (fun m => eval_cases m v l true V) (State E w) (RVal (cases_end c)) (State E w').
Proof.
  revert V w. induction l as [|[e s] l IH]; intros V w H; cbn [map snd] in H.
  - inversion H; subst. apply will_S. cbn [eval_cases]. apply will_const, ends_ret. done.
  - apply will_S. cbn [eval_cases].
    eapply (will_bind (fun _ => ret true) _ _ true); [by apply will_const, ends_ret|]. cbn beta iota.
    inversion H as [|s' l' V' w0 c0 w0' Hl Ha|s' l' V' w0 v0 w1 c0 w0' Hl Hb]; subst.
    + eapply (will_bind _ _ _ c0); [exact Hl|]. cbv zeta beta.
      destruct (is_abrupt c0) eqn:Hab; [|by destruct c0].
      apply will_const, ends_ret. rewrite value_or_spec, update_empty_spec, update_value_or.
      split; [|done]. by destruct c0.
    + eapply (will_bind _ _ _ (CNormal v0)); [exact Hl|]. cbv zeta. cbn [is_abrupt].
      rewrite value_or_spec. by apply IH.
Qed.

(** The default clause and those after it. *)
Lemma run_default E v s b V w c w' :
  bodies_run E (s :: map snd b) V w c w' ->
  will (fun m => bind (eval_list m s None) (fun default_r =>
          let v0 := default V (completion_value default_r) in
          if is_abrupt default_r then ret (update_empty default_r (Some v0))
          else
            bind (eval_cases m v b true v0) (fun r =>
            match r with
            | inl abrupt => ret abrupt
            | inr (_, v) => ret (CNormal (Some v))
            end))) (State E w) (RVal c) (State E w').
Proof.
  intros H. inversion H as [|s' l' V' w0 c0 w0' Hl Ha|s' l' V' w0 v0 w1 c0 w0' Hl Hb]; subst.
  - eapply (will_bind _ _ _ c0); [exact Hl|]. cbv zeta beta.
    destruct (is_abrupt c0) eqn:Hab; [|by destruct c0].
    apply will_const, ends_ret. by rewrite value_or_spec, update_empty_spec, update_value_or.
  - eapply (will_bind _ _ _ (CNormal v0)); [exact Hl|]. cbv zeta. cbn [is_abrupt].
    rewrite value_or_spec. eapply will_bind; [by apply run_cases|]. cbn beta.
    apply will_const. unfold cases_end. destruct c as [[]| | | |]; by apply ends_ret.
Qed.

(** No clause selected. *)
Lemma search_none E v l w w' V :
  search_ev M E v l w (inl None) w' ->
  will (fun m => eval_cases m v l false V) (State E w) (RVal (inr (false, V))) (State E w').
Proof.
  intros H. remember (inl None) as o eqn:Ho. revert Ho.
  induction H as [| | |E v e s l w u w1 r w' He Hs Hr IH]; intros Ho; simplify_eq.
  - apply will_S. cbn [eval_cases]. apply will_const. by apply ends_ret.
  - apply will_S. cbn [eval_cases].
    eapply (will_bind (fun _ => bind (eval_expr e) (fun case_value => same v case_value)) _ _ false).
    + apply will_const, ends_bind. right. eexists _, _. split; [apply ends_expr; eauto|].
      apply ends_same. by rewrite Hs.
    + cbn beta iota. by apply IH.
Qed.

(** A selector throws. *)
Lemma search_throws E v l w x w' V :
  search_ev M E v l w (inr x) w' ->
  will (fun m => eval_cases m v l false V) (State E w) (RThrow x) (State E w').
Proof.
  intros H. remember (inr x) as o eqn:Ho. revert Ho.
  induction H as [|E v e s l w y w' He| |E v e s l w u w1 r w' He Hs Hr IH]; intros Ho; simplify_eq.
  - apply will_S. cbn [eval_cases]. apply will_bind_throw, will_const, ends_bind. left.
    eexists. split; [done|]. apply ends_expr. eauto.
  - apply will_S. cbn [eval_cases].
    eapply (will_bind (fun _ => bind (eval_expr e) (fun case_value => same v case_value)) _ _ false).
    + apply will_const, ends_bind. right. eexists _, _. split; [apply ends_expr; eauto|].
      apply ends_same. by rewrite Hs.
    + cbn beta iota. by apply IH.
Qed.

(** A clause is selected and run. *)
Lemma search_runs E v l w bodies w1 V c w' :
  search_ev M E v l w (inl (Some bodies)) w1 -> bodies_run E bodies V w1 c w' ->
  will (fun m => eval_cases m v l false V) (State E w) (RVal (cases_end c)) (State E w').
Proof.
  intros H Hb. remember (inl (Some bodies)) as o eqn:Ho. revert bodies Ho Hb.
  induction H as [| |E v e s l w u w1 He Hs|E v e s l w u w2 r w1 He Hs Hr IH]; intros bodies Ho Hb; simplify_eq.
  - apply (run_cases E v ((e, s) :: l)) in Hb.
    destruct Hb as [n Hb]. exists (S n). intros m Hm. destruct m as [|m]; [lia|].
    specialize (Hb (S m) ltac:(lia)). cbn [eval_cases] in *.
    apply ends_bind in Hb as [(x & ? & _)|(b & st1 & Hret & Hb)]; [done|].
    apply ends_ret in Hret as [Hx ->]. injection Hx as ->.
    apply ends_bind. right. eexists true, _. split; [|exact Hb].
    apply ends_bind. right. eexists _, _. split; [apply ends_expr; eauto|].
    apply ends_same. by rewrite Hs.
  - apply will_S. cbn [eval_cases].
    eapply (will_bind (fun _ => bind (eval_expr e) (fun case_value => same v case_value)) _ _ false).
    + apply will_const, ends_bind. right. eexists _, _. split; [apply ends_expr; eauto|].
      apply ends_same. by rewrite Hs.
    + cbn beta iota. by eapply IH.
Qed.

(** A list, up to where it is left or to its end. *)
Definition list_done E ss w c w' : Prop :=
  match c with
  | CNormal v => forall more r st',
      will (fun m => eval_list m more v) (State E w') r st' ->
      will (fun m => eval_list m (ss ++ more) None) (State E w) r st'
  | _ => forall more, will (fun m => eval_list m (ss ++ more) None) (State E w) (RVal c) (State E w')
  end.

Lemma list_done_end E ss w c w' :
  list_done E ss w c w' -> will (fun m => eval_list m ss None) (State E w) (RVal c) (State E w').
Proof.
  unfold list_done. destruct c; intros H.
  - specialize (H []). rewrite app_nil_r in H. apply H. apply will_S. cbn [eval_list].
    apply will_const. by apply ends_ret.
  - specialize (H []). by rewrite app_nil_r in H.
  - specialize (H []). by rewrite app_nil_r in H.
  - specialize (H []). by rewrite app_nil_r in H.
  - specialize (H []). by rewrite app_nil_r in H.
Qed.

(** Entering a scope. *)
Lemma will_scope {A} b E E' w w1 w2 ds (body : nat -> act A) r E1 w' :
  new_env M b E w = (Some E', w1) -> decls_ev M E' ds w1 w2 ->
  will body (State E' w2) r (State E1 w') ->
  will (fun m => bind (env_create b E) (fun block_env =>
        bind (set_lexical_env block_env) (fun _ =>
        restoring E (bind (instantiate_decls ds block_env) (fun _ => body m))))) (State E w) r (State E w').
Proof.
  intros Hn Hd Hb.
  eapply (will_bind (fun _ => env_create b E) _ _ E').
  { apply will_const, ends_call_total. eauto. }
  cbn beta. eapply (will_bind (fun _ => set_lexical_env E') _ _ tt).
  { apply will_const. by apply ends_set. }
  cbn beta. eapply will_restoring.
  eapply (will_bind (fun _ => instantiate_decls ds E') _ _ tt).
  { apply will_const, ends_decls. eauto. }
  cbn beta. exact Hb.
Qed.

Lemma pattern_plain_of (p : catch_param) (f : option (list stmt)) hbody :
  match p with
  | CatchPattern _ => match f, decls hbody with None, [] => true | _, _ => false end
  | _ => true
  end = true -> pattern_plain p hbody.
Proof. destruct p; try done. cbn. destruct f; [done|]. by destruct (decls hbody). Qed.

Lemma decls_nil {A} (l : list A) : match l with [] => true | _ => false end = true -> l = [].
Proof. by destruct l. Qed.

Ltac done_ret := apply will_const, ends_ret; done.

Lemma back_all :
  (forall E ls s w c w', stmt_ev M plain_if E ls s w c w' -> regular q s = true -> forall L, same_set L ls ->
     will (fun m => eval_stmt m L s) (State E w) (RVal c) (State E w')) /\
  (forall E ss w c w', list_ev M plain_if E ss w c w' -> regulars ss = true -> list_done E ss w c w') /\
  (forall E ss w c w', block_ev M plain_if E ss w c w' -> regulars ss = true ->
     will (fun m => eval_block m ss) (State E w) (RVal c) (State E w')) /\
  (forall E ss w c w', body_ev M plain_if E ss w c w' -> regulars ss = true -> decls ss = [] ->
     will (fun m => eval_list m ss None) (State E w) (RVal c) (State E w')) /\
  (forall E b h w c w', handled M plain_if E b h w c w' ->
     (forall p hb, h = Some (p, hb) -> regulars hb = true /\ pattern_plain p hb) ->
     exists r, completes r c /\
       will (fun m => match b, h with
                      | CThrow thrown, Some (p, hbody) => eval_catch m p hbody thrown
                      | _, _ => ret b
                      end) (State E w) r (State E w') /\
       (r = RVal c \/ exists n hb, h = Some (CatchPattern n, hb))) /\
  (forall E p ss x w c w', catch_ev M plain_if E p ss x w c w' -> regulars ss = true -> pattern_plain p ss ->
     exists r, completes r c /\
       will (fun m => eval_catch m p ss x) (State E w) r (State E w') /\
       (r = RVal c \/ exists n, p = CatchPattern n)) /\
  (forall E b f w c w', finished M plain_if E b f w c w' ->
     (forall fb, f = Some fb -> regulars fb = true) ->
     will (fun m => match f with
                    | Some fbody =>
                        bind (eval_block m fbody) (fun finally_result =>
                        ret (if is_abrupt finally_result then finally_result else b))
                    | None => ret b
                    end) (State E w) (RVal c) (State E w')) /\
  (forall E ls t s V w c w', while_ev M plain_if E ls t s V w c w' -> regular q s = true ->
     forall L, same_set L ls ->
     exists r, completes r c /\ will (fun m => while_loop m L t s V) (State E w) r (State E w')) /\
  (forall E ls s t V w c w', do_ev M plain_if E ls s t V w c w' -> regular q s = true ->
     forall L, same_set L ls ->
     exists r, completes r c /\ will (fun m => do_while_loop m L s t V) (State E w) r (State E w')) /\
  (forall E ls t p ss V w c w', for_ev M plain_if E ls t p ss V w c w' -> regulars ss = true -> decls ss = [] ->
     forall L, same_set L ls ->
     exists r, completes r c /\ will (fun m => for_loop m L t p ss V) (State E w) r (State E w')) /\
  (forall E ls b it ss V w c w', for_of_ev M plain_if E ls b it ss V w c w' -> q = true ->
     regulars ss = true -> decls ss = [] -> forall L, same_set L ls ->
     exists r, completes r c /\ will (fun m => for_of_loop m L b it ss V) (State E w) r (State E w')) /\
  (forall E v a d w c w', case_block_ev M plain_if E v a d w c w' ->
     regular_bodies q a -> regular_rest q d ->
     exists r, completes r c /\ will (fun m => eval_switch m v a d) (State E w) r (State E w')) /\
  (forall E l V w c w', clauses_ev M plain_if E l V w c w' -> forallb regulars l = true ->
     bodies_run E l V w c w').
Proof.
  apply semantics_ind.
  - intros. apply will_S. cbn [eval_stmt]. eapply will_catching; [done_ret|by left].
  - intros E ls e w v w' He _ L _. apply will_S. cbn [eval_stmt]. eapply will_catching; [|by left].
    eapply (will_bind (fun _ => eval_expr e)); [apply will_const, ends_expr; eauto|]. done_ret.
  - intros E ls e w x w' He _ L _. apply will_S. cbn [eval_stmt]. eapply will_catching; [|right; eauto].
    apply (will_bind_throw (fun _ => eval_expr e)). apply will_const, ends_expr; eauto.
  - intros E ls ds w t w' Hv _ L _. apply will_S. cbn [eval_stmt]. destruct t as [x|].
    + eapply will_catching; [|right; eauto]. apply (will_bind_throw (fun _ => eval_var ds)).
      apply will_const, ends_var. by eexists (Some x), _.
    + eapply will_catching; [|by left]. eapply (will_bind (fun _ => eval_var ds) _ _ tt); [|done_ret].
      apply will_const, ends_var. by eexists None, _.
  - intros E ls d w w' Hl _ L _. apply will_S. cbn [eval_stmt]. eapply will_catching; [|by left].
    eapply (will_bind (fun _ => call (lexical M d)) _ _ tt); [|done_ret]. apply will_const, ends_call. eauto.
  - intros E ls d w x w' Hl _ L _. apply will_S. cbn [eval_stmt]. eapply will_catching; [|right; eauto].
    apply (will_bind_throw (fun _ => call (lexical M d))). apply will_const, ends_call. eauto.
  - intros. apply will_S. cbn [eval_stmt]. eapply will_catching; [done_ret|by left].
  - intros E ls body w c w' _ IH Hr L _. apply will_S. cbn [eval_stmt]. eapply will_catching; [|by left].
    by apply IH.
  - intros E ls t s a w x w' He _ L _. apply will_S. cbn [eval_stmt]. eapply will_catching; [|right; eauto].
    apply (will_bind_throw (fun _ => eval_expr t)). apply will_const, ends_expr; eauto.
  - intros E ls t s a w v w1 c w' He Hb _ IH Hr L _. cbn [regular] in Hr. apply andb_prop in Hr as [Hr _].
    apply will_S. cbn [eval_stmt]. eapply will_catching; [|by left].
    eapply (will_bind (fun _ => eval_expr t)); [apply will_const, ends_expr; eauto|]. cbn beta.
    eapply (will_bind (fun _ => truth v)); [by apply will_const, ends_truth|]. cbn beta. rewrite Hb.
    by apply IH.
  - intros E ls t s s' w v w1 c w' He Hb _ IH Hr L _. cbn [regular] in Hr. apply andb_prop in Hr as [_ Hr].
    apply will_S. cbn [eval_stmt]. eapply will_catching; [|by left].
    eapply (will_bind (fun _ => eval_expr t)); [apply will_const, ends_expr; eauto|]. cbn beta.
    eapply (will_bind (fun _ => truth v)); [by apply will_const, ends_truth|]. cbn beta. rewrite Hb.
    by apply IH.
  - intros E ls t s w v w1 He Hb Hr L _.
    apply will_S. cbn [eval_stmt]. eapply will_catching; [|by left].
    eapply (will_bind (fun _ => eval_expr t)); [apply will_const, ends_expr; eauto|]. cbn beta.
    eapply (will_bind (fun _ => truth v)); [by apply will_const, ends_truth|]. cbn beta. rewrite Hb.
    done_ret.
  - intros E ls e w v w' He _ L _. apply will_S. cbn [eval_stmt]. eapply will_catching; [|by left].
    eapply (will_bind (fun _ => eval_expr e)); [apply will_const, ends_expr; eauto|]. done_ret.
  - intros E ls e w x w' He _ L _. apply will_S. cbn [eval_stmt]. eapply will_catching; [|right; eauto].
    apply (will_bind_throw (fun _ => eval_expr e)). apply will_const, ends_expr; eauto.
  - intros. apply will_S. cbn [eval_stmt]. eapply will_catching; [done_ret|by left].
  - intros E ls e w v w' He _ L _. apply will_S. cbn [eval_stmt]. eapply will_catching; [|by left].
    eapply (will_bind (fun _ => eval_expr e)); [apply will_const, ends_expr; eauto|]. done_ret.
  - intros E ls e w x w' He _ L _. apply will_S. cbn [eval_stmt]. eapply will_catching; [|right; eauto].
    apply (will_bind_throw (fun _ => eval_expr e)). apply will_const, ends_expr; eauto.
  - intros E ls body h f w b w1 c w2 r w' _ IH1 _ IH2 Hfin IH3 Hr L _.
    cbn [regular] in Hr. apply andb_prop in Hr as [Hr Hr3]. apply andb_prop in Hr as [Hr1 Hr2].
    assert (Hh : forall p hb, h = Some (p, hb) -> regulars hb = true /\ pattern_plain p hb).
    { intros p hb ->. apply andb_prop in Hr2 as [? ?]. split; [done|]. by eapply pattern_plain_of. }
    assert (Hf : forall fb, f = Some fb -> regulars fb = true) by (by intros fb ->).
    specialize (IH1 Hr1). destruct (IH2 Hh) as (r2 & Hc2 & H2 & Hpl). specialize (IH3 Hf).
    apply will_S. cbn [eval_stmt].
    destruct Hc2 as [->|(x & -> & ->)].
    + eapply will_catching; [|by left].
      eapply will_bind; [exact IH1|]. cbn beta. eapply will_bind; [exact H2|]. cbn beta.
      eapply will_bind; [exact IH3|]. cbn beta. rewrite update_empty_spec. done_ret.
    + destruct Hpl as [?|(n & hb & ->)]; [done|].
      assert (f = None) as ->.
      { apply andb_prop in Hr2 as [_ Hr2]. destruct f; [done|done]. }
      inversion Hfin; subst.
      eapply (will_catching _ _ (RThrow x)); [|by right; eauto].
      eapply will_bind; [exact IH1|]. cbn beta.
      exact (will_bind_throw _ (fun m result => bind (ret result) (fun result => ret (update_empty result (Some (undefined M))))) _ _ _ H2).
  - intros E ls t s w c w' _ IH Hr L HL. destruct (IH Hr L HL) as (r & Hc & Hw).
    destruct (will_breakable _ _ _ _ _ Hw Hc) as (r' & Hw' & Hc').
    apply will_S. cbn [eval_stmt]. by eapply will_catching.
  - intros E ls s t w c w' _ IH Hr L HL. destruct (IH Hr L HL) as (r & Hc & Hw).
    destruct (will_breakable _ _ _ _ _ Hw Hc) as (r' & Hw' & Hc').
    apply will_S. cbn [eval_stmt]. by eapply will_catching.
  - intros E ls i t p body w x w' Hi Hr L HL. apply will_S. cbn [eval_stmt].
    eapply (will_catching _ _ (RThrow x)); [|by right; eauto].
    eapply (will_bind_throw (fun _ => match i with
               | InitNone => ret tt
               | InitExpr e => bind (eval_expr e) (fun _ => ret tt)
               | InitVar ds => eval_var ds
               end)). apply will_const, ends_init. by eexists (Some x), _.
  - intros E ls i t p body w w1 c w' Hi _ IH Hr L HL.
    cbn [regular] in Hr. apply andb_prop in Hr as [Hr1 Hr2]. apply decls_nil in Hr2.
    destruct (IH Hr1 Hr2 L HL) as (r & Hc & Hw).
    destruct (will_breakable _ _ _ _ _ Hw Hc) as (r' & Hw' & Hc').
    apply will_S. cbn [eval_stmt]. eapply will_catching; [|done].
    eapply (will_bind (fun _ => match i with
               | InitNone => ret tt
               | InitExpr e => bind (eval_expr e) (fun _ => ret tt)
               | InitVar ds => eval_var ds
               end) _ _ tt); [|exact Hw'].
    apply will_const, ends_init. by eexists None, _.
  - intros E ls b e body w x w' He _ L _. apply will_S. cbn [eval_stmt]. eapply will_catching; [|right; eauto].
    apply (will_bind_throw (fun _ => eval_expr e)). apply will_const, ends_expr; eauto.
  - intros E ls b e body w v w1 x w' He Hg _ L _. apply will_S. cbn [eval_stmt].
    eapply will_catching; [|right; eauto].
    eapply (will_bind (fun _ => eval_expr e)); [apply will_const, ends_expr; eauto|]. cbn beta.
    apply (will_bind_throw (fun _ => call (fun _ => get_iterator M v))). apply will_const, ends_call. eauto.
  - intros E ls b e body w v w1 it w2 c w' He Hg _ IH Hr L HL.
    cbn [regular] in Hr. apply andb_prop in Hr as [Hr Hr3]. apply andb_prop in Hr as [Hr1 Hr2].
    apply decls_nil in Hr3.
    destruct (IH Hr1 Hr2 Hr3 L HL) as (r & Hc & Hw).
    destruct (will_breakable _ _ _ _ _ Hw Hc) as (r' & Hw' & Hc').
    apply will_S. cbn [eval_stmt]. eapply will_catching; [|done].
    eapply (will_bind (fun _ => eval_expr e)); [apply will_const, ends_expr; eauto|]. cbn beta.
    eapply (will_bind (fun _ => call (fun _ => get_iterator M v)) _ _ it); [|exact Hw'].
    apply will_const, ends_call. eauto.
  - intros E ls e a d w x w' He _ L _. apply will_S. cbn [eval_stmt]. eapply will_catching; [|right; eauto].
    apply (will_bind_throw (fun _ => eval_expr e)). apply will_const, ends_expr; eauto.
  - intros E ls e a d w v w1 E' w2 w3 c w' He Hn Hd _ IH Hr L HL.
    cbn [regular] in Hr. apply andb_prop in Hr as [Hr1 Hr2].
    destruct (IH Hr1) as (r & Hc & Hw).
    { destruct d as [[]|]; [|done]. by apply andb_prop in Hr2. }
    apply will_S. cbn [eval_stmt].
    pose proof (will_scope _ E E' w1 w2 w3 (switch_decls a d) _ r E' w' Hn Hd Hw) as Hsc.
    destruct (will_breakable _ _ _ _ _ Hsc Hc) as (r' & Hw' & Hc').
    eapply will_catching; [|exact Hc'].
    eapply (will_bind (fun _ => eval_expr e)); [apply will_const, ends_expr; eauto|]. cbn beta.
    destruct Hw' as [n Hw']. exists n. intros m Hm. specialize (Hw' m Hm).
    unfold ends in *. cbn [lexical_env]. destruct Hw' as [Hw' ?]. split; [|done]. rewrite <- Hw'.
    clear. unfold bind. cbn [lexical_env rest].
    destruct (env_create true E (State E w1)) as [[E2| | |] st]; cbn; try done.
  - intros E ls l s w c w' _ IH Hr L HL. apply will_S. cbn [eval_stmt]. eapply will_catching; [|by left].
    eapply will_bind; [apply IH; [done|by apply same_set_cons]|]. cbn beta. rewrite unlabelled_spec. done_ret.
  - intros. apply will_S. cbn [eval_stmt]. eapply will_catching; [done_ret|by left].
  - intros. apply will_S. cbn [eval_stmt]. eapply will_catching; [done_ret|by left].
  (* lists *)
  - intros E w _. cbn. done.
  - intros E ss s w c w' _ IH Ha Hr. rewrite forallb_app in Hr. apply andb_prop in Hr as [Hr _].
    specialize (IH Hr). destruct c; try done; intros more; rewrite <- app_assoc; apply IH.
  - intros E ss s w v w1 c w' _ IH1 _ IH2 Hr. rewrite forallb_app in Hr. apply andb_prop in Hr as [Hr1 Hr2].
    cbn in Hr2. rewrite andb_true_r in Hr2. specialize (IH1 Hr1). specialize (IH2 Hr2 [] (fun x => iff_refl _)).
    cbn [list_done] in IH1. rewrite <- update_empty_spec.
    unfold list_done. destruct (is_abrupt (update_empty c v)) eqn:Hab.
    + assert (Hx : forall more, will (fun m => eval_list m ((ss ++ [s]) ++ more) None) (State E w)
                     (RVal (update_empty c v)) (State E w')).
      { intros more. rewrite <- app_assoc. apply IH1. apply will_S. cbn [app eval_list].
        eapply will_bind; [exact IH2|]. cbn beta. destruct (update_empty c v); try done; done_ret. }
      by destruct (update_empty c v).
    + destruct (update_empty c v) as [u| | | |] eqn:Hu; try done.
      intros more r st' Hm. rewrite <- app_assoc. apply IH1. apply will_S. cbn [app eval_list].
      eapply will_bind; [exact IH2|]. cbn beta. rewrite Hu.
      replace (match u with Some v0 => Some v0 | None => v end) with u; [done|].
      destruct u; [done|]. destruct c as [[]| | |? []|? []]; simplify_eq/=. done.
  - intros E body w E' w1 w2 c w' Hn Hd _ IH Hr. apply will_S. cbn [eval_block].
    destruct (will_scope _ E E' w w1 w2 (decls body) (fun m => eval_list m body None) _ E' w' Hn Hd
                (list_done_end _ _ _ _ _ (IH Hr))) as [n Hw].
    exists n. intros m Hm. exact (Hw m Hm).
  - intros E body w c w' Hd _ IH Hr _. by apply list_done_end, IH.
  - intros E body w c w' Hd _ IH Hr Hd'. done.
  (* try *)
  - intros E b w _. exists (RVal b). split; [by left|]. split; [|by left].
    destruct b; done_ret.
  - intros E b h w Hn _. exists (RVal b). split; [by left|]. split; [|by left].
    destruct b as [|x| | |]; try (done_ret). by destruct (Hn x).
  - intros E x p body w c w' _ IH Hh. destruct (Hh p body eq_refl) as [Hr Hp].
    destruct (IH Hr Hp) as (r & Hc & Hw & Hpl). exists r. split; [done|]. split; [done|].
    destruct Hpl as [->|[n ->]]; [by left|right; eauto].
  - intros E body x w E' w1 w2 c w' Hn Hd _ IH Hr _. exists (RVal c). split; [by left|]. split; [|by left].
    apply will_S. cbn [eval_catch bind_catch_param].
    destruct (will_scope _ E E' w w1 w2 (decls body) (fun m => bind (ret tt) (fun _ => eval_list m body None))
                (RVal c) E' w' Hn Hd) as [n Hw].
    { eapply (will_bind (fun _ => ret tt) _ _ tt); [done_ret|]. by apply list_done_end, IH. }
    exists n. intros m Hm. exact (Hw m Hm).
  - intros E n0 body x w E' w1 w2 w3 c w' Hn Hd Hb _ IH Hr _. exists (RVal c). split; [by left|]. split; [|by left].
    apply will_S. cbn [eval_catch bind_catch_param].
    destruct (will_scope _ E E' w w1 w2 (decls body)
      (fun m => bind (call_total (bind_name M n0 x)) (fun _ => eval_list m body None)) (RVal c) E' w' Hn Hd) as [n Hw].
    { eapply (will_bind (fun _ => call_total (bind_name M n0 x)) _ _ tt);
        [apply will_const, ends_call_total; eauto|]. by apply list_done_end, IH. }
    exists n. intros m Hm. exact (Hw m Hm).
  - intros E n0 body x w E' w1 y w' Hn Hb Hr Hp. exists (RThrow y). split; [right; eauto|].
    split; [|right; eauto]. cbn in Hp.
    apply will_S. cbn [eval_catch bind_catch_param].
    destruct (will_scope _ E E' w w1 w1 (decls body)
      (fun m => bind (call (bind_pattern M n0 x)) (fun _ => eval_list m body None)) (RThrow y) E' w' Hn) as [n Hw].
    { rewrite Hp. apply ev_decls_nil. }
    { apply (will_bind_throw (fun _ => call (bind_pattern M n0 x))). apply will_const, ends_call; eauto. }
    exists n. intros m Hm. exact (Hw m Hm).
  - intros E n0 body x w E' w1 w2 c w' Hn Hb _ IH Hr Hp. exists (RVal c). split; [by left|].
    split; [|by left]. cbn in Hp.
    apply will_S. cbn [eval_catch bind_catch_param].
    destruct (will_scope _ E E' w w1 w1 (decls body)
      (fun m => bind (call (bind_pattern M n0 x)) (fun _ => eval_list m body None)) (RVal c) E' w' Hn) as [n Hw].
    { rewrite Hp. apply ev_decls_nil. }
    { eapply (will_bind (fun _ => call (bind_pattern M n0 x)) _ _ tt);
        [apply will_const, ends_call; eauto|]. by apply IH. }
    exists n. intros m Hm. exact (Hw m Hm).
  - intros E c w _. done_ret.
  - intros E c body w v w' _ IH Hf. eapply will_bind; [by apply IH, Hf|]. done_ret.
  - intros E c body w f w' _ IH Ha Hf. eapply will_bind; [by apply IH, Hf|]. cbn beta.
    apply is_abrupt_spec in Ha. rewrite Ha. done_ret.
  (* loops *)
  - intros E ls t s V w x w' He Hr L HL. exists (RThrow x). split; [right; eauto|].
    apply will_S. cbn [while_loop]. apply (will_bind_throw (fun _ => eval_expr t)).
    apply will_const, ends_expr; eauto.
  - intros E ls t s V w v w' He Hb Hr L HL. eexists. split; [by left|].
    apply will_S. cbn [while_loop].
    eapply (will_bind (fun _ => eval_expr t)); [apply will_const, ends_expr; eauto|]. cbn beta.
    eapply (will_bind (fun _ => truth v)); [by apply will_const, ends_truth|]. cbn beta. rewrite Hb. done_ret.
  - intros E ls t s V w v w1 c w' He Hb _ IH Hn Hr L HL. eexists. split; [by left|].
    apply will_S. cbn [while_loop].
    eapply (will_bind (fun _ => eval_expr t)); [apply will_const, ends_expr; eauto|]. cbn beta.
    eapply (will_bind (fun _ => truth v)); [by apply will_const, ends_truth|]. cbn beta. rewrite Hb. cbn [negb].
    eapply will_bind; [by apply IH|]. cbn beta.
    apply (loop_leaves_spec c L ls HL) in Hn. rewrite Hn, update_empty_spec. done_ret.
  - intros E ls t s V w v w1 c w2 c2 w' He Hb _ IH Hl _ IH2 Hr L HL.
    destruct (IH2 Hr L HL) as (r & Hc & Hw). exists r. split; [done|].
    apply will_S. cbn [while_loop].
    eapply (will_bind (fun _ => eval_expr t)); [apply will_const, ends_expr; eauto|]. cbn beta.
    eapply (will_bind (fun _ => truth v)); [by apply will_const, ends_truth|]. cbn beta. rewrite Hb. cbn [negb].
    eapply will_bind; [by apply IH|]. cbn beta.
    apply (loop_continues_spec c L ls HL) in Hl. rewrite Hl. cbn [negb]. by rewrite value_or_spec.
  - intros E ls s t V w c w' _ IH Hn Hr L HL. eexists. split; [by left|].
    apply will_S. cbn [do_while_loop]. eapply will_bind; [by apply IH|]. cbn beta.
    apply (loop_leaves_spec c L ls HL) in Hn. rewrite Hn, update_empty_spec. done_ret.
  - intros E ls s t V w c w1 x w' _ IH Hl He Hr L HL. exists (RThrow x). split; [right; eauto|].
    apply will_S. cbn [do_while_loop]. eapply will_bind; [by apply IH|]. cbn beta.
    apply (loop_continues_spec c L ls HL) in Hl. rewrite Hl. cbn [negb]. cbv zeta.
    apply (will_bind_throw (fun _ => eval_expr t)). apply will_const, ends_expr; eauto.
  - intros E ls s t V w c w1 v w' _ IH Hl He Hb Hr L HL. eexists. split; [by left|].
    apply will_S. cbn [do_while_loop]. eapply will_bind; [by apply IH|]. cbn beta.
    apply (loop_continues_spec c L ls HL) in Hl. rewrite Hl. cbn [negb]. cbv zeta.
    eapply (will_bind (fun _ => eval_expr t)); [apply will_const, ends_expr; eauto|]. cbn beta.
    eapply (will_bind (fun _ => truth v)); [by apply will_const, ends_truth|]. cbn beta.
    rewrite Hb, value_or_spec. done_ret.
  - intros E ls s t V w c w1 v w2 c2 w' _ IH Hl He Hb _ IH2 Hr L HL.
    destruct (IH2 Hr L HL) as (r & Hc & Hw). exists r. split; [done|].
    apply will_S. cbn [do_while_loop]. eapply will_bind; [by apply IH|]. cbn beta.
    apply (loop_continues_spec c L ls HL) in Hl. rewrite Hl. cbn [negb]. cbv zeta.
    eapply (will_bind (fun _ => eval_expr t)); [apply will_const, ends_expr; eauto|]. cbn beta.
    eapply (will_bind (fun _ => truth v)); [by apply will_const, ends_truth|]. cbn beta.
    rewrite Hb, value_or_spec. done.
  - intros E ls t p body V w x w' Ht Hr Hd L HL. exists (RThrow x). split; [right; eauto|].
    apply will_S. cbn [for_loop].
    eapply (will_bind_throw (fun _ => match t with
         | Some cond => bind (eval_expr cond) (fun test => truth test)
         | None => ret true
         end)). apply will_const, ends_test. by eexists (inr x), _.
  - intros E ls t p body V w w' Ht Hr Hd L HL. eexists. split; [by left|].
    apply will_S. cbn [for_loop].
    eapply (will_bind (fun _ => match t with
         | Some cond => bind (eval_expr cond) (fun test => truth test)
         | None => ret true
         end) _ _ false); [apply will_const, ends_test; by eexists (inl false), _|]. done_ret.
  - intros E ls t p body V w w1 c w' Ht _ IH Hn Hr Hd L HL. eexists. split; [by left|].
    apply will_S. cbn [for_loop].
    eapply (will_bind (fun _ => match t with
         | Some cond => bind (eval_expr cond) (fun test => truth test)
         | None => ret true
         end) _ _ true); [apply will_const, ends_test; by eexists (inl true), _|]. cbn [negb].
    eapply will_bind; [by apply IH|]. cbn beta.
    apply (loop_leaves_spec c L ls HL) in Hn. rewrite Hn, update_empty_spec. done_ret.
  - intros E ls t p body V w w1 c w2 x w' Ht _ IH Hl Hp Hr Hd L HL. exists (RThrow x). split; [right; eauto|].
    apply will_S. cbn [for_loop].
    eapply (will_bind (fun _ => match t with
         | Some cond => bind (eval_expr cond) (fun test => truth test)
         | None => ret true
         end) _ _ true); [apply will_const, ends_test; by eexists (inl true), _|]. cbn [negb].
    eapply will_bind; [by apply IH|]. cbn beta.
    apply (loop_continues_spec c L ls HL) in Hl. rewrite Hl. cbn [negb].
    eapply (will_bind_throw (fun _ => match p with
             | Some e => bind (eval_expr e) (fun _ => ret tt)
             | None => ret tt
             end)). apply will_const, ends_post. by eexists (Some x), _.
  - intros E ls t p body V w w1 c w2 w3 c2 w' Ht _ IH Hl Hp _ IH2 Hr Hd L HL.
    destruct (IH2 Hr Hd L HL) as (r & Hc & Hw). exists r. split; [done|].
    apply will_S. cbn [for_loop].
    eapply (will_bind (fun _ => match t with
         | Some cond => bind (eval_expr cond) (fun test => truth test)
         | None => ret true
         end) _ _ true); [apply will_const, ends_test; by eexists (inl true), _|]. cbn [negb].
    eapply will_bind; [by apply IH|]. cbn beta.
    apply (loop_continues_spec c L ls HL) in Hl. rewrite Hl. cbn [negb].
    eapply (will_bind (fun _ => match p with
             | Some e => bind (eval_expr e) (fun _ => ret tt)
             | None => ret tt
             end) _ _ tt); [apply will_const, ends_post; by eexists None, _|]. cbn beta.
    by rewrite value_or_spec.
  - intros E ls b it body V w x w' Hs Hqt. destruct (Hq Hqt) as [Hst _]. by destruct (Hst _ _ _ _ Hs).
  - intros E ls b it body V w w' Hs Hqt Hr Hd L HL. eexists. split; [by left|].
    apply will_S. cbn [for_of_loop].
    eapply (will_bind (fun _ => closing_on_error it (call (fun _ => step M it))) _ _ None); [|done_ret].
    apply will_const, ends_closing. left. eexists. split; [done|]. apply ends_call. eauto.
  - intros E ls b it body V w v w1 x w2 c w' Hs Hb Hcl Hqt Hr Hd L HL. exists (RThrow x).
    destruct Hcl as (r & Hcl & _ & ->). split; [right; eauto|].
    apply will_S. cbn [for_of_loop].
    eapply (will_bind (fun _ => closing_on_error it (call (fun _ => step M it))) _ _ (Some v)).
    { apply will_const, ends_closing. left. eexists. split; [done|]. apply ends_call. eauto. }
    cbn beta iota. apply (will_bind_throw (fun _ => closing_on_error it (call (bind_each M b v)))).
    apply will_const, ends_closing. right. eexists _, _, _, _. split; [done|]. split; [apply ends_call; eauto|].
    split; [|done]. by rewrite Hcl.
  - intros E ls b it body V w v w1 w2 c w3 c2 w' Hs Hb _ IH Hn Hcl Hqt Hr Hd L HL.
    destruct (Hq Hqt) as [_ Hqc]. destruct (Hqc it w3) as [w4 Hw4].
    destruct Hcl as (r & Hcl & _ & ->). rewrite Hw4 in Hcl. injection Hcl as <- <-.
    eexists. split; [by left|].
    apply will_S. cbn [for_of_loop].
    eapply (will_bind (fun _ => closing_on_error it (call (fun _ => step M it))) _ _ (Some v)).
    { apply will_const, ends_closing. left. eexists. split; [done|]. apply ends_call. eauto. }
    cbn beta iota. eapply (will_bind (fun _ => closing_on_error it (call (bind_each M b v))) _ _ tt).
    { apply will_const, ends_closing. left. eexists. split; [done|]. apply ends_call. eauto. }
    cbn beta. eapply (will_bind (fun m => closing_on_error it (eval_list m body None)) _ _ c).
    { destruct (IH Hr Hd) as [n Hw]. exists n. intros m Hm. apply ends_closing. left. eexists.
      split; [done|]. by apply Hw. }
    cbn beta. apply (loop_leaves_spec c L ls HL) in Hn. rewrite Hn. cbn [negb].
    eapply (will_bind (fun _ => close_ignoring it) _ _ tt); [by apply will_const, ends_close|].
    cbn beta. rewrite Hw4, update_empty_spec. cbn [snd]. apply will_const, ends_ret. split; [|done].
    by destruct (UpdateEmpty c (Some V)).
  - intros E ls b it body V w v w1 w2 c w3 c2 w' Hs Hb _ IH Hl _ IH2 Hqt Hr Hd L HL.
    destruct (IH2 Hqt Hr Hd L HL) as (r & Hc & Hw). exists r. split; [done|].
    apply will_S. cbn [for_of_loop].
    eapply (will_bind (fun _ => closing_on_error it (call (fun _ => step M it))) _ _ (Some v)).
    { apply will_const, ends_closing. left. eexists. split; [done|]. apply ends_call. eauto. }
    cbn beta iota. eapply (will_bind (fun _ => closing_on_error it (call (bind_each M b v))) _ _ tt).
    { apply will_const, ends_closing. left. eexists. split; [done|]. apply ends_call. eauto. }
    cbn beta. eapply (will_bind (fun m => closing_on_error it (eval_list m body None)) _ _ c).
    { destruct (IH Hr Hd) as [n Hw1]. exists n. intros m Hm. apply ends_closing. left. eexists.
      split; [done|]. by apply Hw1. }
    cbn beta. apply (loop_continues_spec c L ls HL) in Hl. rewrite Hl. cbn [negb]. by rewrite value_or_spec.
  (* switch *)
  - intros E v a d w x w' Hs Ha Hd. exists (RThrow x). split; [right; eauto|].
    apply will_S. cbn [eval_switch]. destruct d as [[s b]|].
    + apply (will_bind_throw (fun m => eval_cases m v a false (undefined M))). by apply search_throws.
    + apply (will_bind_throw (fun m => eval_cases m v a false (undefined M))). by apply search_throws.
  - intros E v a d w bodies w1 c w' Hs Hcl IH Ha Hd.
    assert (Hreg : forallb regulars bodies = true).
    { clear -Hs Ha. remember (inl (Some bodies)) as o eqn:Ho. revert bodies Ho Ha.
      induction Hs as [| |E v e s l w u w' He Hs|E v e s l w u w1 r w' He Hs Hr IH]; intros bodies Ho Ha; simplify_eq;
        unfold regular_bodies in Ha; cbn in Ha; apply andb_prop in Ha as [Ha1 Ha2].
      - cbn. rewrite Ha1. cbn. clear -Ha2. induction l as [|[e s] l IH]; [done|]. cbn in *.
        apply andb_prop in Ha2 as [-> ?]. by apply IH.
      - by apply IH. }
    exists (RVal c). split; [by left|].
    apply will_S. cbn [eval_switch]. destruct d as [[s b]|].
    + destruct Hd as [Hd1 Hd2].
      assert (Hb : bodies_run E (bodies ++ s :: map snd b) (undefined M) w1 c w').
      { apply IH. rewrite forallb_app. apply andb_true_intro. split; [done|]. cbn. rewrite Hd1. cbn.
        clear -Hd2. unfold regular_bodies in Hd2. induction b as [|[e s] b IH]; [done|]. cbn in *.
        apply andb_prop in Hd2 as [-> ?]. by apply IH. }
      apply bodies_split in Hb as [[Hab Hb]|(V1 & w2 & Hb1 & Hb2)].
      * eapply (will_bind (fun m => eval_cases m v a false (undefined M))); [by eapply search_runs|].
        cbn beta. unfold cases_end. destruct c as [[]| | | |]; try done; done_ret.
      * eapply (will_bind (fun m => eval_cases m v a false (undefined M))); [by eapply search_runs|].
        cbn beta iota. cbn [cases_end].
        eapply (will_bind (fun _ => ret (inr (false, V1))) _ _ (inr (false, V1))); [done_ret|]. cbn beta iota.
        by apply run_default.
    + rewrite app_nil_r in IH. specialize (IH Hreg).
      eapply (will_bind (fun m => eval_cases m v a false (undefined M))); [by eapply search_runs|].
      cbn beta. unfold cases_end. destruct c as [[]| | | |]; try done_ret.
  - intros E v a w w' Hs Ha _. eexists. split; [by left|].
    apply will_S. cbn [eval_switch].
    eapply (will_bind (fun m => eval_cases m v a false (undefined M))); [by eapply search_none|]. done_ret.
  - intros E v a s b w w1 x w' Hs Hs2 Ha Hd. exists (RThrow x). split; [right; eauto|].
    apply will_S. cbn [eval_switch].
    eapply (will_bind (fun m => eval_cases m v a false (undefined M))); [by eapply search_none|]. cbn beta iota.
    apply (will_bind_throw (fun m => eval_cases m v b false (undefined M))). by apply search_throws.
  - intros E v a s b w w1 bodies w2 c w' Hs Hs2 _ IH Ha [Hd1 Hd2].
    assert (Hreg : forallb regulars bodies = true).
    { clear -Hs2 Hd2. remember (inl (Some bodies)) as o eqn:Ho. revert bodies Ho Hd2.
      induction Hs2 as [| |E v e s l w u w' He Hs|E v e s l w u w1 r w' He Hs Hr IH]; intros bodies Ho Ha; simplify_eq;
        unfold regular_bodies in Ha; cbn in Ha; apply andb_prop in Ha as [Ha1 Ha2].
      - cbn. rewrite Ha1. cbn. clear -Ha2. induction l as [|[e s] l IH]; [done|]. cbn in *.
        apply andb_prop in Ha2 as [-> ?]. by apply IH.
      - by apply IH. }
    specialize (IH Hreg). exists (RVal c). split; [by left|].
    apply will_S. cbn [eval_switch].
    eapply (will_bind (fun m => eval_cases m v a false (undefined M))); [by eapply search_none|]. cbn beta iota.
    eapply (will_bind (fun m => eval_cases m v b false (undefined M))); [by eapply search_runs|].
    cbn beta. unfold cases_end. destruct c as [[]| | | |]; try done_ret.
  - intros E v a s b w w1 w2 c w' Hs Hs2 _ IH Ha [Hd1 Hd2]. exists (RVal c). split; [by left|].
    apply will_S. cbn [eval_switch].
    eapply (will_bind (fun m => eval_cases m v a false (undefined M))); [by eapply search_none|]. cbn beta iota.
    eapply (will_bind (fun m => eval_cases m v b false (undefined M))); [by eapply search_none|]. cbn beta iota.
    apply run_default. apply IH. cbn. rewrite Hd1. cbn.
    clear -Hd2. unfold regular_bodies in Hd2. induction b as [|[e s] b IH]; [done|]. cbn in *.
    apply andb_prop in Hd2 as [-> ?]. by apply IH.
  - intros. apply br_nil.
  - intros E s l V w c w' _ IH Ha Hr. cbn in Hr. apply andb_prop in Hr as [Hr1 Hr2].
    apply br_abrupt; [by apply list_done_end, IH|done].
  - intros E s l V w v w1 c w' _ IH _ IH2 Hr. cbn in Hr. apply andb_prop in Hr as [Hr1 Hr2].
    eapply br_cons; [by apply list_done_end, IH|by apply IH2].
Qed.
End Back.

Lemma plain_ecma {M : machine} (c c' : completion (value M)) :
  same_control c c' -> same_control (plain_if c) (ecma_if M c').
Proof. by destruct c, c'. Qed.

Lemma ecma_plain {M : machine} (c c' : completion (value M)) :
  same_control c c' -> same_control (ecma_if M c) (plain_if c').
Proof. by destruct c, c'. Qed.
