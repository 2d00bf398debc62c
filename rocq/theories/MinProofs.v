(** * Statements up to the values of their completions *)
From stdpp Require Import base decidable numbers gmap sets list.
From Verif Require Import StmtModel StmtSpec StmtProofs StmtMoreProofs MinModel MinSpec.

(** ** Induction over statements *)
Section Induction.
Context (P : stmt -> Prop).
Context (Hempty : P SEmpty) (Hexpr : forall e, P (SExpr e)) (Hvar : forall ds, P (SVar ds))
  (Hlex : forall n, P (SLexical n)) (Hfun : forall n, P (SFunction n))
  (Hblock : forall body, Forall P body -> P (SBlock body))
  (Hif : forall t c a, P c -> (forall s, a = Some s -> P s) -> P (SIf t c a))
  (Hthrow : forall e, P (SThrow e)) (Hreturn : forall e, P (SReturn e))
  (Htry : forall body h f, Forall P body -> (forall p b, h = Some (p, b) -> Forall P b) ->
    (forall b, f = Some b -> Forall P b) -> P (STry body h f))
  (Hwhile : forall t s, P s -> P (SWhile t s)) (Hdo : forall s t, P s -> P (SDoWhile s t))
  (Hfor : forall i t p body, Forall P body -> P (SFor i t p body))
  (Hof : forall b e body, Forall P body -> P (SForOf b e body))
  (Hswitch : forall e a d, Forall (fun b => Forall P (snd b)) a ->
    (forall s b, d = Some (s, b) -> Forall P s /\ Forall (fun b => Forall P (snd b)) b) -> P (SSwitch e a d))
  (Hlabel : forall l s, P s -> P (SLabel l s)) (Hbreak : forall l, P (SBreak l))
  (Hcontinue : forall l, P (SContinue l)).

Fixpoint stmt_induct (s : stmt) : P s :=
  let on_list := fix on_list (ss : list stmt) : Forall P ss :=
    match ss with
    | [] => Forall_nil_2 _
    | s :: ss => Forall_cons_2 _ _ _ (stmt_induct s) (on_list ss)
    end in
  let on_cases := fix on_cases (a : list (expr * list stmt)) : Forall (fun b => Forall P (snd b)) a :=
    match a with
    | [] => Forall_nil_2 _
    | b :: a => Forall_cons_2 _ _ _ (on_list (snd b)) (on_cases a)
    end in
  match s with
  | SEmpty => Hempty
  | SExpr e => Hexpr e
  | SVar ds => Hvar ds
  | SLexical n => Hlex n
  | SFunction n => Hfun n
  | SBlock body => Hblock body (on_list body)
  | SIf t c a => Hif t c a (stmt_induct c)
      (fun s' => match a return a = Some s' -> P s' with
                 | Some s0 => fun H => eq_ind s0 P (stmt_induct s0) s' (f_equal (default s0) H)
                 | None => fun H => match (eq_ind None (fun x => match x with None => True | _ => False end) I _ H) with end
                 end)
  | SThrow e => Hthrow e
  | SReturn e => Hreturn e
  | STry body h f => Htry body h f (on_list body)
      (fun p b => match h return h = Some (p, b) -> Forall P b with
                  | Some (p0, b0) => fun H => eq_ind b0 (Forall P) (on_list b0) b (f_equal (fun x => snd (default (p0, b0) x)) H)
                  | None => fun H => match (eq_ind None (fun x => match x with None => True | _ => False end) I _ H) with end
                  end)
      (fun b => match f return f = Some b -> Forall P b with
                | Some b0 => fun H => eq_ind b0 (Forall P) (on_list b0) b (f_equal (default b0) H)
                | None => fun H => match (eq_ind None (fun x => match x with None => True | _ => False end) I _ H) with end
                end)
  | SWhile t s => Hwhile t s (stmt_induct s)
  | SDoWhile s t => Hdo s t (stmt_induct s)
  | SFor i t p body => Hfor i t p body (on_list body)
  | SForOf b e body => Hof b e body (on_list body)
  | SSwitch e a d => Hswitch e a d (on_cases a)
      (fun s b => match d return d = Some (s, b) -> Forall P s /\ Forall (fun b => Forall P (snd b)) b with
                  | Some (s0, b0) => fun H =>
                      eq_ind (s0, b0) (fun p => Forall P (fst p) /\ Forall (fun b => Forall P (snd b)) (snd p))
                        (conj (on_list s0) (on_cases b0)) (s, b) (f_equal (default (s0, b0)) H)
                  | None => fun H => match (eq_ind None (fun x => match x with None => True | _ => False end) I _ H) with end
                  end)
  | SLabel l s => Hlabel l s (stmt_induct s)
  | SBreak l => Hbreak l
  | SContinue l => Hcontinue l
  end.
End Induction.

(** ** Completions without their values *)
Definition erase {V} (c : completion V) : completion V :=
  match c with
  | CNormal _ => CNormal None
  | CBreak l _ => CBreak l None
  | CContinue l _ => CContinue l None
  | _ => c
  end.

Lemma erase_same {V} (c c' : completion V) : erase c = erase c' <-> same_control c c'.
Proof. destruct c, c'; cbn; split; intros; by simplify_eq. Qed.

Lemma erase_idem {V} (c : completion V) : erase (erase c) = erase c.
Proof. by destruct c. Qed.

Lemma erase_abrupt {V} (c : completion V) : abrupt (erase c) <-> abrupt c.
Proof. by destruct c. Qed.

Lemma erase_update {V} (c : completion V) v : erase (UpdateEmpty c v) = erase c.
Proof. by destruct c. Qed.

Lemma erase_if {M} (c : completion (value M)) : erase (ecma_if M c) = erase c.
Proof. by destruct c. Qed.

Lemma erase_continues {V} (c : completion V) ls : LoopContinues (erase c) ls <-> LoopContinues c ls.
Proof. by destruct c. Qed.

Lemma erase_normal {V} (c : completion V) : erase c = CNormal None <-> exists v, c = CNormal v.
Proof. destruct c; cbn; split; try done; try (intros [? ?]; done). eauto. Qed.

Section Effects.
Context {M : machine} (HM : lawful M).
Notation SE := (stmt_ev M (ecma_if M)).
Notation LE := (list_ev M (ecma_if M)).
Notation BE := (block_ev M (ecma_if M)).
Notation DE := (body_ev M (ecma_if M)).

Definition does (E : env M) (ls : list N) (s : stmt) (w : world M) (k : completion (value M)) (w' : world M) : Prop :=
  exists c, SE E ls s w c w' /\ erase c = k.
Definition lists (E : env M) (ss : list stmt) (w : world M) (k : completion (value M)) (w' : world M) : Prop :=
  exists c, LE E ss w c w' /\ erase c = k.
Definition blocks (E : env M) (ss : list stmt) (w : world M) (k : completion (value M)) (w' : world M) : Prop :=
  exists c, BE E ss w c w' /\ erase c = k.
Definition bodies (E : env M) (ss : list stmt) (w : world M) (k : completion (value M)) (w' : world M) : Prop :=
  exists c, DE E ss w c w' /\ erase c = k.

Lemma does_erased E ls s w k w' : does E ls s w k w' -> erase k = k.
Proof. intros (c & _ & <-). apply erase_idem. Qed.

Lemma lists_erased E ss w k w' : lists E ss w k w' -> erase k = k.
Proof. intros (c & _ & <-). apply erase_idem. Qed.

Lemma lists_nil E w k w' : lists E [] w k w' <-> k = CNormal None /\ w' = w.
Proof.
  split.
  - intros (c & H & <-). inversion H; subst; try done; by destruct ss.
  - intros [-> ->]. exists (CNormal None). split; [constructor|done].
Qed.

Lemma lists_snoc E ss s w k w' :
  lists E (ss ++ [s]) w k w' <->
  (lists E ss w k w' /\ abrupt k) \/ (exists w1, lists E ss w (CNormal None) w1 /\ does E [] s w1 k w').
Proof.
  split.
  - intros (c & H & <-). inversion H; subst.
    + by destruct ss.
    + apply app_inj_tail in H0 as [-> ->]. left. split; [by exists c|]. by apply erase_abrupt.
    + apply app_inj_tail in H0 as [-> ->]. right. exists w1. split; [by exists (CNormal v)|].
      exists c0. split; [done|]. by rewrite erase_update.
  - intros [[(c & H & <-) Ha]|(w1 & (c & H & Hc) & (c' & H' & <-))].
    + exists c. split; [|done]. apply ev_snoc_abrupt; [done|]. by apply erase_abrupt.
    + apply erase_normal in Hc as [v ->]. exists (UpdateEmpty c' v). split; [by eapply ev_snoc|]. apply erase_update.
Qed.

Lemma lists_app E a b w k w' :
  lists E (a ++ b) w k w' <->
  (lists E a w k w' /\ abrupt k) \/ (exists w1, lists E a w (CNormal None) w1 /\ lists E b w1 k w').
Proof.
  revert w k w'. induction b as [|s b IH] using rev_ind; intros w k w'.
  - rewrite app_nil_r. split.
    + intros H. destruct k; try (left; by split).
      right. exists w'. assert (v = None) as -> by (apply lists_erased in H; cbn in H; congruence).
      split; [done|]. by apply lists_nil.
    + intros [[H _]|(w1 & H & H')]; [done|]. by apply lists_nil in H' as [-> ->].
  - rewrite app_assoc, lists_snoc, IH. setoid_rewrite lists_snoc. setoid_rewrite IH. split.
    + intros [[[[H Ha]|(w1 & H & H')] Hk]|(w1 & [[H Ha]|(w2 & H & H')] & Hs)]; [by left| |done|].
      * right. exists w1. split; [done|]. by left.
      * right. exists w2. split; [done|]. right. by exists w1.
    + intros [[H Ha]|(w1 & H & [[H' Ha]|(w2 & H' & Hs)])].
      * left. split; [by left|done].
      * left. split; [right; by exists w1|done].
      * right. exists w2. split; [right; by exists w1|done].
Qed.

Lemma lists_one E s w k w' : lists E [s] w k w' <-> does E [] s w k w'.
Proof.
  change [s] with ([] ++ [s]). rewrite lists_snoc. setoid_rewrite lists_nil. split.
  - intros [[[-> _] ?]|(w1 & [_ ->] & H)]; done.
  - intros H. right. by exists w.
Qed.

Lemma lists_cons E s ss w k w' :
  lists E (s :: ss) w k w' <->
  (does E [] s w k w' /\ abrupt k) \/ (exists w1, does E [] s w (CNormal None) w1 /\ lists E ss w1 k w').
Proof. change (s :: ss) with ([s] ++ ss). rewrite lists_app. by setoid_rewrite lists_one. Qed.

Lemma does_expr E ls e w k w' :
  does E ls (SExpr e) w k w' <->
  exists r, expr_ev M E e w r w' /\
    match r with RVal _ => k = CNormal None | RThrow x => k = CThrow x | RFatal => False end.
Proof.
  split.
  - intros (c & H & <-). inversion H; subst; eexists; (split; [done|done]).
  - intros (r & H & Hk). destruct r; subst; try done.
    + eexists. split; [by apply ev_expr|done].
    + eexists. split; [by apply ev_expr_throw|done].
Qed.

Lemma does_if E ls t s a w k w' :
  does E ls (SIf t s a) w k w' <->
  exists r w1, expr_ev M E t w r w1 /\
    match r with
    | RVal v =>
        if to_boolean M v w1 then does E [] s w1 k w'
        else match a with Some s' => does E [] s' w1 k w' | None => k = CNormal None /\ w' = w1 end
    | RThrow x => k = CThrow x /\ w' = w1
    | RFatal => False
    end.
Proof.
  split.
  - intros (c & H & <-). inversion H; subst.
    + exists (RThrow x), w'. done.
    + exists (RVal v), w1. split; [done|]. match goal with Hb : to_boolean _ _ _ = _ |- _ => rewrite Hb end. exists c0. by rewrite erase_if.
    + exists (RVal v), w1. split; [done|]. match goal with Hb : to_boolean _ _ _ = _ |- _ => rewrite Hb end. exists c0. by rewrite erase_if.
    + exists (RVal v), w'. split; [done|]. match goal with Hb : to_boolean _ _ _ = _ |- _ => rewrite Hb end. done.
  - intros (r & w1 & Ht & H). destruct r as [v|x|]; [|destruct H as [-> ->]|done].
    + destruct (to_boolean M v w1) eqn:Hb.
      * destruct H as (c & H & <-). exists (ecma_if M c). split; [by eapply ev_if_true|apply erase_if].
      * destruct a as [s'|].
        -- destruct H as (c & H & <-). exists (ecma_if M c). split; [by eapply ev_if_false|apply erase_if].
        -- destruct H as [-> ->]. exists (ecma_if M (CNormal None)). split; [by eapply ev_if_none|done].
    + exists (CThrow x). split; [by apply ev_if_throw|done].
Qed.

Lemma does_empty E ls w k w' : does E ls SEmpty w k w' <-> k = CNormal None /\ w' = w.
Proof.
  split.
  - intros (c & H & <-). by inversion H; subst.
  - intros [-> ->]. exists (CNormal None). split; [constructor|done].
Qed.

Lemma does_block E ls body w k w' : does E ls (SBlock body) w k w' <-> blocks E body w k w'.
Proof.
  split.
  - intros (c & H & <-). inversion H; subst. by exists c.
  - intros (c & H & <-). exists c. split; [by apply ev_block|done].
Qed.

Lemma does_var E ls ds w k w' :
  does E ls (SVar ds) w k w' <-> exists t, vars_ev M E ds w t w' /\ k = vars_completion M t.
Proof.
  split.
  - intros (c & H & <-). inversion H; subst. exists t. split; [done|]. by destruct t.
  - intros (t & H & ->). exists (vars_completion M t). split; [by apply ev_var|by destruct t].
Qed.

Lemma blocks_iff E body w k w' :
  blocks E body w k w' <->
  exists E' w1 w2, new_env M (declares body) E w = (Some E', w1) /\
    decls_ev M E' (decls body) w1 w2 /\ lists E' body w2 k w'.
Proof.
  split.
  - intros (c & H & <-). inversion H; subst. do 3 eexists. split; [done|]. split; [done|]. by exists c.
  - intros (E' & w1 & w2 & Hn & Hd & (c & H & <-)). exists c. split; [by eapply ev_in_block|done].
Qed.

Lemma blocks_plain E body w k w' :
  decls body = [] -> (blocks E body w k w' <-> lists E body w k w').
Proof.
  intros Hd. rewrite blocks_iff. unfold declares. rewrite Hd. split.
  - intros (E' & w1 & w2 & Hn & Hd' & H). rewrite (proj2 HM) in Hn. simplify_eq. by inversion Hd'; subst.
  - intros H. exists E, w, w. split; [apply (proj2 HM)|]. split; [constructor|done].
Qed.

Lemma bodies_iff E body w k w' :
  bodies E body w k w' <-> if declares body then blocks E body w k w' else lists E body w k w'.
Proof.
  unfold declares. split.
  - intros (c & H & <-). inversion H; subst.
    + rewrite H0. by exists c.
    + destruct (decls body); [done|]. by exists c.
  - destruct (decls body) eqn:Hd; intros (c & H & <-); exists c; (split; [|done]).
    + by apply ev_body_plain.
    + apply ev_body_block; [by rewrite Hd|done].
Qed.

(** ** Replacing parts *)

(** What [s] does with the labels [ls], [s'] does with [ls']. *)
Definition imp (ls ls' : list N) (s s' : stmt) : Prop :=
  forall E w k w', does E ls s w k w' -> does E ls' s' w k w'.
Definition limp (ss ss' : list stmt) : Prop :=
  decls ss = decls ss' /\ forall E w k w', lists E ss w k w' -> lists E ss' w k w'.

Lemma limp_refl ss : limp ss ss.
Proof. done. Qed.

Lemma limp_trans a b c : limp a b -> limp b c -> limp a c.
Proof. intros [H1 H2] [H3 H4]. split; [congruence|]. eauto. Qed.

Lemma limp_app a a' b b' : limp a a' -> limp b b' -> limp (a ++ b) (a' ++ b').
Proof.
  intros [Hd H] [Hd' H']. split; [unfold decls in *; rewrite !flat_map_app; congruence|].
  intros E w k w'. rewrite !lists_app. intros [[? ?]|(w1 & ? & ?)]; [left; eauto|right; eauto].
Qed.

Lemma limp_block ls ls' ss ss' : limp ss ss' -> imp ls ls' (SBlock ss) (SBlock ss').
Proof.
  intros [Hd H] E w k w'. rewrite !does_block, !blocks_iff. unfold declares. rewrite <- Hd.
  intros (E' & w1 & w2 & ? & ? & ?). exists E', w1, w2. eauto.
Qed.

Lemma limp_blocks E ss ss' w k w' : limp ss ss' -> blocks E ss w k w' -> blocks E ss' w k w'.
Proof. intros H. rewrite <- !(does_block _ []). by apply limp_block. Qed.

Lemma limp_bodies E ss ss' w k w' : limp ss ss' -> bodies E ss w k w' -> bodies E ss' w k w'.
Proof.
  intros H. rewrite !bodies_iff. unfold declares. rewrite <- (proj1 H). destruct (decls ss).
  - apply H.
  - by apply limp_blocks.
Qed.

Lemma imp_if ls ls' t s s' a a' :
  imp [] [] s s' ->
  match a, a' with Some x, Some y => imp [] [] x y | None, None => True | _, _ => False end ->
  imp ls ls' (SIf t s a) (SIf t s' a').
Proof.
  intros H Ha E w k w'. rewrite !does_if. intros (r & w1 & Ht & Hr). exists r, w1. split; [done|].
  destruct r as [v|x|]; try done. destruct (to_boolean M v w1); [by apply H|].
  destruct a, a'; try done. by apply Ha.
Qed.

Lemma imp_label l ls ls' s s' : imp (l :: ls) (l :: ls') s s' -> imp ls ls' (SLabel l s) (SLabel l s').
Proof.
  intros H E w k w' (c & Hc & <-). inversion Hc; subst.
  edestruct (H E w (erase c0) w') as (c' & H' & Hs); [by exists c0|].
  exists (unlabelled l c'). split; [by apply ev_label|].
  apply erase_same, same_unlabelled. by apply erase_same.
Qed.

(** No body of the loop asks for a label in which the sets differ. *)
Definition same_jumps (ls ls' : list N) (jumps : env M -> world M -> completion (value M) -> world M -> Prop) : Prop :=
  forall E w l w', jumps E w (CContinue (Some l) None) w' -> (l ∈ ls <-> l ∈ ls').

Lemma jumps_continue ls ls' jumps E w c w' c' :
  same_jumps ls ls' jumps -> jumps E w (erase c) w' -> erase c' = erase c ->
  (LoopContinues c ls <-> LoopContinues c' ls').
Proof.
  intros Hj H He. rewrite <- (erase_continues c), <- (erase_continues c'), He.
  destruct c as [| | | |[l|]]; cbn; try done. by apply (Hj E w l w').
Qed.

Lemma while_imp E ls t s V w c w' :
  while_ev M (ecma_if M) E ls t s V w c w' -> forall ls' s' V',
  imp [] [] s s' -> same_jumps ls ls' (fun E => does E [] s) ->
  exists c', while_ev M (ecma_if M) E ls' t s' V' w c' w' /\ erase c' = erase c.
Proof.
  intros Hw. induction Hw; intros ls' s' V' H' Hj.
  - exists (CThrow x). split; [by apply ev_while_throw|done].
  - exists (CNormal (Some V')). split; [by eapply ev_while_end|done].
  - assert (Hd : does E [] s w1 (erase c) w') by (by exists c).
    destruct (H' _ _ _ _ Hd) as (c' & Hc' & He).
    exists (UpdateEmpty c' (Some V')). split; [|by rewrite !erase_update].
    eapply ev_while_leave; [done..|]. by rewrite <- (jumps_continue _ _ _ _ _ _ _ _ Hj Hd He).
  - assert (Hd : does E [] s w1 (erase c) w2) by (by exists c).
    destruct (H' _ _ _ _ Hd) as (c1 & Hc1 & He).
    destruct (IHHw ls' s' (value_or c1 V') H' Hj) as (c2 & Hc2 & He2).
    exists c2. split; [|done]. eapply ev_while_again; [done..| |done].
    by rewrite <- (jumps_continue _ _ _ _ _ _ _ _ Hj Hd He).
Qed.

Lemma do_imp E ls s t V w c w' :
  do_ev M (ecma_if M) E ls s t V w c w' -> forall ls' s' V',
  imp [] [] s s' -> same_jumps ls ls' (fun E => does E [] s) ->
  exists c', do_ev M (ecma_if M) E ls' s' t V' w c' w' /\ erase c' = erase c.
Proof.
  intros Hw. induction Hw; intros ls' s' V' H' Hj;
    (match goal with
     | Hs : SE E [] s _ ?c ?w2 |- _ =>
         assert (Hd : does E [] s w (erase c) w2) by (by exists c);
         destruct (H' _ _ _ _ Hd) as (c1 & Hc1 & He);
         pose proof (jumps_continue _ _ _ _ _ _ _ _ Hj Hd He) as Hk
     end).
  - exists (UpdateEmpty c1 (Some V')). split; [|by rewrite !erase_update].
    eapply ev_do_leave; [done..|]. by rewrite <- Hk.
  - exists (CThrow x). split; [|done]. eapply ev_do_throw; [done| |done]. by rewrite <- Hk.
  - eexists. split; [eapply ev_do_end; [done| |done|done]; by rewrite <- Hk|done].
  - destruct (IHHw ls' s' (value_or c1 V') H' Hj) as (c2 & Hc2 & He2).
    exists c2. split; [|done]. eapply ev_do_again; [done| |done|done|done]. by rewrite <- Hk.
Qed.

Lemma for_imp E ls t p body V w c w' :
  for_ev M (ecma_if M) E ls t p body V w c w' -> forall ls' body' V',
  limp body body' -> same_jumps ls ls' (fun E => bodies E body) ->
  exists c', for_ev M (ecma_if M) E ls' t p body' V' w c' w' /\ erase c' = erase c.
Proof.
  intros Hw. induction Hw; intros ls' body' V' H' Hj;
    try (match goal with
     | Hs : DE E body ?w1 ?c ?w2 |- _ =>
         assert (Hd : bodies E body w1 (erase c) w2) by (by exists c);
         destruct (limp_bodies _ _ _ _ _ _ H' Hd) as (c1 & Hc1 & He);
         pose proof (jumps_continue _ _ _ _ _ _ _ _ Hj Hd He) as Hk
     end).
  - exists (CThrow x). split; [by apply ev_for_test_throw|done].
  - exists (CNormal (Some V')). split; [by eapply ev_for_end|done].
  - exists (UpdateEmpty c1 (Some V')). split; [|by rewrite !erase_update].
    eapply ev_for_leave; [done..|]. by rewrite <- Hk.
  - exists (CThrow x). split; [|done]. eapply ev_for_post_throw; [done|done| |done]. by rewrite <- Hk.
  - destruct (IHHw ls' body' (value_or c1 V') H' Hj) as (c2 & Hc2 & He2).
    exists c2. split; [|done]. eapply ev_for_again; [done|done| |done|done]. by rewrite <- Hk.
Qed.

Lemma for_of_imp E ls b it body V w c w' :
  for_of_ev M (ecma_if M) E ls b it body V w c w' -> forall ls' body' V',
  limp body body' -> same_jumps ls ls' (fun E => bodies E body) ->
  exists c', for_of_ev M (ecma_if M) E ls' b it body' V' w c' w' /\ erase c' = erase c.
Proof.
  intros Hw. induction Hw; intros ls' body' V' H' Hj;
    try (match goal with
     | Hs : DE E body ?w1 ?c ?w2 |- _ =>
         assert (Hd : bodies E body w1 (erase c) w2) by (by exists c);
         destruct (limp_bodies _ _ _ _ _ _ H' Hd) as (c1 & Hc1 & He);
         pose proof (jumps_continue _ _ _ _ _ _ _ _ Hj Hd He) as Hk
     end).
  - exists (CThrow x). split; [by apply ev_of_step_throw|done].
  - exists (CNormal (Some V')). split; [by eapply ev_of_end|done].
  - exists c. split; [by eapply ev_of_bind_throw|done].
  - assert (Hs : same_control (UpdateEmpty c (Some V)) (UpdateEmpty c1 (Some V'))).
    { apply same_update, erase_same. done. }
    match goal with Hc : closed _ _ _ _ _ _ |- _ => destruct (same_closed _ _ _ _ _ _ Hs Hc) as (r & Hr & Hrs) end.
    exists r. split; [|symmetry; by apply erase_same].
    eapply ev_of_leave; [done|done|done| |done]. by rewrite <- Hk.
  - destruct (IHHw ls' body' (value_or c1 V') H' Hj) as (c2 & Hc2 & He2).
    exists c2. split; [|done]. eapply ev_of_again; [done|done|done| |done]. by rewrite <- Hk.
Qed.

Lemma erase_unbroken {V} (u : V) (c c' : completion V) :
  erase c' = erase c -> erase (unbroken u c') = erase (unbroken u c).
Proof. intros. by apply erase_same, same_unbroken, erase_same. Qed.

Lemma imp_while ls ls' t s s' :
  imp [] [] s s' -> same_jumps ls ls' (fun E => does E [] s) -> imp ls ls' (SWhile t s) (SWhile t s').
Proof.
  intros H Hj E w k w' (c & Hc & <-). inversion Hc; subst.
  match goal with Hw : while_ev _ _ _ _ _ _ _ _ _ _ |- _ =>
    destruct (while_imp _ _ _ _ _ _ _ _ Hw ls' s' (undefined M) H Hj) as (c' & Hc' & He) end.
  eexists. split; [by apply ev_while|]. by apply erase_unbroken.
Qed.

Lemma imp_do ls ls' t s s' :
  imp [] [] s s' -> same_jumps ls ls' (fun E => does E [] s) -> imp ls ls' (SDoWhile s t) (SDoWhile s' t).
Proof.
  intros H Hj E w k w' (c & Hc & <-). inversion Hc; subst.
  match goal with Hw : do_ev _ _ _ _ _ _ _ _ _ _ |- _ =>
    destruct (do_imp _ _ _ _ _ _ _ _ Hw ls' s' (undefined M) H Hj) as (c' & Hc' & He) end.
  eexists. split; [by apply ev_do|]. by apply erase_unbroken.
Qed.

Lemma imp_for ls ls' i t p body body' :
  limp body body' -> same_jumps ls ls' (fun E => bodies E body) ->
  imp ls ls' (SFor i t p body) (SFor i t p body').
Proof.
  intros H Hj E w k w' (c & Hc & <-). inversion Hc; subst.
  - eexists. split; [by apply ev_for_throw|done].
  - match goal with Hw : for_ev _ _ _ _ _ _ _ _ _ _ _ |- _ =>
      destruct (for_imp _ _ _ _ _ _ _ _ _ Hw ls' body' (undefined M) H Hj) as (c' & Hc' & He) end.
    eexists. split; [by eapply ev_for|]. by apply erase_unbroken.
Qed.

Lemma imp_for_of ls ls' b e body body' :
  limp body body' -> same_jumps ls ls' (fun E => bodies E body) ->
  imp ls ls' (SForOf b e body) (SForOf b e body').
Proof.
  intros H Hj E w k w' (c & Hc & <-). inversion Hc; subst.
  - eexists. split; [by apply ev_for_of_throw|done].
  - eexists. split; [by eapply ev_for_of_iterator_throw|done].
  - match goal with Hw : for_of_ev _ _ _ _ _ _ _ _ _ _ _ |- _ =>
      destruct (for_of_imp _ _ _ _ _ _ _ _ _ Hw ls' body' (undefined M) H Hj) as (c' & Hc' & He) end.
    eexists. split; [by eapply ev_for_of|]. by apply erase_unbroken.
Qed.

(** *** `try` *)

Definition handler_imp (h h' : option (catch_param * list stmt)) : Prop :=
  match h, h' with
  | Some (p, hb), Some (p', hb') => p = p' /\ limp hb hb'
  | None, None => True
  | _, _ => False
  end.
Definition finally_imp (f f' : option (list stmt)) : Prop :=
  match f, f' with Some x, Some y => limp x y | None, None => True | _, _ => False end.

Lemma handled_imp E b b' h h' w c w' :
  handled M (ecma_if M) E b h w c w' -> erase b' = erase b ->
  handler_imp h h' ->
  exists c', handled M (ecma_if M) E b' h' w c' w' /\ erase c' = erase c.
Proof.
  intros H He Hh. inversion H; subst.
  - destruct h'; [done|]. exists b'. split; [constructor|done].
  - destruct h0 as [p hb]. destruct h' as [[p' hb']|]; [|done].
    exists b'. split; [|done]. apply ev_not_thrown. intros x ->.
    destruct c; cbn in He; simplify_eq. by apply (H0 v).
  - destruct h' as [[p' hb']|]; [|done]. destruct Hh as [<- Hl].
    assert (b' = CThrow x) as -> by (destruct b'; cbn in He; by simplify_eq).
    match goal with Hc : catch_ev _ _ _ _ _ _ _ _ _ |- _ => inversion Hc; subst end.
    + edestruct (proj2 Hl) as (c' & ? & ?); [by exists c|]. exists c'. split; [|done].
      apply ev_handled. eapply ev_catch_bare; [done| |done]. by rewrite <- (proj1 Hl).
    + edestruct (proj2 Hl) as (c' & ? & ?); [by exists c|]. exists c'. split; [|done].
      apply ev_handled. eapply ev_catch_name; [done| |done|done]. by rewrite <- (proj1 Hl).
    + exists (CThrow y). split; [|done]. apply ev_handled. by eapply ev_catch_pattern_throw.
    + edestruct (limp_bodies E' body hb' w2 (erase c) w' Hl) as (c' & ? & ?); [by exists c|].
      exists c'. split; [|done]. apply ev_handled. by eapply ev_catch_pattern.
Qed.

Lemma finished_imp E b b' f f' w c w' :
  finished M (ecma_if M) E b f w c w' -> erase b' = erase b ->
  finally_imp f f' ->
  exists c', finished M (ecma_if M) E b' f' w c' w' /\ erase c' = erase c.
Proof.
  intros H He Hf. inversion H; subst; destruct f' as [y|]; try done.
  - exists b'. split; [constructor|done].
  - edestruct (limp_blocks E body y w (CNormal None) w' Hf) as (c' & Hc' & He'); [by exists (CNormal v)|].
    apply erase_normal in He' as [v' ->]. exists b'. split; [by eapply ev_finally_normal|done].
  - edestruct (limp_blocks E body y w (erase c) w' Hf) as (c' & Hc' & He'); [by exists c|].
    exists c'. split; [|done]. apply ev_finally_abrupt; [done|]. apply erase_abrupt. rewrite He'. by apply erase_abrupt.
Qed.

Lemma imp_try ls ls' body body' h h' f f' :
  limp body body' ->
  handler_imp h h' ->
  finally_imp f f' ->
  imp ls ls' (STry body h f) (STry body' h' f').
Proof.
  intros Hb Hh Hf E w k w' (c & Hc & <-). inversion Hc; subst.
  edestruct (limp_blocks E body body' w (erase b) w1 Hb) as (b' & ? & He); [by exists b|].
  match goal with Hx : handled _ _ _ _ _ _ _ _ |- _ =>
    destruct (handled_imp _ _ b' _ h' _ _ _ Hx He Hh) as (c' & ? & He') end.
  match goal with Hx : finished _ _ _ _ _ _ _ _ |- _ =>
    destruct (finished_imp _ _ c' _ f' _ _ _ Hx He' Hf) as (r' & ? & He'') end.
  eexists. split; [by eapply ev_try|]. by rewrite !erase_update.
Qed.

(** *** `switch` *)

Definition cases_imp (a a' : list (expr * list stmt)) : Prop :=
  Forall2 (fun b b' => fst b = fst b' /\ limp (snd b) (snd b')) a a'.

Definition default_imp (d d' : option (list stmt * list (expr * list stmt))) : Prop :=
  match d, d' with
  | Some (s, b), Some (s', b') => limp s s' /\ cases_imp b b'
  | None, None => True
  | _, _ => False
  end.

Lemma clauses_imp E bodies V w c w' :
  clauses_ev M (ecma_if M) E bodies V w c w' -> forall bodies' V', Forall2 limp bodies bodies' ->
  exists c', clauses_ev M (ecma_if M) E bodies' V' w c' w' /\ erase c' = erase c.
Proof.
  intros H. induction H; intros bodies' V' Hb; inversion Hb; subst.
  - exists (CNormal (Some V')). split; [constructor|done].
  - edestruct (proj2 H3) as (c' & ? & He); [by exists c|].
    exists (UpdateEmpty c' (Some V')). split; [|by rewrite !erase_update].
    apply ev_clause_abrupt; [done|]. apply erase_abrupt. rewrite He. by apply erase_abrupt.
  - edestruct (proj2 H3) as (c' & ? & He); [by exists (CNormal v)|].
    apply erase_normal in He as [v' ->].
    destruct (IHclauses_ev _ (value_or (CNormal v') V') H5) as (c2 & ? & ?).
    exists c2. split; [by eapply ev_clause|done].
Qed.

Lemma cases_snd a a' : cases_imp a a' -> Forall2 limp (map snd a) (map snd a').
Proof. intros H. induction H as [|b b' a a' [_ ?] ? IH]; cbn; by constructor. Qed.

Ltac cases_head :=
  match goal with Hh : _ = _ /\ limp _ _ |- _ => destruct Hh as [Hh ?]; cbn in Hh; subst end.

Lemma search_imp E v a w r w' :
  search_ev M E v a w r w' -> forall a', cases_imp a a' ->
  exists r', search_ev M E v a' w r' w' /\
    match r, r' with
    | inl None, inl None => True
    | inl (Some bs), inl (Some bs') => Forall2 limp bs bs'
    | inr x, inr y => x = y
    | _, _ => False
    end.
Proof.
  intros H. induction H; intros a' Ha; inversion Ha; subst; [|destruct y as [e' s']..].
  - exists (inl None). split; [constructor|done].
  - cases_head. exists (inr x). split; [by constructor|done].
  - cases_head. eexists (inl (Some _)). split; [by econstructor|].
    constructor; [done|]. by apply cases_snd.
  - cases_head. match goal with Hf : Forall2 _ _ _ |- _ => destruct (IHsearch_ev _ Hf) as (r' & ? & ?) end.
    exists r'. split; [by econstructor|done].
Qed.

Lemma cases_decls a a' : cases_imp a a' -> flat_map (fun b => decls (snd b)) a = flat_map (fun b => decls (snd b)) a'.
Proof. intros H. induction H as [|b b' a a' [_ [? _]] ? IH]; cbn; congruence. Qed.

Lemma imp_switch ls ls' e a a' d d' :
  cases_imp a a' ->
  default_imp d d' ->
  imp ls ls' (SSwitch e a d) (SSwitch e a' d').
Proof.
  intros Ha Hd E w k w' (c & Hc & <-). inversion Hc; subst.
  { eexists. split; [by apply ev_switch_throw|done]. }
  assert (Hsd : switch_decls a d = switch_decls a' d').
  { unfold switch_decls. rewrite (cases_decls _ _ Ha). f_equal.
    destruct d as [[s b]|], d' as [[s' b']|]; try done. destruct Hd as [[-> _] Hb]. by rewrite (cases_decls _ _ Hb). }
  assert (Hk : exists c', case_block_ev M (ecma_if M) E' v a' d' w3 c' w' /\ erase c' = erase c0).
  { match goal with Hx : case_block_ev _ _ _ _ _ _ _ _ _ |- _ => inversion Hx; subst end;
      match goal with Hs : search_ev _ _ _ a _ _ _ |- _ =>
        destruct (search_imp _ _ _ _ _ _ Hs a' Ha) as ([[bs'|]|y] & Hs1 & Hr1); try done end.
    - subst. exists (CThrow y). split; [by apply ev_search_throw|done].
    - edestruct clauses_imp as (c' & Hcl & He); [done| |exists c'; split; [by eapply ev_found|done]].
      apply Forall2_app; [done|]. destruct d as [[s b]|], d' as [[s' b']|]; try done.
      destruct Hd as [? Hb]. constructor; [done|]. by apply cases_snd.
    - destruct d'; [done|]. eexists. split; [by apply ev_no_default|done].
    - destruct d' as [[s' b']|]; [|done]. destruct Hd as [Hs Hb].
      match goal with Hs : search_ev _ _ _ b _ _ _ |- _ =>
        destruct (search_imp _ _ _ _ _ _ Hs b' Hb) as ([[bs'|]|y] & Hs2 & Hr2); try done end.
      subst. exists (CThrow y). split; [by eapply ev_search_after_throw|done].
    - destruct d' as [[s' b']|]; [|done]. destruct Hd as [Hs Hb].
      match goal with Hs : search_ev _ _ _ b _ _ _ |- _ =>
        destruct (search_imp _ _ _ _ _ _ Hs b' Hb) as ([[bs'|]|y] & Hs2 & Hr2); try done end.
      edestruct clauses_imp as (c' & Hcl & He); [done|exact Hr2|exists c'; split; [by eapply ev_found_after|done]].
    - destruct d' as [[s' b']|]; [|done]. destruct Hd as [Hs Hb].
      match goal with Hs : search_ev _ _ _ b _ _ _ |- _ =>
        destruct (search_imp _ _ _ _ _ _ Hs b' Hb) as ([[bs'|]|y] & Hs2 & Hr2); try done end.
      edestruct clauses_imp as (c' & Hcl & He); [done| |exists c'; split; [by eapply ev_default|done]].
      constructor; [done|]. by apply cases_snd. }
  destruct Hk as (c' & Hk & He).
  eexists. split; [eapply ev_switch; [done|done| |exact Hk]; by rewrite <- Hsd|]. by apply erase_unbroken.
Qed.
End Effects.
