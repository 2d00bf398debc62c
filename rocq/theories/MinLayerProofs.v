(** * Rewriting a statement by rewriting its parts *)
From stdpp Require Import base decidable numbers gmap sets list.
From Verif Require Import StmtModel StmtSpec StmtProofs StmtMoreProofs MinModel MinSpec MinProofs MinPassProofs.

Section Layers.
Context {M : machine} (of_vars : N -> list N) (hoists : N -> bool).
Notation VN := (var_names of_vars hoists).
Notation BV := (body_vars of_vars hoists).
Notation imp := (imp (M := M)).
Notation limp := (limp (M := M)).

Definition list_vars (ss : list stmt) : gset N := ⋃ (map VN ss).
Definition cases_vars (a : list (expr * list stmt)) : gset N := ⋃ (map (fun b => list_vars (snd b)) a).

Lemma list_vars_cons s ss : list_vars (s :: ss) = VN s ∪ list_vars ss.
Proof. done. Qed.

Lemma list_vars_app a b : list_vars (a ++ b) = list_vars a ∪ list_vars b.
Proof.
  induction a as [|s a IH]; cbn [app]; [unfold list_vars; cbn; set_solver|].
  rewrite !list_vars_cons, IH. set_solver.
Qed.

Lemma body_vars_cons s ss : BV (s :: ss) = BV [s] ∪ BV ss.
Proof. unfold body_vars. cbn. set_solver. Qed.

Lemma body_vars_app a b : BV (a ++ b) = BV a ∪ BV b.
Proof.
  induction a as [|s a IH]; cbn [app]; [unfold body_vars; cbn; set_solver|].
  rewrite (body_vars_cons s (a ++ b)), (body_vars_cons s a), IH. set_solver.
Qed.

Lemma decls_app a b : decls (a ++ b) = decls a ++ decls b.
Proof. apply flat_map_app. Qed.

Lemma decls_cons s ss : decls (s :: ss) = decls [s] ++ decls ss.
Proof. apply (decls_app [s]). Qed.

Definition decl_vars (ds : list decl) : gset N :=
  ⋃ (map (fun d => match d with DFunction n => if hoists n then {[n]} else ∅ | _ => ∅ end) ds).

Lemma list_vars_body ss : list_vars ss = BV ss ∪ decl_vars (decls ss).
Proof.
  induction ss as [|s ss IH]; [unfold list_vars, body_vars, decl_vars; cbn; set_solver|].
  rewrite list_vars_cons, IH, body_vars_cons, decls_cons. unfold body_vars, decl_vars.
  destruct s; cbn; set_solver.
Qed.

Lemma list_vars_one s : list_vars [s] = VN s.
Proof. unfold list_vars. cbn. set_solver. Qed.

(** [loops] are the labels of the loops around, [own] those before the
    statement, [own'] those before what it becomes. *)
Definition fits (enc loops own own' : list N) : Prop :=
  own ⊆ own' /\ own' ⊆ enc /\ loops ⊆ enc /\ forall l, l ∈ own' -> l ∉ loops.

Lemma fits_inner enc loops own own' : fits enc loops own own' -> fits enc loops [] [].
Proof. intros (? & ? & ? & ?). split_and!; [done|set_solver..]. Qed.

Lemma fits_loop enc loops own own' : fits enc loops own own' -> fits enc (own ++ loops) [] [].
Proof.
  intros (H1 & H2 & H3 & H4). split_and!; [done|set_solver|intros l [Hl|Hl]%elem_of_app; auto|set_solver].
Qed.

Lemma fits_label enc loops own own' l :
  l ∉ enc -> fits enc loops own own' -> fits (l :: enc) loops (l :: own) (l :: own').
Proof.
  intros Hl (? & ? & ? & ?). split_and!; [set_solver..|].
  intros j [->|Hj]%elem_of_cons; [|auto]. auto.
Qed.

Lemma fits_if enc loops own own' : fits enc loops own own' -> fits enc loops [] own'.
Proof. intros (? & ? & ? & ?). split_and!; [set_solver|done..]. Qed.

(** A statement and what it becomes. *)
Record ok (enc loops own own' : list N) (s s' : stmt) : Prop := Ok {
  ok_source : labels_valid enc loops own s = true;
  ok_plain : plain s' = true;
  ok_there : imp own own' s s';
  ok_back : imp own' own s' s;
  ok_decls : decls [s] = decls [s'];
  ok_vars : BV [s] = BV [s'];
  ok_valid : forall loops', loops ⊆ loops' -> labels_valid enc loops' own' s' = true;
}.

Record ok_list (enc loops : list N) (ss ss' : list stmt) : Prop := OkList {
  okl_source : forallb (labels_valid enc loops []) ss = true;
  okl_plain : forallb plain ss' = true;
  okl_there : limp ss ss';
  okl_back : limp ss' ss;
  okl_vars : BV ss = BV ss';
  okl_valid : forall loops', loops ⊆ loops' -> forallb (labels_valid enc loops' []) ss' = true;
}.

Lemma ok_names enc loops own own' s s' : ok enc loops own own' s s' -> VN s = VN s'.
Proof. intros H. rewrite <- !list_vars_one, !list_vars_body, (ok_decls _ _ _ _ _ _ H), (ok_vars _ _ _ _ _ _ H). done. Qed.

Lemma okl_decls enc loops ss ss' : ok_list enc loops ss ss' -> decls ss = decls ss'.
Proof. intros H. apply (okl_there _ _ _ _ H). Qed.

Lemma okl_names enc loops ss ss' : ok_list enc loops ss ss' -> list_vars ss = list_vars ss'.
Proof. intros H. by rewrite !list_vars_body, (okl_vars _ _ _ _ H), (okl_decls _ _ _ _ H). Qed.

Lemma ok_proper enc loops own own' s s' : ok enc loops own own' s s' -> proper s = proper s'.
Proof. intros H. pose proof (ok_decls _ _ _ _ _ _ H) as Hd. destruct s, s'; cbn in Hd; by simplify_eq. Qed.

Lemma okl_nil enc loops : ok_list enc loops [] [].
Proof. done. Qed.

Lemma okl_app enc loops a a' b b' :
  ok_list enc loops a a' -> ok_list enc loops b b' -> ok_list enc loops (a ++ b) (a' ++ b').
Proof.
  intros [? ? ? ? Ha ?] [? ? ? ? Hb ?]. split; rewrite ?forallb_app.
  - by apply andb_true_iff.
  - by apply andb_true_iff.
  - by apply limp_app.
  - by apply limp_app.
  - by rewrite !body_vars_app, Ha, Hb.
  - intros loops' Hl. rewrite forallb_app. apply andb_true_iff. auto.
Qed.

Lemma okl_one enc loops s s' : ok enc loops [] [] s s' -> ok_list enc loops [s] [s'].
Proof.
  intros [Hs Hp Ht Hb Hd Hv Hw]. split; cbn; rewrite ?andb_true_r; try done.
  - split; [done|]. intros E w k w'. rewrite !lists_one. apply Ht.
  - split; [done|]. intros E w k w'. rewrite !lists_one. apply Hb.
  - intros loops' Hl. rewrite andb_true_r. auto.
Qed.

Lemma okl_map enc loops (f : stmt -> list stmt) ss :
  Forall (fun s => ok_list enc loops [s] (f s)) ss -> ok_list enc loops ss (flat_map f ss).
Proof.
  induction 1 as [|s ss H _ IH]; [apply okl_nil|]. cbn [flat_map].
  change (s :: ss) with ([s] ++ ss). by apply okl_app.
Qed.

Lemma okl_refl enc loops ss :
  forallb plain ss = true -> forallb (labels_valid enc loops []) ss = true ->
  (forall loops', loops ⊆ loops' -> forallb (labels_valid enc loops' []) ss = true) -> ok_list enc loops ss ss.
Proof. intros. by split. Qed.

Lemma okl_trans enc loops a b c :
  ok_list enc loops a b -> ok_list enc loops b c -> ok_list enc loops a c.
Proof.
  intros [? ? Ht Hb Hv ?] [? ? Ht' Hb' Hv' ?]. split; try done; [..|congruence].
  - by eapply limp_trans.
  - by eapply limp_trans.
Qed.

(** ** One layer *)

Definition leaf (s : stmt) : bool :=
  match s with
  | SEmpty | SExpr _ | SVar _ | SLexical _ | SFunction _ | SThrow _ | SReturn _ | SBreak _ | SContinue _ => true
  | _ => false
  end.

Lemma leaf_same ls ls' s : leaf s = true -> imp ls ls' s s.
Proof.
  intros Hs E w k w' (c & Hc & <-). destruct s; try done; inversion Hc; subst; eexists; (split; [|done]);
    by econstructor.
Qed.

Lemma ok_leaf enc loops own own' s :
  leaf s = true -> plain s = true -> labels_valid enc loops own s = true -> ok enc loops own own' s s.
Proof.
  intros Hs Hp Hv. split; try done; [by apply leaf_same|by apply leaf_same|].
  intros loops' Hl. destruct s; try done. cbn in *. destruct l as [l|]; [|done].
  apply bool_decide_eq_true in Hv. apply bool_decide_eq_true. set_solver.
Qed.

Lemma ok_block enc loops own own' b b' :
  ok_list enc loops b b' -> ok enc loops own own' (SBlock b) (SBlock b').
Proof.
  intros H. pose proof (okl_names _ _ _ _ H) as Hn. destruct H as [? ? ? ? Hv ?].
  split; cbn; try done; [by apply limp_block|by apply limp_block|].
  unfold body_vars. cbn. unfold list_vars in Hn. by rewrite Hn.
Qed.

Lemma ok_if enc loops own own' t c c' a a' :
  ok enc loops [] [] c c' -> proper c = true ->
  match a, a' with
  | Some x, Some x' => ok enc loops [] [] x x' /\ proper x = true
  | None, None => True
  | _, _ => False
  end ->
  ok enc loops own own' (SIf t c a) (SIf t c' a').
Proof.
  intros Hc Hpc Ha. pose proof (ok_proper _ _ _ _ _ _ Hc) as Hpc'. pose proof (ok_names _ _ _ _ _ _ Hc) as Hnc.
  destruct Hc as [? ? ? ? ? ? ?].
  destruct a as [a|], a' as [a'|]; try done.
  - destruct Ha as [Ha Hpa]. pose proof (ok_proper _ _ _ _ _ _ Ha) as Hpa'.
    pose proof (ok_names _ _ _ _ _ _ Ha) as Hna. destruct Ha as [? ? ? ? ? ? ?].
    split; cbn.
    + by apply andb_true_iff.
    + rewrite <- Hpc', Hpc, <- Hpa', Hpa. cbn. by apply andb_true_iff.
    + by apply imp_if.
    + by apply imp_if.
    + done.
    + unfold body_vars. cbn. by rewrite Hnc, Hna.
    + intros loops' Hl. apply andb_true_iff. auto.
  - split; cbn.
    + by rewrite andb_true_r.
    + rewrite <- Hpc', Hpc. cbn. by rewrite andb_true_r.
    + by apply imp_if.
    + by apply imp_if.
    + done.
    + unfold body_vars. cbn. by rewrite Hnc.
    + intros loops' Hl. rewrite andb_true_r. auto.
Qed.

Lemma ok_label enc loops own own' l s s' :
  l ∉ enc -> proper s = true -> ok (l :: enc) loops (l :: own) (l :: own') s s' ->
  ok enc loops own own' (SLabel l s) (SLabel l s').
Proof.
  intros Hl Hp H. pose proof (ok_proper _ _ _ _ _ _ H) as Hp'. pose proof (ok_names _ _ _ _ _ _ H) as Hn.
  destruct H as [? ? ? ? ? ? ?]. assert (Hb : bool_decide (l ∈ enc) = false) by (by apply bool_decide_eq_false).
  split; cbn; rewrite ?Hb; try done.
  - rewrite <- Hp', Hp. done.
  - by apply imp_label.
  - by apply imp_label.
  - unfold body_vars. cbn. by rewrite Hn.
Qed.

Lemma fits_jumps enc loops own own' (J : env M -> world M -> completion (value M) -> world M -> Prop) :
  fits enc loops own own' ->
  (forall E w l w', J E w (CContinue (Some l) None) w' -> l ∈ own ++ loops) ->
  same_jumps own own' J /\ same_jumps own' own J.
Proof.
  intros (H1 & _ & _ & H4) HJ. split; intros E w l w' H; apply HJ, elem_of_app in H as [H|H]; split; intros; auto;
    exfalso; by eapply H4; [|done]; auto.
Qed.

Lemma ok_while enc loops own own' t s s' :
  fits enc loops own own' -> proper s = true -> ok enc (own ++ loops) [] [] s s' ->
  ok enc loops own own' (SWhile t s) (SWhile t s').
Proof.
  intros Hf Hp H. pose proof (ok_proper _ _ _ _ _ _ H) as Hp'. pose proof (ok_names _ _ _ _ _ _ H) as Hn.
  destruct H as [Hs ? ? Hbk ? ? ?].
  destruct (fits_jumps _ _ _ _ (fun E => does E [] s) Hf) as [J1 J2].
  { intros E w l w' Hd. by eapply (stmt_jumps s). }
  split; cbn; try done.
  - by rewrite <- Hp', Hp.
  - by apply imp_while.
  - apply imp_while; [done|]. intros E w l w' Hd. by eapply (J2 E w l w'), Hbk.
  - unfold body_vars. cbn. by rewrite Hn.
  - intros loops' Hl. destruct Hf as (? & _). apply ok_valid0. set_solver.
Qed.

Lemma ok_do enc loops own own' t s s' :
  fits enc loops own own' -> proper s = true -> ok enc (own ++ loops) [] [] s s' ->
  ok enc loops own own' (SDoWhile s t) (SDoWhile s' t).
Proof.
  intros Hf Hp H. pose proof (ok_proper _ _ _ _ _ _ H) as Hp'. pose proof (ok_names _ _ _ _ _ _ H) as Hn.
  destruct H as [Hs ? ? Hbk ? ? ?].
  destruct (fits_jumps _ _ _ _ (fun E => does E [] s) Hf) as [J1 J2].
  { intros E w l w' Hd. by eapply (stmt_jumps s). }
  split; cbn; try done.
  - by rewrite <- Hp', Hp.
  - by apply imp_do.
  - apply imp_do; [done|]. intros E w l w' Hd. by eapply (J2 E w l w'), Hbk.
  - unfold body_vars. cbn. by rewrite Hn.
  - intros loops' Hl. destruct Hf as (? & _). apply ok_valid0. set_solver.
Qed.

Lemma okl_jumps enc loops ss : forallb (labels_valid enc loops []) ss = true -> list_jumps (M := M) loops ss.
Proof.
  intros H. apply list_jumps_all. apply forallb_Forall in H. eapply Forall_impl; [exact H|].
  intros s Hs. exact (stmt_jumps s enc loops [] Hs).
Qed.

Lemma ok_for enc loops own own' i t p b b' :
  fits enc loops own own' -> ok_list enc (own ++ loops) b b' ->
  ok enc loops own own' (SFor i t p b) (SFor i t p b').
Proof.
  intros Hf H. pose proof (okl_names _ _ _ _ H) as Hn. destruct H as [Hs ? ? Hbk ? ?].
  destruct (fits_jumps _ _ _ _ (fun E => bodies E b) Hf) as [J1 J2].
  { intros E w l w' Hd. eapply body_jumps; [|exact Hd]. by eapply okl_jumps. }
  split; cbn; try done.
  - by apply imp_for.
  - apply imp_for; [done|]. intros E w l w' Hd. by eapply (J2 E w l w'), limp_bodies.
  - unfold body_vars. cbn. unfold list_vars in Hn. by rewrite Hn.
  - intros loops' Hl. destruct Hf as (? & _). apply okl_valid0. set_solver.
Qed.

Lemma ok_for_of enc loops own own' x e b b' :
  fits enc loops own own' -> ok_list enc (own ++ loops) b b' ->
  ok enc loops own own' (SForOf x e b) (SForOf x e b').
Proof.
  intros Hf H. pose proof (okl_names _ _ _ _ H) as Hn. destruct H as [Hs ? ? Hbk ? ?].
  destruct (fits_jumps _ _ _ _ (fun E => bodies E b) Hf) as [J1 J2].
  { intros E w l w' Hd. eapply body_jumps; [|exact Hd]. by eapply okl_jumps. }
  split; cbn; try done.
  - by apply imp_for_of.
  - apply imp_for_of; [done|]. intros E w l w' Hd. by eapply (J2 E w l w'), limp_bodies.
  - unfold body_vars. cbn. unfold list_vars in Hn. by rewrite Hn.
  - intros loops' Hl. destruct Hf as (? & _). apply okl_valid0. set_solver.
Qed.

Definition opt_ok {A} (R : A -> A -> Prop) (x y : option A) : Prop :=
  match x, y with Some a, Some b => R a b | None, None => True | _, _ => False end.

Lemma ok_try enc loops own own' b b' h h' f f' :
  ok_list enc loops b b' ->
  opt_ok (fun h h' => fst h = fst h' /\ ok_list enc loops (snd h) (snd h')) h h' ->
  opt_ok (ok_list enc loops) f f' ->
  ok enc loops own own' (STry b h f) (STry b' h' f').
Proof.
  intros Hb Hh Hf. pose proof (okl_names _ _ _ _ Hb) as Hnb.
  assert (Hh' : (match h with Some (_, b) => list_vars b | None => ∅ end) = (match h' with Some (_, b) => list_vars b | None => ∅ end)).
  { destruct h as [[]|], h' as [[]|]; try done. by apply (okl_names enc loops), Hh. }
  assert (Hf' : (match f with Some b => list_vars b | None => ∅ end) = (match f' with Some b => list_vars b | None => ∅ end)).
  { destruct f, f'; try done. by apply (okl_names enc loops), Hf. }
  split; cbn.
  - rewrite (okl_source _ _ _ _ Hb). cbn. apply andb_true_iff. split.
    + destruct h as [[]|], h' as [[]|]; try done. apply (okl_source _ _ _ _ (proj2 Hh)).
    + destruct f, f'; try done. apply (okl_source _ _ _ _ Hf).
  - rewrite (okl_plain _ _ _ _ Hb). cbn. apply andb_true_iff. split.
    + destruct h as [[]|], h' as [[]|]; try done. apply (okl_plain _ _ _ _ (proj2 Hh)).
    + destruct f, f'; try done. apply (okl_plain _ _ _ _ Hf).
  - apply imp_try.
    + apply (okl_there _ _ _ _ Hb).
    + destruct h as [[]|], h' as [[]|]; try done. split; [apply Hh|]. apply (okl_there _ _ _ _ (proj2 Hh)).
    + destruct f, f'; try done. apply (okl_there _ _ _ _ Hf).
  - apply imp_try.
    + apply (okl_back _ _ _ _ Hb).
    + destruct h as [[]|], h' as [[]|]; try done. split; [symmetry; apply Hh|]. apply (okl_back _ _ _ _ (proj2 Hh)).
    + destruct f, f'; try done. apply (okl_back _ _ _ _ Hf).
  - done.
  - unfold body_vars. cbn. unfold list_vars in *. by rewrite Hnb, Hh', Hf'.
  - intros loops' Hl. rewrite (okl_valid _ _ _ _ Hb _ Hl). cbn. apply andb_true_iff. split.
    + destruct h as [[]|], h' as [[]|]; try done. by apply (okl_valid _ _ _ _ (proj2 Hh)).
    + destruct f, f'; try done. by apply (okl_valid _ _ _ _ Hf).
Qed.

Definition ok_cases (enc loops : list N) : list (expr * list stmt) -> list (expr * list stmt) -> Prop :=
  Forall2 (fun b b' => fst b = fst b' /\ ok_list enc loops (snd b) (snd b')).

Lemma cases_names enc loops a a' : ok_cases enc loops a a' -> cases_vars a = cases_vars a'.
Proof.
  unfold cases_vars. induction 1 as [|b b' a a' [_ H] _ IH]; [done|]. cbn in *. by rewrite IH, (okl_names _ _ _ _ H).
Qed.

Lemma cases_there enc loops a a' : ok_cases enc loops a a' -> cases_imp (M := M) a a' /\ cases_imp (M := M) a' a.
Proof.
  induction 1 as [|b b' a a' [? H] _ [IH1 IH2]]; [split; constructor|]. split; constructor; try done.
  - split; [done|apply (okl_there _ _ _ _ H)].
  - split; [done|apply (okl_back _ _ _ _ H)].
Qed.

Lemma cases_source enc loops a a' :
  ok_cases enc loops a a' -> forallb (fun b => forallb (labels_valid enc loops []) (snd b)) a = true.
Proof. induction 1 as [|b b' a a' [? H] _ IH]; [done|]. cbn. by rewrite (okl_source _ _ _ _ H). Qed.

Lemma cases_plain enc loops a a' : ok_cases enc loops a a' -> forallb (fun b => forallb plain (snd b)) a' = true.
Proof. induction 1 as [|b b' a a' [? H] _ IH]; [done|]. cbn. by rewrite (okl_plain _ _ _ _ H). Qed.

Lemma cases_valid enc loops a a' loops' : loops ⊆ loops' ->
  ok_cases enc loops a a' -> forallb (fun b => forallb (labels_valid enc loops' []) (snd b)) a' = true.
Proof. intros Hl. induction 1 as [|b b' a a' [? H] _ IH]; [done|]. cbn. by rewrite (okl_valid _ _ _ _ H). Qed.

Lemma ok_switch enc loops own own' e a a' d d' :
  ok_cases enc loops a a' ->
  opt_ok (fun d d' => ok_list enc loops (fst d) (fst d') /\ ok_cases enc loops (snd d) (snd d')) d d' ->
  ok enc loops own own' (SSwitch e a d) (SSwitch e a' d').
Proof.
  intros Ha Hd. pose proof (cases_names _ _ _ _ Ha) as Hna. destruct (cases_there _ _ _ _ Ha) as [T B].
  assert (Hd' : (match d with Some (s, b) => list_vars s ∪ cases_vars b | None => ∅ end) =
                (match d' with Some (s, b) => list_vars s ∪ cases_vars b | None => ∅ end)).
  { destruct d as [[]|], d' as [[]|]; try done. destruct Hd as [H1 H2]. cbn in *.
    by rewrite (okl_names _ _ _ _ H1), (cases_names _ _ _ _ H2). }
  split; cbn.
  - rewrite (cases_source _ _ _ _ Ha). cbn. destruct d as [[]|], d' as [[]|]; try done. destruct Hd as [H1 H2]. cbn in *.
    by rewrite (okl_source _ _ _ _ H1), (cases_source _ _ _ _ H2).
  - rewrite (cases_plain _ _ _ _ Ha). cbn. destruct d as [[]|], d' as [[]|]; try done. destruct Hd as [H1 H2]. cbn in *.
    by rewrite (okl_plain _ _ _ _ H1), (cases_plain _ _ _ _ H2).
  - apply imp_switch; [done|]. destruct d as [[]|], d' as [[]|]; try done. destruct Hd as [H1 H2].
    split; [apply (okl_there _ _ _ _ H1)|apply (cases_there _ _ _ _ H2)].
  - apply imp_switch; [done|]. destruct d as [[]|], d' as [[]|]; try done. destruct Hd as [H1 H2].
    split; [apply (okl_back _ _ _ _ H1)|apply (cases_there _ _ _ _ H2)].
  - done.
  - unfold body_vars. cbn. unfold cases_vars, list_vars in *. by rewrite Hna, Hd'.
  - intros loops' Hl. rewrite (cases_valid _ _ _ _ _ Hl Ha). cbn.
    destruct d as [[]|], d' as [[]|]; try done. destruct Hd as [H1 H2]. cbn in *.
    by rewrite (okl_valid _ _ _ _ H1 _ Hl), (cases_valid _ _ _ _ _ Hl H2).
Qed.
End Layers.
