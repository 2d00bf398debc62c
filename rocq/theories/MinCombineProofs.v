(** * The simpler passes: cleanup.rs and decl_combine.rs *)
From stdpp Require Import base decidable numbers gmap sets list.
From Verif Require Import StmtModel StmtSpec StmtProofs StmtMoreProofs MinModel MinSpec MinProofs MinPassProofs MinLayerProofs.

(** ** A pass rewrites the parts of a statement *)

Definition layer (fs : stmt -> stmt) (fl fb : list stmt -> list stmt) (s : stmt) : stmt :=
  match s with
  | SBlock body => SBlock (fl body)
  | SIf t c a => SIf t (fs c) (option_map fs a)
  | SWhile t s => SWhile t (fs s)
  | SDoWhile s t => SDoWhile (fs s) t
  | SFor i t p body => SFor i t p (fb body)
  | SForOf b e body => SForOf b e (fb body)
  | SSwitch e a d => SSwitch e (map_cases fl a) (map_default fl d)
  | STry body h f => STry (fl body) (map_handler fl h) (option_map fl f)
  | SLabel l s => SLabel l (fs s)
  | _ => s
  end.

Definition parts (S : stmt -> Prop) (L Lb : list stmt -> Prop) (s : stmt) : Prop :=
  match s with
  | SBlock body => L body
  | SIf t c a => S c /\ forall x, a = Some x -> S x
  | SWhile _ s | SDoWhile s _ | SLabel _ s => S s
  | SFor _ _ _ body | SForOf _ _ body => Lb body
  | SSwitch e a d =>
      Forall (fun b => L (snd b)) a /\ forall s b, d = Some (s, b) -> L s /\ Forall (fun b => L (snd b)) b
  | STry body h f => L body /\ (forall p b, h = Some (p, b) -> L b) /\ (forall b, f = Some b -> L b)
  | _ => True
  end.

Lemma parts_induct (P : stmt -> Prop) :
  (forall s, parts P (Forall P) (Forall P) s -> P s) -> forall s, P s.
Proof. intros H s. induction s using stmt_induct; apply H; cbn; eauto. Qed.

Lemma parts_impl (S S' : stmt -> Prop) (L L' Lb Lb' : list stmt -> Prop) s :
  (forall s, S s -> S' s) -> (forall b, L b -> L' b) -> (forall b, Lb b -> Lb' b) ->
  parts S L Lb s -> parts S' L' Lb' s.
Proof.
  intros H1 H2 H3. destruct s; cbn; try naive_solver.
  intros [Ha Hd]. split; [eapply Forall_impl; [exact Ha|]; eauto|]. intros s b Hs.
  destruct (Hd s b Hs) as [? Hb]. split; [auto|]. eapply Forall_impl; [exact Hb|]. eauto.
Qed.

Section Simple.
Context {M : machine} (HM : lawful M) (of_vars : N -> list N) (hoists : N -> bool).
Notation ok := (ok (M := M) of_vars hoists).
Notation ok_list := (ok_list (M := M) of_vars hoists).

Definition keeps_stmt (f : stmt -> stmt) (s : stmt) : Prop :=
  forall enc loops own own', fits enc loops own own' -> labels_valid enc loops own s = true ->
    plain s = true -> ok enc loops own own' s (f s).
Definition keeps_list (f : list stmt -> list stmt) (ss : list stmt) : Prop :=
  forall enc loops, fits enc loops [] [] -> forallb (labels_valid enc loops []) ss = true ->
    forallb plain ss = true -> ok_list enc loops ss (f ss).
(** What becomes of a statement that declares nothing. *)
Definition keeps_proper (f : stmt -> stmt) (s : stmt) : Prop :=
  proper s = true -> keeps_stmt f s.

Lemma keeps_cases fl enc loops a :
  fits enc loops [] [] -> Forall (fun b => keeps_list fl (snd b)) a ->
  forallb (fun b : expr * list stmt => forallb (labels_valid enc loops []) (snd b)) a = true ->
  forallb (fun b : expr * list stmt => forallb plain (snd b)) a = true ->
  ok_cases (M := M) of_vars hoists enc loops a (map_cases fl a).
Proof.
  intros Hf. induction 1 as [|b a H _ IH]; [constructor|]. cbn.
  intros [Hv Hv']%andb_true_iff [Hp Hp']%andb_true_iff. constructor; [|by apply IH]. split; [done|]. by apply H.
Qed.

Lemma layer_ok fs fl fb s :
  parts (keeps_proper fs) (keeps_list fl) (keeps_list fb) s -> keeps_stmt (layer fs fl fb) s.
Proof.
  intros H enc loops own own' Hf Hv Hp.
  pose proof (fits_inner _ _ _ _ Hf) as Hi. pose proof (fits_loop _ _ _ _ Hf) as Hlp.
  destruct s as [ | | | | |body|t c a| | |body h f|t s|s t|i t p body|b e body|e a d|l s| | ];
    try (by apply ok_leaf); cbn in H, Hv, Hp; cbn [layer].
  - apply ok_block. by apply H.
  - apply andb_true_iff in Hv as [Hvc Hva]. apply andb_true_iff in Hp as [Hpc Hpa].
    apply andb_true_iff in Hpc as [Hpc Hpc']. destruct H as [Hc Ha].
    apply ok_if; [by apply Hc|done|]. destruct a as [a|]; [|done]. cbn.
    apply andb_true_iff in Hpa as [Hpa Hpa']. split; [|done]. by apply Ha.
  - apply andb_true_iff in Hv as [Hv Hvf]. apply andb_true_iff in Hv as [Hvb Hvh].
    apply andb_true_iff in Hp as [Hp Hpf]. apply andb_true_iff in Hp as [Hpb Hph].
    destruct H as (Hb & Hh & Hff). apply ok_try; [by apply Hb| |].
    + destruct h as [[p b]|]; [|done]. split; [done|]. by eapply Hh.
    + destruct f as [b|]; [|done]. by apply Hff.
  - apply andb_true_iff in Hp as [Hp Hp']. apply ok_while; [done..|]. by apply H.
  - apply andb_true_iff in Hp as [Hp Hp']. apply ok_do; [done..|]. by apply H.
  - apply ok_for; [done|]. by apply H.
  - apply ok_for_of; [done|]. by apply H.
  - apply andb_true_iff in Hv as [Hva Hvd]. apply andb_true_iff in Hp as [Hpa Hpd].
    destruct H as [Ha Hd]. apply ok_switch; [by apply keeps_cases|].
    destruct d as [[s b]|]; [|done]. apply andb_true_iff in Hvd as [Hvs Hvb]. apply andb_true_iff in Hpd as [Hps Hpb].
    destruct (Hd _ _ eq_refl) as [Hs Hb]. split; [by apply Hs|by apply keeps_cases].
  - apply andb_true_iff in Hv as [Hl Hv]. apply andb_true_iff in Hp as [Hp Hp'].
    apply negb_true_iff, bool_decide_eq_false in Hl.
    apply ok_label; [done..|]. apply H; [done| |done|done]. by apply fits_label.
Qed.

Lemma keeps_flat_map (f : stmt -> list stmt) ss :
  Forall (fun s => forall enc loops, fits enc loops [] [] -> labels_valid enc loops [] s = true ->
    plain s = true -> ok_list enc loops [s] (f s)) ss ->
  keeps_list (flat_map f) ss.
Proof.
  intros H enc loops Hf Hv Hp. apply okl_map. apply forallb_Forall in Hv. apply forallb_Forall in Hp.
  induction H; inversion Hv; inversion Hp; subst; constructor; auto.
Qed.

(** ** cleanup.rs *)

Definition idle (s : stmt) : bool :=
  match s with SEmpty | SBlock [] | SVar [] => true | _ => false end.

Lemma idle_does ls s E w k w' :
  idle s = true -> (does (M := M) E ls s w k w' <-> k = CNormal None /\ w' = w).
Proof using HM.
  intros Hs. destruct s; try done.
  - by rewrite does_empty.
  - destruct ds; [|done]. rewrite does_var. split.
    + intros (t & H & ->). by inversion H; subst.
    + intros [-> ->]. exists None. split; [constructor|done].
  - destruct body; [|done]. by rewrite does_block, (blocks_plain HM), lists_nil.
Qed.

Lemma idle_vars s : idle s = true -> body_vars of_vars hoists [s] = ∅.
Proof.
  intros Hs. destruct s as [| |[|]| | |[|]| | | | | | | | | | | | ]; try discriminate; unfold body_vars; cbn; set_solver.
Qed.

Lemma idle_facts s : idle s = true -> decls [s] = [] /\ proper s = true /\ forall enc loops own, labels_valid enc loops own s = true.
Proof. intros Hs. destruct s as [| |[|]| | |[|]| | | | | | | | | | | | ]; done. Qed.

(** Statements that do nothing are as good as each other. *)
Lemma idle_ok enc loops own own' s s' :
  idle s = true -> idle s' = true -> plain s' = true -> ok enc loops own own' s s'.
Proof using HM.
  intros H H' Hp. destruct (idle_facts _ H) as (Hd & _ & Hv). destruct (idle_facts _ H') as (Hd' & _ & Hv'). split.
  - apply Hv.
  - done.
  - intros E w k w'. by rewrite !idle_does.
  - intros E w k w'. by rewrite !idle_does.
  - by rewrite Hd, Hd'.
  - by rewrite !idle_vars.
  - intros. apply Hv'.
Qed.

Lemma idle_gone enc loops s : idle s = true -> ok_list enc loops [s] [].
Proof using HM.
  intros H. destruct (idle_facts _ H) as (Hd & _ & Hv). split.
  - cbn. by rewrite Hv.
  - done.
  - split; [done|]. intros E w k w'. by rewrite lists_one, idle_does, lists_nil.
  - split; [done|]. intros E w k w'. by rewrite lists_one, idle_does, lists_nil.
  - by rewrite idle_vars.
  - done.
Qed.

Lemma ok_trans enc loops own own' own'' a b c :
  ok enc loops own own' a b -> ok enc loops own' own'' b c -> ok enc loops own own'' a c.
Proof.
  intros [? ? T B D V ?] [? ? T' B' D' V' ?]. split; try done; [..|congruence|congruence].
  - intros E w k w' H. by apply T', T.
  - intros E w k w' H. by apply B, B'.
Qed.

Lemma clean_in_list_ok enc loops s s' : ok enc loops [] [] s s' -> ok_list enc loops [s] (clean_in_list s').
Proof using HM.
  intros H. destruct (idle s') eqn:Hi.
  - replace (clean_in_list s') with (@nil stmt).
    + eapply okl_trans; [by apply okl_one|by apply idle_gone].
    + destruct s' as [| |[|]| | |[|]| | | | | | | | | | | | ]; done.
  - replace (clean_in_list s') with [s']; [by apply okl_one|].
    destruct s' as [| |[|]| | |[|]| | | | | | | | | | | | ]; done.
Qed.

Lemma clean_single_ok enc loops own own' s s' :
  ok enc loops own own' s s' -> ok enc loops own own' s (clean_single s').
Proof using HM.
  intros H. destruct s' as [| |[|]| | |[|]| | | | | | | | | | | | ]; try done;
    (eapply ok_trans; [exact H|]; by apply idle_ok).
Qed.

Lemma clean_layer s :
  clean_stmt s = layer (fun s => clean_single (clean_stmt s)) clean_stmts clean_stmts s.
Proof. by destruct s. Qed.

Lemma keeps_clean_list b : Forall (keeps_stmt clean_stmt) b -> keeps_list clean_stmts b.
Proof using HM.
  intros H. apply keeps_flat_map. eapply Forall_impl; [exact H|]. cbn. intros s Hs enc loops Hf Hv Hp.
  apply clean_in_list_ok. by apply Hs.
Qed.

Lemma keeps_clean s : keeps_stmt clean_stmt s.
Proof using HM.
  revert s. apply parts_induct. intros s IH enc loops own own'. rewrite clean_layer. apply layer_ok.
  eapply parts_impl; [| | |exact IH].
  - intros x Hx _ e l o o' Hf Hv Hp. apply clean_single_ok. by apply Hx.
  - apply keeps_clean_list.
  - apply keeps_clean_list.
Qed.

Lemma clean_ok b : keeps_list clean_stmts b.
Proof using HM. apply keeps_clean_list. apply Forall_forall. intros s _. apply keeps_clean. Qed.

(** ** decl_combine.rs *)

Lemma vars_app E ds es w t w' :
  vars_ev M E (ds ++ es) w t w' <->
  (exists x, t = Some x /\ vars_ev M E ds w t w') \/
  (exists w1, vars_ev M E ds w None w1 /\ vars_ev M E es w1 t w').
Proof.
  split.
  - revert w. induction ds as [|[x e] ds IH]; intros w H; cbn in H.
    + right. exists w. split; [constructor|done].
    + inversion H; subst.
      * edestruct IH as [(y & -> & ?)|(w1 & ? & ?)]; [done|left; exists y; split; [done|by constructor]|].
        right. exists w1. split; [by constructor|done].
      * left. eexists. split; [done|]. by apply ev_vars_throw.
      * left. eexists. split; [done|]. by eapply ev_vars_put_throw.
      * edestruct IH as [(y & -> & ?)|(w3 & ? & ?)]; [done|left; exists y; split; [done|by eapply ev_vars_put]|].
        right. exists w3. split; [by eapply ev_vars_put|done].
  - intros [(x & -> & H)|(w1 & H & H')].
    + remember (Some x) as t eqn:Ht. induction H; subst; try done; cbn.
      * apply ev_vars_bare. auto.
      * by apply ev_vars_throw.
      * by eapply ev_vars_put_throw.
      * eapply ev_vars_put; eauto.
    + remember None as n eqn:Hn. induction H; subst; try done; cbn.
      * apply ev_vars_bare. auto.
      * eapply ev_vars_put; eauto.
Qed.

Lemma combine_two enc loops ds es : ok_list enc loops [SVar ds; SVar es] [SVar (ds ++ es)].
Proof.
  assert (H : forall E w k w', lists (M := M) E [SVar ds; SVar es] w k w' <-> lists E [SVar (ds ++ es)] w k w').
  { intros E w k w'. rewrite lists_cons, !lists_one. setoid_rewrite lists_one. setoid_rewrite does_var.
    setoid_rewrite vars_app. split.
    - intros [[(t & Ht & ->) Ha]|(w1 & (t & Ht & He) & (t' & Ht' & ->))].
      + destruct t as [x|]; [|done]. exists (Some x). split; [left; by exists x|done].
      + destruct t; [done|]. exists t'. split; [right; by exists w1|done].
    - intros (t & [(x & -> & H)|(w1 & H & H')] & ->).
      + left. split; [by exists (Some x)|done].
      + right. exists w1. split; [by exists None|by exists t]. }
  split; try done.
  - split; [done|]. intros E w k w' Hl. by apply H.
  - split; [done|]. intros E w k w' Hl. by apply H.
  - unfold body_vars. cbn. rewrite map_app, list_to_set_app_L. set_solver.
Qed.

Lemma combine_push_ok enc loops ss out s :
  ok_list enc loops ss (rev out) -> ok enc loops [] [] s s -> ok_list enc loops (ss ++ [s]) (rev (combine_push out s)).
Proof.
  intros H Hs.
  assert (Hd : ok_list enc loops (ss ++ [s]) (rev out ++ [s])) by (apply okl_app; [done|by apply okl_one]).
  destruct out as [|o out]; [done|]. destruct o as [| |ds| | | | | | | | | | | | | | | ]; try done.
  destruct ds as [|d ds]; [by destruct s|]. destruct s as [| |es| | | | | | | | | | | | | | | ]; try done.
  destruct es as [|e es]; [done|]. cbn [combine_push]. eapply okl_trans; [exact Hd|].
  cbn [rev]. rewrite <- app_assoc. apply okl_app; [|apply combine_two].
  destruct H as [? Hp ? ? ? Hv]. cbn [rev] in Hp, Hv. rewrite forallb_app in Hp. apply andb_true_iff in Hp as [Hp _].
  apply okl_refl; [done|..]; [specialize (Hv loops ltac:(done))|intros loops' Hl; specialize (Hv loops' Hl)].
  - rewrite forallb_app in Hv. by apply andb_true_iff in Hv as [? _].
  - rewrite forallb_app in Hv. by apply andb_true_iff in Hv as [? _].
Qed.

Lemma okl_self enc loops ss ss' : ok_list enc loops ss ss' -> ok_list enc loops ss' ss'.
Proof. intros [? ? ? ? ? Hv]. apply okl_refl; [done|by apply Hv|done]. Qed.

Lemma combine_list_ok enc loops ss :
  forallb plain ss = true -> (forall loops', loops ⊆ loops' -> forallb (labels_valid enc loops' []) ss = true) ->
  ok_list enc loops ss (combine_list ss).
Proof.
  unfold combine_list. intros Hp Hv.
  enough (H : forall done out, ok_list enc loops done (rev out) ->
    ok_list enc loops (done ++ ss) (rev (fold_left combine_push ss out))) by (apply (H [] []), okl_nil).
  revert Hp Hv. induction ss as [|s ss IH]; intros Hp Hv dn out H; cbn [fold_left]; [by rewrite app_nil_r|].
  cbn in Hp, Hv. apply andb_true_iff in Hp as [Hps Hp].
  change (s :: ss) with ([s] ++ ss). rewrite app_assoc. apply IH.
  - done.
  - intros loops' Hl. specialize (Hv loops' Hl). by apply andb_true_iff in Hv as [_ ?].
  - apply combine_push_ok; [done|]. split; [|exact Hps|by intros E w k w'|by intros E w k w'|done|done|].
    + specialize (Hv loops ltac:(done)). by apply andb_true_iff in Hv as [? _].
    + intros loops' Hl. specialize (Hv loops' Hl). by apply andb_true_iff in Hv as [? _].
Qed.

Lemma okl_each enc loops (f : stmt -> stmt) ss :
  Forall (keeps_stmt f) ss -> fits enc loops [] [] -> forallb (labels_valid enc loops []) ss = true ->
  forallb plain ss = true -> ok_list enc loops ss (map f ss).
Proof.
  intros H Hf Hv Hp. replace (map f ss) with (flat_map (fun s => [f s]) ss) by (clear; induction ss; cbn; congruence).
  apply keeps_flat_map; [|done..]. eapply Forall_impl; [exact H|]. cbn. intros s Hs e l ? ? ?. by apply okl_one, Hs.
Qed.

Lemma keeps_combine_list b : Forall (keeps_stmt combine_stmt) b -> keeps_list combine_stmts b.
Proof.
  intros H enc loops Hf Hv Hp. pose proof (okl_each _ _ _ _ H Hf Hv Hp) as Ho.
  eapply okl_trans; [exact Ho|]. apply combine_list_ok; apply Ho.
Qed.

Lemma combine_layer s : combine_stmt s = layer combine_stmt combine_stmts combine_stmts s.
Proof. by destruct s. Qed.

Lemma keeps_combine s : keeps_stmt combine_stmt s.
Proof.
  revert s. apply parts_induct. intros s IH enc loops own own'. rewrite combine_layer. apply layer_ok.
  eapply parts_impl; [| | |exact IH].
  - by intros x Hx _.
  - apply keeps_combine_list.
  - apply keeps_combine_list.
Qed.

Lemma combine_ok b : keeps_list combine_stmts b.
Proof. apply keeps_combine_list. apply Forall_forall. intros s _. apply keeps_combine. Qed.
End Simple.
