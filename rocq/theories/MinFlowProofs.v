(** * Unreachable statements: cf_rewrite.rs, and all passes together *)
From stdpp Require Import base decidable numbers gmap sets list.
From Verif Require Import StmtModel StmtSpec StmtProofs StmtMoreProofs MinModel MinSpec MinProofs MinPassProofs MinLayerProofs
  MinCombineProofs MinRewriteProofs.

Section Flow.
Context {M : machine} (HM : lawful M) (of_vars : N -> list N) (B : binder).
Notation VN := (var_names of_vars (hoists B)).
Notation BV := (body_vars of_vars (hoists B)).
Notation ok := (ok (M := M) of_vars (hoists B)).
Notation ok_list := (ok_list (M := M) of_vars (hoists B)).
Notation keeps_stmt := (keeps_stmt (M := M) of_vars (hoists B)).
Notation keeps_list := (keeps_list (M := M) of_vars (hoists B)).
Notation cf := (cf_stmt of_vars B).

(** ** Statements that do not end normally *)

Lemma last_term body : is_unconditional_terminator (SBlock body) = true ->
  exists ss s, body = ss ++ [s] /\ is_unconditional_terminator s = true.
Proof.
  induction body as [|s body IH]; [done|]. intros H. destruct body as [|s' body].
  - exists [], s. done.
  - destruct IH as (ss & x & Hb & Hx); [exact H|]. exists (s :: ss), x. by rewrite Hb.
Qed.

Lemma terminates s : is_unconditional_terminator s = true ->
  forall E ls w k w', does (M := M) E ls s w k w' -> abrupt k.
Proof.
  induction s as [ | | |n|n|body IH| |e|e|body h f IH IHh IHf|t s IHs|s t IHs|i t p body IH|b e body IH
                 |e a d IHa IHd|l s IHs|l|l] using stmt_induct; intros Ht; try done;
    try (intros E ls w k w' (c & Hc & <-); by inversion Hc; subst).
  destruct (last_term _ Ht) as (ss & s & -> & Hs). intros E ls w k w'.
  rewrite does_block, blocks_iff. intros (E' & w1 & w2 & _ & _ & Hl). apply lists_snoc in Hl as [[_ ?]|(w3 & _ & Hd)]; [done|].
  apply Forall_app in IH as [_ IH]. inversion IH as [|? ? Hx _]; subst. by eapply Hx.
Qed.

Lemma self_ok enc loops s : labels_valid enc loops [] s = true -> plain s = true -> ok enc loops [] [] s s.
Proof.
  intros Hv Hp. split; try done; try (by intros E w k w').
  intros loops' Hl. by eapply valid_mono.
Qed.

Lemma self_list_ok enc loops ss : forallb (labels_valid enc loops []) ss = true -> forallb plain ss = true -> ok_list enc loops ss ss.
Proof. intros Hv Hp. apply okl_refl; [done|done|]. intros loops' Hl. by eapply list_valid_mono. Qed.

Lemma drop_else_ok enc loops t c a :
  is_unconditional_terminator c = true -> labels_valid enc loops [] (SIf t c (Some a)) = true ->
  plain (SIf t c (Some a)) = true -> ok_list enc loops [SIf t c (Some a)] [SIf t c None; a].
Proof.
  intros Ht Hv Hp. pose proof Hv as Hv0. cbn in Hv, Hp. apply andb_true_iff in Hv as [Hvc Hva].
  apply andb_true_iff in Hp as [Hp Hpa]. apply andb_true_iff in Hp as [Hpc Hpc']. apply andb_true_iff in Hpa as [Hpa Hpa'].
  assert (Hd : forall E w k w', lists (M := M) E [SIf t c (Some a)] w k w' <-> lists E [SIf t c None; a] w k w').
  { intros E w k w'. rewrite lists_one, lists_cons. setoid_rewrite lists_one. rewrite !does_if. setoid_rewrite does_if. split.
    - intros ([v|x|] & w1 & He & H); [|destruct H as [-> ->]|done].
      + destruct (to_boolean M v w1) eqn:Hb.
        * left. split; [|by eapply terminates]. exists (RVal v), w1. split; [done|]. by rewrite Hb.
        * right. exists w1. split; [|done]. exists (RVal v), w1. split; [done|]. by rewrite Hb.
      + left. split; [|done]. by exists (RThrow x), w1.
    - intros [[([v|x|] & w1 & He & H) Ha]|(w1 & ([v|x|] & w2 & He & H) & H')]; try done.
      + exists (RVal v), w1. split; [done|]. destruct (to_boolean M v w1); [done|]. by destruct H as [-> ->].
      + by exists (RThrow x), w1.
      + exists (RVal v), w2. split; [done|]. destruct (to_boolean M v w2).
        * by apply terminates in H.
        * destruct H as [_ ->]. done.
      + by destruct H as [? _]. }
  assert (Hde : decls [SIf t c None; a] = []) by (by destruct a).
  split.
  - cbn [forallb]. by rewrite Hv0.
  - cbn. by rewrite Hpc, Hpc', Hpa'.
  - split; [by rewrite Hde|]. intros E w k w'. apply Hd.
  - split; [by rewrite Hde|]. intros E w k w'. apply Hd.
  - rewrite (body_vars_cons of_vars (hoists B) (SIf t c None)), !proper_vars by done. cbn. set_solver.
  - intros loops' Hl. cbn. rewrite !andb_true_r. apply andb_true_iff. split; by eapply valid_mono.
Qed.

(** ** Pairs of a statement and what the pass makes of its parts *)

Definition good (enc loops : list N) (p : stmt * stmt) : Prop :=
  snd p = cf (fst p) /\ keeps_stmt cf (fst p) /\
  match fst p with SIf t c (Some a) => keeps_stmt cf (SIf t c None) /\ keeps_stmt cf a | _ => True end /\
  labels_valid enc loops [] (fst p) = true /\ plain (fst p) = true.
(** the same, without what [drop_terminating_else] needs *)
Definition fair (enc loops : list N) (p : stmt * stmt) : Prop :=
  snd p = cf (fst p) /\ keeps_stmt cf (fst p) /\ labels_valid enc loops [] (fst p) = true /\ plain (fst p) = true.

Lemma good_fair enc loops p : good enc loops p -> fair enc loops p.
Proof. by intros (? & ? & _ & ? & ?). Qed.

Lemma fair_firsts enc loops ps : Forall (fair enc loops) ps ->
  forallb (labels_valid enc loops []) (map fst ps) = true /\ forallb plain (map fst ps) = true.
Proof. induction 1 as [|p ps (? & ? & Hv & Hp) _ [IH1 IH2]]; [done|]. cbn. by rewrite Hv, Hp. Qed.

Lemma fair_pairs enc loops ps : fits enc loops [] [] -> Forall (fair enc loops) ps -> ok_list enc loops (map fst ps) (map snd ps).
Proof.
  intros Hf. induction 1 as [|p ps (He & Hk & Hv & Hp) _ IH]; [apply okl_nil|]. cbn.
  change (fst p :: map fst ps) with ([fst p] ++ map fst ps). change (snd p :: map snd ps) with ([snd p] ++ map snd ps).
  apply okl_app; [|done]. apply okl_one. rewrite He. by apply Hk.
Qed.

Lemma drop_cons p ps : drop_terminating_else (p :: ps) = drop_terminating_else [p] ++ drop_terminating_else ps.
Proof. unfold drop_terminating_else. cbn [flat_map]. by rewrite app_nil_r. Qed.

Lemma drop_pairs enc loops ps : Forall (good enc loops) ps ->
  Forall (fair enc loops) (drop_terminating_else ps) /\
  ok_list enc loops (map fst ps) (map fst (drop_terminating_else ps)).
Proof.
  induction 1 as [|[s s'] ps (He & Hk & Hi & Hv & Hp) _ [IH1 IH2]]; [split; [constructor|apply okl_nil]|].
  cbn [fst snd] in *. rewrite drop_cons.
  enough (H : Forall (fair enc loops) (drop_terminating_else [(s, s')]) /\
              ok_list enc loops [s] (map fst (drop_terminating_else [(s, s')]))).
  { destruct H as [H1 H2]. split; [by apply Forall_app|]. rewrite map_app.
    apply (okl_app of_vars (hoists B) enc loops [s]); [exact H2|exact IH2]. }
  assert (Hkeep : Forall (fair enc loops) [(s, s')] /\ ok_list enc loops [s] (map fst [(s, s')])).
  { split; [constructor; [by split_and!|constructor]|]. by apply okl_one, self_ok. }
  destruct s as [ | | | | | |t c [a|]| | | | | | | | | | | ]; try exact Hkeep. subst s'.
  unfold drop_terminating_else. cbn [cf_stmt option_map flat_map].
  destruct (is_unconditional_terminator c && _) eqn:Hb; [|exact Hkeep].
  apply andb_true_iff in Hb as [Ht _]. destruct Hi as [Hk1 Hk2]. pose proof (drop_else_ok _ _ _ _ _ Ht Hv Hp) as Ho.
  pose proof (okl_valid _ _ _ _ _ _ Ho loops ltac:(done)) as Hvs. pose proof (okl_plain _ _ _ _ _ _ Ho) as Hps.
  cbn [forallb] in Hvs, Hps. apply andb_true_iff in Hvs as [Hv1 Hv2]. rewrite andb_true_r in Hv2.
  apply andb_true_iff in Hps as [Hp1 Hp2]. rewrite andb_true_r in Hp2. split.
  - cbn [app]. constructor; [by split_and!|]. constructor; [by split_and!|constructor].
  - exact Ho.
Qed.

(** ** After a statement that does not end normally *)

Lemma unreachable_ok enc loops s ss ss' :
  is_unconditional_terminator s = true -> labels_valid enc loops [] s = true -> plain s = true ->
  forallb (labels_valid enc loops []) ss = true -> forallb plain ss' = true -> decls ss = decls ss' -> BV ss = BV ss' ->
  forallb (labels_valid enc loops []) ss' = true ->
  ok_list enc loops (s :: ss) (s :: ss').
Proof.
  intros Ht Hv Hp Hvs Hps Hd Hb Hvs'.
  assert (Hl : forall ss E w k w', lists (M := M) E (s :: ss) w k w' <-> does E [] s w k w').
  { clear -Ht. intros ss E w k w'. rewrite lists_cons. split.
    - intros [[H _]|(w1 & H & _)]; [done|]. by apply terminates in H.
    - intros H. left. split; [done|]. by eapply terminates. }
  split.
  - cbn. by rewrite Hv.
  - cbn. by rewrite Hp.
  - split; [by rewrite (decls_cons s ss), (decls_cons s ss'), Hd|]. intros E w k w'. by rewrite !Hl.
  - split; [by rewrite (decls_cons s ss), (decls_cons s ss'), Hd|]. intros E w k w'. by rewrite !Hl.
  - by rewrite (body_vars_cons _ _ s ss), (body_vars_cons _ _ s ss'), Hb.
  - intros loops' Hl'. eapply list_valid_mono; [done|]. cbn. by rewrite Hv.
Qed.

Lemma stub_fair enc loops names : fair enc loops (build_hoisted_var_decl names, build_hoisted_var_decl names).
Proof. split_and!; try done. intros e l o o' Hf Hv Hp. by apply ok_leaf. Qed.

Lemma analyze_proper s : proper s = true ->
  analyze_unreachable_stmt of_vars B s =
  match names_of of_vars (hoists B) s with
  | [] => Drop
  | names => if keeps B s then Keep else StubVar (fold_left push_unique names [])
  end.
Proof. by destruct s. Qed.

Lemma trim_dead enc loops ps : Forall (fair enc loops) ps ->
  Forall (fair enc loops) (trim of_vars B true ps) /\
  decls (map fst ps) = decls (map fst (trim of_vars B true ps)) /\
  BV (map fst ps) = BV (map fst (trim of_vars B true ps)).
Proof.
  induction 1 as [|[s s'] ps Hf _ (IH1 & IH2 & IH3)]; [split_and!; [constructor|done|done]|]. cbn [trim map fst].
  rewrite decls_cons, body_vars_cons.
  assert (Hkeep : Forall (fair enc loops) ((s, s') :: trim of_vars B true ps) /\
    decls [s] ++ decls (map fst ps) = decls (map fst ((s, s') :: trim of_vars B true ps)) /\
    BV [s] ∪ BV (map fst ps) = BV (map fst ((s, s') :: trim of_vars B true ps))).
  { split_and!; [by constructor|..]; cbn [map fst]; 
      [by rewrite (decls_cons s (map fst (trim of_vars B true ps))), <- IH2
      |by rewrite (body_vars_cons of_vars (hoists B) s (map fst (trim of_vars B true ps))), <- IH3]. }
  destruct (proper s) eqn:Hp; [rewrite (analyze_proper _ Hp)|destruct s; try done; exact Hkeep].
  pose proof (names_all of_vars (hoists B) s) as Hn. unfold names_set in Hn. rewrite (proper_decls _ Hp), proper_vars by done.
  rewrite Hn. destruct (names_of of_vars (hoists B) s) as [|x xs] eqn:Hx.
  - split_and!; [done|by rewrite <- IH2|rewrite <- IH3; set_solver].
  - destruct (keeps B s).
    + rewrite (proper_decls _ Hp), proper_vars, Hn in Hkeep by done. exact Hkeep.
    + split_and!.
      * constructor; [apply stub_fair|done].
      * cbn [map fst]. rewrite (decls_cons (build_hoisted_var_decl _)), <- IH2. done.
      * cbn [map fst]. rewrite (body_vars_cons of_vars (hoists B) (build_hoisted_var_decl _)), stub_vars, (unique_set of_vars), <- IH3. done.
Qed.

Lemma trim_pairs enc loops ps : Forall (fair enc loops) ps ->
  Forall (fair enc loops) (trim of_vars B false ps) /\
  ok_list enc loops (map fst ps) (map fst (trim of_vars B false ps)).
Proof.
  induction 1 as [|[s s'] ps Hf Hfs [IH1 IH2]]; [split; [constructor|apply okl_nil]|]. cbn [trim map fst].
  destruct Hf as (He & Hk & Hv & Hp). cbn [fst snd] in *.
  destruct (is_unconditional_terminator s) eqn:Ht.
  - destruct (trim_dead _ _ _ Hfs) as (T1 & T2 & T3). split; [constructor; [by split_and!|done]|].
    destruct (fair_firsts _ _ _ Hfs) as [F1 _]. destruct (fair_firsts _ _ _ T1) as [F2 F3].
    by apply unreachable_ok.
  - split; [constructor; [by split_and!|done]|].
    apply (okl_app of_vars (hoists B) enc loops [s] [s]); [|exact IH2]. by apply okl_one, self_ok.
Qed.

(** ** The pass *)

Definition flows (s : stmt) : Prop :=
  keeps_stmt cf s /\
  match s with SIf t c (Some a) => keeps_stmt cf (SIf t c None) /\ keeps_stmt cf a | _ => True end.

Definition flow_list (drop cut : bool) (ps : list (stmt * stmt)) : list stmt :=
  let qs := if drop then drop_terminating_else ps else ps in
  map snd (if cut then trim of_vars B false qs else qs).

Lemma flow_list_ok drop cut enc loops ps : fits enc loops [] [] -> Forall (good enc loops) ps ->
  ok_list enc loops (map fst ps) (flow_list drop cut ps).
Proof.
  intros Hf Hg. unfold flow_list.
  assert (H1 : exists qs, (if drop then drop_terminating_else ps else ps) = qs /\
    Forall (fair enc loops) qs /\ ok_list enc loops (map fst ps) (map fst qs)).
  { eexists. split; [done|]. destruct drop.
    - by apply drop_pairs.
    - assert (Hfs : Forall (fair enc loops) ps) by (eapply Forall_impl; [exact Hg|apply good_fair]).
      split; [done|]. destruct (fair_firsts _ _ _ Hfs). by apply self_list_ok. }
  destruct H1 as (qs & -> & Hq & Hok). eapply okl_trans; [exact Hok|]. destruct cut.
  - destruct (trim_pairs _ _ _ Hq) as [T1 T2]. eapply okl_trans; [exact T2|]. by apply fair_pairs.
  - by apply fair_pairs.
Qed.

Lemma cf_pairs_ok in_list enc loops ps : fits enc loops [] [] -> Forall (good enc loops) ps ->
  ok_list enc loops (map fst ps) (cf_list of_vars B in_list ps).
Proof. intros Hf Hg. by apply flow_list_ok. Qed.

Lemma flows_good enc loops b : Forall flows b -> forallb (labels_valid enc loops []) b = true -> forallb plain b = true ->
  Forall (good enc loops) (map (fun s => (s, cf s)) b).
Proof.
  intros H Hv Hp. apply forallb_Forall in Hv. apply forallb_Forall in Hp. apply Forall_map.
  induction H as [|s b [Hs1 Hs2] _ IH]; inversion Hv; inversion Hp; subst; constructor; [|auto].
  by split_and!.
Qed.

Lemma flows_list in_list b : Forall flows b -> keeps_list (fun b => cf_list of_vars B in_list (map (fun s => (s, cf s)) b)) b.
Proof.
  intros H enc loops Hf Hv Hp.
  replace b with (map fst (map (fun s => (s, cf s)) b)) at 1 by (rewrite map_map; apply map_id).
  apply cf_pairs_ok; [done|]. by apply flows_good.
Qed.

Lemma cf_layer s : cf s = layer cf (cf_stmts of_vars B)
  (fun b => cf_list of_vars B (braced B b) (map (fun s => (s, cf s)) b)) s.
Proof. by destruct s. Qed.

Lemma keeps_layer_cf s : parts flows (Forall flows) (Forall flows) s -> keeps_stmt cf s.
Proof.
  intros IH enc loops own own'. rewrite cf_layer. apply layer_ok. eapply parts_impl; [| | |exact IH].
  - intros x [Hx _] _. exact Hx.
  - intros b Hb. by apply (flows_list true).
  - intros b Hb enc' loops' Hf Hv Hp. by apply (flows_list (braced B b) b Hb).
Qed.

Lemma flows_all s : flows s.
Proof.
  revert s. apply parts_induct. intros s IH. split; [by apply keeps_layer_cf|].
  destruct s as [| | | | | |t c [a|]| | | | | | | | | | | ]; try done. destruct IH as [Hc Ha]. split.
  - apply keeps_layer_cf. by split.
  - by apply (Ha a eq_refl).
Qed.

Lemma flow_ok drop cut b : keeps_list (fun b => flow_list drop cut (map (fun s => (s, cf s)) b)) b.
Proof.
  intros enc loops Hf Hv Hp.
  replace b with (map fst (map (fun s => (s, cf s)) b)) at 1 by (rewrite map_map; apply map_id).
  apply flow_list_ok; [done|]. apply flows_good; [|done..]. apply Forall_forall. intros s _. apply flows_all.
Qed.

Lemma cf_ok b : keeps_list (cf_stmts of_vars B) b.
Proof. apply (flows_list true), Forall_forall. intros s _. apply flows_all. Qed.
End Flow.
