(** * A function body through any number of passes *)
From stdpp Require Import base decidable numbers gmap sets list.
From Verif Require Import StmtModel StmtSpec StmtProofs StmtMoreProofs MinModel MinSpec MinProofs MinPassProofs MinLayerProofs
  MinCombineProofs MinRewriteProofs MinFlowProofs.

Definition str (s : list N) : stmt := SExpr (ELit (LStr s)).

(** ** The directive prologue *)

Lemma directives_sound prologue rest :
  forallb plain rest = true -> directives (map str prologue ++ rest) = prologue.
Proof.
  intros Hp. induction prologue as [|s prologue IH]; cbn; [|by rewrite IH].
  destruct rest as [|s rest]; [done|]. cbn in Hp. apply andb_true_iff in Hp as [Hp _].
  destruct s as [|e| | | | | | | | | | | | | | | | ]; try done. destruct e as [|l| |]; try done. by destruct l.
Qed.

Section Prologue.
Context (of_vars : N -> list N).

Lemma rewrite_prologue strict prologue rest :
  rewrite_stmts of_vars strict (map str prologue ++ rest) = map str prologue ++ rewrite_stmts of_vars strict rest.
Proof.
  unfold rewrite_stmts. rewrite flat_map_app. f_equal. induction prologue as [|s p IH]; [done|]. cbn. by rewrite IH.
Qed.

Lemma clean_prologue prologue rest : clean_stmts (map str prologue ++ rest) = map str prologue ++ clean_stmts rest.
Proof.
  unfold clean_stmts. rewrite flat_map_app. f_equal. induction prologue as [|s p IH]; [done|]. cbn. by rewrite IH.
Qed.

Lemma combine_push_app t out s :
  match out with SVar _ :: _ => False | _ => True end ->
  combine_push (t ++ out) s = combine_push t s ++ out.
Proof.
  intros Ho. destruct t as [|x t]; cbn [app].
  - destruct out as [|y out]; [by destruct s|]. destruct y; try done; by destruct s.
  - destruct x as [| |ds| | | | | | | | | | | | | | | ]; try done. destruct ds; [done|].
    destruct s as [| |es| | | | | | | | | | | | | | | ]; try done. by destruct es.
Qed.

Lemma combine_fold_app ss t out :
  match out with SVar _ :: _ => False | _ => True end ->
  fold_left combine_push ss (t ++ out) = fold_left combine_push ss t ++ out.
Proof.
  intros Ho. revert t. induction ss as [|s ss IH]; intros t; [done|]. cbn [fold_left].
  rewrite combine_push_app by done. apply IH.
Qed.

Lemma combine_strs prologue out : fold_left combine_push (map str prologue) out = rev (map str prologue) ++ out.
Proof.
  revert out. induction prologue as [|s p IH]; intros out; [done|]. cbn [map fold_left rev].
  replace (combine_push out (str s)) with (str s :: out).
  - rewrite IH, <- app_assoc. done.
  - destruct out as [|x out]; [done|]. destruct x as [| |ds| | | | | | | | | | | | | | | ]; try done. by destruct ds.
Qed.

Lemma combine_prologue prologue rest : combine_stmts (map str prologue ++ rest) = map str prologue ++ combine_stmts rest.
Proof.
  unfold combine_stmts, combine_list. rewrite map_app, fold_left_app.
  replace (map combine_stmt (map str prologue)) with (map str prologue) by (by rewrite map_map).
  rewrite combine_strs, app_nil_r. rewrite <- (app_nil_l (rev (map str prologue))), combine_fold_app.
  - by rewrite rev_app_distr, rev_involutive.
  - rewrite <- map_rev. by destruct (rev prologue).
Qed.

Lemma drop_prologue prologue ps :
  drop_terminating_else (map (fun s => (str s, str s)) prologue ++ ps) =
  map (fun s => (str s, str s)) prologue ++ drop_terminating_else ps.
Proof.
  unfold drop_terminating_else. rewrite flat_map_app. f_equal. induction prologue as [|s p IH]; [done|]. cbn. by rewrite IH.
Qed.

Lemma trim_prologue B prologue ps :
  trim of_vars B false (map (fun s => (str s, str s)) prologue ++ ps) =
  map (fun s => (str s, str s)) prologue ++ trim of_vars B false ps.
Proof. induction prologue as [|s p IH]; [done|]. cbn. by rewrite IH. Qed.

Lemma cf_prologue B prologue rest : exists drop cut,
  cf_stmts of_vars B (map str prologue ++ rest) =
  map str prologue ++ flow_list of_vars B drop cut (map (fun s => (s, cf_stmt of_vars B s)) rest).
Proof.
  unfold cf_stmts, cf_list, flow_list. set (off := disabled B _).
  exists (negb off && true), (negb off && negb (global B)).
  rewrite map_app, map_map. cbn [cf_stmt str]. destruct (negb off && true).
  - rewrite drop_prologue. destruct (negb off && negb (global B)); [rewrite trim_prologue|];
      rewrite map_app, map_map; done.
  - destruct (negb off && negb (global B)); [rewrite trim_prologue|]; rewrite map_app, map_map; done.
Qed.
End Prologue.

Lemma var_names_ext of_vars h h' s : (forall n, h n = h' n) -> var_names of_vars h s = var_names of_vars h' s.
Proof. intros H. rewrite !names_all. unfold names_set, names_of. by rewrite (List.filter_ext h h'). Qed.

Lemma body_vars_ext of_vars h h' ss : (forall n, h n = h' n) -> body_vars of_vars h ss = body_vars of_vars h' ss.
Proof.
  intros H. unfold body_vars. f_equal. apply map_ext. intros s. destruct s; try done; by apply var_names_ext.
Qed.

Section Run.
Context {M : machine} (HM : lawful M) (of_vars : N -> list N) (hoists : N -> bool).

(** Nothing a call depends on changes. *)
Definition alike (body body' : list stmt) : Prop :=
  directives body = directives body' /\ body_vars of_vars hoists body = body_vars of_vars hoists body' /\
  limp (M := M) body body' /\ limp (M := M) body' body.

Lemma alike_refl body : alike body body.
Proof. done. Qed.

Lemma alike_trans a b c : alike a b -> alike b c -> alike a c.
Proof.
  intros (D & V & T & B) (D' & V' & T' & B'). split_and!; [congruence|congruence|by eapply limp_trans|by eapply limp_trans].
Qed.

Lemma prologue_alike h prologue rest rest' :
  (forall n, h n = hoists n) -> forallb plain rest = true -> ok_list (M := M) of_vars h [] [] rest rest' ->
  alike (map str prologue ++ rest) (map str prologue ++ rest') /\ sound_body (map str prologue ++ rest').
Proof.
  intros Hh Hp H. pose proof (okl_vars _ _ _ _ _ _ H) as Hv. rewrite !(body_vars_ext _ _ _ _ Hh) in Hv.
  destruct H as [_ Hp' T B _ Hl]. split.
  - split_and!.
    + by rewrite !directives_sound.
    + by rewrite !body_vars_app, Hv.
    + by apply limp_app.
    + by apply limp_app.
  - exists prologue, rest'. split_and!; [done|done|]. by apply Hl.
Qed.

Lemma fits_nil : fits [] [] [] [].
Proof. split_and!; [done|done|done|set_solver]. Qed.

Lemma pass_alike p body : informed hoists p -> sound_body body ->
  alike body (run_pass of_vars body p) /\ sound_body (run_pass of_vars body p).
Proof using HM.
  intros Hi (prologue & rest & -> & Hp & Hl). change (fun s => SExpr (ELit (LStr s))) with str.
  destruct p as [strict|B| |]; cbn [run_pass].
  - rewrite rewrite_prologue. apply (prologue_alike hoists); [done|done|].
    by apply (rewrite_ok of_vars hoists HM strict Hi rest [] [] fits_nil).
  - destruct (cf_prologue of_vars B prologue rest) as (drop & cut & ->).
    apply (prologue_alike (MinModel.hoists B)); [done|done|].
    by apply (flow_ok HM of_vars B drop cut rest [] [] fits_nil).
  - rewrite clean_prologue. apply (prologue_alike hoists); [done|done|].
    by apply (clean_ok HM of_vars hoists rest [] [] fits_nil).
  - rewrite combine_prologue. apply (prologue_alike hoists); [done|done|].
    by apply (combine_ok HM of_vars hoists rest [] [] fits_nil).
Qed.

Lemma passes_alike passes body : Forall (informed hoists) passes -> sound_body body ->
  alike body (run_passes of_vars passes body) /\ sound_body (run_passes of_vars passes body).
Proof using HM.
  intros H. revert body. induction H as [|p passes Hi _ IH]; intros body Hs; [done|].
  unfold run_passes. cbn [fold_left]. destruct (pass_alike _ _ Hi Hs) as [Ha Hs'].
  destruct (IH _ Hs') as [Ha' Hs'']. split; [by eapply alike_trans|done].
Qed.

Lemma limp_call a b E w r w' : limp (M := M) a b -> call_gives M E a w r w' -> call_gives M E b w r w'.
Proof.
  intros [_ H] (c & Hc & Hr). destruct (H E w (erase c) w') as (c' & Hc' & He); [by exists c|].
  exists c'. split; [done|]. destruct c, c'; cbn in He; by simplify_eq.
Qed.

Lemma alike_call a b setup w r w' :
  alike a b ->
  function_call of_vars hoists M setup a w r w' <->
  function_call of_vars hoists M setup b w r w'.
Proof.
  intros (D & V & T & B). unfold function_call. rewrite <- D, <- V, <- (proj1 T).
  destruct (setup _ _ _ w) as [E w1]. split; by apply limp_call.
Qed.
End Run.
