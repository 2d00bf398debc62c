(** * Removing branches and unreachable statements: stmt_rewrite.rs and cf_rewrite.rs *)
From stdpp Require Import base decidable numbers gmap sets list.
From Coq Require Import ZifyBool.
From Verif Require Import StmtModel StmtSpec StmtProofs StmtMoreProofs MinModel MinSpec MinProofs MinPassProofs MinLayerProofs
  MinCombineProofs.

(** ** Labels *)

Lemma forallb_impl {A} (f g : A -> bool) (l : list A) :
  Forall (fun x => f x = true -> g x = true) l -> forallb f l = true -> forallb g l = true.
Proof. intros H Hf. apply forallb_Forall. eapply both_Forall; [exact H|exact Hf|]. auto. Qed.

Lemma valid_mono s : forall enc loops loops' own own',
  loops ⊆ loops' -> own ⊆ own' -> labels_valid enc loops own s = true -> labels_valid enc loops' own' s = true.
Proof.
  induction s as [ | | | | |body IH|t c a IHc IHa| | |body h f IH IHh IHf|t s IHs|s t IHs|i t p body IH|b e body IH
                 |e a d IHa IHd|l s IHs| |l] using stmt_induct; intros enc loops loops' own own' Hl Ho Hv;
    cbn in Hv |- *; try done.
  - eapply forallb_impl; [|exact Hv]. eapply Forall_impl; [exact IH|]. cbn. eauto.
  - apply andb_true_iff in Hv as [Hc Ha]. apply andb_true_iff. split; [eauto|]. destruct a; [|done]. eauto.
  - apply andb_true_iff in Hv as [Hv Hf]. apply andb_true_iff in Hv as [Hb Hh].
    apply andb_true_iff; split; [apply andb_true_iff; split|].
    + eapply forallb_impl; [|exact Hb]. eapply Forall_impl; [exact IH|]. cbn. eauto.
    + destruct h as [[p b]|]; [|done]. eapply forallb_impl; [|exact Hh]. eapply Forall_impl; [by eapply IHh|]. cbn. eauto.
    + destruct f as [b|]; [|done]. eapply forallb_impl; [|exact Hf]. eapply Forall_impl; [by eapply IHf|]. cbn. eauto.
  - eapply IHs; [| |exact Hv]; [set_solver|done].
  - eapply IHs; [| |exact Hv]; [set_solver|done].
  - eapply forallb_impl; [|exact Hv]. eapply Forall_impl; [exact IH|]. cbn. intros x Hx. apply Hx; [set_solver|done].
  - eapply forallb_impl; [|exact Hv]. eapply Forall_impl; [exact IH|]. cbn. intros x Hx. apply Hx; [set_solver|done].
  - assert (Hcases : forall a : list (expr * list stmt), Forall (fun b => Forall (fun s => forall enc loops loops' own own',
        loops ⊆ loops' -> own ⊆ own' -> labels_valid enc loops own s = true -> labels_valid enc loops' own' s = true) (snd b)) a ->
        forallb (fun b => forallb (labels_valid enc loops []) (snd b)) a = true ->
        forallb (fun b => forallb (labels_valid enc loops' []) (snd b)) a = true).
    { intros x Hx. apply forallb_impl. eapply Forall_impl; [exact Hx|]. cbn. intros y Hy.
      apply forallb_impl. eapply Forall_impl; [exact Hy|]. cbn. eauto. }
    apply andb_true_iff in Hv as [Ha Hd]. apply andb_true_iff. split; [by apply Hcases|].
    destruct d as [[s b]|]; [|done]. destruct (IHd _ _ eq_refl) as [Is Ib]. apply andb_true_iff in Hd as [Hs Hb].
    apply andb_true_iff. split; [|by apply Hcases]. eapply forallb_impl; [|exact Hs].
    eapply Forall_impl; [exact Is|]. cbn. eauto.
  - apply andb_true_iff in Hv as [? Hv]. apply andb_true_iff. split; [done|]. eapply IHs; [| |exact Hv]; set_solver.
  - destruct l as [l|]; [|done]. apply bool_decide_eq_true in Hv. apply bool_decide_eq_true. auto.
Qed.

Lemma list_valid_mono ss enc loops loops' :
  loops ⊆ loops' -> forallb (labels_valid enc loops []) ss = true -> forallb (labels_valid enc loops' []) ss = true.
Proof. intros Hl. apply forallb_impl, Forall_forall. intros s _. by apply valid_mono. Qed.

Section Rewrites.
Context (of_vars : N -> list N).

(** ** Names *)

Lemma push_unique_set (names out : list N) :
  (list_to_set (fold_left push_unique names out) : gset N) = list_to_set out ∪ list_to_set names.
Proof.
  revert out. induction names as [|x names IH]; intros out; cbn [fold_left]; [set_solver|].
  rewrite IH. unfold push_unique. destruct (existsb (N.eqb x) out) eqn:Hx.
  - apply existsb_exists in Hx as (y & Hy & Hxy). apply N.eqb_eq in Hxy as <-. apply elem_of_list_In in Hy. set_solver.
  - rewrite list_to_set_app_L. set_solver.
Qed.

Lemma unique_set (names : list N) : (list_to_set (fold_left push_unique names []) : gset N) = list_to_set names.
Proof. rewrite push_unique_set. set_solver. Qed.

Lemma unique_nil (names : list N) : fold_left push_unique names [] = [] <-> names = [].
Proof.
  split; [|by intros ->]. intros H. pose proof (unique_set names) as Hs. rewrite H in Hs.
  destruct names as [|x names]; [done|]. exfalso. assert (Hx : x ∈ (list_to_set (x :: names) : gset N)) by set_solver.
  rewrite <- Hs in Hx. set_solver.
Qed.

Section Names.
Context (hoists : N -> bool).
Notation VN := (var_names of_vars hoists).

Definition names_of (s : stmt) : list N := collect_var_names of_vars s ++ List.filter hoists (functions s).
Definition names_set (s : stmt) : gset N := list_to_set (names_of s).

Lemma filter_app' (l l' : list N) : List.filter hoists (l ++ l') = List.filter hoists l ++ List.filter hoists l'.
Proof. apply List.filter_app. Qed.

Lemma names_list ss : Forall (fun s => VN s = names_set s) ss ->
  ⋃ (map VN ss) = (list_to_set (flat_map (collect_var_names of_vars) ss ++ List.filter hoists (flat_map functions ss)) : gset N).
Proof.
  induction 1 as [|s ss H _ IH]; [set_solver|]. cbn [map union_list flat_map foldr].
  change (foldr union ∅ (map VN ss)) with (⋃ (map VN ss)). rewrite IH, H. unfold names_set, names_of.
  rewrite filter_app', !list_to_set_app_L. set_solver.
Qed.

Lemma names_cases (a : list (expr * list stmt)) : Forall (fun b => Forall (fun s => VN s = names_set s) (snd b)) a ->
  ⋃ (map (fun b => ⋃ (map VN (snd b))) a) =
  (list_to_set (flat_map (fun b => flat_map (collect_var_names of_vars) (snd b)) a ++
                List.filter hoists (flat_map (fun b => flat_map functions (snd b)) a)) : gset N).
Proof.
  induction 1 as [|b a H _ IH]; [set_solver|]. cbn [map union_list flat_map foldr].
  change (foldr union ∅ (map (fun b => ⋃ (map VN (snd b))) a)) with (⋃ (map (fun b => ⋃ (map VN (snd b))) a)).
  rewrite IH, (names_list _ H), filter_app', !list_to_set_app_L. set_solver.
Qed.

Lemma names_all s : VN s = names_set s.
Proof.
  induction s as [ | | |n|n|body IH|t c a IHc IHa| | |body h f IH IHh IHf|t s IHs|s t IHs|i t p body IH|b e body IH
                 |e a d IHa IHd|l s IHs| |l] using stmt_induct; unfold names_set, names_of; cbn; try (set_solver; fail);
    try done.
  - destruct (hoists n); set_solver.
  - by apply names_list.
  - rewrite IHc, filter_app', !list_to_set_app_L. unfold names_set, names_of. rewrite list_to_set_app_L.
    destruct a as [a|]; [|set_solver]. rewrite (IHa _ eq_refl). unfold names_set, names_of. rewrite list_to_set_app_L. set_solver.
  - rewrite (names_list _ IH), !filter_app', !list_to_set_app_L. destruct h as [[p b]|].
    + rewrite (names_list b), !list_to_set_app_L by (by eapply IHh). destruct f as [b'|].
      * rewrite (names_list b'), !list_to_set_app_L by (by eapply IHf). set_solver.
      * set_solver.
    + destruct f as [b'|].
      * rewrite (names_list b'), !list_to_set_app_L by (by eapply IHf). set_solver.
      * set_solver.
  - rewrite (names_list _ IH), !list_to_set_app_L. destruct i; set_solver.
  - rewrite (names_list _ IH), !list_to_set_app_L. set_solver.
  - rewrite (names_cases _ IHa), !filter_app', !list_to_set_app_L. destruct d as [[s b]|]; [|set_solver].
    destruct (IHd _ _ eq_refl) as [Is Ib].
    rewrite (names_list _ Is), (names_cases _ Ib), !filter_app', !list_to_set_app_L. set_solver.
Qed.
End Names.

Lemma no_functions s : contains_function_decl s = false -> functions s = [].
Proof.
  assert (Hl : forall ss, Forall (fun s => contains_function_decl s = false -> functions s = []) ss ->
    existsb contains_function_decl ss = false -> flat_map functions ss = []).
  { induction 1 as [|x ss H _ IH]; [done|]. cbn. intros [H1 H2]%orb_false_iff. by rewrite H, IH. }
  assert (Hc : forall a : list (expr * list stmt),
    Forall (fun b => Forall (fun s => contains_function_decl s = false -> functions s = []) (snd b)) a ->
    existsb (fun b => existsb contains_function_decl (snd b)) a = false -> flat_map (fun b => flat_map functions (snd b)) a = []).
  { induction 1 as [|b a H _ IH]; [done|]. cbn. intros [H1 H2]%orb_false_iff. by rewrite Hl, IH. }
  induction s as [ | | |n|n|body IH|t c a IHc IHa| | |body h f IH IHh IHf|t s IHs|s t IHs|i t p body IH|b e body IH
                 |e a d IHa IHd|l s IHs| |l] using stmt_induct; cbn; intros H; try done; auto.
  - apply orb_false_iff in H as [H1 H2]. rewrite IHc by done. destruct a; [|done]. by rewrite (IHa _ eq_refl).
  - apply orb_false_iff in H as [H H3]. apply orb_false_iff in H as [H1 H2]. rewrite (Hl _ IH H1).
    destruct h as [[p b]|]; [rewrite (Hl b) by (try done; by eapply IHh)|];
      (destruct f as [b'|]; [rewrite (Hl b') by (try done; by eapply IHf)|]); done.
  - apply orb_false_iff in H as [H1 H2]. rewrite (Hc _ IHa H1). destruct d as [[s b]|]; [|done].
    destruct (IHd _ _ eq_refl) as [Is Ib]. apply orb_false_iff in H2 as [H2 H3]. by rewrite (Hl _ Is H2), (Hc _ Ib H3).
Qed.

Context (hoists : N -> bool).
Notation VN := (var_names of_vars hoists).
Notation BV := (body_vars of_vars hoists).
Lemma proper_vars s : proper s = true -> BV [s] = VN s.
Proof. intros Hp. unfold body_vars. destruct s; try done; cbn; set_solver. Qed.

Lemma proper_decls s : proper s = true -> decls [s] = [].
Proof. by destruct s. Qed.

Lemma stub_vars names : BV [build_hoisted_var_decl names] = list_to_set names.
Proof.
  unfold body_vars, build_hoisted_var_decl. cbn. rewrite map_map. cbn. rewrite map_id. set_solver.
Qed.

Context {M : machine} (HM : lawful M).
Notation ok := (ok (M := M) of_vars hoists).
Notation ok_list := (ok_list (M := M) of_vars hoists).
Notation keeps_stmt := (keeps_stmt (M := M) of_vars hoists).
Notation keeps_list := (keeps_list (M := M) of_vars hoists).

Lemma stub_does E ls names w k w' :
  does (M := M) E ls (build_hoisted_var_decl names) w k w' <-> k = CNormal None /\ w' = w.
Proof.
  unfold build_hoisted_var_decl. rewrite does_var. split.
  - intros (t & H & ->). induction names as [|x names IH]; cbn in H; inversion H; subst; auto.
  - intros [-> ->]. exists None. split; [|done]. induction names; by constructor.
Qed.

(** ** A constant test *)

Lemma const_lit t b : const_truthiness t = Some b -> exists l, t = ELit l /\ literal_truth l = b.
Proof.
  destruct t as [|l| |]; try done. destruct l; cbn [const_truthiness]; intros H; apply (inj Some) in H; subst b;
    eexists; (split; [done|]); cbn [literal_truth]; try done.
  - destruct (bits `mod` 2 ^ 63 =? 0)%N eqn:H1; destruct (2047 * 2 ^ 52 <? bits `mod` 2 ^ 63)%N eqn:H2; cbn [negb andb orb].
    + apply N.eqb_eq in H1. by rewrite (bool_decide_eq_true_2 _ H1).
    + apply N.eqb_eq in H1. by rewrite (bool_decide_eq_true_2 _ H1).
    + apply N.ltb_lt in H2. rewrite (bool_decide_eq_true_2 _ H2). by rewrite orb_true_r.
    + apply N.eqb_neq in H1. apply N.ltb_ge, N.le_ngt in H2. by rewrite (bool_decide_eq_false_2 _ H1), (bool_decide_eq_false_2 _ H2).
  - by destruct s.
  - destruct (n =? 0)%N eqn:H1; cbn; [apply N.eqb_eq in H1|apply N.eqb_neq in H1];
      [by rewrite bool_decide_eq_true_2|by rewrite bool_decide_eq_false_2].
Qed.

Lemma does_const E ls t c a b w k w' :
  const_truthiness t = Some b ->
  (does (M := M) E ls (SIf t c a) w k w' <->
   if b then does E [] c w k w' else match a with Some s => does E [] s w k w' | None => k = CNormal None /\ w' = w end).
Proof using HM.
  intros Ht. destruct (const_lit _ _ Ht) as (l & -> & Hb). rewrite does_if.
  destruct (proj1 HM l w) as (v & Hv & Hbool). rewrite Hb in Hbool. split.
  - intros (r & w1 & Hr & H). inversion Hr; subst. rewrite Hv in *. simplify_eq. by rewrite Hbool in H.
  - intros H. exists (RVal v), w. split; [by constructor|]. by rewrite Hbool.
Qed.

(** The branch that is taken stands for the statement. *)
Lemma const_live enc loops own own' t c a (b : bool) x x' (dead : gset N) :
  const_truthiness t = Some b -> labels_valid enc loops own (SIf t c a) = true ->
  (if b then Some c else a) = Some x -> ok enc loops [] own' x x' -> proper x = true ->
  VN (SIf t c a) = dead ∪ VN x -> dead = ∅ ->
  ok enc loops own own' (SIf t c a) x'.
Proof using HM.
  intros Ht Hv Hx Hok Hp Hn ->. pose proof (ok_proper _ _ _ _ _ _ _ _ Hok) as Hp'. rewrite Hp in Hp'.
  pose proof (ok_names _ _ _ _ _ _ _ _ Hok) as Hnx.
  assert (Hd : forall E w k w', does (M := M) E own (SIf t c a) w k w' <-> does E [] x w k w').
  { intros E w k w'. rewrite (does_const _ _ _ _ _ _ _ _ _ Ht). destruct b, a; by simplify_eq. }
  destruct Hok as [? ? T B ? ? ?]. split; try done.
  - intros E w k w' H. by apply T, Hd.
  - intros E w k w' H. by apply Hd, B.
  - by rewrite proper_decls, (proper_decls x').
  - rewrite !proper_vars by done. rewrite Hn, <- Hnx. set_solver.
Qed.

(** Nothing is left but the names of the branch that is not taken. *)
Lemma const_gone enc loops own own' t c names :
  const_truthiness t = Some false -> labels_valid enc loops own (SIf t c None) = true ->
  VN c = list_to_set names -> ok enc loops own own' (SIf t c None) (build_hoisted_var_decl names).
Proof using HM.
  intros Ht Hv Hn. split; try done.
  - intros E w k w'. by rewrite (does_const _ _ _ _ _ _ _ _ _ Ht), stub_does.
  - intros E w k w'. by rewrite (does_const _ _ _ _ _ _ _ _ _ Ht), stub_does.
  - rewrite stub_vars, proper_vars, <- Hn by done. cbn. set_solver.
Qed.

Lemma const_both enc loops t c a (b : bool) x x' d names :
  const_truthiness t = Some b -> labels_valid enc loops [] (SIf t c a) = true ->
  (if b then Some c else a) = Some x -> ok enc loops [] [] x x' -> proper x = true ->
  VN (SIf t c a) = VN d ∪ VN x -> VN d = list_to_set names ->
  ok_list enc loops [SIf t c a] [build_hoisted_var_decl names; x'].
Proof using HM.
  intros Ht Hv Hx Hok Hp Hn Hd. pose proof (ok_proper _ _ _ _ _ _ _ _ Hok) as Hp'. rewrite Hp in Hp'.
  pose proof (ok_names _ _ _ _ _ _ _ _ Hok) as Hnx.
  assert (Hl : forall E w k w', lists (M := M) E [SIf t c a] w k w' <-> does E [] x w k w').
  { intros E w k w'. rewrite lists_one, (does_const _ _ _ _ _ _ _ _ _ Ht). destruct b, a; by simplify_eq. }
  assert (Hr : forall E w k w', lists (M := M) E [build_hoisted_var_decl names; x'] w k w' <-> does E [] x' w k w').
  { intros E w k w'. rewrite lists_cons. setoid_rewrite stub_does. setoid_rewrite lists_one. split.
    - intros [[[-> _] ?]|(w1 & [_ ->] & H)]; done.
    - intros H. right. by exists w. }
  destruct Hok as [? ? T B Hde ? ?]. split.
  - cbn [forallb]. by rewrite Hv.
  - cbn. by rewrite andb_true_r.
  - split; [rewrite decls_cons, (decls_cons (build_hoisted_var_decl names)), <- Hde, (proper_decls x) by done; done|].
    intros E w k w'. rewrite Hl, Hr. apply T.
  - split; [rewrite decls_cons, (decls_cons (build_hoisted_var_decl names)), <- Hde, (proper_decls x) by done; done|].
    intros E w k w'. rewrite Hl, Hr. apply B.
  - rewrite (body_vars_cons of_vars hoists (build_hoisted_var_decl names)), stub_vars.
    rewrite !proper_vars by done. by rewrite Hn, Hd, Hnx.
  - intros loops' Hl'. cbn. rewrite andb_true_r. auto.
Qed.

(** ** Branches that are expressions *)

Lemma stmt_to_expr_facts s e : stmt_to_expr s = Some e -> plain s = true ->
  (forall E ls ls' w k w', does (M := M) E ls s w k w' <-> does E ls' (SExpr e) w k w') /\
  VN s = ∅ /\ proper s = true /\ plain (SExpr e) = true.
Proof using HM.
  revert e. induction s as [ |e0| | | |body IH| | | | | | | | | | | | ] using stmt_induct; intros x He Hp; try done.
  - cbn in He. simplify_eq. split_and!; try done. intros. by rewrite !does_expr.
  - destruct body as [|s [|]]; try done. inversion IH as [|? ? Hs _]; subst. cbn in He, Hp.
    rewrite andb_true_r in Hp. destruct (Hs _ He Hp) as (Hd & Hv & Hpr & Hpl). split_and!; try done.
    + intros E ls ls' w k w'. rewrite does_block, (blocks_plain HM) by (by apply proper_decls).
      rewrite lists_one. apply Hd.
    + cbn. rewrite Hv. set_solver.
Qed.

Lemma to_expr_ok enc loops own own' s e :
  stmt_to_expr s = Some e -> plain s = true -> labels_valid enc loops own s = true -> ok enc loops own own' s (SExpr e).
Proof using HM.
  intros H Hp Hv. destruct (stmt_to_expr_facts _ _ H Hp) as (Hd & Hn & Hpr & Hpl). split; try done.
  - intros E w k w'. apply Hd.
  - intros E w k w'. apply Hd.
  - by rewrite proper_decls.
  - rewrite !proper_vars by done. by rewrite Hn.
Qed.

Lemma cond_ok enc loops own own' t ce ae : ok enc loops own own' (SIf t (SExpr ce) (Some (SExpr ae))) (SExpr (ECond t ce ae)).
Proof.
  assert (Hd : forall E w k w', does (M := M) E own (SIf t (SExpr ce) (Some (SExpr ae))) w k w' <->
                               does E own' (SExpr (ECond t ce ae)) w k w').
  { intros E w k w'. rewrite does_if, does_expr. split.
    - intros ([v|x|] & w1 & Ht & H); [|destruct H as [-> ->]|done].
      + destruct (to_boolean M v w1) eqn:Hb; apply does_expr in H as (r & H & Hk); exists r; (split; [|done]);
          (eapply ev_cond; [exact Ht|]; by rewrite Hb).
      + exists (RThrow x). split; [by apply ev_cond_throw|done].
    - intros (r & H & Hk). inversion H; subst.
      + exists (RThrow x), w'. done.
      + exists (RVal v), w1. split; [done|]. destruct (to_boolean M v w1); apply does_expr; by exists r. }
  split; try done.
  - intros E w k w' H. by apply Hd.
  - intros E w k w' H. by apply Hd.
  - unfold body_vars. cbn. set_solver.
Qed.

Lemma and_ok enc loops own own' t ce : ok enc loops own own' (SIf t (SExpr ce) None) (SExpr (EAnd t ce)).
Proof.
  assert (Hd : forall E w k w', does (M := M) E own (SIf t (SExpr ce) None) w k w' <->
                               does E own' (SExpr (EAnd t ce)) w k w').
  { intros E w k w'. rewrite does_if, does_expr. split.
    - intros ([v|x|] & w1 & Ht & H); [|destruct H as [-> ->]|done].
      + destruct (to_boolean M v w1) eqn:Hb.
        * apply does_expr in H as (r & H & Hk). exists r. split; [|done]. by eapply ev_and_true.
        * destruct H as [-> ->]. exists (RVal v). split; [|done]. by apply ev_and_false.
      + exists (RThrow x). split; [by apply ev_and_throw|done].
    - intros (r & H & Hk). inversion H; subst.
      + exists (RThrow x), w'. done.
      + exists (RVal v), w'. split; [done|]. match goal with Hb : to_boolean _ _ _ = _ |- _ => by rewrite Hb end.
      + exists (RVal v), w1. split; [done|]. match goal with Hb : to_boolean _ _ _ = _ |- _ => rewrite Hb end.
        apply does_expr. by exists r. }
  split; try done.
  - intros E w k w' H. by apply Hd.
  - intros E w k w' H. by apply Hd.
  - unfold body_vars. cbn. set_solver.
Qed.

(** ** stmt_rewrite.rs *)
Context (strict : bool) (Hstrict : strict = true -> forall n, hoists n = false).
Notation rw := (rewrite_stmt of_vars strict).

Lemma functions_unhoisted l : strict = true -> List.filter hoists l = [].
Proof using HM Hstrict. intros Hs. induction l; [done|]. cbn. by rewrite Hstrict. Qed.

Lemma dead_names d :
  negb strict && contains_function_decl d = false -> VN d = list_to_set (collect_var_names of_vars d).
Proof using HM Hstrict.
  intros H. rewrite names_all. unfold names_set, names_of. apply andb_false_iff in H as [H|H].
  - apply negb_false_iff in H. by rewrite functions_unhoisted, app_nil_r.
  - by rewrite (no_functions _ H), app_nil_r.
Qed.

Definition rewrites (s : stmt) : Prop :=
  keeps_stmt (fun s => single (rw false s)) s /\
  forall enc loops, fits enc loops [] [] -> labels_valid enc loops [] s = true -> plain s = true ->
    ok_list enc loops [s] (rw true s).

Lemma rewrites_list b : Forall rewrites b -> keeps_list (flat_map (rw true)) b.
Proof. intros H. apply keeps_flat_map. eapply Forall_impl; [exact H|]. intros s [_ Hs]. exact Hs. Qed.

Lemma rewrite_if_ok enc loops own own' in_list t c a :
  fits enc loops own own' -> labels_valid enc loops own (SIf t c a) = true -> plain (SIf t c a) = true ->
  keeps_stmt (fun s => single (rw false s)) c -> (forall x, a = Some x -> keeps_stmt (fun s => single (rw false s)) x) ->
  (in_list = false -> ok enc loops own own' (SIf t c a)
     (single (rewrite_if of_vars strict in_list t (single (rw false c)) (option_map (fun a => single (rw false a)) a)))) /\
  (in_list = true -> own = [] -> own' = [] -> ok_list enc loops [SIf t c a]
     (rewrite_if of_vars strict in_list t (single (rw false c)) (option_map (fun a => single (rw false a)) a))).
Proof using HM Hstrict.
  intros Hf Hv Hp Hc Ha. set (c' := single (rw false c)). set (a' := option_map (fun a => single (rw false a)) a).
  pose proof Hv as Hv0. pose proof Hp as Hp0. cbn in Hv, Hp.
  apply andb_true_iff in Hv as [Hvc Hva]. apply andb_true_iff in Hp as [Hpc Hpa]. apply andb_true_iff in Hpc as [Hpc Hpc'].
  assert (Hcc : forall ls', ls' ⊆ own' -> ok enc loops [] ls' c c').
  { intros ls' Hls. apply Hc; [|done|done]. destruct Hf as (_ & ? & ? & ?). split_and!; [set_solver|set_solver|done|set_solver]. }
  assert (Haa : forall x ls', a = Some x -> ls' ⊆ own' -> proper x = true /\ ok enc loops [] ls' x (single (rw false x))).
  { intros x ls' -> Hls. apply andb_true_iff in Hpa as [? ?]. split; [done|]. apply (Ha x eq_refl); [|done|done].
    destruct Hf as (_ & ? & ? & ?). split_and!; [set_solver|set_solver|done|set_solver]. }
  assert (Hwhole : ok enc loops own own' (SIf t c a) (SIf t c' a')).
  { apply ok_if; [apply Hcc; set_solver|done|]. unfold a'. destruct a as [a|]; [|done]. cbn.
    destruct (Haa a [] eq_refl) as [? ?]; [set_solver|]. by split. }
  (* a result of one statement settles both *)
  assert (Hone : forall s', ok enc loops own own' (SIf t c a) s' ->
    (in_list = false -> ok enc loops own own' (SIf t c a) (single [s'])) /\
    (in_list = true -> own = [] -> own' = [] -> ok_list enc loops [SIf t c a] [s'])).
  { intros s' H. split; [done|]. intros _ -> ->. by apply okl_one. }
  assert (Hdeclsp : decls [SIf t c a] = []) by done.
  unfold rewrite_if. destruct (const_truthiness t) as [b|] eqn:Ht.
  - set (dead := if b then a' else Some c'). set (live := if b then Some c' else a').
    destruct (negb strict && _) eqn:Hfun; [by apply Hone|].
    set (hoisted := match dead with Some d => fold_left push_unique (collect_var_names of_vars d) [] | None => [] end).
    set (dead0 := if b then a else Some c). set (live0 := if b then Some c else a).
    assert (Hdn : (match dead0 with Some d => VN d | None => ∅ end) = (list_to_set hoisted : gset N)).
    { unfold hoisted, dead, dead0 in *. destruct b.
      - unfold a' in *. destruct a as [a|]; [|done]. cbn in *. destruct (Haa a [] eq_refl) as [_ Hx]; [set_solver|].
        rewrite unique_set, (ok_names _ _ _ _ _ _ _ _ Hx). by apply dead_names.
      - rewrite unique_set. pose proof (Hcc [] ltac:(set_solver)) as Hx. rewrite (ok_names _ _ _ _ _ _ _ _ Hx). by apply dead_names. }
    assert (Hall : VN (SIf t c a) = (match dead0 with Some d => VN d | None => ∅ end) ∪
                                    (match live0 with Some d => VN d | None => ∅ end)).
    { unfold dead0, live0. cbn. destruct b, a; set_solver. }
    assert (Hlive : forall ls', ls' ⊆ own' ->
      match live0, live with Some x, Some x' => proper x = true /\ ok enc loops [] ls' x x' | None, None => True | _, _ => False end).
    { intros ls' Hls. unfold live0, live. destruct b; [split; [done|by apply Hcc]|].
      unfold a'. destruct a as [a|]; [|done]. cbn. by apply Haa. }
    destruct live as [x'|] eqn:El, live0 as [x|] eqn:El0; try (by specialize (Hlive [] ltac:(set_solver))).
    + destruct hoisted as [|h hs] eqn:Eh.
      * apply Hone. destruct (Hlive own' ltac:(done)) as [? ?].
        by eapply (const_live _ _ _ _ _ _ _ b x x' _ Ht Hv0 El0).
      * destruct in_list; [|by apply Hone]. split; [done|]. intros _ -> ->.
        destruct (Hlive [] ltac:(done)) as [? ?].
        assert (exists d, dead0 = Some d) as [d Ed].
        { destruct dead0 as [d|] eqn:Ed; [by exists d|]. exfalso.
          assert (Hh : h ∈ (list_to_set (h :: hs) : gset N)) by set_solver. rewrite <- Hdn in Hh. set_solver. }
        rewrite Ed in *. by eapply (const_both _ _ _ _ _ b x x' d).
    + assert (b = false /\ a = None) as [-> ->] by (unfold live0 in El0; by destruct b).
      assert (Hg : ok enc loops own own' (SIf t c None) (build_hoisted_var_decl hoisted)) by (by apply const_gone).
      destruct hoisted as [|h hs] eqn:Eh; [|by apply Hone]. split.
      * intros _. cbn. eapply ok_trans; [exact Hg|]. by apply idle_ok.
      * intros _ -> ->. eapply okl_trans; [by apply okl_one|]. by apply idle_gone.
  - clear Ht. unfold a' in *. destruct a as [a|]; cbn [option_map] in *.
    + destruct (Haa a [] eq_refl) as [Hpra Hoka]; [set_solver|]. set (a1 := single (rw false a)) in *.
      pose proof (Hcc [] ltac:(set_solver)) as Hokc.
      assert (Hce : forall ce, stmt_to_expr c' = Some ce -> ok enc loops [] [] c (SExpr ce)).
      { intros ce Hce. eapply ok_trans; [exact Hokc|]. apply to_expr_ok; [done|apply Hokc|by apply Hokc]. }
      assert (Hae : forall ae, stmt_to_expr a1 = Some ae -> ok enc loops [] [] a (SExpr ae)).
      { intros ae Hae. eapply ok_trans; [exact Hoka|]. apply to_expr_ok; [done|apply Hoka|by apply Hoka]. }
      destruct (stmt_to_expr c') as [ce|], (stmt_to_expr a1) as [ae|]; apply Hone.
      * eapply ok_trans; [apply (ok_if of_vars hoists enc loops own own' t c (SExpr ce) (Some a) (Some (SExpr ae)))|apply cond_ok]; auto.
      * apply ok_if; auto.
      * apply ok_if; auto.
      * done.
    + pose proof (Hcc [] ltac:(set_solver)) as Hokc.
      destruct (stmt_to_expr c') as [ce|] eqn:Hce; apply Hone; [|done].
      eapply ok_trans; [apply (ok_if of_vars hoists enc loops own own' t c (SExpr ce) None None); [|done|done]|apply and_ok].
      eapply ok_trans; [exact Hokc|]. apply to_expr_ok; [done|apply Hokc|by apply Hokc].
Qed.

Lemma rewrite_layer b s : match s with SIf _ _ _ => False | _ => True end ->
  rw b s = [layer (fun s => single (rw false s)) (flat_map (rw true)) (flat_map (rw true)) s].
Proof. by destruct s. Qed.

Lemma rewrites_all s : rewrites s.
Proof using HM Hstrict.
  revert s. apply parts_induct. intros s IH.
  destruct (match s with SIf _ _ _ => true | _ => false end) eqn:Hs.
  - destruct s as [| | | | | |t c a| | | | | | | | | | | ]; try done. cbn in IH. destruct IH as [[Hc _] Ha].
    assert (Ha' : forall x, a = Some x -> keeps_stmt (fun s => single (rw false s)) x) by (intros x Hx; apply (Ha x Hx)).
    split.
    + intros enc loops own own' Hf Hv Hp. by apply (rewrite_if_ok enc loops own own' false t c a).
    + intros enc loops Hf Hv Hp. by apply (rewrite_if_ok enc loops [] [] true t c a).
  - assert (Hn : match s with SIf _ _ _ => False | _ => True end) by (by destruct s).
    assert (Hk : keeps_stmt (layer (fun s => single (rw false s)) (flat_map (rw true)) (flat_map (rw true))) s).
    { apply layer_ok. eapply parts_impl; [| | |exact IH].
      - intros x [Hx _] _. exact Hx.
      - apply rewrites_list.
      - apply rewrites_list. }
    split.
    + intros enc loops own own' Hf Hv Hp. rewrite (rewrite_layer _ _ Hn). by apply Hk.
    + intros enc loops Hf Hv Hp. rewrite (rewrite_layer _ _ Hn). by apply okl_one, Hk.
Qed.

Lemma rewrite_ok b : keeps_list (rewrite_stmts of_vars strict) b.
Proof using HM Hstrict. apply rewrites_list, Forall_forall. intros s _. apply rewrites_all. Qed.
End Rewrites.
