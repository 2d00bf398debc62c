(** Proofs about RenameModel.v: which names are given, and what they refer to. *)
From Coq Require Import NArith Lia ZifyBool.
From stdpp Require Import base decidable numbers gmap sets list.
From Verif Require Import RustStr RenameModel RenameSpec RenameProofs.
Local Open Scope N_scope.

(* ------------------------------------------------------------------ *)
(** * Paths *)

Lemma stree_ind' (Q : stree -> Prop) : (forall s ch, Forall Q ch -> Q (SNode s ch)) -> forall t, Q t.
Proof.
  intros H. fix IH 1. intros [s ch]. apply H. induction ch as [|c ch IHc]; constructor; [apply IH|apply IHc].
Qed.
Lemma paths_eq above s ch : paths above (SNode s ch) = (s :: above) :: (ch ≫= paths (s :: above)).
Proof. cbn [paths]. f_equal. Qed.

Lemma paths_head t above p : p ∈ paths above t -> exists x q, p = x :: q.
Proof.
  revert above p. induction t as [s ch IH] using stree_ind'. intros above p.
  rewrite paths_eq, elem_of_cons. intros [->|H]; [by eauto|].
  apply elem_of_list_bind in H as (c & H & C). rewrite Forall_forall in IH. by eapply IH.
Qed.
(** A path ends with the scopes above the tree. *)
Lemma paths_suffix t : forall above pre x post, pre ++ x :: post ∈ paths above t ->
  x :: post ∈ paths above t \/ exists l, above = l ++ x :: post.
Proof.
  induction t as [s ch IH] using stree_ind'. intros above pre x post.
  rewrite paths_eq, !elem_of_cons. intros [E|H].
  - destruct pre as [|a pre]; [by injection E as -> ->; auto|]. right. injection E as -> E. by exists pre.
  - apply elem_of_list_bind in H as (c & H & C). rewrite Forall_forall in IH.
    apply IH in H as [H|(l & E)]; [| |done].
    + left. right. apply elem_of_list_bind. by eauto.
    + destruct l as [|a l]; [by injection E as -> ->; auto|]. right. injection E as -> E. by exists l.
Qed.
Lemma all_paths_suffix P pre x post : pre ++ x :: post ∈ all_paths P -> x :: post ∈ all_paths P.
Proof.
  intros H. apply paths_suffix in H as [H|(l & E)]; [done|]. by destruct l.
Qed.
(** Scopes around a scope come before it. *)
Lemma paths_before t : forall above x q, x :: q ∈ paths above t ->
  exists l1 l2, omap head (paths above t) = l1 ++ x :: l2 /\ forall d, d ∈ q -> d ∈ above \/ d ∈ l1.
Proof.
  induction t as [s ch IH] using stree_ind'. intros above x q.
  rewrite paths_eq. intros H. apply elem_of_cons in H as [E|H].
  - injection E as -> ->. exists [], (omap head (ch ≫= paths (s :: above))). split; [done|]. auto.
  - apply elem_of_list_bind in H as (c & H & C). apply elem_of_list_split in C as (c1 & c2 & ->).
    rewrite Forall_app, Forall_cons in IH. destruct IH as (_ & IH & _).
    apply IH in H as (l1 & l2 & E & A).
    exists (s :: omap head (c1 ≫= paths (s :: above)) ++ l1), (l2 ++ omap head (c2 ≫= paths (s :: above))). split.
    + cbn. f_equal. rewrite bind_app, bind_cons, !omap_app, E. by rewrite <- !app_assoc.
    + intros d D. apply A in D. set_solver.
Qed.
Lemma all_paths_before P x q : x :: q ∈ all_paths P ->
  exists l1 l2, all_scopes P = l1 ++ x :: l2 /\ forall d, d ∈ q -> d ∈ l1.
Proof.
  intros H. apply paths_before in H as (l1 & l2 & E & A). exists l1, l2. split; [done|]. intros d D. apply A in D as [D|D]; [by apply elem_of_nil in D|done].
Qed.
Lemma omap_inj {A B C} (g : A -> option B) (f : B -> C) l x y a b :
  NoDup (List.map f (omap g l)) -> x ∈ l -> y ∈ l -> g x = Some a -> g y = Some b -> f a = f b -> x = y.
Proof.
  induction l as [|z l IH]; [by intros _ X; apply elem_of_nil in X|].
  intros ND X Y Gx Gy E. cbn in ND.
  assert (forall u c, u ∈ l -> g u = Some c -> f c ∈ List.map f (omap g l)) as In.
  { intros u c U Gu. apply elem_of_list_fmap. exists c. split; [done|]. apply elem_of_list_omap. by exists u. }
  apply elem_of_cons in X as [->|X]; apply elem_of_cons in Y as [->|Y]; [done| | |].
  - rewrite Gx in ND. apply NoDup_cons in ND as [ND _]. rewrite E in ND. by destruct ND; eapply In.
  - rewrite Gy in ND. apply NoDup_cons in ND as [ND _]. rewrite <- E in ND. by destruct ND; eapply In.
  - apply IH; try done. destruct (g z); [by apply NoDup_cons in ND as [_ ND]|done].
Qed.
Lemma path_unique P x q x' q' : NoDup (List.map sc_id (all_scopes P)) ->
  x :: q ∈ all_paths P -> x' :: q' ∈ all_paths P -> sc_id x = sc_id x' -> x :: q = x' :: q'.
Proof. intros ND A B E. by eapply (omap_inj head sc_id (all_paths P)). Qed.
Lemma path_scope P x q d : x :: q ∈ all_paths P -> d ∈ x :: q -> d ∈ all_scopes P.
Proof.
  intros A D. apply elem_of_list_split in D as (l1 & l2 & E). rewrite E in A. apply all_paths_suffix in A.
  apply elem_of_list_omap. by exists (d :: l2).
Qed.
Lemma scope_path P x : x ∈ all_scopes P -> exists q, x :: q ∈ all_paths P.
Proof.
  intros H. apply elem_of_list_omap in H as (p & A & E). destruct p; [done|]. injection E as ->. by eauto.
Qed.
Lemma root_path P : [root (scopes P)] ∈ all_paths P.
Proof. unfold all_paths. destruct (scopes P). rewrite paths_eq. left. Qed.
Lemma paths_root t : forall above x q, x :: q ∈ paths above t -> x :: q = root t :: above \/ root t ∈ q.
Proof.
  induction t as [s ch IH] using stree_ind'. intros above x q. rewrite paths_eq, elem_of_cons. intros [->|H]; [by left|].
  right. apply elem_of_list_bind in H as (c & H & C).
  assert (exists pre, x :: q = pre ++ s :: above /\ pre <> []) as (pre & E & N).
  { clear C IH ch. revert H. generalize (s :: above). clear above. revert x q.
    induction c as [s' ch IH] using stree_ind'. intros x q a. rewrite paths_eq, elem_of_cons. intros [->|H].
    - by exists [s'].
    - apply elem_of_list_bind in H as (c & H & C). rewrite Forall_forall in IH. apply IH in H as (pre & E & N); [|done].
      exists (pre ++ [s']). rewrite <- app_assoc. split; [done|]. by destruct pre. }
  destruct pre as [|a pre]; [done|]. injection E as -> ->. cbn. set_solver.
Qed.

(* ------------------------------------------------------------------ *)
(** * Usages *)

Lemma usage_insert m i u j : usage_of (<[i := u]> m) j = if decide (i = j) then u else usage_of m j.
Proof. unfold usage_of, usage_map in *. destruct (decide (i = j)) as [->|D]; [by rewrite lookup_insert|by rewrite lookup_insert_ne]. Qed.

(** The scopes of a path below the one declaring [y]. *)
Definition uses_from (P : program) (y : sym) (path : list scope) (i : scope_id) : Prop :=
  exists pre x post, path = pre ++ x :: post /\ sc_id x = i /\ Forall (fun z => sc_id z <> decl_scope P y) (pre ++ [x]).
Lemma uses_from_cons P y s path i : uses_from P y (s :: path) i <->
  sc_id s <> decl_scope P y /\ (sc_id s = i \/ uses_from P y path i).
Proof.
  split.
  - intros (pre & x & post & E & I & F). destruct pre as [|a pre]; injection E as -> ->.
    + apply Forall_cons in F as [F _]. auto.
    + apply Forall_cons in F as [F1 F]. split; [done|]. right. by exists pre, x, post.
  - intros [N [I|(pre & x & post & -> & I & F)]].
    + exists [], s, path. by repeat constructor.
    + exists (s :: pre), x, post. split; [done|]. split; [done|]. by constructor.
Qed.
Lemma uses_from_nil P y i : ~ uses_from P y [] i.
Proof. intros (pre & x & post & E & _). by destruct pre. Qed.

Lemma record_symbol_foreign P y' path : forall m i y,
  y ∈ foreign (usage_of (record_symbol_usage P y' path m) i) <-> y ∈ foreign (usage_of m i) \/ (y = y' /\ uses_from P y' path i).
Proof.
  induction path as [|s path IH]; intros m i y; cbn [record_symbol_usage].
  - split; [auto|]. intros [H|[_ H]]; [done|by apply uses_from_nil in H].
  - rewrite uses_from_cons. destruct (N.eqb_spec (sc_id s) (decl_scope P y')) as [E|E].
    + split; [auto|]. intros [H|(_ & N & _)]; [done|done].
    + rewrite IH, usage_insert. destruct (decide (sc_id s = i)) as [<-|D]; cbn [foreign].
      * rewrite elem_of_union, elem_of_singleton. split; intuition.
      * split; intuition.
Qed.
Lemma record_symbol_unknown P y' path : forall m i,
  unknown (usage_of (record_symbol_usage P y' path m) i) = unknown (usage_of m i).
Proof.
  induction path as [|s path IH]; intros m i; cbn [record_symbol_usage]; [done|].
  destruct (sc_id s =? decl_scope P y'); [done|]. rewrite IH, usage_insert. by destruct (decide _) as [<-|].
Qed.
Lemma record_unknown_foreign n path : forall m i, foreign (usage_of (record_unknown n path m) i) = foreign (usage_of m i).
Proof.
  induction path as [|s path IH]; intros m i; [done|]. unfold record_unknown in *. cbn [fold_left]. rewrite IH, usage_insert.
  by destruct (decide _) as [<-|].
Qed.
Lemma record_unknown_unknown n' path : forall m i n,
  n ∈ unknown (usage_of (record_unknown n' path m) i) <-> n ∈ unknown (usage_of m i) \/ (n = n' /\ i ∈ List.map sc_id path).
Proof.
  induction path as [|s path IH]; intros m i n.
  - cbn. split; [auto|]. intros [H|[_ H]]; [done|by apply elem_of_nil in H].
  - unfold record_unknown in *. cbn [fold_left List.map]. rewrite IH, usage_insert, elem_of_cons.
    destruct (decide (sc_id s = i)) as [<-|D]; cbn [unknown].
    + rewrite elem_of_union, elem_of_singleton. split; intuition.
    + split; intuition congruence.
Qed.

Lemma record_occs_foreign P path os : forall m i y,
  y ∈ foreign (usage_of (fold_left (record_occ P path) os m) i) <->
  y ∈ foreign (usage_of m i) \/ exists o, o ∈ os /\ o_sym o = Some y /\ uses_from P y path i.
Proof.
  induction os as [|o os IH]; intros m i y; cbn [fold_left].
  - split; [auto|]. intros [H|(o & O & _)]; [done|by apply elem_of_nil in O].
  - rewrite IH. unfold record_occ at 1. destruct (o_sym o) as [y'|] eqn:E.
    + rewrite record_symbol_foreign. split.
      * intros [[H|[-> H]]|(o' & O & H)]; [auto| |].
        -- right. exists o. split; [left|done].
        -- right. exists o'. split; [by right|done].
      * intros [H|(o' & O & E' & H)]; [auto|]. apply elem_of_cons in O as [->|O].
        -- left. right. rewrite E in E'. by injection E' as ->.
        -- right. by exists o'.
    + rewrite record_unknown_foreign. split.
      * intros [H|(o' & O & H)]; [auto|]. right. exists o'. split; [by right|done].
      * intros [H|(o' & O & E' & H)]; [auto|]. apply elem_of_cons in O as [->|O]; [congruence|]. right. by exists o'.
Qed.
Lemma record_occs_unknown P path os : forall m i n,
  n ∈ unknown (usage_of (fold_left (record_occ P path) os m) i) <->
  n ∈ unknown (usage_of m i) \/ exists o, o ∈ os /\ o_sym o = None /\ o_name o = n /\ i ∈ List.map sc_id path.
Proof.
  induction os as [|o os IH]; intros m i n; cbn [fold_left].
  - split; [auto|]. intros [H|(o & O & _)]; [done|by apply elem_of_nil in O].
  - rewrite IH. unfold record_occ at 1. destruct (o_sym o) as [y'|] eqn:E.
    + rewrite record_symbol_unknown. split.
      * intros [H|(o' & O & H)]; [auto|]. right. exists o'. split; [by right|done].
      * intros [H|(o' & O & E' & H)]; [auto|]. apply elem_of_cons in O as [->|O]; [congruence|]. right. by exists o'.
    + rewrite record_unknown_unknown. split.
      * intros [[H|[-> H]]|(o' & O & H)]; [auto| |].
        -- right. exists o. split; [left|done].
        -- right. exists o'. split; [by right|done].
      * intros [H|(o' & O & E' & E2 & H)]; [auto|]. apply elem_of_cons in O as [->|O].
        -- left. right. done.
        -- right. by exists o'.
Qed.

Lemma collect_foreign P i y : y ∈ foreign (usage_of (collect P) i) <->
  exists s above o, s :: above ∈ all_paths P /\ o ∈ sc_occs s /\ o_sym o = Some y /\ uses_from P y (s :: above) i.
Proof.
  unfold collect.
  assert (forall l m, y ∈ foreign (usage_of (fold_left (fun m path => match path with [] => m | s :: _ => fold_left (record_occ P path) (sc_occs s) m end) l m) i) <->
    y ∈ foreign (usage_of m i) \/ exists s above o, s :: above ∈ l /\ o ∈ sc_occs s /\ o_sym o = Some y /\ uses_from P y (s :: above) i) as G.
  { induction l as [|p l IH]; intros m; cbn [fold_left].
    - split; [auto|]. intros [H|(s & a & o & O & _)]; [done|by apply elem_of_nil in O].
    - rewrite IH. destruct p as [|s a].
      + split; (intros [H|(s' & a' & o & O & H)]; [auto|]); right; exists s', a', o; (split; [|done]).
        * by right.
        * by apply elem_of_cons in O as [O|O].
      + rewrite record_occs_foreign. split.
        * intros [[H|(o & O & H)]|(s' & a' & o & O & H)]; [auto| |]; right.
          -- exists s, a, o. split; [left|done].
          -- exists s', a', o. split; [by right|done].
        * intros [H|(s' & a' & o & O & H)]; [auto|]. apply elem_of_cons in O as [O|O].
          -- injection O as -> ->. left. right. by exists o.
          -- right. by exists s', a', o. }
  rewrite G. unfold usage_of, usage_map. rewrite lookup_empty. cbn. split; [intros [H|H]; [by apply elem_of_empty in H|done]|auto].
Qed.
Lemma collect_unknown P i n : n ∈ unknown (usage_of (collect P) i) <->
  exists s above o, s :: above ∈ all_paths P /\ o ∈ sc_occs s /\ o_sym o = None /\ o_name o = n /\ i ∈ List.map sc_id (s :: above).
Proof.
  unfold collect.
  assert (forall l m, n ∈ unknown (usage_of (fold_left (fun m path => match path with [] => m | s :: _ => fold_left (record_occ P path) (sc_occs s) m end) l m) i) <->
    n ∈ unknown (usage_of m i) \/ exists s above o, s :: above ∈ l /\ o ∈ sc_occs s /\ o_sym o = None /\ o_name o = n /\ i ∈ List.map sc_id (s :: above)) as G.
  { induction l as [|p l IH]; intros m; cbn [fold_left].
    - split; [auto|]. intros [H|(s & a & o & O & _)]; [done|by apply elem_of_nil in O].
    - rewrite IH. destruct p as [|s a].
      + split; (intros [H|(s' & a' & o & O & H)]; [auto|]); right; exists s', a', o; (split; [|done]).
        * by right.
        * by apply elem_of_cons in O as [O|O].
      + rewrite record_occs_unknown. split.
        * intros [[H|(o & O & H)]|(s' & a' & o & O & H)]; [auto| |]; right.
          -- exists s, a, o. split; [left|done].
          -- exists s', a', o. split; [by right|done].
        * intros [H|(s' & a' & o & O & H)]; [auto|]. apply elem_of_cons in O as [O|O].
          -- injection O as -> ->. left. right. by exists o.
          -- right. by exists s', a', o. }
  rewrite G. unfold usage_of, usage_map. rewrite lookup_empty. cbn. split; [intros [H|H]; [by apply elem_of_empty in H|done]|auto].
Qed.

Lemma disabled_spec P i : i ∈ disabled_scopes P <->
  exists s above, s :: above ∈ all_paths P /\
    ((i = sc_id s /\ (has_with s = true \/ sc_eval s = true)) \/ (sc_eval s = true /\ exists a, a ∈ above /\ i = sc_id a)).
Proof.
  unfold disabled_scopes. rewrite elem_of_list_to_set, elem_of_list_bind. split.
  - intros ([|s a] & H & A); [by apply elem_of_nil in H|]. exists s, a. split; [done|].
    apply elem_of_app in H as [H|H].
    + destruct (has_with s || sc_eval s) eqn:B; [|by apply elem_of_nil in H]. apply elem_of_list_singleton in H as ->.
      apply orb_true_iff in B. auto.
    + destruct (sc_eval s); [|by apply elem_of_nil in H]. right. split; [done|]. apply elem_of_list_fmap in H as (x & -> & H). eauto.
  - intros (s & a & A & H). exists (s :: a). split; [|done]. apply elem_of_app. destruct H as [[-> H]|[E (x & X & ->)]].
    + left. apply orb_true_iff in H. rewrite H. left.
    + right. rewrite E. apply elem_of_list_fmap. eauto.
Qed.
Lemma pinned_spec P y : y ∈ pinned_symbols P <->
  exists w, w ∈ all_scopes P /\ has_with w = true /\ y ∈ foreign (usage_of (collect P) (sc_id w)).
Proof.
  unfold pinned_symbols. rewrite elem_of_union_list. split.
  - intros (X & H & Y). apply elem_of_list_fmap in H as (w & -> & W). destruct (has_with w) eqn:E; [by eauto|by apply elem_of_empty in Y].
  - intros (w & W & E & Y). exists (foreign (usage_of (collect P) (sc_id w))). split; [|done]. apply elem_of_list_fmap. exists w. by rewrite E.
Qed.

(* ------------------------------------------------------------------ *)
(** * Assigning, scope after scope *)

Definition step_scope (P : program) (s : scope) (r : renames) : option renames :=
  if bool_decide (sc_id s ∈ disabled_scopes P) then Some r else assign_own P s r.
Fixpoint steps (P : program) (l : list scope) (r : renames) : option renames :=
  match l with [] => Some r | s :: l => r ← step_scope P s r; steps P l r end.
Lemma steps_app P l1 l2 r : steps P (l1 ++ l2) r = (r ← steps P l1 r; steps P l2 r).
Proof.
  revert r. induction l1 as [|s l1 IH]; intros r; [done|]. cbn [app steps]. destruct (step_scope P s r); [apply IH|done].
Qed.
Lemma assign_scope_steps P t : forall above r, assign_scope P t r = steps P (omap head (paths above t)) r.
Proof.
  induction t as [s ch IH] using stree_ind'. intros above r. rewrite paths_eq.
  change (omap head ((s :: above) :: (ch ≫= paths (s :: above)))) with (s :: omap head (ch ≫= paths (s :: above))).
  cbn [assign_scope steps]. unfold step_scope at 1.
  destruct (if bool_decide (sc_id s ∈ disabled_scopes P) then Some r else assign_own P s r) as [r1|] eqn:E; [|done].
  cbn [mbind option_bind]. clear E r. revert r1. induction IH as [|c ch H _ IHch]; intros r1; [done|].
  rewrite bind_cons, omap_app, steps_app, <- H.
  destruct (assign_scope P c r1); [apply IHch|done].
Qed.
Lemma assign_names_steps P : assign_names P = steps P (all_scopes P) ∅.
Proof. apply assign_scope_steps. Qed.

Lemma fresh_total avoid c : exists n c', fresh_name avoid c = Some (n, c').
Proof. apply next_name_total. lia. Qed.
Lemma fresh_avoids avoid c n c' : fresh_name avoid c = Some (n, c') -> n ∉ avoid.
Proof.
  intros H. apply next_name_spec in H as (k & _ & _ & _ & A & _). apply negb_true_iff, bool_decide_eq_false in A. done.
Qed.
Lemma assign_symbols_total P dis order : forall used c r, exists r', assign_symbols P dis order used c r = Some r'.
Proof.
  induction order as [|y order IH]; intros used c r; cbn [assign_symbols]; [by eauto|].
  destruct (block_to_var P y); [apply IH|]. destruct (symbol_name P y); [|apply IH].
  destruct (var_to_blocks P y).
  - destruct (keeps_name P y); [apply IH|].
    destruct (fresh_total (dis ∪ used) c) as (n & c' & ->). apply IH.
  - destruct (_ || _); [apply IH|]. match goal with |- context [fresh_name ?a ?c] => destruct (fresh_total a c) as (n & c' & ->) end. apply IH.
Qed.
Lemma steps_total P l : forall r, exists r', steps P l r = Some r'.
Proof.
  induction l as [|s l IH]; intros r; cbn [steps]; [by eauto|]. unfold step_scope.
  destruct (bool_decide _); cbn [mbind option_bind]; [apply IH|]. unfold assign_own.
  destruct (reserve_block_functions _ _ _ _) as [used r1].
  match goal with |- context [assign_symbols ?a ?b ?c ?d ?e ?f] => destruct (assign_symbols_total a b c d e f) as (r2 & ->) end.
  apply IH.
Qed.

Lemma ren_insert (r : renames) y n : <[y := n]> r !! y = Some n.
Proof. unfold renames in r. apply lookup_insert. Qed.
Lemma ren_insert_ne (r : renames) y z n : y <> z -> <[y := n]> r !! z = r !! z.
Proof. unfold renames in r. apply lookup_insert_ne. Qed.

Section no_annex.
Context (P : program) (NB : annex_b P = []).
Notation ss := (all_scopes P ≫= sc_symbols).

Lemma no_blocks y : block_to_var P y = None.
Proof. unfold block_to_var. by rewrite NB. Qed.
Lemma no_vars y : var_to_blocks P y = [].
Proof. unfold var_to_blocks. by rewrite NB. Qed.
Lemma reserve_block_none order used r : reserve_block_functions P order used r = (used, r).
Proof.
  unfold reserve_block_functions. induction order as [|y order IH]; [done|]. cbn [fold_left]. by rewrite no_blocks.
Qed.
Lemma symbol_name_in y : y ∈ ss -> symbol_name P y = Some (sym_name P y).
Proof. unfold symbol_name. intros H. by rewrite bool_decide_eq_true_2. Qed.

Lemma assign_symbols_spec dis order : NoDup order -> (forall y, y ∈ order -> y ∈ ss) ->
  forall used c r r', (forall y, y ∈ order -> r !! y = None) ->
  assign_symbols P dis order used c r = Some r' ->
  (forall y, y ∉ order -> r' !! y = r !! y) /\
  (forall y, y ∈ order -> if keeps_name P y then r' !! y = None else exists n, r' !! y = Some n /\ n ∉ dis /\ n ∉ used) /\
  (forall y z n, y ∈ order -> z ∈ order -> r' !! y = Some n -> r' !! z = Some n -> y = z).
Proof.
  induction order as [|y order IH]; intros ND Sub used c r r' R; cbn [assign_symbols].
  - intros [= <-]. split; [done|split]; [intros y Y|intros y z n Y]; by apply elem_of_nil in Y.
  - apply NoDup_cons in ND as [Y ND].
    rewrite no_blocks, no_vars, symbol_name_in by (apply Sub; left).
    destruct (keeps_name P y) eqn:K.
    + intros E. apply IH in E as (F & A & I); [|done|set_solver|set_solver].
      assert (r' !! y = None) as Ry by (rewrite F by done; apply R; left).
      split; [|split].
      * intros z Z. apply F. set_solver.
      * intros z Z. apply elem_of_cons in Z as [->|Z]; [by rewrite K|by apply A].
      * intros z1 z2 n Z1 Z2 E1 E2. apply elem_of_cons in Z1 as [->|Z1]; [congruence|]. apply elem_of_cons in Z2 as [->|Z2]; [congruence|].
        by eapply I.
    + destruct (fresh_name (dis ∪ used) c) as [[n c']|] eqn:Fr; [|done]. apply fresh_avoids in Fr. intros E.
      apply IH in E as (F & A & I); [|done|set_solver|].
      2:{ intros z Z. rewrite ren_insert_ne by set_solver. apply R. by right. }
      assert (r' !! y = Some n) as Ry by (rewrite F by done; apply ren_insert).
      split; [|split].
      * intros z Z. rewrite F by set_solver. apply ren_insert_ne. set_solver.
      * intros z Z. apply elem_of_cons in Z as [->|Z].
        -- rewrite K. exists n. set_solver.
        -- specialize (A z Z). destruct (keeps_name P z); [done|]. destruct A as (m & ? & ? & ?). exists m. set_solver.
      * intros z1 z2 m Z1 Z2 E1 E2.
        assert (forall z, z ∈ order -> r' !! z <> Some n) as NN.
        { intros z Z X. specialize (A z Z). destruct (keeps_name P z); [congruence|]. destruct A as (m' & M & _ & U).
          rewrite X in M. injection M as <-. set_solver. }
        apply elem_of_cons in Z1 as [->|Z1]; apply elem_of_cons in Z2 as [->|Z2]; [done| | |by eapply I].
        -- rewrite Ry in E1. injection E1 as <-. by apply NN in E2.
        -- rewrite Ry in E2. injection E2 as <-. by apply NN in E1.
Qed.

(** What is true of a scope once its symbols have their names. *)
Definition good (r : renames) (s : scope) : Prop :=
  if bool_decide (sc_id s ∈ disabled_scopes P) then forall y, y ∈ sc_symbols s -> r !! y = None
  else
    (forall y, y ∈ sc_symbols s ->
       if keeps_name P y then r !! y = None
       else exists n, r !! y = Some n /\ n ∉ reserved_names /\ n ∉ names_used_in P r (sc_id s)) /\
    (forall y z, y ∈ sc_symbols s -> z ∈ sc_symbols s -> new_name P r y = new_name P r z -> y = z).

Lemma current_name_eq r r' y : r !! y = r' !! y -> current_name P r y = current_name P r' y.
Proof. unfold current_name. by intros ->. Qed.
Lemma names_used_eq r r' i : (forall y, y ∈ foreign (usage_of (collect P) i) -> r !! y = r' !! y) -> names_used_in P r i = names_used_in P r' i.
Proof.
  intros H. unfold names_used_in. f_equal. f_equal.
  assert (forall l : list sym, (forall y, y ∈ l -> r !! y = r' !! y) -> omap (current_name P r) l = omap (current_name P r') l) as G.
  { induction l as [|y l IH]; intros A; [done|]. cbn. rewrite (current_name_eq r r') by (apply A; left). rewrite IH; [done|]. intros z Z. apply A. by right. }
  apply G. intros y Y. apply H. by apply elem_of_elements.
Qed.
Lemma good_frame r r' s : (forall y, y ∈ sc_symbols s -> r' !! y = r !! y) ->
  (forall y, y ∈ foreign (usage_of (collect P) (sc_id s)) -> r' !! y = r !! y) -> good r s -> good r' s.
Proof.
  intros A B. unfold good. destruct (bool_decide _).
  - intros G y Y. rewrite A by done. by apply G.
  - intros [G I]. rewrite (names_used_eq r' r) by done. split.
    + intros y Y. rewrite A by done. by apply G.
    + intros y z Y Z E. apply I; try done. unfold new_name in *. by rewrite !A in E by done.
Qed.

Context (W : wf_program P).
Lemma scope_symbols_in s y : s ∈ all_scopes P -> y ∈ sc_symbols s -> y ∈ ss.
Proof. intros A B. apply elem_of_list_bind. eauto. Qed.
Lemma scope_symbols_nodup s : s ∈ all_scopes P -> NoDup (sc_symbols s).
Proof.
  intros A. apply elem_of_list_split in A as (l1 & l2 & E). pose proof (wf_symbols P W) as H. rewrite E, bind_app, bind_cons in H.
  apply NoDup_app in H as (_ & _ & H). by apply NoDup_app in H as (H & _).
Qed.
Lemma names_inj s y z : s ∈ all_scopes P -> y ∈ sc_symbols s -> z ∈ sc_symbols s -> sym_name P y = sym_name P z -> y = z.
Proof.
  intros A Y Z E. pose proof (wf_names P W s A) as H. clear A. induction (sc_symbols s) as [|x l IH]; [by apply elem_of_nil in Y|].
  cbn in H. apply NoDup_cons in H as [H1 H2].
  apply elem_of_cons in Y as [->|Y]; apply elem_of_cons in Z as [->|Z]; [done| | |by apply IH].
  - destruct H1. rewrite E. by apply elem_of_list_fmap_1.
  - destruct H1. rewrite <- E. by apply elem_of_list_fmap_1.
Qed.

Lemma reserve_pinned_in order y : y ∈ order -> y ∈ ss -> keeps_name P y = true -> sym_name P y ∈ reserve_pinned P order.
Proof.
  intros A B K. unfold reserve_pinned. apply elem_of_list_to_set, elem_of_list_omap. exists y. by rewrite K, symbol_name_in.
Qed.
Lemma step_good s r r' : s ∈ all_scopes P ->
  (forall y, y ∈ sc_symbols s -> r !! y = None) ->
  (forall y, y ∈ foreign (usage_of (collect P) (sc_id s)) -> y ∉ sc_symbols s) ->
  step_scope P s r = Some r' ->
  good r' s /\ forall y, y ∉ sc_symbols s -> r' !! y = r !! y.
Proof.
  intros A N Fo. unfold step_scope, good. destruct (bool_decide _).
  - intros [= <-]. done.
  - unfold assign_own. rewrite reserve_block_none. intros E.
    apply assign_symbols_spec in E as (F & G & I); [|by apply scope_symbols_nodup|by intros; eapply scope_symbols_in|done].
    split; [|done].
    rewrite (names_used_eq r' r) by (intros; apply F; by apply Fo).
    split.
    + intros y Y. specialize (G y Y). destruct (keeps_name P y); [done|]. destruct G as (n & E & D & _). exists n.
      apply not_elem_of_union in D as [D1 D2]. done.
    + intros y z Y Z. unfold new_name.
      assert (forall y z n, y ∈ sc_symbols s -> z ∈ sc_symbols s -> r' !! y = None -> r' !! z = Some n -> sym_name P y <> n) as X.
      { clear y z Y Z. intros y z n Y Z Ey Ez E.
        pose proof (G y Y) as Gy. pose proof (G z Z) as Gz. destruct (keeps_name P y) eqn:Ky; [|by destruct Gy as (? & ? & _); congruence].
        destruct (keeps_name P z) eqn:Kz; [congruence|]. destruct Gz as (n' & En & _ & U). rewrite Ez in En. injection En as <-.
        apply U. rewrite <- E. apply reserve_pinned_in; [done|by eapply scope_symbols_in|done]. }
      destruct (r' !! y) as [n|] eqn:Ey, (r' !! z) as [m|] eqn:Ez; cbn; intros E.
      * subst m. by eapply I.
      * by destruct (X z y n Z Y Ez Ey).
      * by destruct (X y z m Y Z Ey Ez).
      * by eapply names_inj.
Qed.

(** A symbol used in a scope but declared elsewhere is declared around it. *)
Lemma foreign_above x q y : x :: q ∈ all_paths P -> y ∈ foreign (usage_of (collect P) (sc_id x)) ->
  exists d, d ∈ q /\ y ∈ sc_symbols d.
Proof.
  intros A F. apply collect_foreign in F as (s & above & o & S & O & E & pre & x' & post & Eq & I & Fa).
  destruct (wf_occs P W s above o y S O E) as (_ & d & D & Y).
  assert (d ∈ all_scopes P) as Din by (by eapply path_scope).
  pose proof (wf_decl P W d y Din Y) as Dy.
  rewrite Eq in S. assert (x' :: post = x :: q) as Eq2.
  { eapply path_unique; [apply W|by eapply all_paths_suffix|done|done]. }
  injection Eq2 as -> ->. exists d. split; [|done]. rewrite Eq in D.
  rewrite Forall_forall in Fa. change (pre ++ x :: q) with (pre ++ [x] ++ q) in D. rewrite app_assoc in D.
  apply elem_of_app in D as [D|D]; [by destruct (Fa d D)|done].
Qed.
Lemma symbols_apart l1 s l2 : all_scopes P = l1 ++ s :: l2 ->
  (forall d y, d ∈ l1 -> y ∈ sc_symbols d -> y ∉ sc_symbols s /\ y ∉ (l2 ≫= sc_symbols)) /\
  (forall y, y ∈ sc_symbols s -> y ∉ (l2 ≫= sc_symbols)).
Proof.
  intros E. pose proof (wf_symbols P W) as H. rewrite E, bind_app, bind_cons in H.
  apply NoDup_app in H as (_ & H1 & H). apply NoDup_app in H as (_ & H2 & _). split.
  - intros d y D Y. apply not_elem_of_app, H1. apply elem_of_list_bind. eauto.
  - intros y Y. by apply H2.
Qed.
Lemma foreign_apart l1 s l2 y : all_scopes P = l1 ++ s :: l2 -> y ∈ foreign (usage_of (collect P) (sc_id s)) ->
  y ∉ sc_symbols s /\ y ∉ (l2 ≫= sc_symbols).
Proof.
  intros E F. assert (s ∈ all_scopes P) as S by (rewrite E; set_solver).
  destruct (scope_path P s S) as (q & Q). pose proof (foreign_above s q y Q F) as (d & D & Y).
  apply all_paths_before in Q as (k1 & k2 & E2 & B).
  assert (l1 = k1) as <-.
  { rewrite E in E2. pose proof (wf_scopes P W) as ND. rewrite E in ND. clear -ND E2.
    revert k1 E2. induction l1 as [|a l1 IH]; intros [|b k1] E2; injection E2 as; subst; [done| | |].
    - cbn in ND. apply NoDup_cons in ND as [ND _]. destruct ND. rewrite map_app. cbn. set_solver.
    - cbn in ND. apply NoDup_cons in ND as [ND _]. destruct ND. rewrite map_app. cbn. set_solver.
    - f_equal. apply IH; [|done]. cbn in ND. by apply NoDup_cons in ND as [_ ND]. }
  destruct (symbols_apart l1 s l2 E) as [X _]. eapply X; [by apply B|done].
Qed.

Lemma steps_good l : forall l1 r r', all_scopes P = l1 ++ l ->
  (forall y, y ∈ (l ≫= sc_symbols) -> r !! y = None) -> steps P l r = Some r' ->
  (forall s, s ∈ l -> good r' s) /\ forall y, y ∉ (l ≫= sc_symbols) -> r' !! y = r !! y.
Proof.
  induction l as [|s l IH]; intros l1 r r' E N; cbn [steps].
  - intros [= <-]. split; [|done]. intros s S. by apply elem_of_nil in S.
  - destruct (step_scope P s r) as [r1|] eqn:S1; [|done]. cbn [mbind option_bind]. intros S2.
    rewrite bind_cons in N. destruct (symbols_apart l1 s l E) as [_ Ap].
    assert (s ∈ all_scopes P) as Sin by (rewrite E; set_solver).
    apply step_good in S1 as [G F1]; [|done| |].
    2:{ intros y Y. apply N. set_solver. }
    2:{ intros y Y. by eapply foreign_apart. }
    apply (IH (l1 ++ [s])) in S2 as [G2 F2].
    2:{ by rewrite <- app_assoc. }
    2:{ intros y Y. rewrite F1; [|by intros X; apply (Ap y X)]. apply N. set_solver. }
    split.
    + intros x X. apply elem_of_cons in X as [->|X]; [|by apply G2].
      eapply good_frame; [| |exact G].
      * intros y Y. apply F2. by apply Ap.
      * intros y Y. apply F2. by eapply foreign_apart.
    + rewrite bind_cons. intros y Y. rewrite F2, F1; set_solver.
Qed.
Lemma all_good r : assign_names P = Some r -> forall s, s ∈ all_scopes P -> good r s.
Proof.
  rewrite assign_names_steps. intros E. apply (steps_good (all_scopes P) []) in E as [G _]; [done|done|]. intros. apply lookup_empty.
Qed.
Lemma renamed_in r : assign_names P = Some r -> forall y, y ∉ ss -> r !! y = None.
Proof.
  rewrite assign_names_steps. intros E. apply (steps_good (all_scopes P) []) in E as [_ G]; [|done|].
  - intros y Y. rewrite G by done. apply lookup_empty.
  - intros. apply lookup_empty.
Qed.

(* ------------------------------------------------------------------ *)
(** * Lookups *)

(** A symbol in a scope strictly above [x] that is renamed: [x] is not disabled. *)
Lemma renamed_not_disabled r x q d y : assign_names P = Some r -> x :: q ∈ all_paths P -> d ∈ q -> y ∈ sc_symbols d ->
  y ∈ foreign (usage_of (collect P) (sc_id x)) -> r !! y <> None -> sc_id x ∉ disabled_scopes P.
Proof.
  intros A X D Y F R Dis.
  assert (d ∈ all_scopes P) as Din by (eapply path_scope; [exact X|by right]).
  pose proof (all_good r A d Din) as G. unfold good in G.
  destruct (bool_decide (sc_id d ∈ disabled_scopes P)) eqn:B; [by rewrite (G y Y) in R|].
  apply bool_decide_eq_false in B. destruct G as [G _]. specialize (G y Y).
  apply disabled_spec in Dis as (s & above & S & H).
  assert (sc_eval s = true -> x ∈ s :: above -> False) as Ev.
  { intros Es Xin. apply elem_of_list_split in Xin as (l1 & l2 & E).
    assert (x :: l2 ∈ all_paths P) as X2 by (eapply all_paths_suffix; by rewrite <- E).
    pose proof (path_unique P x q x l2 (wf_scopes P W) X X2 eq_refl) as Eq. injection Eq as ->.
    apply B, disabled_spec. exists s, above. split; [done|].
    destruct l1 as [|a l1]; injection E as -> ->.
    - right. split; [done|]. by exists d.
    - right. split; [done|]. exists d. split; [|done]. set_solver. }
  assert (forall z, z ∈ s :: above -> sc_id z = sc_id x -> z = x) as Un.
  { intros z Z I. apply elem_of_list_split in Z as (l1 & l2 & E).
    assert (z :: l2 ∈ all_paths P) as X2 by (eapply all_paths_suffix; by rewrite <- E).
    pose proof (path_unique P _ _ _ _ (wf_scopes P W) X2 X I) as Eq. by injection Eq as -> ->. }
  destruct H as [[I H]|[Es (a & Ain & I)]].
  - assert (s = x) as -> by (apply Un; [left|done]). destruct H as [H|H].
    + assert (keeps_name P y = true) as K.
      { unfold keeps_name. apply orb_true_iff. right. apply bool_decide_eq_true. apply pinned_spec. exists x. repeat split; try done.
        eapply path_scope; [exact X|left]. }
      by rewrite K in G.
    + apply Ev; [done|left].
  - apply Ev; [done|]. rewrite <- (Un a); [by right|by right|done].
Qed.

(** A kept symbol is in the outermost scope or in a disabled one. *)
Lemma kept_place x q z : withs_reach_dynamic P -> x :: q ∈ all_paths P -> z ∈ sc_symbols x -> keeps_name P z = true ->
  q = [] \/ sc_id x ∈ disabled_scopes P.
Proof.
  intros WD X Z K. assert (x ∈ all_scopes P) as Xin by (eapply path_scope; [exact X|left]).
  unfold keeps_name in K. apply orb_true_iff in K as [K|K]; apply bool_decide_eq_true in K.
  - left. apply (wf_exported P W) in K.
    assert (root (scopes P) ∈ all_scopes P) as Rin by (eapply path_scope; [apply root_path|left]).
    pose proof (wf_decl P W _ z Xin Z) as E1. pose proof (wf_decl P W _ z Rin K) as E2.
    pose proof (path_unique P _ _ _ _ (wf_scopes P W) X (root_path P)) as Eq. rewrite <- E1, <- E2 in Eq. by injection (Eq eq_refl) as -> ->.
  - apply pinned_spec in K as (w & Win & Hw & F).
    apply collect_foreign in F as (s & above & o & S & O & E & pre & w' & post & Eq & I & Fa).
    assert (x ∈ s :: above) as Xs.
    { destruct (wf_occs P W s above o z S O E) as (_ & d & D & Y).
      assert (d ∈ all_scopes P) as Din by (by eapply path_scope).
      assert (sc_id d = sc_id x) as Id.
      { by rewrite <- (wf_decl P W d z Din Y), <- (wf_decl P W x z Xin Z). }
      apply elem_of_list_split in D as (l1 & l2 & E3). assert (d :: l2 ∈ all_paths P) as X2 by (eapply all_paths_suffix; by rewrite <- E3).
      pose proof (path_unique P _ _ _ _ (wf_scopes P W) X2 X Id) as E4. injection E4 as -> ->. rewrite E3. set_solver. }
    assert (w' = w) as ->.
    { destruct (scope_path P w Win) as (qw & Qw). assert (w' :: post ∈ all_paths P) as X2 by (eapply all_paths_suffix; by rewrite <- Eq).
      pose proof (path_unique P _ _ _ _ (wf_scopes P W) X2 Qw I) as E4. by injection E4 as -> ->. }
    pose proof (wf_decl P W x z Xin Z) as Dz.
    assert (x ∈ post) as Xp.
    { rewrite Eq in Xs. change (pre ++ w :: post) with (pre ++ [w] ++ post) in Xs. rewrite app_assoc in Xs.
      apply elem_of_app in Xs as [Xs|Xs]; [|done]. rewrite Forall_forall in Fa. by destruct (Fa x Xs). }
    apply elem_of_list_split in Xp as (mid & outer & ->).
    assert (x :: outer ∈ all_paths P) as X2. { eapply (all_paths_suffix P (pre ++ w :: mid)). rewrite <- app_assoc. cbn. by rewrite <- Eq. }
    pose proof (path_unique P _ _ _ _ (wf_scopes P W) X X2 eq_refl) as E4. injection E4 as ->.
    destruct (WD s above o z pre w mid x outer S O E Eq Hw Z) as [->|Dyn]; [by left|]. right.
    apply disabled_spec. exists x, outer. split; [done|]. left. split; [done|]. unfold has_with. rewrite Dyn. destruct (sc_eval x); auto.
Qed.

Lemma lookup_unhidden (name : sym -> rstr) hidden pre d outer n y :
  (forall x z, x ∈ pre -> z ∈ sc_symbols x -> name z = n -> z ∈ hidden) ->
  y ∈ sc_symbols d -> name y = n -> y ∉ hidden -> (forall z, z ∈ sc_symbols d -> name z = n -> z = y) ->
  lookup_name name hidden (pre ++ d :: outer) n = Some y.
Proof.
  intros H Y N Hy U. induction pre as [|x pre IH]; cbn [app lookup_name].
  - destruct (List.find _ _) as [z|] eqn:F.
    + apply find_some in F as [Z E]. apply bool_decide_eq_true in E. apply elem_of_list_In in Z. apply U in E as ->; [|done].
      by rewrite bool_decide_eq_false_2.
    + apply elem_of_list_In in Y. apply (find_none _ _ F) in Y. apply bool_decide_eq_false in Y. done.
  - assert (lookup_name name hidden (pre ++ d :: outer) n = Some y) as IH' by (apply IH; intros x' z X; apply H; by right).
    destruct (List.find _ _) as [z|] eqn:F; [|done].
    apply find_some in F as [Z E]. apply bool_decide_eq_true in E. apply elem_of_list_In in Z.
    rewrite bool_decide_eq_true_2; [done|]. eapply H; [left|done|done].
Qed.
Lemma lookup_none (name : sym -> rstr) hidden path n :
  (forall x z, x ∈ path -> z ∈ sc_symbols x -> name z = n -> z ∈ hidden) -> lookup_name name hidden path n = None.
Proof.
  intros H. induction path as [|x path IH]; cbn [lookup_name]; [done|].
  assert (lookup_name name hidden path n = None) as IH' by (apply IH; intros x' z X; apply H; by right).
  destruct (List.find _ _) as [z|] eqn:F; [|done].
  apply find_some in F as [Z E]. apply bool_decide_eq_true in E. apply elem_of_list_In in Z.
  rewrite bool_decide_eq_true_2; [done|]. eapply H; [left|done|done].
Qed.
(** What a lookup found, given that a scope has one symbol for a name. *)
Lemma lookup_inv hidden path n : (forall x, x ∈ path -> x ∈ all_scopes P) ->
  match lookup_name (sym_name P) hidden path n with
  | Some y => exists pre d outer, path = pre ++ d :: outer /\ y ∈ sc_symbols d /\ sym_name P y = n /\ y ∉ hidden /\
                forall x z, x ∈ pre -> z ∈ sc_symbols x -> sym_name P z = n -> z ∈ hidden
  | None => forall x z, x ∈ path -> z ∈ sc_symbols x -> sym_name P z = n -> z ∈ hidden
  end.
Proof.
  intros In. induction path as [|x path IH]; cbn [lookup_name]; [intros x z X; by apply elem_of_nil in X|].
  assert (forall x, x ∈ path -> x ∈ all_scopes P) as In' by (intros; apply In; by right). specialize (IH In').
  assert (forall z, List.find (fun y => bool_decide (sym_name P y = n)) (sc_symbols x) = Some z ->
    z ∈ sc_symbols x /\ sym_name P z = n) as Fs.
  { intros z F. apply find_some in F as [Z E]. apply bool_decide_eq_true in E. by apply elem_of_list_In in Z. }
  assert (match lookup_name (sym_name P) hidden path n with
  | Some y => exists pre d outer, path = pre ++ d :: outer /\ y ∈ sc_symbols d /\ sym_name P y = n /\ y ∉ hidden /\
                forall x z, x ∈ pre -> z ∈ sc_symbols x -> sym_name P z = n -> z ∈ hidden
  | None => forall x z, x ∈ path -> z ∈ sc_symbols x -> sym_name P z = n -> z ∈ hidden
  end -> (forall z, z ∈ sc_symbols x -> sym_name P z = n -> z ∈ hidden) ->
  match lookup_name (sym_name P) hidden path n with
  | Some y => exists pre d outer, x :: path = pre ++ d :: outer /\ y ∈ sc_symbols d /\ sym_name P y = n /\ y ∉ hidden /\
                forall x z, x ∈ pre -> z ∈ sc_symbols x -> sym_name P z = n -> z ∈ hidden
  | None => forall x' z, x' ∈ x :: path -> z ∈ sc_symbols x' -> sym_name P z = n -> z ∈ hidden
  end) as Pass.
  { intros IH' Hx. destruct (lookup_name (sym_name P) hidden path n).
    - destruct IH' as (pre & d & outer & -> & ? & ? & ? & H). exists (x :: pre), d, outer. repeat split; try done.
      intros x' z X. apply elem_of_cons in X as [->|X]; [by apply Hx|by apply H].
    - intros x' z X. apply elem_of_cons in X as [->|X]; [by apply Hx|by apply IH']. }
  destruct (List.find _ _) as [y|] eqn:F.
  - destruct (Fs y eq_refl) as [Y N]. destruct (bool_decide (y ∈ hidden)) eqn:H.
    + apply bool_decide_eq_true in H. apply Pass; [done|]. intros z Z E. rewrite (names_inj x z y); try done; [apply In; left|congruence].
    + apply bool_decide_eq_false in H. exists [], x, path. repeat split; try done. intros x' z X. by apply elem_of_nil in X.
  - apply Pass; [done|]. intros z Z E. apply elem_of_list_In in Z. apply (find_none _ _ F) in Z. apply bool_decide_eq_false in Z. done.
Qed.

Lemma binding r hidden s above o : withs_reach_dynamic P -> assign_names P = Some r ->
  s :: above ∈ all_paths P -> o ∈ sc_occs s ->
  lookup_name (sym_name P) hidden (s :: above) (o_name o) = o_sym o ->
  lookup_name (new_name P r) hidden (s :: above) (apply_occ r o) = o_sym o.
Proof.
  intros WD A S O L.
  assert (forall x, x ∈ s :: above -> x ∈ all_scopes P) as In by (intros; by eapply path_scope).
  pose proof (lookup_inv hidden (s :: above) (o_name o) In) as I. rewrite L in I.
  unfold apply_occ. destruct (o_sym o) as [y|] eqn:Ey.
  - destruct I as (pre & d & outer & E & Y & N & H & Pre).
    assert (d ∈ all_scopes P) as Din by (apply In; rewrite E; set_solver).
    assert (match r !! y with Some n => n | None => o_name o end = new_name P r y) as ->.
    { unfold new_name. destruct (r !! y); cbn; congruence. }
    rewrite E. apply lookup_unhidden; try done.
    + intros x z X Z EN. apply elem_of_list_split in X as (l1 & l2 & ->).
      rewrite <- app_assoc in E. cbn in E.
      assert (x :: l2 ++ d :: outer ∈ all_paths P) as XP by (eapply all_paths_suffix; by rewrite <- E).
      assert (x ∈ all_scopes P) as Xin by (eapply path_scope; [exact XP|left]).
      assert (y ∈ foreign (usage_of (collect P) (sc_id x))) as F.
      { apply collect_foreign. exists s, above, o. repeat split; try done. exists l1, x, (l2 ++ d :: outer). repeat split; try done.
        apply Forall_forall. intros u U. rewrite (wf_decl P W d y Din Y). intros Id.
        assert (exists k1 k2, l1 ++ [x] = k1 ++ u :: k2) as (k1 & k2 & Ek) by (by apply elem_of_list_split in U).
        assert (s :: above = k1 ++ u :: (k2 ++ l2 ++ d :: outer)) as E5.
        { rewrite E. change (l1 ++ x :: l2 ++ d :: outer) with (l1 ++ [x] ++ l2 ++ d :: outer). rewrite app_assoc, Ek, <- app_assoc. done. }
        assert (u :: k2 ++ l2 ++ d :: outer ∈ all_paths P) as P1 by (eapply all_paths_suffix; by rewrite <- E5).
        assert (d :: outer ∈ all_paths P) as P2.
        { eapply (all_paths_suffix P (u :: k2 ++ l2)). cbn. by rewrite <- app_assoc. }
        pose proof (path_unique P _ _ _ _ (wf_scopes P W) P1 P2 Id) as E6. apply (f_equal length) in E6. cbn in E6.
        rewrite !app_length in E6. cbn in E6. lia. }
      assert (d ∈ l2 ++ d :: outer) as Dq by set_solver.
      destruct (r !! y) as [m|] eqn:Ry.
      * assert (sc_id x ∉ disabled_scopes P) as ND. { eapply (renamed_not_disabled r); try done. congruence. }
        pose proof (all_good r A x Xin) as G. unfold good in G. rewrite bool_decide_eq_false_2 in G by done. destruct G as [G _].
        specialize (G z Z). destruct (keeps_name P z) eqn:K.
        -- destruct (kept_place x _ z WD XP Z K) as [Q|Q]; [|done]. by destruct l2.
        -- destruct G as (k & Rz & _ & U). exfalso. apply U. unfold names_used_in. apply elem_of_union_l, elem_of_list_to_set, elem_of_list_omap.
           exists y. split; [by apply elem_of_elements|]. unfold current_name. rewrite Ry. f_equal.
           unfold new_name in EN. rewrite Ry, Rz in EN. by cbn in EN.
      * pose proof (all_good r A x Xin) as G. unfold good in G.
        destruct (r !! z) as [k|] eqn:Rz.
        -- destruct (bool_decide (sc_id x ∈ disabled_scopes P)); [by rewrite (G z Z) in Rz|]. destruct G as [G _]. specialize (G z Z).
           destruct (keeps_name P z); [congruence|]. destruct G as (k' & Rz' & _ & U). exfalso. apply U.
           unfold names_used_in. apply elem_of_union_l, elem_of_list_to_set, elem_of_list_omap.
           exists y. split; [by apply elem_of_elements|]. unfold current_name. rewrite Ry, symbol_name_in by (by apply (scope_symbols_in d)).
           unfold new_name in EN. rewrite Ry, Rz in EN. cbn in EN. congruence.
        -- unfold new_name in EN. rewrite Ry, Rz in EN. cbn in EN. apply (Pre x); [set_solver|done|congruence].
    + intros z Z EN. pose proof (all_good r A d Din) as G. unfold good in G. destruct (bool_decide _).
      * unfold new_name in EN. rewrite !G in EN by done. by eapply names_inj.
      * by apply G.
  - apply lookup_none. intros x z X Z EN. apply (I x); [done|done|]. rewrite <- EN. unfold new_name.
    destruct (r !! z) as [k|] eqn:Rz; [|done]. exfalso. pose proof (all_good r A x (In x X)) as G. unfold good in G.
    destruct (bool_decide (sc_id x ∈ disabled_scopes P)); [by rewrite (G z Z) in Rz|]. destruct G as [G _]. specialize (G z Z).
    destruct (keeps_name P z); [congruence|]. destruct G as (k' & Rz' & _ & U). apply U. apply elem_of_union_r, collect_unknown.
    exists s, above, o. repeat split; try done.
    + unfold new_name in EN. rewrite Rz in EN. cbn in EN. congruence.
    + apply elem_of_list_fmap. by exists x.
Qed.

(** Renaming keeps the names of exported symbols and of those a direct [eval] can see. *)
Lemma kept r y : assign_names P = Some r -> keeps_name P y = true -> r !! y = None.
Proof.
  intros A K. destruct (decide (y ∈ ss)) as [Y|Y]; [|by eapply renamed_in].
  apply elem_of_list_bind in Y as (s & Y & S). pose proof (all_good r A s S) as G. unfold good in G.
  destruct (bool_decide _); [by apply G|]. destruct G as [G _]. specialize (G y Y). by rewrite K in G.
Qed.
Lemma eval_kept r s above x y : assign_names P = Some r -> s :: above ∈ all_paths P -> sc_eval s = true ->
  x ∈ s :: above -> y ∈ sc_symbols x -> r !! y = None.
Proof.
  intros A S E X Y. pose proof (all_good r A x (path_scope _ _ _ _ S X)) as G. unfold good in G.
  rewrite bool_decide_eq_true_2 in G; [by apply G|]. apply disabled_spec. exists s, above. split; [done|].
  apply elem_of_cons in X as [->|X]; [auto|]. right. split; [done|]. by exists x.
Qed.
Lemma with_kept r s above o y pre w post d : assign_names P = Some r ->
  s :: above ∈ all_paths P -> o ∈ sc_occs s -> o_sym o = Some y -> s :: above = pre ++ w :: post ->
  has_with w = true -> d ∈ w :: post -> y ∈ sc_symbols d -> r !! y = None.
Proof.
  intros A S O E Eq H D Y.
  assert (w :: post ∈ all_paths P) as Wp by (eapply all_paths_suffix; by rewrite <- Eq).
  assert (w ∈ all_scopes P) as Ws by (eapply path_scope; [exact Wp|left]).
  assert (d ∈ all_scopes P) as Din by (eapply path_scope; [exact Wp|done]).
  apply elem_of_cons in D as [->|D].
  - pose proof (all_good r A w Ws) as G. unfold good in G. rewrite bool_decide_eq_true_2 in G; [by apply G|].
    apply disabled_spec. exists w, post. split; [done|]. left. split; [done|]. by left.
  - apply kept; [done|]. unfold keeps_name. apply orb_true_iff. right. apply bool_decide_eq_true, pinned_spec.
    exists w. split; [done|]. split; [done|]. apply collect_foreign. exists s, above, o. split; [done|]. split; [done|]. split; [done|].
    exists pre, w, post. split; [done|]. split; [done|]. apply Forall_forall. intros u U. rewrite (wf_decl P W d y Din Y). intros Id.
    apply elem_of_list_split in D as (l2 & outer & ->).
    assert (exists k1 k2, pre ++ [w] = k1 ++ u :: k2) as (k1 & k2 & Ek) by (by apply elem_of_list_split in U).
    assert (s :: above = k1 ++ u :: (k2 ++ l2 ++ d :: outer)) as E5.
    { rewrite Eq. change (pre ++ w :: l2 ++ d :: outer) with (pre ++ [w] ++ l2 ++ d :: outer). rewrite app_assoc, Ek, <- app_assoc. done. }
    assert (u :: k2 ++ l2 ++ d :: outer ∈ all_paths P) as P1 by (eapply all_paths_suffix; by rewrite <- E5).
    assert (d :: outer ∈ all_paths P) as P2.
    { eapply (all_paths_suffix P (u :: k2 ++ l2)). cbn. by rewrite <- app_assoc. }
    pose proof (path_unique P _ _ _ _ (wf_scopes P W) P1 P2 Id) as E6. apply (f_equal length) in E6. cbn in E6.
    rewrite !app_length in E6. cbn in E6. lia.
Qed.
Lemma renamed_fresh r s y n : assign_names P = Some r -> s ∈ all_scopes P -> y ∈ sc_symbols s -> r !! y = Some n -> n ∉ reserved_names.
Proof.
  intros A S Y R. pose proof (all_good r A s S) as G. unfold good in G.
  destruct (bool_decide (sc_id s ∈ disabled_scopes P)); [rewrite (G y Y) in R; discriminate R|]. destruct G as [G _]. specialize (G y Y).
  destruct (keeps_name P y); [rewrite G in R; discriminate R|]. destruct G as (k & Rk & H & _). rewrite R in Rk. injection Rk as ->. exact H.
Qed.
Lemma distinct_names r s y z : assign_names P = Some r -> s ∈ all_scopes P -> y ∈ sc_symbols s -> z ∈ sc_symbols s ->
  new_name P r y = new_name P r z -> y = z.
Proof.
  intros A S Y Z E. pose proof (all_good r A s S) as G. unfold good in G.
  destruct (bool_decide _); [|by apply G]. unfold new_name in E. rewrite !G in E by done. by eapply names_inj.
Qed.
End no_annex.
