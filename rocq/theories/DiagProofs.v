(** Proofs about the order of diagnostics. *)
From Coq Require Import NArith Lia.
From stdpp Require Import base decidable numbers sorting list.
From Verif Require Import RustStr RustStrProofs RustOrd DiagModel DiagSpec.

Local Open Scope N_scope.

Lemma lawful_nat : lawful Nat.compare.
Proof.
  split; [intros; apply Nat.compare_antisym|]. intros x y z. destruct (Nat.compare_spec x y), (Nat.compare_spec y z), (Nat.compare_spec x z); subst; try done; lia.
Qed.
Lemma list_cmp_refl {A} (c : A -> A -> comparison) l : lawful c -> list_cmp c l l = Eq.
Proof. intros L. induction l as [|x l IH]; cbn; [done|]. by rewrite (lawful_refl c L). Qed.
Lemma lawful_eq_l {A} (c : A -> A -> comparison) x y z : lawful c -> c x y = Eq -> c x z = c y z.
Proof.
  intros [O T] E. pose proof (O x y) as E'. rewrite E in E'. cbn in E'.
  pose proof (T x y z) as T1. pose proof (T y x z) as T2. pose proof (T z x y) as T3. pose proof (T z y x) as T4.
  pose proof (O x z) as Oxz. pose proof (O y z) as Oyz. rewrite E in *. rewrite E' in *.
  destruct (c x z), (c y z); cbn in *; rewrite ?Oxz, ?Oyz in *; try done; exfalso; try (apply T1; done); try (apply T2; done); try (apply T3; done); try (apply T4; done).
Qed.
Lemma lawful_eq_r {A} (c : A -> A -> comparison) x y z : lawful c -> c x y = Eq -> c z x = c z y.
Proof. intros L E. pose proof (lawful_eq_l c x y z L E) as H. destruct L as [O _]. rewrite (O x z), (O y z), H. done. Qed.
Lemma lawful_list {A} (c : A -> A -> comparison) : lawful c -> lawful (list_cmp c).
Proof.
  intros L. split.
  - intros a. induction a as [|x a IH]; intros [|y b]; cbn; try done. rewrite (proj1 L x y). destruct (c x y); cbn; [apply IH|done|done].
  - intros a. induction a as [|x a IH]; intros [|y b] [|z d]; cbn; try done.
    intros H1 H2. destruct (c x y) eqn:Exy; [|destruct (c y z) eqn:Eyz|done].
    + rewrite (lawful_eq_l c x y z L Exy). destruct (c y z) eqn:Eyz; [by apply (IH b d)|done|done].
    + rewrite <- (lawful_eq_r c y z x L Eyz), Exy. done.
    + assert (c x z = Lt) as ->; [|done].
      pose proof (proj2 L x y z) as T. pose proof (proj2 L y z x) as T2.
      destruct (c x z) eqn:Exz; [|done|exfalso; apply T; congruence].
      exfalso. pose proof (proj1 L x z) as O1. rewrite Exz in O1. cbn in O1. pose proof (proj1 L x y) as O2. rewrite Exy in O2. cbn in O2.
      apply T2; [congruence|congruence|exact O2].
    + done.
Qed.
Lemma lawful_len {A} : lawful (@len_cmp A).
Proof. apply (lawful_on length Nat.compare), lawful_nat. Qed.
Lemma zip_list {A} (c : A -> A -> comparison) a b : cmp_then len_cmp (zip_cmp c) a b = cmp_then len_cmp (list_cmp c) a b.
Proof.
  unfold cmp_then, len_cmp. destruct (Nat.compare_spec (length a) (length b)) as [H| |]; [|done|done].
  revert b H. induction a as [|x a IH]; intros [|y b] H; cbn in *; try done. destruct (c x y); [apply IH; lia|done|done].
Qed.
Lemma lawful_ext {A} (c d : A -> A -> comparison) : (forall x y, c x y = d x y) -> lawful d -> lawful c.
Proof. intros E [O T]. split; [intros; rewrite !E; apply O|]. intros x y z. rewrite !E. apply T. Qed.
Lemma label_cmp_lawful : lawful label_cmp.
Proof.
  unfold label_cmp. apply lawful_then; [apply (lawful_flip (cmp_on label_primary bool_cmp)), lawful_on, lawful_bool|].
  apply lawful_then; [apply lawful_on, lawful_N|]. apply lawful_then; [apply lawful_on, lawful_N|]. apply lawful_then; [apply lawful_on, lawful_N|].
  apply lawful_on, lawful_lex.
Qed.
Lemma label_cmp_eq a b : label_cmp a b = Eq -> a = b.
Proof.
  unfold label_cmp. intros H. repeat (apply cmp_then_eq in H as [? H]). unfold cmp_on in *.
  destruct a as [[f s e] m p], b as [[f' s' e'] m' p']; cbn in *.
  apply N.compare_eq in H1, H2, H3. apply lex_cmp_eq in H. assert (p = p') by (destruct p, p'; done). by subst.
Qed.
Lemma list_cmp_eq {A} (c : A -> A -> comparison) (a b : list A) : (forall x y, c x y = Eq -> x = y) -> list_cmp c a b = Eq -> a = b.
Proof.
  intros H. revert b. induction a as [|x a IH]; intros [|y b]; cbn; try done. destruct (c x y) eqn:E; try done. intros E'. apply H in E as ->. f_equal. auto.
Qed.
Lemma lex_eq x y : lex_cmp x y = Eq -> x = y.
Proof. apply lex_cmp_eq. Qed.
Lemma compare_labels_lawful : lawful compare_labels.
Proof.
  apply (lawful_ext _ (cmp_on (sort_by label_cmp) (cmp_then len_cmp (list_cmp label_cmp)))); [intros; apply zip_list|].
  apply lawful_on, lawful_then; [apply lawful_len|apply lawful_list, label_cmp_lawful].
Qed.
Lemma compare_notes_lawful : lawful compare_notes.
Proof.
  apply (lawful_ext _ (cmp_on (sort_by lex_cmp) (cmp_then len_cmp (list_cmp lex_cmp)))); [done|]. apply lawful_on, lawful_then; [apply lawful_len|apply lawful_list, lawful_lex]. Qed.
Lemma compare_labels_eq a b : compare_labels a b = Eq <-> a ≡ₚ b.
Proof.
  unfold compare_labels. rewrite zip_list. split.
  - intros [_ H]%cmp_then_eq. apply (list_cmp_eq label_cmp) in H; [|apply label_cmp_eq]. rewrite <- (sort_by_perm label_cmp a), <- (sort_by_perm label_cmp b), H. done.
  - intros H. rewrite (sort_by_canonical label_cmp a b label_cmp_lawful label_cmp_eq H).
    apply (lawful_refl (cmp_then len_cmp (list_cmp label_cmp))), lawful_then; [apply lawful_len|apply lawful_list, label_cmp_lawful].
Qed.
Lemma compare_notes_eq a b : compare_notes a b = Eq <-> a ≡ₚ b.
Proof.
  unfold compare_notes. split.
  - intros [_ H]%cmp_then_eq. apply (list_cmp_eq lex_cmp) in H; [|apply lex_eq]. rewrite <- (sort_by_perm lex_cmp a), <- (sort_by_perm lex_cmp b), H. done.
  - intros H. rewrite (sort_by_canonical lex_cmp a b lawful_lex lex_eq H).
    apply (lawful_refl (cmp_then len_cmp (list_cmp lex_cmp))), lawful_then; [apply lawful_len|apply lawful_list, lawful_lex].
Qed.
Lemma diagnostic_cmp_lawful : lawful diagnostic_cmp.
Proof.
  unfold diagnostic_cmp. apply lawful_then; [apply lawful_on, lawful_N|]. apply lawful_then; [apply lawful_on, lawful_N|].
  apply lawful_then; [apply lawful_on, lawful_N|]. apply lawful_then; [apply lawful_on, lawful_lex|].
  apply lawful_then; [apply lawful_on, lawful_N|]. apply lawful_then; [apply lawful_on, lawful_lex|].
  apply lawful_then; [apply lawful_on, compare_labels_lawful|apply lawful_on, compare_notes_lawful].
Qed.
Lemma diagnostic_cmp_eq a b : diagnostic_cmp a b = Eq <-> same_diagnostic a b.
Proof.
  unfold diagnostic_cmp, same_diagnostic. split.
  - intros H. do 7 (apply cmp_then_eq in H as [? H]). unfold cmp_on in *. apply compare_notes_eq in H. apply compare_labels_eq in H6.
    apply lex_cmp_eq in H3, H5. apply N.compare_eq in H0, H1, H2, H4.
    destruct a as [c s m [f st e] ls ns], b as [c' s' m' [f' st' e'] ls' ns']; cbn in *. subst.
    assert (s = s') as -> by (destruct s, s'; done). auto 10.
  - intros (E1 & E2 & E3 & E4 & E5 & E6). unfold cmp_then, cmp_on. rewrite E1, E2, E3, E4, !N.compare_refl.
    rewrite !(lawful_refl lex_cmp lawful_lex). apply compare_labels_eq in E5 as ->. apply compare_notes_eq in E6 as ->. done.
Qed.

(** * Sorting up to sameness *)
Definition canon (d : diagnostic) : diagnostic :=
  Diagnostic (d_code d) (d_severity d) (d_message d) (d_primary d) (sort_by label_cmp (d_labels d)) (sort_by lex_cmp (d_notes d)).
Lemma canon_same d : same_diagnostic d (canon d).
Proof. unfold canon. repeat split; cbn; by rewrite sort_by_perm. Qed.
Lemma canon_cmp a b : diagnostic_cmp (canon a) (canon b) = diagnostic_cmp a b.
Proof.
  pose proof (canon_same a) as Ha. pose proof (canon_same b) as Hb. apply diagnostic_cmp_eq in Ha, Hb.
  rewrite <- (lawful_eq_l _ _ _ _ diagnostic_cmp_lawful Ha). symmetry. apply lawful_eq_r; [apply diagnostic_cmp_lawful|exact Hb].
Qed.
Lemma canon_eq a b : same_diagnostic a b -> canon a = canon b.
Proof.
  intros (E1 & E2 & E3 & E4 & E5 & E6). unfold canon. rewrite E1, E2, E3, E4. f_equal;
    [by apply sort_by_canonical; [apply label_cmp_lawful|apply label_cmp_eq|]|by apply sort_by_canonical; [apply lawful_lex|apply lex_eq|]].
Qed.
Lemma insert_map {A B} (f : A -> B) c d x l : (forall x y, d (f x) (f y) = c x y) -> f <$> insert_by c x l = insert_by d (f x) (f <$> l).
Proof. intros H. induction l as [|y l IH]; cbn; [done|]. rewrite H. destruct (c x y); cbn; [done|done|by f_equal]. Qed.
Lemma sort_map {A B} (f : A -> B) c d l : (forall x y, d (f x) (f y) = c x y) -> f <$> sort_by c l = sort_by d (f <$> l).
Proof. intros H. induction l as [|x l IH]; [done|]. change (f <$> insert_by c x (sort_by c l) = insert_by d (f x) (sort_by d (f <$> l))). rewrite (insert_map f c d) by exact H. rewrite IH. done. Qed.
Lemma canon_canon a : canon (canon a) = canon a.
Proof. apply canon_eq. destruct (canon_same a) as (?&?&?&?&?&?). repeat split; symmetry; done. Qed.
Lemma sort_same l k : l ≡ₚ k -> Forall2 same_diagnostic (sort_diagnostics l) (sort_diagnostics k).
Proof.
  intros H. assert (E : canon <$> sort_diagnostics l = canon <$> sort_diagnostics k).
  { unfold sort_diagnostics. rewrite !(sort_map canon diagnostic_cmp diagnostic_cmp) by apply canon_cmp.
    apply (sorted_unique_on diagnostic_cmp (fun d => canon d = d)).
    - intros x y Hx Hy L1 L2. rewrite <- Hx, <- Hy. apply canon_eq, diagnostic_cmp_eq. unfold cle in *. rewrite (proj1 diagnostic_cmp_lawful x y) in L2.
      destruct (diagnostic_cmp x y); done.
    - rewrite sort_by_perm. apply Forall_forall. intros x Hx. apply elem_of_list_fmap in Hx as (y & -> & _). apply canon_canon.
    - apply sort_by_sorted; [apply lawful_total, diagnostic_cmp_lawful|apply lawful_trans, diagnostic_cmp_lawful].
    - apply sort_by_sorted; [apply lawful_total, diagnostic_cmp_lawful|apply lawful_trans, diagnostic_cmp_lawful].
    - rewrite !sort_by_perm, H. done. }
  revert E. generalize (sort_diagnostics l) (sort_diagnostics k). intros a. induction a as [|x a IH]; intros [|y b] E; [constructor|discriminate E|discriminate E|]. cbn in E.
  injection E as E1 E2 E3 E4 E5 E6 E. constructor; [|auto]. repeat split; try done.
  - rewrite <- (sort_by_perm label_cmp (d_labels x)), E5. apply sort_by_perm.
  - rewrite <- (sort_by_perm lex_cmp (d_notes x)), E6. apply sort_by_perm.
Qed.
