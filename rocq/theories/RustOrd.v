(** [std::cmp::Ordering] and the comparisons built with it, with their laws. *)
From stdpp Require Import base decidable list numbers sorting.
From Coq Require Import NArith Lia.
From Verif Require Import RustStr RustStrProofs.

Local Open Scope N_scope.

(** [Ordering::then] / [then_with] on comparison functions. *)
Definition cmp_then {A} (c d : A -> A -> comparison) (x y : A) : comparison := match c x y with Eq => d x y | r => r end.
(** Comparing by a key. *)
Definition cmp_on {A B} (f : A -> B) (c : B -> B -> comparison) (x y : A) : comparison := c (f x) (f y).
(** [bool::cmp]: false before true. *)
Definition bool_cmp (x y : bool) : comparison := match x, y with false, true => Lt | true, false => Gt | _, _ => Eq end.
(** A comparison function that comes from a total preorder. *)
Definition lawful {A} (c : A -> A -> comparison) : Prop :=
  (forall x y, c y x = CompOpp (c x y)) /\ (forall x y z, c x y <> Gt -> c y z <> Gt -> c x z <> Gt).

Lemma lawful_refl {A} (c : A -> A -> comparison) : lawful c -> forall x, c x x = Eq.
Proof. intros [O _] x. specialize (O x x). destruct (c x x); done. Qed.
Lemma lawful_N : lawful N.compare.
Proof. split; [intros; apply N.compare_antisym|]. intros x y z. destruct (N.compare_spec x y), (N.compare_spec y z), (N.compare_spec x z); subst; try done; lia. Qed.
Lemma lawful_bool : lawful bool_cmp.
Proof. split; [by intros [] []|by intros [] [] []]. Qed.
Lemma lawful_lex : lawful lex_cmp.
Proof.
  split; [intros; apply lex_cmp_antisym|]. intros x y z A B C. rewrite lex_cmp_antisym in C.
  destruct (lex_cmp z x) eqn:E; try done. destruct (lex_cmp x y) eqn:E1; try done.
  - apply lex_cmp_eq in E1 as ->. rewrite lex_cmp_antisym in E. by destruct (lex_cmp y z).
  - pose proof (lex_cmp_trans _ _ _ E E1) as X. rewrite lex_cmp_antisym in X. by destruct (lex_cmp y z).
Qed.
Lemma lawful_on {A B} (f : A -> B) c : lawful c -> lawful (cmp_on f c).
Proof. intros [O T]. split; unfold cmp_on; eauto. Qed.
Lemma lawful_then {A} (c d : A -> A -> comparison) : lawful c -> lawful d -> lawful (cmp_then c d).
Proof.
  intros [O1 T1] [O2 T2]. split; unfold cmp_then.
  - intros x y. rewrite (O1 x y). destruct (c x y) eqn:E; [apply O2|done|done].
  - intros x y z P Q R.
    assert (c x y <> Gt) as P1 by (by destruct (c x y)). assert (c y z <> Gt) as Q1 by (by destruct (c y z)).
    pose proof (T1 _ _ _ P1 Q1) as C1. destruct (c x z) eqn:E; try done.
    assert (c z x = Eq) as E' by (by rewrite O1, E).
    assert (c y x <> Gt) as X by (apply (T1 _ z _); [done|by rewrite E']). assert (c z y <> Gt) as Y by (apply (T1 _ x _); [by rewrite E'|done]).
    rewrite (O1 x y) in X. rewrite (O1 y z) in Y. destruct (c x y), (c y z); try done. by eapply (T2 x y z).
Qed.
Lemma lawful_flip {A} (c : A -> A -> comparison) : lawful c -> lawful (fun x y => c y x).
Proof. intros [O T]. split; [intros x y; apply O|]. intros x y z P Q. by apply (T z y x). Qed.
Lemma lawful_total {A} (c : A -> A -> comparison) : lawful c -> forall x y, cle c x y \/ cle c y x.
Proof. intros [O _] x y. unfold cle. rewrite (O x y). destruct (c x y); [left|left|right]; done. Qed.
Lemma lawful_trans {A} (c : A -> A -> comparison) : lawful c -> forall x y z, cle c x y -> cle c y z -> cle c x z.
Proof. intros [_ T]. apply T. Qed.
Lemma cmp_then_eq {A} (c d : A -> A -> comparison) x y : cmp_then c d x y = Eq -> c x y = Eq /\ d x y = Eq.
Proof. unfold cmp_then. destruct (c x y); [done|done|done]. Qed.
(** Sorting gives the same list for every permutation, when equal means the same. *)
Lemma sort_by_canonical {A} (c : A -> A -> comparison) l k : lawful c -> (forall x y, c x y = Eq -> x = y) -> l ≡ₚ k -> sort_by c l = sort_by c k.
Proof.
  intros L E P. apply (sorted_unique c).
  - intros x y X Y. apply E. destruct L as [O _]. unfold cle in *. rewrite (O x y) in Y. by destruct (c x y).
  - apply sort_by_sorted; [by apply lawful_total|by apply lawful_trans].
  - apply sort_by_sorted; [by apply lawful_total|by apply lawful_trans].
  - by rewrite !sort_by_perm.
Qed.
