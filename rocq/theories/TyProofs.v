(** Proofs about TyModel.v: the order, and unions. *)
From Coq Require Import NArith ZArith Lia.
From stdpp Require Import base decidable numbers sorting list.
From Verif Require Import RustStr RustStrProofs RustOrd TyModel TySpec.

(** Induction over types with the members' hypotheses. *)
Section ty_ind.
Context (P : ty -> Prop).
Context (Hleaf : forall t, match t with TTemplate _ _ | TUnion _ | TInter _ | TOther _ _ _ => False | _ => True end -> P t).
Context (Htpl : forall k args, Forall P args -> P (TTemplate k args)).
Context (Hu : forall ms, Forall P ms -> P (TUnion ms)).
Context (Hi : forall ms, Forall P ms -> P (TInter ms)).
Context (Ho : forall d k args, Forall P args -> P (TOther d k args)).
Fixpoint ty_strong_ind (t : ty) : P t :=
  let all := fix all (l : list ty) : Forall P l :=
    match l with [] => List.Forall_nil _ | x :: l => List.Forall_cons _ _ _ (ty_strong_ind x) (all l) end in
  match t with
  | TTemplate k args => Htpl k args (all args)
  | TUnion ms => Hu ms (all ms)
  | TInter ms => Hi ms (all ms)
  | TOther d k args => Ho d k args (all args)
  | t => Hleaf t Logic.I
  end.
End ty_ind.

Section order_proofs.
Context (type_id : ty -> N) (Hid : forall a b, type_id a = type_id b -> a = b).
Notation cmp := (type_cmp type_id).

Fixpoint slices (l m : list ty) : comparison :=
  match l, m with
  | [], [] => Eq
  | [], _ :: _ => Lt
  | _ :: _, [] => Gt
  | x :: l, y :: m => cthen (cmp x y) (slices l m)
  end.
Definition own_cmp (a b : ty) : comparison :=
  match a, b with
  | TBoolLit x, TBoolLit y => bool_cmp x y
  | TNumLit x, TNumLit y => Z.compare x y
  | TStrLit x, TStrLit y => lex_cmp x y
  | TBigLit x, TBigLit y => Z.compare x y
  | TUnion l, TUnion m => slices l m
  | TInter l, TInter m => slices l m
  | TTemplate j l, TTemplate k m => cthen (N.compare j k) (slices l m)
  | TOther _ j l, TOther _ k m => cthen (N.compare j k) (slices l m)
  | _, _ => Eq
  end.

Lemma cmp_unfold a b :
  cmp a b = if N.eqb (type_id a) (type_id b) then Eq
            else cthen (N.compare (discriminant a) (discriminant b))
                   (cthen (own_cmp a b) (N.compare (type_id a) (type_id b))).
Proof.
  assert (forall l m,
    (fix slices (l m : list ty) {struct l} : comparison :=
       match l, m with
       | [], [] => Eq
       | [], _ :: _ => Lt
       | _ :: _, [] => Gt
       | x :: l, y :: m => cthen (cmp x y) (slices l m)
       end) l m = slices l m) as E.
  { induction l as [|x l IH]; intros [|y m]; done. }
  destruct a, b; cbn [type_cmp own_cmp]; rewrite ?E; reflexivity.
Qed.

Lemma same_id a b : N.eqb (type_id a) (type_id b) = true <-> a = b.
Proof. rewrite N.eqb_eq. split; [apply Hid|by intros ->]. Qed.
Lemma diff_id a b : a <> b -> N.eqb (type_id a) (type_id b) = false.
Proof. intros D. apply N.eqb_neq. intros E. by apply D, Hid. Qed.

Lemma cmp_eq a b : cmp a b = Eq <-> a = b.
Proof.
  rewrite cmp_unfold. destruct (N.eqb_spec (type_id a) (type_id b)) as [E|D].
  - split; [|done]. intros _. by apply Hid.
  - split; [|by intros ->].
    destruct (discriminant a ?= discriminant b)%N; cbn; [|done|done].
    destruct (own_cmp a b); cbn; [|done|done]. rewrite N.compare_eq_iff. done.
Qed.

(** Antisymmetry. *)
Lemma cthen_opp c d : CompOpp (cthen c d) = cthen (CompOpp c) (CompOpp d).
Proof. by destruct c. Qed.

Lemma cmp_anti a : forall b, cmp b a = CompOpp (cmp a b).
Proof.
  assert (forall l, Forall (fun x => forall b, cmp b x = CompOpp (cmp x b)) l ->
          forall m, slices m l = CompOpp (slices l m)) as SL.
  { induction 1 as [|x l Hx _ IH]; intros [|y m]; try done. cbn [slices].
    by rewrite Hx, IH, cthen_opp. }
  assert (forall x y b, own_cmp y x = CompOpp (own_cmp x y) -> b = y -> cmp y x = CompOpp (cmp x y)) as Main.
  { intros x y _ O _. rewrite (cmp_unfold x y), (cmp_unfold y x), N.eqb_sym.
    destruct (N.eqb (type_id x) (type_id y)); [done|].
    by rewrite O, (N.compare_antisym (discriminant x)), (N.compare_antisym (type_id x)), !cthen_opp. }
  induction a as [t L|k args IH|ms IH|ms IH|d k args IH] using ty_strong_ind; intros b;
    eapply (Main _ _ b); try reflexivity.
  - destruct t; try done; destruct b; try done; cbn [own_cmp].
    + by destruct b, b0.
    + apply Z.compare_antisym.
    + apply lex_cmp_antisym.
    + apply Z.compare_antisym.
  - destruct b; try done. cbn [own_cmp]. by rewrite N.compare_antisym, SL, cthen_opp.
  - destruct b; try done. cbn [own_cmp]. by apply SL.
  - destruct b; try done. cbn [own_cmp]. by apply SL.
  - destruct b; try done. cbn [own_cmp]. by rewrite N.compare_antisym, SL, cthen_opp.
Qed.

(** Transitivity, for three results at once. *)
Definition tri (r1 r2 r3 : comparison) : Prop :=
  match r1, r2 with
  | Eq, r => r3 = r
  | r, Eq => r3 = r
  | Lt, Lt => r3 = Lt
  | Gt, Gt => r3 = Gt
  | _, _ => True
  end.
Lemma tri_then r1 r2 r3 s1 s2 s3 :
  tri r1 r2 r3 -> (r1 = Eq -> r2 = Eq -> tri s1 s2 s3) -> tri (cthen r1 s1) (cthen r2 s2) (cthen r3 s3).
Proof.
  intros A B. destruct r1, r2; cbn in *; subst; cbn; auto; try (by destruct s1); try (by destruct s2).
Qed.
Lemma tri_N a b c : tri (N.compare a b) (N.compare b c) (N.compare a c).
Proof.
  unfold tri. destruct (N.compare_spec a b), (N.compare_spec b c), (N.compare_spec a c); subst; try done; lia.
Qed.
Lemma tri_Z a b c : tri (Z.compare a b) (Z.compare b c) (Z.compare a c).
Proof.
  unfold tri. destruct (Z.compare_spec a b), (Z.compare_spec b c), (Z.compare_spec a c); subst; try done; lia.
Qed.
Lemma tri_lawful {A} (c : A -> A -> comparison) x y z : lawful c -> tri (c x y) (c y z) (c x z).
Proof.
  intros [O T].
  assert (forall a b d, c a b <> Gt -> c b d <> Gt -> c a d = Eq -> c a b = Eq /\ c b d = Eq) as Sq.
  { intros a b d X Y E. assert (c d a <> Gt) as Z by (rewrite O, E; done).
    split.
    - pose proof (T b d a Y Z) as W. rewrite O in W. destruct (c a b); done.
    - pose proof (T d a b Z X) as W. rewrite O in W. destruct (c b d); done. }
  pose proof (T x y z) as T1. pose proof (T z y x) as T2. pose proof (Sq x y z) as S1. pose proof (Sq z y x) as S2.
  rewrite (O x y), (O y z), (O x z) in T2, S2.
  destruct (c x y), (c y z), (c x z); cbn in *; try done;
    try (exfalso; by apply T1); try (exfalso; by apply T2);
    try (destruct S1; done); try (destruct S2; done).
Qed.

Lemma cmp_tri a : forall b c, tri (cmp a b) (cmp b c) (cmp a c).
Proof.
  assert (forall l, Forall (fun x => forall b c, tri (cmp x b) (cmp b c) (cmp x c)) l ->
          forall m n, tri (slices l m) (slices m n) (slices l n)) as SL.
  { induction 1 as [|x l Hx _ IH]; intros [|y m] [|z n]; cbn [slices]; try done.
    - cbn. by destruct (cthen (cmp y z) (slices m n)).
    - cbn. by destruct (cthen (cmp x y) (slices l m)).
    - apply tri_then; [apply Hx|intros; apply IH]. }
  assert (forall x, (forall y z, discriminant x = discriminant y -> discriminant y = discriminant z ->
             tri (own_cmp x y) (own_cmp y z) (own_cmp x z)) ->
          forall y z, tri (cmp x y) (cmp y z) (cmp x z)) as Main.
  { intros x O y z.
    destruct (N.eqb_spec (type_id x) (type_id y)) as [E|Dxy].
    { apply Hid in E as ->. pose proof (proj2 (cmp_eq y y) eq_refl) as ->. done. }
    destruct (N.eqb_spec (type_id y) (type_id z)) as [E|Dyz].
    { apply Hid in E as ->. pose proof (proj2 (cmp_eq z z) eq_refl) as ->. by destruct (cmp x z). }
    destruct (N.eqb_spec (type_id x) (type_id z)) as [E|Dxz].
    { apply Hid in E as ->. pose proof (proj2 (cmp_eq z z) eq_refl) as ->. rewrite (cmp_anti z y).
      assert (cmp z y <> Eq) by (intros E; apply cmp_eq in E; congruence). by destruct (cmp z y). }
    rewrite !cmp_unfold. rewrite !(proj2 (N.eqb_neq _ _)) by done.
    apply tri_then; [apply tri_N|]. intros E1 E2. apply N.compare_eq_iff in E1, E2.
    apply tri_then; [by apply O|]. intros _ _. apply tri_N. }
  induction a as [t L|k args IH|ms IH|ms IH|d k args IH] using ty_strong_ind; apply Main; intros y z D1 D2.
  - destruct t; try done; destruct y as [| | | | | | | | | | | | | | | |[]]; try done;
      destruct z as [| | | | | | | | | | | | | | | |[]]; try done; cbn [own_cmp].
    + apply tri_lawful, lawful_bool.
    + apply tri_Z.
    + apply tri_lawful, lawful_lex.
    + apply tri_Z.
  - destruct y as [| | | | | | | | | | | | | | | |[]]; try done;
      destruct z as [| | | | | | | | | | | | | | | |[]]; try done; cbn [own_cmp].
    apply tri_then; [apply tri_N|]. intros; by apply SL.
  - destruct y as [| | | | | | | | | | | | | | | |[]]; try done;
      destruct z as [| | | | | | | | | | | | | | | |[]]; try done; cbn [own_cmp]. by apply SL.
  - destruct y as [| | | | | | | | | | | | | | | |[]]; try done;
      destruct z as [| | | | | | | | | | | | | | | |[]]; try done; cbn [own_cmp]. by apply SL.
  - destruct d, y as [| | | | | | | | | | | | | | | |[]]; try done;
      destruct z as [| | | | | | | | | | | | | | | |[]]; try done; cbn [own_cmp];
      (apply tri_then; [apply tri_N|]; intros; by apply SL).
Qed.

Lemma cmp_lawful : lawful cmp.
Proof.
  split; [intros; apply cmp_anti|]. intros x y z A B C.
  pose proof (cmp_tri x y z) as T. rewrite C in T. destruct (cmp x y), (cmp y z); done.
Qed.

(* ------------------------------------------------------------------ *)
(** * Sorting and dropping repetitions *)

Definition lt_ty (a b : ty) : Prop := cmp a b = Lt.
Lemma lt_irrefl a : ~ lt_ty a a.
Proof. unfold lt_ty. pose proof (proj2 (cmp_eq a a) eq_refl) as ->. done. Qed.
Lemma lt_trans a b c : lt_ty a b -> lt_ty b c -> lt_ty a c.
Proof. unfold lt_ty. intros A B. pose proof (cmp_tri a b c) as T. by rewrite A, B in T. Qed.

Lemma dedup_from_elem x l t : t ∈ x :: dedup_from type_id x l <-> t ∈ x :: l.
Proof.
  revert x. induction l as [|y l IH]; intros x; cbn [dedup_from]; [done|].
  destruct (N.eqb (type_id x) (type_id y)) eqn:E.
  - apply same_id in E as ->. rewrite IH, !elem_of_cons. tauto.
  - rewrite elem_of_cons, IH, (elem_of_cons (y :: l)). done.
Qed.

Lemma dedup_from_sorted x l :
  StronglySorted (cle cmp) (x :: l) -> StronglySorted lt_ty (x :: dedup_from type_id x l).
Proof.
  revert x. induction l as [|y l IH]; intros x S; cbn [dedup_from]; [by repeat constructor|].
  inversion S as [|? ? S' F]; subst. apply Forall_cons_1 in F as [Fy F].
  destruct (N.eqb (type_id x) (type_id y)) eqn:E.
  - apply same_id in E as ->. apply IH. by inversion S'.
  - specialize (IH y S'). constructor; [done|].
    assert (lt_ty x y) as L.
    { unfold lt_ty. unfold cle in Fy. destruct (cmp x y) eqn:C; [|done|done].
      apply cmp_eq in C as ->. by rewrite N.eqb_refl in E. }
    constructor; [done|]. inversion IH as [|? ? ? F2]; subst.
    eapply Forall_impl; [exact F2|]. intros z. by apply lt_trans.
Qed.

Lemma sad_elem l t : t ∈ sort_and_dedup type_id l <-> t ∈ l.
Proof.
  unfold sort_and_dedup. pose proof (sort_by_perm cmp l) as P.
  rewrite <- P at 2. clear P. destruct (sort_by cmp l) as [|x k]; cbn [dedup]; [done|].
  apply dedup_from_elem.
Qed.

Lemma sad_sorted l : StronglySorted lt_ty (sort_and_dedup type_id l).
Proof.
  unfold sort_and_dedup.
  assert (StronglySorted (cle cmp) (sort_by cmp l)) as S.
  { apply sort_by_sorted; [by apply lawful_total, cmp_lawful|by apply lawful_trans, cmp_lawful]. }
  destruct (sort_by cmp l) as [|x k]; cbn [dedup]; [constructor|]. by apply dedup_from_sorted.
Qed.

Lemma strict_unique l : forall m,
  StronglySorted lt_ty l -> StronglySorted lt_ty m -> (forall t, t ∈ l <-> t ∈ m) -> l = m.
Proof.
  induction l as [|x l IH]; intros [|y m] Sl Sm E.
  - done.
  - exfalso. assert (y ∈ []) as X by (apply E; left). by apply elem_of_nil in X.
  - exfalso. assert (x ∈ []) as X by (apply E; left). by apply elem_of_nil in X.
  - inversion Sl as [|? ? Sl' Fl]; inversion Sm as [|? ? Sm' Fm]; subst.
    rewrite Forall_forall in Fl, Fm.
    assert (x = y) as ->.
    { assert (x ∈ y :: m) as X by (apply E; left). assert (y ∈ x :: l) as Y by (apply E; left).
      apply elem_of_cons in X as [->|X]; [done|]. apply elem_of_cons in Y as [->|Y]; [done|].
      destruct (lt_irrefl x). eapply lt_trans; [by apply Fl|by apply Fm]. }
    f_equal. apply IH; [done|done|]. intros t. split; intros T.
    + assert (t ∈ y :: m) as X by (apply E; by right). apply elem_of_cons in X as [->|X]; [|done].
      destruct (lt_irrefl y). exact (Fl y T).
    + assert (t ∈ y :: l) as X by (apply E; by right). apply elem_of_cons in X as [->|X]; [|done].
      destruct (lt_irrefl y). exact (Fm y T).
Qed.

Lemma sad_ext l m : (forall t, t ∈ l <-> t ∈ m) -> sort_and_dedup type_id l = sort_and_dedup type_id m.
Proof.
  intros E. apply strict_unique; [apply sad_sorted|apply sad_sorted|]. intros t. by rewrite !sad_elem.
Qed.
Lemma sad_id l : StronglySorted lt_ty l -> sort_and_dedup type_id l = l.
Proof. intros S. apply strict_unique; [apply sad_sorted|done|]. intros t. apply sad_elem. Qed.
End order_proofs.
