(** Proofs about TyModel.v: unions and intersections. *)
From Coq Require Import NArith ZArith Lia.
From stdpp Require Import base decidable numbers sorting list.
From Verif Require Import RustStr RustStrProofs RustOrd TyModel TySpec TyProofs.

Section union_proofs.
Context (type_id : ty -> N) (Hid : forall a b, type_id a = type_id b -> a = b).
Notation ltt := (lt_ty type_id).
Notation sad := (sort_and_dedup type_id).
Notation ucan := (union_of_canonical type_id).
Notation ican := (inter_of_canonical type_id).

Definition plain_u (t : ty) : Prop :=
  match t with TAny | TUnknown | TNever | TUnion _ => False | _ => True end.
Definition plain_i (t : ty) : Prop :=
  match t with TAny | TUnknown | TNever | TInter _ => False | _ => True end.

Instance plain_u_dec t : Decision (plain_u t).
Proof. destruct t; cbn; apply _. Defined.
Instance plain_i_dec t : Decision (plain_i t).
Proof. destruct t; cbn; apply _. Defined.

(** Canonical types. *)
Inductive cf : ty -> Prop :=
| cf_union l :
    Forall cf l -> Forall plain_u l -> StronglySorted ltt l ->
    Forall (fun t => union_keeps l t = true) l -> 2 <= length l ->
    ~ (exists a b, l = [TBoolLit a; TBoolLit b]) -> cf (TUnion l)
| cf_inter l :
    Forall cf l -> Forall plain_i l -> StronglySorted ltt l ->
    Forall (fun t => inter_keeps l t = true) l -> 2 <= length l ->
    family_loop type_id no_families l <> None -> cf (TInter l)
| cf_other t : (match t with TUnion _ | TInter _ => False | _ => True end) -> cf t.

Lemma filter_elem (f : ty -> bool) l t : t ∈ List.filter f l <-> t ∈ l /\ f t = true.
Proof. rewrite !elem_of_list_In. apply filter_In. Qed.

Lemma existsb_elem (f : ty -> bool) l : existsb f l = true <-> exists t, t ∈ l /\ f t = true.
Proof.
  rewrite existsb_exists. split; intros (t & A & B); exists t; (split; [|done]); by apply elem_of_list_In.
Qed.
Lemma existsb_ext_elem (f : ty -> bool) l m : (forall t, f t = true -> t ∈ l <-> t ∈ m) -> existsb f l = existsb f m.
Proof.
  intros E. apply eq_true_iff_eq. rewrite !existsb_elem.
  split; intros (t & A & B); exists t; (split; [|done]); by apply (E t B).
Qed.

Lemma union_keeps_ext l m t :
  (forall t, (match t with TBoolean | TNumber | TString | TBigInt | TSymbol => True | _ => False end) -> t ∈ l <-> t ∈ m) ->
  union_keeps l t = union_keeps m t.
Proof.
  intros E. destruct t; cbn [union_keeps]; try done; f_equal; apply existsb_ext_elem; intros []; try done; auto.
Qed.
Lemma inter_keeps_ext l m t :
  (forall t, (match t with TBoolLit _ | TNumLit _ | TStrLit _ | TBigLit _ | TTemplate _ _ | TUniqueSymbol => True | _ => False end) -> t ∈ l <-> t ∈ m) ->
  inter_keeps l t = inter_keeps m t.
Proof.
  intros E. unfold inter_keeps.
  rewrite (existsb_ext_elem is_bool_lit l m), (existsb_ext_elem is_num_lit l m), (existsb_ext_elem is_str_lit l m),
    (existsb_ext_elem is_big_lit l m), (existsb_ext_elem is_template l m), (existsb_ext_elem is_unique_symbol l m);
    first [done|intros []; try done; auto].
Qed.

(** The members after [retain], sorted. *)
Definition ukept (l : list ty) : list ty := sad (List.filter (union_keeps l) l).
Definition ikept (l : list ty) : list ty := sad (List.filter (inter_keeps l) l).
Lemma ukept_elem l t : t ∈ ukept l <-> t ∈ l /\ union_keeps l t = true.
Proof. unfold ukept. by rewrite sad_elem, filter_elem. Qed.
Lemma ikept_elem l t : t ∈ ikept l <-> t ∈ l /\ inter_keeps l t = true.
Proof. unfold ikept. by rewrite sad_elem, filter_elem. Qed.
Lemma ukept_ext l m : (forall t, t ∈ l <-> t ∈ m) -> ukept l = ukept m.
Proof.
  intros E. unfold ukept. apply sad_ext; [done|]. intros t.
  rewrite !filter_elem, (union_keeps_ext l m t), E; [done|]. intros; apply E.
Qed.
Lemma ikept_ext l m : (forall t, t ∈ l <-> t ∈ m) -> ikept l = ikept m.
Proof.
  intros E. unfold ikept. apply sad_ext; [done|]. intros t.
  rewrite !filter_elem, (inter_keeps_ext l m t), E; [done|]. intros; apply E.
Qed.

Lemma ucan_unfold ms :
  ucan ms = if existsb is_any ms then TAny else if existsb is_unknown ms then TUnknown
            else close_union (ukept (union_members ms)).
Proof. done. Qed.

(** The intersection's end, on sorted members. *)
Definition close_inter (l : list ty) : ty :=
  match l with
  | [] => TUnknown
  | [t] => t
  | _ => match family_loop type_id no_families l with None => TNever | Some _ => TInter l end
  end.
Lemma ican_unfold ms :
  ican ms = if existsb is_never ms then TNever else if existsb is_any ms then TAny
            else close_inter (ikept (inter_members ms)).
Proof.
  unfold inter_of_canonical. destruct (existsb is_never ms); [done|]. destruct (existsb is_any ms); [done|].
  fold (ikept (inter_members ms)). destruct (List.filter _ _) as [|x k] eqn:E.
  - unfold ikept. by rewrite E.
  - assert (x ∈ ikept (inter_members ms)) as X. { unfold ikept. rewrite sad_elem, E; [left|done]. }
    unfold ikept in *. rewrite E in *.
    destruct (sad (x :: k)) as [|y [|z r]]; [by apply elem_of_nil in X|done|done].
Qed.

Lemma ucan_ext ms ns : (forall t, t ∈ ms <-> t ∈ ns) -> ucan ms = ucan ns.
Proof.
  intros E. rewrite !ucan_unfold, (existsb_ext_elem is_any ms ns), (existsb_ext_elem is_unknown ms ns) by (intros; apply E).
  rewrite (ukept_ext (union_members ms) (union_members ns)); [done|].
  intros t. unfold union_members. rewrite !elem_of_list_bind. by setoid_rewrite E.
Qed.
Lemma ican_ext ms ns : (forall t, t ∈ ms <-> t ∈ ns) -> ican ms = ican ns.
Proof.
  intros E. rewrite !ican_unfold, (existsb_ext_elem is_never ms ns), (existsb_ext_elem is_any ms ns) by (intros; apply E).
  rewrite (ikept_ext (inter_members ms) (inter_members ns)); [done|].
  intros t. unfold inter_members. rewrite !elem_of_list_bind. by setoid_rewrite E.
Qed.

(** Members of canonical types are plain and canonical. *)
Lemma union_members_cf ms : Forall cf ms -> Forall (fun t => cf t /\ plain_u t) (union_members ms).
Proof.
  induction 1 as [|m ms H _ IH]; [constructor|].
  unfold union_members in *. rewrite bind_cons. apply Forall_app. split; [|done].
  destruct m; try constructor; try (split; [done|done]); try constructor.
  inversion H as [l F1 F2| |? D]; subst; [|done].
  apply Forall_forall. intros t T. rewrite Forall_forall in F1, F2. split; [by apply F1|by apply F2].
Qed.
Lemma inter_members_cf ms : Forall cf ms -> Forall (fun t => cf t /\ plain_i t) (inter_members ms).
Proof.
  induction 1 as [|m ms H _ IH]; [constructor|].
  unfold inter_members in *. rewrite bind_cons. apply Forall_app. split; [|done].
  destruct m; try constructor; try (split; [done|done]); try constructor.
  inversion H as [|l F1 F2|? D]; subst; [|done].
  apply Forall_forall. intros t T. rewrite Forall_forall in F1, F2. split; [by apply F1|by apply F2].
Qed.

Lemma ukept_prim l t :
  (match t with TBoolean | TNumber | TString | TBigInt | TSymbol => True | _ => False end) ->
  t ∈ ukept l <-> t ∈ l.
Proof. rewrite ukept_elem. destruct t; try done; intuition. Qed.
Lemma ikept_narrow l t :
  (match t with TBoolLit _ | TNumLit _ | TStrLit _ | TBigLit _ | TTemplate _ _ | TUniqueSymbol => True | _ => False end) ->
  t ∈ ikept l <-> t ∈ l.
Proof.
  intros C. rewrite ikept_elem. split; [tauto|]. intros H. split; [done|].
  unfold inter_keeps. destruct t; try done; cbn [is_boolean is_number is_string is_bigint is_symbol];
    by rewrite !andb_false_r.
Qed.

Lemma ukept_keeps l : Forall (fun t => union_keeps (ukept l) t = true) (ukept l).
Proof.
  apply Forall_forall. intros t T. rewrite (union_keeps_ext (ukept l) l); [by apply ukept_elem in T as []|apply ukept_prim].
Qed.
Lemma ikept_keeps l : Forall (fun t => inter_keeps (ikept l) t = true) (ikept l).
Proof.
  apply Forall_forall. intros t T. rewrite (inter_keeps_ext (ikept l) l); [by apply ikept_elem in T as []|apply ikept_narrow].
Qed.

(** What [close_union] can give. *)
Variant closes_u : list ty -> ty -> Prop :=
| closes_nil : closes_u [] TNever
| closes_one t : closes_u [t] t
| closes_bool a b : closes_u [TBoolLit a; TBoolLit b] TBoolean
| closes_many l : 2 <= length l -> ~ (exists a b, l = [TBoolLit a; TBoolLit b]) -> closes_u l (TUnion l).
Lemma close_union_cases l : closes_u l (close_union l).
Proof.
  destruct l as [|x [|y [|z r]]]; cbn [close_union]; [apply closes_nil|destruct x; apply closes_one| |].
  - destruct x; try (apply closes_many; [cbn; lia|intros (?&?&?); congruence]).
    destruct y; try (apply closes_many; [cbn; lia|intros (?&?&?); congruence]). apply closes_bool.
  - destruct x; try (apply closes_many; [cbn; lia|intros (?&?&?); congruence]).
    destruct y; (apply closes_many; [cbn; lia|intros (?&?&?); congruence]).
Qed.
Variant closes_i : list ty -> ty -> Prop :=
| closei_nil : closes_i [] TUnknown
| closei_one t : closes_i [t] t
| closei_never l : 2 <= length l -> family_loop type_id no_families l = None -> closes_i l TNever
| closei_many l : 2 <= length l -> family_loop type_id no_families l <> None -> closes_i l (TInter l).
Lemma close_inter_cases l : closes_i l (close_inter l).
Proof.
  destruct l as [|x [|y r]]; unfold close_inter; [apply closei_nil|apply closei_one|].
  destruct (family_loop _ _ _) eqn:E; [apply closei_many|apply closei_never]; try (cbn; lia); congruence.
Qed.

Lemma ucan_cf ms : Forall cf ms -> cf (ucan ms).
Proof.
  intros F. rewrite ucan_unfold. destruct (existsb is_any ms); [by constructor 3|].
  destruct (existsb is_unknown ms); [by constructor 3|].
  apply union_members_cf in F. set (fl := union_members ms) in *.
  assert (Forall (fun t => cf t /\ plain_u t) (ukept fl)) as G.
  { apply Forall_forall. intros t T. apply ukept_elem in T as [T _]. rewrite Forall_forall in F. by apply F. }
  pose proof (ukept_keeps fl) as K. pose proof (sad_sorted type_id Hid (List.filter (union_keeps fl) fl)) as S.
  fold (ukept fl) in S. revert G K S. generalize (ukept fl). intros l G K S.
  destruct (close_union_cases l) as [|t| |l L B]; [by constructor 3| |by constructor 3|].
  - by apply Forall_cons_1 in G as [[G _] _].
  - constructor; [|  |done|done|done|done]; (eapply Forall_impl; [exact G|]; by intros ? []).
Qed.
Lemma ican_cf ms : Forall cf ms -> cf (ican ms).
Proof.
  intros F. rewrite ican_unfold. destruct (existsb is_never ms); [by constructor 3|].
  destruct (existsb is_any ms); [by constructor 3|].
  apply inter_members_cf in F. set (fl := inter_members ms) in *.
  assert (Forall (fun t => cf t /\ plain_i t) (ikept fl)) as G.
  { apply Forall_forall. intros t T. apply ikept_elem in T as [T _]. rewrite Forall_forall in F. by apply F. }
  pose proof (ikept_keeps fl) as K. pose proof (sad_sorted type_id Hid (List.filter (inter_keeps fl) fl)) as S.
  fold (ikept fl) in S. revert G K S. generalize (ikept fl). intros l G K S.
  destruct (close_inter_cases l) as [|t|l L N|l L N]; [by constructor 3| |by constructor 3|].
  - by apply Forall_cons_1 in G as [[G _] _].
  - constructor 2; [|  |done|done|done|done]; (eapply Forall_impl; [exact G|]; by intros ? []).
Qed.

Lemma canon_is_cf t : cf (canon type_id t).
Proof.
  induction t as [t L|k args IH|ms IH|ms IH|d k args IH] using ty_strong_ind.
  - destruct t; try done; by constructor 3.
  - by constructor 3.
  - cbn [canon]. apply ucan_cf. by apply Forall_map.
  - cbn [canon]. apply ican_cf. by apply Forall_map.
  - by constructor 3.
Qed.

Lemma plain_members_u l : Forall plain_u l ->
  existsb is_any l = false /\ existsb is_unknown l = false /\ union_members l = l.
Proof.
  induction 1 as [|t l P _ (A & B & C)]; [done|]. unfold union_members in *. rewrite bind_cons, C. cbn [existsb].
  rewrite A, B. by destruct t.
Qed.
Lemma plain_members_i l : Forall plain_i l ->
  existsb is_never l = false /\ existsb is_any l = false /\ inter_members l = l.
Proof.
  induction 1 as [|t l P _ (A & B & C)]; [done|]. unfold inter_members in *. rewrite bind_cons, C. cbn [existsb].
  rewrite A, B. by destruct t.
Qed.
Lemma ukept_id l : StronglySorted ltt l -> Forall (fun t => union_keeps l t = true) l -> ukept l = l.
Proof.
  intros S K. rewrite <- (sad_id type_id Hid l S) at 2. unfold ukept. apply sad_ext; [done|].
  intros t. rewrite filter_elem. rewrite Forall_forall in K. split; [tauto|]. intros T. split; [done|by apply K].
Qed.
Lemma ikept_id l : StronglySorted ltt l -> Forall (fun t => inter_keeps l t = true) l -> ikept l = l.
Proof.
  intros S K. rewrite <- (sad_id type_id Hid l S) at 2. unfold ikept. apply sad_ext; [done|].
  intros t. rewrite filter_elem. rewrite Forall_forall in K. split; [tauto|]. intros T. split; [done|by apply K].
Qed.

Lemma canon_cf t : cf t -> canon type_id t = t.
Proof.
  induction t as [t L|k args IH|ms IH|ms IH|d k args IH] using ty_strong_ind; intros C.
  - by destruct t.
  - done.
  - inversion C as [l F P S K L B| |? D]; subst; [|done]. cbn [canon].
    assert (List.map (canon type_id) ms = ms) as ->.
    { clear - IH F. induction IH as [|x l Hx _ IHl]; [done|]. apply Forall_cons_1 in F as [Fx F].
      cbn. by rewrite Hx, IHl. }
    rewrite ucan_unfold. destruct (plain_members_u ms P) as (-> & -> & ->). rewrite ukept_id by done.
    destruct (close_union_cases ms); cbn in L; try lia; [|done]. destruct B. by do 2 eexists.
  - inversion C as [|l F P S K L B|? D]; subst; [|done]. cbn [canon].
    assert (List.map (canon type_id) ms = ms) as ->.
    { clear - IH F. induction IH as [|x l Hx _ IHl]; [done|]. apply Forall_cons_1 in F as [Fx F].
      cbn. by rewrite Hx, IHl. }
    rewrite ican_unfold. destruct (plain_members_i ms P) as (-> & -> & ->). rewrite ikept_id by done.
    destruct (close_inter_cases ms); cbn in L; try lia; done.
  - done.
Qed.

Lemma canon_all ms : Forall cf (List.map (canon type_id) ms).
Proof. apply Forall_forall. intros t T. apply elem_of_list_fmap in T as (s & -> & _). apply canon_is_cf. Qed.

Lemma made_cf t : made type_id t -> cf t.
Proof. intros M. destruct M; try by constructor 3. - apply ucan_cf, canon_all. - apply ican_cf, canon_all. Qed.
Lemma map_canon_made ms : Forall (made type_id) ms -> List.map (canon type_id) ms = ms.
Proof. induction 1 as [|t l H _ IH]; [done|]. cbn. by rewrite canon_cf, IH by (by apply made_cf). Qed.
Lemma made_all_cf ms : Forall (made type_id) ms -> Forall cf ms.
Proof. intros F. eapply Forall_impl; [exact F|]. apply made_cf. Qed.
Lemma union_made ms : Forall (made type_id) ms -> union type_id ms = ucan ms.
Proof. intros F. unfold union. by rewrite map_canon_made. Qed.
Lemma inter_made ms : Forall (made type_id) ms -> intersection type_id ms = ican ms.
Proof. intros F. unfold intersection. by rewrite map_canon_made. Qed.

(* ------------------------------------------------------------------ *)
(** * Unions *)

Lemma is_any_elem ms : existsb is_any ms = true <-> TAny ∈ ms.
Proof. rewrite existsb_elem. split; [intros (t & T & E); by destruct t|]. intros; by exists TAny. Qed.
Lemma is_unknown_elem ms : existsb is_unknown ms = true <-> TUnknown ∈ ms.
Proof. rewrite existsb_elem. split; [intros (t & T & E); by destruct t|]. intros; by exists TUnknown. Qed.
Lemma is_never_elem ms : existsb is_never ms = true <-> TNever ∈ ms.
Proof. rewrite existsb_elem. split; [intros (t & T & E); by destruct t|]. intros; by exists TNever. Qed.

Lemma union_members_elem ms t :
  t ∈ union_members ms <->
  (exists l, TUnion l ∈ ms /\ t ∈ l) \/ (t ∈ ms /\ plain_u t).
Proof.
  unfold union_members. rewrite elem_of_list_bind. split.
  - intros (m & T & M). destruct m; try (apply elem_of_nil in T; done); try (apply elem_of_list_singleton in T; subst; by right).
    left. by exists ms0.
  - intros [(l & A & B)|[A B]]; [by exists (TUnion l)|]. exists t. split; [|done].
    destruct t; try done; by apply elem_of_list_singleton.
Qed.
Lemma inter_members_elem ms t :
  t ∈ inter_members ms <->
  (exists l, TInter l ∈ ms /\ t ∈ l) \/ (t ∈ ms /\ plain_i t).
Proof.
  unfold inter_members. rewrite elem_of_list_bind. split.
  - intros (m & T & M). destruct m; try (apply elem_of_nil in T; done); try (apply elem_of_list_singleton in T; subst; by right).
    left. by exists ms0.
  - intros [(l & A & B)|[A B]]; [by exists (TInter l)|]. exists t. split; [|done].
    destruct t; try done; by apply elem_of_list_singleton.
Qed.

Lemma ukept_plain ms : Forall cf ms -> Forall plain_u (ukept (union_members ms)).
Proof.
  intros F. apply union_members_cf in F. rewrite Forall_forall in *. intros t T.
  apply ukept_elem in T as [T _]. by apply F in T as [].
Qed.
Lemma ikept_plain ms : Forall cf ms -> Forall plain_i (ikept (inter_members ms)).
Proof.
  intros F. apply inter_members_cf in F. rewrite Forall_forall in *. intros t T.
  apply ikept_elem in T as [T _]. by apply F in T as [].
Qed.

Lemma close_union_plain l : Forall plain_u l -> close_union l <> TAny /\ close_union l <> TUnknown /\
  (close_union l = TNever <-> l = []).
Proof.
  intros P. destruct (close_union_cases l) as [|t| |l L B]; [done| |done|].
  - apply Forall_cons_1 in P as [P _]. by destruct t.
  - split; [done|]. split; [done|]. split; [done|]. intros ->. by cbn in L; lia.
Qed.

Lemma ukept_nil l : ukept l = [] -> l = [].
Proof.
  intros E. destruct l as [|t l]; [done|]. exfalso.
  assert (forall u, u ∈ t :: l -> union_keeps (t :: l) u = true -> False) as No.
  { intros u U K. assert (u ∈ ukept (t :: l)) as X by (by apply ukept_elem). rewrite E in X. by apply elem_of_nil in X. }
  assert (forall u, u ∈ t :: l -> union_keeps (t :: l) u = false) as No'.
  { intros u U. destruct (union_keeps (t :: l) u) eqn:K; [|done]. by destruct (No u U). }
  assert (exists u, u ∈ t :: l /\ union_keeps (t :: l) u = true) as (u & U & K); [|by rewrite (No' u U) in K].
  destruct (union_keeps (t :: l) t) eqn:K; [exists t; split; [left|done]|].
  assert (forall f, existsb f (t :: l) = true -> (forall x, f x = true -> union_keeps (t :: l) x = true) ->
     exists u, u ∈ t :: l /\ union_keeps (t :: l) u = true) as G.
  { intros f X Y. apply existsb_elem in X as (x & X1 & X2). exists x. auto. }
  destruct t; cbn [union_keeps] in K; try done; apply negb_false_iff in K; eapply G; try exact K; by intros [].
Qed.

Lemma cf_ucan_any ms : Forall cf ms -> ucan ms = TAny <-> TAny ∈ ms.
Proof.
  intros F. rewrite <- is_any_elem, ucan_unfold. destruct (existsb is_any ms); [done|].
  destruct (existsb is_unknown ms); [done|]. split; [|done]. intros E.
  by destruct (close_union_plain _ (ukept_plain ms F)) as [X _].
Qed.
Lemma cf_ucan_unknown ms : Forall cf ms -> ucan ms = TUnknown <-> TUnknown ∈ ms /\ TAny ∉ ms.
Proof.
  intros F. rewrite <- is_any_elem, <- is_unknown_elem, ucan_unfold. destruct (existsb is_any ms); [split; [done|intros []; done]|].
  destruct (existsb is_unknown ms); [done|]. split; [|by intros []]. intros E.
  by destruct (close_union_plain _ (ukept_plain ms F)) as (_ & X & _).
Qed.
Lemma cf_union_inhabited l : cf (TUnion l) -> l <> [].
Proof. intros C ->. inversion C as [l F P S K L| |]; subst; [cbn in L; lia|done]. Qed.
Lemma cf_inter_inhabited l : cf (TInter l) -> l <> [].
Proof. intros C ->. inversion C as [|l F P S K L|]; subst; [cbn in L; lia|done]. Qed.
Lemma cf_ucan_never ms : Forall cf ms -> ucan ms = TNever <-> Forall (eq TNever) ms.
Proof.
  intros F. rewrite ucan_unfold. destruct (existsb is_any ms) eqn:A.
  { split; [done|]. intros X. apply is_any_elem in A. rewrite Forall_forall in X. by apply X in A. }
  destruct (existsb is_unknown ms) eqn:U.
  { split; [done|]. intros X. apply is_unknown_elem in U. rewrite Forall_forall in X. by apply X in U. }
  destruct (close_union_plain _ (ukept_plain ms F)) as (_ & _ & ->). split.
  - intros E. apply ukept_nil in E. apply Forall_forall. intros t T.
    assert (forall u, u ∉ union_members ms) as No by (rewrite E; intros u; apply not_elem_of_nil).
    destruct (decide (plain_u t)) as [P|P].
    + destruct (No t). apply union_members_elem. by right.
    + rewrite Forall_forall in F. destruct t; cbn in P; try tauto.
      * exfalso. assert (existsb is_any ms = true) by (by apply is_any_elem). congruence.
      * exfalso. assert (existsb is_unknown ms = true) by (by apply is_unknown_elem). congruence.
      * exfalso. destruct ms0 as [|x ms0]; [by apply F, cf_union_inhabited in T|].
        destruct (No x). apply union_members_elem. left. exists (x :: ms0). split; [done|left].
  - intros X. assert (union_members ms = []) as ->; [|done]. clear -X. induction X as [|? ? <- _ IH]; [done|exact IH].
Qed.

Section values.
Context (template : N -> list ty -> list N -> Prop) (unique : N -> Prop)
        (other : other_kind -> N -> list ty -> jsval -> Prop).
Notation hs := (has template unique other).

Lemma has_union l v : hs (TUnion l) v <-> exists t, t ∈ l /\ hs t v.
Proof.
  cbn [has]. induction l as [|x l IH]; cbn [foldr].
  - split; [done|]. intros (t & T & _). by apply elem_of_nil in T.
  - rewrite IH. split.
    + intros [H|(t & T & H)]; [exists x; split; [left|done]|exists t; split; [by right|done]].
    + intros (t & T & H). apply elem_of_cons in T as [->|T]; [by left|]. right. by exists t.
Qed.
Lemma has_inter l v : hs (TInter l) v <-> forall t, t ∈ l -> hs t v.
Proof.
  cbn [has]. induction l as [|x l IH]; cbn [foldr].
  - split; [|done]. intros _ t T. by apply elem_of_nil in T.
  - rewrite IH. split.
    + intros [A B] t T. apply elem_of_cons in T as [->|T]; auto.
    + intros H. split; [apply H; left|]. intros t T. apply H. by right.
Qed.

Lemma has_ukept l v : (exists t, t ∈ ukept l /\ hs t v) <-> (exists t, t ∈ l /\ hs t v).
Proof.
  split; intros (t & T & H).
  - exists t. by apply ukept_elem in T as [].
  - destruct (union_keeps l t) eqn:K; [exists t; by rewrite ukept_elem|].
    assert (forall f x, existsb f l = true -> (forall y, f y = true -> y = x) ->
       (match x with TBoolean | TNumber | TString | TBigInt | TSymbol => True | _ => False end) -> hs x v ->
       exists t, t ∈ ukept l /\ hs t v) as G.
    { intros f x E U P Hx. apply existsb_elem in E as (y & Y & Fy). apply U in Fy as ->.
      exists x. split; [by apply ukept_prim|done]. }
    destruct t; cbn [union_keeps] in K; try done; apply negb_false_iff in K; cbn [has] in H.
    + eapply (G _ TSymbol); [exact K|by intros []|done|]. destruct H as (i & ? & ?). by exists i.
    + eapply (G _ TBoolean); [exact K|by intros []|done|]. by eexists.
    + eapply (G _ TNumber); [exact K|by intros []|done|]. by eexists.
    + eapply (G _ TString); [exact K|by intros []|done|]. by eexists.
    + eapply (G _ TBigInt); [exact K|by intros []|done|]. by eexists.
    + eapply (G _ TString); [exact K|by intros []|done|]. destruct H as (i & ? & ?). by exists i.
Qed.

Lemma has_close_union l v : StronglySorted ltt l ->
  hs (close_union l) v <-> exists t, t ∈ l /\ hs t v.
Proof.
  intros S. destruct (close_union_cases l) as [|t|a b|l L B].
  - split; [done|]. intros (t & T & _). by apply elem_of_nil in T.
  - split; [intros H; exists t; split; [left|done]|]. intros (u & U & H). by apply elem_of_list_singleton in U as ->.
  - assert (a <> b) as D.
    { intros ->. inversion S as [|? ? _ F]; subst. apply Forall_cons_1 in F as [F _]. by apply lt_irrefl in F. }
    cbn [has]. split.
    + intros [c ->]. destruct (decide (c = a)) as [->|N].
      * exists (TBoolLit a). split; [left|done].
      * exists (TBoolLit b). split; [right; left|]. cbn. by destruct a, b, c.
    + intros (t & T & H). apply elem_of_cons in T as [->|T]; [by eexists|].
      apply elem_of_list_singleton in T as ->. by eexists.
  - apply has_union.
Qed.

Lemma has_union_members ms v : existsb is_any ms = false -> existsb is_unknown ms = false ->
  (exists t, t ∈ union_members ms /\ hs t v) <-> (exists t, t ∈ ms /\ hs t v).
Proof.
  intros A U. split; intros (t & T & H).
  - apply union_members_elem in T as [(l & L & T)|[T _]]; [|by exists t].
    exists (TUnion l). split; [done|]. apply has_union. by exists t.
  - destruct (decide (plain_u t)) as [P|P].
    + exists t. split; [|done]. apply union_members_elem. by right.
    + destruct t; cbn in P; try tauto.
      * exfalso. assert (existsb is_any ms = true) by (by apply is_any_elem). congruence.
      * exfalso. assert (existsb is_unknown ms = true) by (by apply is_unknown_elem). congruence.
      * apply has_union in H as (u & X & Y). exists u. split; [|done]. apply union_members_elem. left. by exists ms0.
Qed.

Lemma has_ucan ms v : hs (ucan ms) v <-> exists t, t ∈ ms /\ hs t v.
Proof.
  rewrite ucan_unfold. destruct (existsb is_any ms) eqn:A.
  { split; [|done]. intros _. exists TAny. split; [by apply is_any_elem|done]. }
  destruct (existsb is_unknown ms) eqn:U.
  { split; [|done]. intros _. exists TUnknown. split; [by apply is_unknown_elem|done]. }
  rewrite has_close_union by (by apply sad_sorted). by rewrite has_ukept, has_union_members.
Qed.
End values.

(** Nested unions. *)
Lemma bool_lits_differ a b : StronglySorted ltt [TBoolLit a; TBoolLit b] -> a = negb b.
Proof.
  intros S. inversion S as [|? ? _ F]; subst. apply Forall_cons_1 in F as [F _].
  destruct a, b; try done; by apply lt_irrefl in F.
Qed.

Lemma alternatives_elem ms t : TAny ∉ ms -> TUnknown ∉ ms -> 
  t ∈ union_members ms -> t ∈ (ms ≫= alternatives).
Proof.
  intros A U T. apply elem_of_list_bind. apply union_members_elem in T as [(l & L & T)|[T P]].
  - by exists (TUnion l).
  - exists t. split; [|done]. destruct t; try done; by apply elem_of_list_singleton.
Qed.

Lemma union_members_of_result ms t : Forall cf ms -> TAny ∉ ms -> TUnknown ∉ ms -> ~ both_booleans ms ->
  t ∈ union_members [ucan ms] <-> t ∈ ukept (union_members ms).
Proof.
  intros F A U B. rewrite ucan_unfold.
  destruct (existsb is_any ms) eqn:EA; [by apply is_any_elem in EA|].
  destruct (existsb is_unknown ms) eqn:EU; [by apply is_unknown_elem in EU|].
  pose proof (ukept_plain ms F) as P.
  pose proof (sad_sorted type_id Hid (List.filter (union_keeps (union_members ms)) (union_members ms))) as S.
  fold (ukept (union_members ms)) in S.
  assert (forall u, u ∈ ukept (union_members ms) -> u ∈ (ms ≫= alternatives)) as In.
  { intros u X. apply ukept_elem in X as [X _]. by apply alternatives_elem. }
  revert P S In. generalize (ukept (union_members ms)). intros l P S In.
  destruct (close_union_cases l) as [|u|a b|l L Bo].
  - done.
  - apply Forall_cons_1 in P as [P _]. rewrite union_members_elem. split.
    + intros [(l & L & T)|[T _]]; [|done]. apply elem_of_list_singleton in L as <-. done.
    + intros T. right. split; [done|]. by apply elem_of_list_singleton in T as ->.
  - exfalso. apply B. apply bool_lits_differ in S as ->.
    destruct b; split; apply In; first [by left|right; by left].
  - rewrite union_members_elem. split.
    + intros [(k & L' & T)|[T Q]].
      * apply elem_of_list_singleton in L'. by inversion L'; subst.
      * apply elem_of_list_singleton in T as ->. done.
    + intros T. left. exists l. split; [by left|done].
Qed.

Lemma union_members_app a b t : t ∈ union_members (a ++ b) <-> t ∈ union_members a \/ t ∈ union_members b.
Proof. unfold union_members. by rewrite bind_app, elem_of_app. Qed.

Lemma ucan_nest ms ns : Forall cf ms -> Forall cf ns -> ~ both_booleans ns ->
  ucan (ucan ns :: ms) = ucan (ns ++ ms).
Proof.
  intros Fm Fn B.
  rewrite (ucan_unfold (_ :: _)), (ucan_unfold (_ ++ _)), !existsb_app. cbn [existsb].
  assert (is_any (ucan ns) = existsb is_any ns) as ->.
  { apply eq_true_iff_eq. rewrite is_any_elem, <- cf_ucan_any by done. by destruct (ucan ns). }
  destruct (existsb is_any ns) eqn:A; [done|]. cbn [orb]. destruct (existsb is_any ms); [done|].
  assert (TAny ∉ ns) as NA. { rewrite <- is_any_elem. congruence. }
  assert (is_unknown (ucan ns) = existsb is_unknown ns) as ->.
  { apply eq_true_iff_eq. rewrite is_unknown_elem. transitivity (ucan ns = TUnknown); [by destruct (ucan ns)|].
    rewrite cf_ucan_unknown by done. tauto. }
  destruct (existsb is_unknown ns) eqn:U; [done|]. cbn [orb]. destruct (existsb is_unknown ms); [done|].
  assert (TUnknown ∉ ns) as NU. { rewrite <- is_unknown_elem. congruence. }
  f_equal. change (ucan ns :: ms) with ([ucan ns] ++ ms).
  pose proof (fun t => union_members_of_result ns t Fn NA NU B) as R.
  unfold ukept at 1 2. apply sad_ext; [done|]. intros t. rewrite !filter_elem, !union_members_app, R.
  assert (forall t, union_keeps (union_members ([ucan ns] ++ ms)) t = union_keeps (union_members (ns ++ ms)) t) as ->.
  { intros u. apply union_keeps_ext. intros x X. by rewrite !union_members_app, R, ukept_prim. }
  split; [intros [[X|X] K]; (split; [|done])|].
  - apply ukept_elem in X as [X _]. by left.
  - by right.
  - intros [[X|X] K]; (split; [|done]); [|by right]. left. apply ukept_elem. split; [done|].
    destruct (union_keeps (union_members ns) t) eqn:E; [done|]. exfalso.
    assert (forall f, existsb f (union_members ns) = true -> existsb f (union_members (ns ++ ms)) = true) as M.
    { intros f G. apply existsb_elem in G as (y & Y1 & Y2). apply existsb_elem. exists y. rewrite union_members_app. auto. }
    destruct t; cbn [union_keeps] in E, K; try done; apply negb_false_iff in E; apply negb_true_iff in K;
      rewrite (M _ E) in K; done.
Qed.

(* ------------------------------------------------------------------ *)
(** * Intersections *)

(** The family of primitive values a type belongs to. *)
Definition family (t : ty) : option N :=
  match t with
  | TString | TTemplate _ _ | TStrLit _ => Some 1%N
  | TNumber | TNumLit _ => Some 2%N
  | TBoolean | TBoolLit _ => Some 4%N
  | TBigInt | TBigLit _ => Some 8%N
  | TSymbol | TUniqueSymbol => Some 16%N
  | _ => None
  end.
Definition literal (t : ty) : Prop :=
  match t with TStrLit _ | TNumLit _ | TBoolLit _ | TBigLit _ => True | _ => False end.
Instance literal_dec t : Decision (literal t).
Proof. destruct t; cbn; apply _. Defined.
(** Two members no value belongs to. *)
Definition clash (t u : ty) : Prop :=
  (exists f g, family t = Some f /\ family u = Some g /\ f <> g) \/
  (family t = family u /\ literal t /\ literal u /\ t <> u).

Definition slot (f : families) (t : ty) : option ty :=
  match t with
  | TStrLit _ => string_literal f | TNumLit _ => number_literal f
  | TBoolLit _ => bool_literal f | TBigLit _ => bigint_literal f | _ => None
  end.
Definition tracks (f : families) (p : list ty) : Prop :=
  (forall t g, t ∈ p -> family t = Some g -> bits f = g) /\
  (bits f = 0%N \/ exists t, t ∈ p /\ family t = Some (bits f)) /\
  (forall t, t ∈ p -> literal t -> slot f t = Some t) /\
  (forall t u, literal t -> slot f t = Some u -> u ∈ p /\ literal u /\ family u = family t).

Lemma tracks_no_clash f p t u : tracks f p -> t ∈ p -> u ∈ p -> ~ clash t u.
Proof.
  intros (A & _ & C & _) T U [(g & h & G & H & D)|(E & Lt & Lu & D)].
  - apply D. rewrite <- (A _ _ T G). by apply A in H.
  - pose proof (C _ T Lt) as X. pose proof (C _ U Lu) as Y.
    destruct t; try done; destruct u; try done; cbn in X, Y; congruence.
Qed.

Lemma tracks_bits f p : tracks f p -> bits f ∈ [0;1;2;4;8;16]%N.
Proof.
  intros (_ & [->|(t & _ & E)] & _); [left|].
  destruct t; cbn in E; try done; inversion E; repeat first [by left|right].
Qed.

Lemma tracks_step f p t :
  tracks f p ->
  match family_step type_id f t with
  | Some f' => tracks f' (p ++ [t])
  | None => exists u, u ∈ p /\ clash u t
  end.
Proof.
  intros T. pose proof (tracks_bits f p T) as Bs. destruct T as (A & B & C & D).
  (* the family of [t] fits, or clashes with a member seen before *)
  assert (forall g, family t = Some g -> bits f <> 0%N -> bits f <> g -> exists u, u ∈ p /\ clash u t) as Other.
  { intros g G N0 Ng. destruct B as [B|(u & U & Fu)]; [done|]. exists u. split; [done|]. left. by exists (bits f), g. }
  assert (forall u, literal t -> slot f t = Some u -> u <> t -> exists u, u ∈ p /\ clash u t) as Lit.
  { intros u L S N. destruct (D t u L S) as (U & Lu & Fu). exists u. split; [done|]. right. done. }
  assert (forall g f', family t = Some g -> bits f' = g -> (bits f = 0%N \/ bits f = g) ->
     (forall u, literal u -> slot f' u = if decide (literal t) then
          (if decide (family u = family t) then Some t else slot f u) else slot f u) ->
     (literal t -> slot f t = None \/ slot f t = Some t) ->
     tracks f' (p ++ [t])) as Good.
  { intros g f' G E Eb Sl Free. split; [|split; [|split]].
    - intros u h U H. apply elem_of_app in U as [U|U].
      + rewrite E. pose proof (A _ _ U H) as X. destruct Eb as [Eb|Eb]; [|congruence].
        rewrite Eb in X. subst h. by destruct u.
      + apply elem_of_list_singleton in U as ->. congruence.
    - right. exists t. split; [apply elem_of_app; right; by left|congruence].
    - intros u U L. rewrite (Sl u L). apply elem_of_app in U as [U|U].
      + pose proof (C u U L) as X. destruct (decide (literal t)) as [Lt|Lt]; [|done].
        destruct (decide (family u = family t)) as [F|F]; [|done].
        assert (slot f t = Some u) as Y by (destruct u; try done; destruct t; done).
        destruct (Free Lt); congruence.
      + apply elem_of_list_singleton in U as ->. rewrite decide_True by done. by rewrite decide_True.
    - intros u w L. rewrite (Sl u L). destruct (decide (literal t)) as [Lt|Lt].
      + destruct (decide (family u = family t)) as [F|F].
        * intros [= <-]. split; [apply elem_of_app; right; by left|done].
        * intros X. apply (D u w L) in X as (? & ? & ?). split; [apply elem_of_app; by left|done].
      + intros X. apply (D u w L) in X as (? & ? & ?). split; [apply elem_of_app; by left|done]. }
  assert (family t = None -> tracks f (p ++ [t])) as Skip.
  { intros N. split; [|split; [|split]].
    - intros u h U H. apply elem_of_app in U as [U|U]; [by eapply A|].
      apply elem_of_list_singleton in U as ->. congruence.
    - destruct B as [B|(u & U & Fu)]; [by left|]. right. exists u. split; [apply elem_of_app; by left|done].
    - intros u U L. apply elem_of_app in U as [U|U]; [by apply C|].
      apply elem_of_list_singleton in U as ->. by destruct t.
    - intros u w L X. destruct (D u w L X) as (? & ? & ?). split; [apply elem_of_app; by left|done]. }
  destruct f as [bs bl nl sl gl]. cbn [bits] in *. unfold family_step.
  assert (N.eqb (N.land bs (bs - 1)) 0 = true) as Bk.
  { rewrite !elem_of_cons, elem_of_nil in Bs. destruct Bs as [->|[->|[->|[->|[->|[->|[]]]]]]]; done. }
  destruct t; cbn [mbind option_bind bits];
    try (rewrite Bk; by apply Skip).
  all: rewrite !elem_of_cons, elem_of_nil in Bs.
  all: lazymatch goal with |- context [same_literal _ ?prev ?t] =>
    assert ((prev = None \/ prev = Some t) \/ (prev <> None /\ prev <> Some t)) as [Fr|Fr]
      by (destruct prev as [u|]; [|by left; left]; destruct (N.eqb_spec (type_id u) (type_id t)) as [E|E];
          [apply Hid in E as ->; by left; right|right; split; [done|intros [= ->]; done]]);
      [ replace (same_literal type_id prev t) with true by (destruct Fr as [->| ->]; cbn; by rewrite ?N.eqb_refl);
        replace (set_literal prev t) with (Some t) by (destruct Fr as [->| ->]; done)
      | destruct prev as [u|]; [|by destruct Fr as [[] _]];
        assert (u <> t) by (intros ->; by destruct Fr as [_ []]);
        cbn [same_literal]; rewrite (diff_id type_id Hid u t) by done; cbn [mbind option_bind];
        by apply (Lit u) ]
  | _ => idtac
  end.
  all: cbn [mbind option_bind bits].
  all: destruct Bs as [->|[->|[->|[->|[->|[->|[]]]]]]];
    match goal with |- context [N.eqb ?a ?b] => let v := eval vm_compute in (N.eqb a b) in change (N.eqb a b) with v end;
    cbv iota.
  all: first
    [ by eapply Other
    | eapply Good; [reflexivity|done|first [by left|by right]
        |intros []; try done; intros _; cbn; done
        |first [done|intros _; done]] ].
Qed.

Lemma family_loop_clash l : family_loop type_id no_families l = None <-> exists t u, t ∈ l /\ u ∈ l /\ clash t u.
Proof.
  assert (forall l f p, tracks f p ->
     match family_loop type_id f l with
     | Some f' => tracks f' (p ++ l)
     | None => exists t u, t ∈ p ++ l /\ u ∈ p ++ l /\ clash t u
     end) as G.
  { clear l. induction l as [|t l IH]; intros f p T; cbn [family_loop].
    - by rewrite app_nil_r.
    - pose proof (tracks_step f p t T) as St. destruct (family_step type_id f t) as [f'|]; cbn [mbind option_bind].
      + specialize (IH f' (p ++ [t]) St). by rewrite <- app_assoc in IH.
      + destruct St as (u & U & C). exists u, t. rewrite !elem_of_app, !elem_of_cons. auto. }
  assert (tracks no_families []) as T0.
  { split; [|split; [by left|split]].
    - intros t g X. by apply elem_of_nil in X.
    - intros t X. by apply elem_of_nil in X.
    - intros t u _ X. by destruct t. }
  specialize (G l no_families [] T0). cbn [app] in G.
  destruct (family_loop type_id no_families l) as [f|]; [|done].
  split; [done|]. intros (t & u & A & B & C). by destruct (tracks_no_clash f l t u G A B).
Qed.

Lemma clash_empty template unique other t u v :
  clash t u -> has template unique other t v -> has template unique other u v -> False.
Proof.
  intros [(f & g & A & B & D)|(E & Lt & Lu & D)] H K.
  - destruct t; cbn in A; try done; destruct u; cbn in B; try done; cbn in H, K; simplify_eq;
      repeat match goal with X : exists _, _ |- _ => destruct X | X : _ /\ _ |- _ => destruct X end; congruence.
  - destruct t; try done; destruct u; try done; cbn in H, K; simplify_eq.
Qed.

(** A member dropped by [retain] leaves a narrower one of the same family. *)
Lemma ikept_family l t : t ∈ l -> exists u, u ∈ ikept l /\ family u = family t /\
  (literal t -> u = t) /\ (forall te un ot v, has te un ot u v -> has te un ot t v).
Proof.
  intros T. destruct (inter_keeps l t) eqn:K; [exists t; by rewrite ikept_elem|].
  assert (forall f, existsb f l = true -> ~ literal t ->
    (forall x, f x = true -> (match x with TBoolLit _ | TNumLit _ | TStrLit _ | TBigLit _ | TTemplate _ _ | TUniqueSymbol => True | _ => False end)
       /\ family x = family t /\ (forall te un ot v, has te un ot x v -> has te un ot t v)) ->
    exists u, u ∈ ikept l /\ family u = family t /\ (literal t -> u = t) /\ (forall te un ot v, has te un ot u v -> has te un ot t v)) as G.
  { intros f E NL P. apply existsb_elem in E as (x & X & Fx). destruct (P x Fx) as (P1 & P2 & P3).
    exists x. split; [by apply ikept_narrow|]. split; [done|]. split; [by intros L; destruct NL|done]. }
  assert (forall f, existsb f l = false \/ existsb f l = true) as Bo by (intros f; destruct (existsb f l); auto).
  unfold inter_keeps in K.
  destruct t; cbn [is_boolean is_number is_string is_bigint is_symbol] in K;
    rewrite ?andb_false_r, ?andb_true_r in K; cbn [negb andb] in K; try done;
    rewrite ?andb_true_r, ?andb_true_l in K.
  - apply negb_false_iff in K. apply (G _ K); [by intros []|]. intros []; try done. intros _. split; [done|split; [done|]]. cbn. intros; by eexists.
  - apply negb_false_iff in K. apply (G _ K); [by intros []|]. intros []; try done. intros _. split; [done|split; [done|]]. cbn. intros; by eexists.
  - destruct (existsb is_str_lit l) eqn:E.
    + apply (G _ E); [by intros []|]. intros []; try done. intros _. split; [done|split; [done|]]. cbn. intros; by eexists.
    + cbn in K. apply negb_false_iff in K. apply (G _ K); [by intros []|]. intros []; try done. intros _. split; [done|split; [done|]].
      cbn. intros ? ? ? ? (s & -> & _). by eexists.
  - apply negb_false_iff in K. apply (G _ K); [by intros []|]. intros []; try done. intros _. split; [done|split; [done|]]. cbn. intros; by eexists.
  - apply negb_false_iff in K. apply (G _ K); [by intros []|]. intros []; try done. intros _. split; [done|split; [done|]].
    cbn. intros ? ? ? ? (s & -> & _). by eexists.
Qed.

Lemma clash_kept l : (exists t u, t ∈ l /\ u ∈ l /\ clash t u) <-> (exists t u, t ∈ ikept l /\ u ∈ ikept l /\ clash t u).
Proof.
  split.
  - intros (t & u & T & U & C). destruct (ikept_family l t T) as (t' & T' & Ft & Lt & _).
    destruct (ikept_family l u U) as (u' & U' & Fu & Lu & _). exists t', u'. split; [done|]. split; [done|].
    destruct C as [(f & g & A & B & D)|(E & A & B & D)].
    + left. exists f, g. by rewrite Ft, Fu.
    + right. rewrite Lt, Lu by done. done.
  - intros (t & u & T & U & C). apply ikept_elem in T as [T _]. apply ikept_elem in U as [U _]. by exists t, u.
Qed.

Lemma clash_irrefl t : ~ clash t t.
Proof. intros [(f & g & A & B & D)|(_ & _ & _ & D)]; congruence. Qed.

(** The end of [intersection], in terms of the members alone. *)
Lemma close_inter_ikept l :
  ((exists t u, t ∈ l /\ u ∈ l /\ clash t u) -> close_inter (ikept l) = TNever) /\
  (~ (exists t u, t ∈ l /\ u ∈ l /\ clash t u) ->
    close_inter (ikept l) = match ikept l with [] => TUnknown | [t] => t | k => TInter k end).
Proof.
  rewrite clash_kept. split.
  - intros (t & u & T & U & C). destruct (close_inter_cases (ikept l)) as [|x| |k L N].
    + by apply elem_of_nil in T.
    + apply elem_of_list_singleton in T as ->. apply elem_of_list_singleton in U as ->. by apply clash_irrefl in C.
    + done.
    + destruct N. apply family_loop_clash. by exists t, u.
  - intros N. destruct (ikept l) as [|x [|y k]] eqn:E; [done|done|]. unfold close_inter.
    destruct (family_loop _ _ _) eqn:F; [done|]. destruct N. by apply family_loop_clash.
Qed.

Lemma ikept_nil l : ikept l = [] -> l = [].
Proof.
  intros E. destruct l as [|t l]; [done|]. destruct (ikept_family (t :: l) t) as (u & U & _); [left|].
  rewrite E in U. by apply elem_of_nil in U.
Qed.

Section ivalues.
Context (template : N -> list ty -> list N -> Prop) (unique : N -> Prop)
        (other : other_kind -> N -> list ty -> jsval -> Prop).
Notation hs := (has template unique other).

Lemma has_ikept l v : (forall t, t ∈ ikept l -> hs t v) <-> (forall t, t ∈ l -> hs t v).
Proof.
  split; intros H t T.
  - destruct (ikept_family l t T) as (u & U & _ & _ & Im). by apply Im, H.
  - apply H. by apply ikept_elem in T as [].
Qed.
Lemma has_close_inter l v : hs (close_inter (ikept l)) v <-> forall t, t ∈ l -> hs t v.
Proof.
  rewrite <- has_ikept. destruct (close_inter_cases (ikept l)) as [|x|k L N|k L N].
  - split; [|done]. intros _ t T. by apply elem_of_nil in T.
  - split; [|intros H; apply H; left]. intros H t T. by apply elem_of_list_singleton in T as ->.
  - split; [done|]. intros H. apply family_loop_clash in N as (t & u & T & U & C).
    eapply clash_empty; [exact C|by apply H|by apply H].
  - apply has_inter.
Qed.
Lemma has_inter_members ms v : existsb is_never ms = false ->
  (forall t, t ∈ inter_members ms -> hs t v) <-> (forall t, t ∈ ms -> hs t v).
Proof.
  intros A. split; intros H t T.
  - destruct (decide (plain_i t)) as [P|P].
    + apply H. apply inter_members_elem. by right.
    + destruct t; cbn in P; try tauto; try done.
      * exfalso. assert (existsb is_never ms = true) by (by apply is_never_elem). congruence.
      * apply has_inter. intros u U. apply H. apply inter_members_elem. left. by eexists.
  - apply inter_members_elem in T as [(l & L & T)|[T _]]; [|by apply H].
    apply H in L. by apply (proj1 (has_inter template unique other l v) L).
Qed.
Lemma has_ican ms v : TAny ∉ ms -> hs (ican ms) v <-> forall t, t ∈ ms -> hs t v.
Proof.
  intros NA. rewrite ican_unfold. destruct (existsb is_never ms) eqn:A.
  { apply is_never_elem in A. split; [done|]. intros H. by apply H in A. }
  destruct (existsb is_any ms) eqn:U; [by apply is_any_elem in U|].
  by rewrite has_close_inter, has_inter_members.
Qed.
Lemma has_ican_never ms v : ican ms = TNever -> ~ (forall t, t ∈ ms -> hs t v).
Proof.
  rewrite ican_unfold. destruct (existsb is_never ms) eqn:A.
  { apply is_never_elem in A. intros _ H. by apply H in A. }
  destruct (existsb is_any ms) eqn:U; [done|]. intros E.
  rewrite <- has_inter_members by done. rewrite <- has_close_inter, E. by intros [].
Qed.
End ivalues.

Lemma cf_ican_any ms : Forall cf ms -> ican ms = TAny <-> TAny ∈ ms /\ TNever ∉ ms.
Proof.
  intros F. rewrite <- is_any_elem, <- is_never_elem, ican_unfold. destruct (existsb is_never ms); [split; [done|intros []; done]|].
  destruct (existsb is_any ms); [done|]. split; [|by intros []]. intros E. exfalso.
  pose proof (ikept_plain ms F) as P. destruct (close_inter_cases (ikept (inter_members ms))); try done.
  apply Forall_cons_1 in P as [P _]. by subst.
Qed.
Lemma cf_ican_unknown ms : Forall cf ms -> ican ms = TUnknown <-> Forall (eq TUnknown) ms.
Proof.
  intros F. rewrite ican_unfold. destruct (existsb is_never ms) eqn:A.
  { split; [done|]. intros X. apply is_never_elem in A. rewrite Forall_forall in X. by apply X in A. }
  destruct (existsb is_any ms) eqn:U.
  { split; [done|]. intros X. apply is_any_elem in U. rewrite Forall_forall in X. by apply X in U. }
  split.
  - intros E. assert (ikept (inter_members ms) = []) as E'.
    { pose proof (ikept_plain ms F) as P. destruct (close_inter_cases (ikept (inter_members ms))); try done.
      apply Forall_cons_1 in P as [P _]. by subst. }
    apply ikept_nil in E'. apply Forall_forall. intros t T.
    assert (forall u, u ∉ inter_members ms) as No by (rewrite E'; intros u; apply not_elem_of_nil).
    destruct (decide (plain_i t)) as [P|P].
    + destruct (No t). apply inter_members_elem. by right.
    + rewrite Forall_forall in F. destruct t; cbn in P; try tauto.
      * exfalso. assert (existsb is_any ms = true) by (by apply is_any_elem). congruence.
      * exfalso. assert (existsb is_never ms = true) by (by apply is_never_elem). congruence.
      * exfalso. destruct ms0 as [|x ms0]; [by apply F, cf_inter_inhabited in T|].
        destruct (No x). apply inter_members_elem. left. exists (x :: ms0). split; [done|left].
  - intros X. assert (inter_members ms = []) as ->; [|done]. clear -X. induction X as [|? ? <- _ IH]; [done|exact IH].
Qed.

Lemma inter_members_app a b t : t ∈ inter_members (a ++ b) <-> t ∈ inter_members a \/ t ∈ inter_members b.
Proof. unfold inter_members. by rewrite bind_app, elem_of_app. Qed.

Definition clashes (l : list ty) : Prop := exists t u, t ∈ l /\ u ∈ l /\ clash t u.
Lemma clashes_mono l m : (forall t, t ∈ l -> t ∈ m) -> clashes l -> clashes m.
Proof. intros S (t & u & T & U & C). exists t, u. auto. Qed.

Lemma cf_ican_not_any ms : Forall cf ms -> TAny ∉ ms -> ican ms <> TAny.
Proof. intros F N E. apply cf_ican_any in E as []; done. Qed.

Lemma ican_nest ms ns : Forall cf ms -> Forall cf ns -> TAny ∉ ms -> TAny ∉ ns ->
  ican (ican ns :: ms) = ican (ns ++ ms).
Proof.
  intros Fm Fn Am An.
  assert (existsb is_any (ns ++ ms) = false) as A1.
  { destruct (existsb is_any (ns ++ ms)) eqn:E; [|done]. apply is_any_elem, elem_of_app in E as []; done. }
  assert (existsb is_any (ican ns :: ms) = false) as A2.
  { destruct (existsb is_any (ican ns :: ms)) eqn:E; [|done].
    apply is_any_elem, elem_of_cons in E as [E|]; [|done]. symmetry in E. by apply cf_ican_not_any in E. }
  rewrite (ican_unfold (_ :: _)), (ican_unfold (_ ++ _)), A1, A2, existsb_app. cbn [existsb].
  destruct (existsb is_never ms) eqn:Nm; [by rewrite !orb_true_r|]. rewrite !orb_false_r.
  destruct (existsb is_never ns) eqn:Nn; [by rewrite (ican_unfold ns), Nn|].
  change (ican ns :: ms) with ([ican ns] ++ ms).
  assert (existsb is_any ns = false) as A3.
  { destruct (existsb is_any ns) eqn:E; [|done]. by apply is_any_elem in E. }
  destruct (close_inter_ikept (inter_members ns)) as [C1 C2].
  assert (ican ns = close_inter (ikept (inter_members ns))) as EI by (by rewrite ican_unfold, Nn, A3).
  assert (clashes (inter_members ns) \/ ~ clashes (inter_members ns)) as [C|C].
  { unfold clashes. rewrite clash_kept. rewrite <- family_loop_clash.
    destruct (family_loop _ _ _); [right|left]; done. }
  - rewrite EI, C1 by done. cbn [is_never].
    destruct (close_inter_ikept (inter_members (ns ++ ms))) as [-> _]; [done|].
    eapply clashes_mono; [|exact C]. intros t T. apply inter_members_app. by left.
  - assert (ican ns <> TNever /\ forall t, t ∈ inter_members [ican ns] <-> t ∈ ikept (inter_members ns)) as [NN R].
    { rewrite EI, C2 by done. pose proof (ikept_plain ns Fn) as P. revert P.
      generalize (ikept (inter_members ns)). intros [|x [|y k]] P.
      - done.
      - apply Forall_cons_1 in P as [P _]. split; [by intros ->|]. intros t.
        unfold inter_members. rewrite bind_cons. cbn [mbind list_bind]. rewrite app_nil_r. by destruct x.
      - split; [done|]. intros t. unfold inter_members. rewrite bind_cons. cbn [mbind list_bind]. by rewrite app_nil_r. }
    assert (is_never (ican ns) = false) as -> by (by destruct (ican ns)).
    assert (ikept (inter_members ([ican ns] ++ ms)) = ikept (inter_members (ns ++ ms))) as ->; [|done].
    unfold ikept at 1 2. apply sad_ext; [done|]. intros t. rewrite !filter_elem, !inter_members_app, R.
    assert (forall t, inter_keeps (inter_members ([ican ns] ++ ms)) t = inter_keeps (inter_members (ns ++ ms)) t) as ->.
    { intros u. apply inter_keeps_ext. intros x X. by rewrite !inter_members_app, R, ikept_narrow. }
    split; [intros [[X|X] K]; (split; [|done])|].
    + apply ikept_elem in X as [X _]. by left.
    + by right.
    + intros [[X|X] K]; (split; [|done]); [|by right]. left. apply ikept_elem. split; [done|].
      revert K. unfold inter_keeps. rewrite !andb_true_iff, !negb_true_iff, !andb_false_iff.
      assert (forall f, existsb f (inter_members (ns ++ ms)) = false -> existsb f (inter_members ns) = false) as M.
      { intros f G. destruct (existsb f (inter_members ns)) eqn:Y; [|done]. rewrite <- G. symmetry.
        apply existsb_elem in Y as (y & Y1 & Y2). apply existsb_elem. exists y. rewrite inter_members_app. auto. }
      intros (((((K1 & K2) & K3) & K4) & K5) & K6).
      repeat split; match goal with K : existsb ?f _ = false \/ ?b = false |- existsb ?f _ = false \/ ?b = false =>
        destruct K; [left; by apply M|by right] end.
Qed.
End union_proofs.
