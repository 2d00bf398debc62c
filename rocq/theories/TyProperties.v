(** C38, C39: unions and intersections of types.  [type_id] is the identity the
    store gives each type; InternProperties.v proves it injective. *)
From Coq Require Import NArith ZArith.
From stdpp Require Import base decidable numbers list.
From Verif Require Import RustStr RustOrd TyModel TySpec TyProofs TyUnionProofs TyIdProofs.

Definition distinct_ids (type_id : ty -> N) : Prop := forall a b, type_id a = type_id b -> a = b.
Example ids_exist : distinct_ids some_id.
Proof. exact some_id_inj. Qed.

(** The order used to sort members is a total order on types. *)
Theorem type_order_total type_id :
  distinct_ids type_id ->
  (forall a b, type_cmp type_id a b = Eq <-> a = b) /\
  (forall a b, type_cmp type_id b a = CompOpp (type_cmp type_id a b)) /\
  (forall a b c, type_cmp type_id a b = Lt -> type_cmp type_id b c = Lt -> type_cmp type_id a c = Lt).
Proof.
  intros H. split; [apply cmp_eq, H|]. split; [intros; by apply cmp_anti|]. intros a b c. by apply lt_trans.
Qed.
Print Assumptions type_order_total.
Example type_order_example :
  type_cmp some_id (TStrLit [97%N]) (TStrLit [97%N; 98%N]) = Lt /\
  type_cmp some_id (TOther KArray 0 [TString]) (TOther KArray 0 [TNumber]) = Gt.
Proof. vm_compute. done. Qed.

(* ------------------------------------------------------------------ *)

(** Order and repetition of the members do not matter. *)
Theorem union_order_free type_id ms ns :
  distinct_ids type_id -> same_members ms ns -> union type_id ms = union type_id ns.
Proof.
  intros H E. apply (ucan_ext type_id H). intros t. rewrite !elem_of_list_fmap. by setoid_rewrite (E _).
Qed.
Print Assumptions union_order_free.
Example union_order_free_example :
  same_members [TNumber; TStrLit [97%N]; TNumber] [TStrLit [97%N]; TNumber] /\
  union some_id [TNumber; TStrLit [97%N]; TNumber] = TUnion [TNumber; TStrLit [97%N]].
Proof.
  split; [|by vm_compute]. intros t. rewrite !elem_of_cons, elem_of_nil. tauto.
Qed.

(** A union of one type is that type; making a union again changes nothing. *)
Theorem union_idempotent type_id t :
  distinct_ids type_id -> made type_id t ->
  union type_id [t] = t /\ canon type_id t = t /\ (forall ms, t = TUnion ms -> union type_id ms = t).
Proof.
  intros H M. assert (canon type_id t = t) as C by (by apply canon_cf, made_cf).
  split; [|split; [done|]].
  - change (canon type_id (TUnion [t]) = t). rewrite <- C at 2. unfold canon at 1. fold (canon type_id).
    cbn [List.map]. rewrite C. apply made_cf in M; [|done].
    rewrite ucan_unfold by done. cbn [existsb]. rewrite !orb_false_r.
    destruct t; try reflexivity; try (rewrite ukept_id; [done|by repeat constructor|by repeat constructor]).
    cbn [is_any is_unknown]. inversion M as [l F P S K L B| |? D]; subst; [|done].
    unfold union_members. cbn [mbind list_bind]. rewrite app_nil_r, ukept_id by done.
    destruct (close_union_cases ms) as [|u| |k Lk Bk]; cbn in L; try Lia.lia; [|done]. destruct B. by do 2 eexists.
  - intros ms ->. exact C.
Qed.
Print Assumptions union_idempotent.

(** [any] absorbs; [unknown] absorbs all but [any]; [never] is dropped; and they
    appear in no other way. *)
Theorem union_special type_id ms :
  distinct_ids type_id -> Forall (made type_id) ms ->
  (union type_id ms = TAny <-> TAny ∈ ms) /\
  (union type_id ms = TUnknown <-> TUnknown ∈ ms /\ TAny ∉ ms) /\
  (union type_id ms = TNever <-> Forall (eq TNever) ms) /\
  union type_id (TNever :: ms) = union type_id ms /\
  (forall l, union type_id ms = TUnion l ->
     2 <= length l /\
     forall t, t ∈ l ->
       t <> TAny /\ t <> TUnknown /\ t <> TNever /\ forall k, t <> TUnion k).
Proof.
  intros H M. assert (Forall (cf type_id) ms) as F by (by apply made_all_cf).
  rewrite union_made by done.
  split; [by apply cf_ucan_any|]. split; [by apply cf_ucan_unknown|]. split; [by apply cf_ucan_never|].
  split.
  - rewrite (union_made type_id H (TNever :: ms)) by (constructor; [apply M_never|done]). by rewrite !ucan_unfold by done.
  - intros l E. pose proof (ucan_cf type_id H ms F) as C. rewrite E in C.
    inversion C as [k F' P S K L B| |? D]; subst; [|done]. split; [done|].
    intros t T. rewrite Forall_forall in P. apply P in T. by destruct t.
Qed.
Print Assumptions union_special.
Example union_special_example :
  Forall (made some_id) [TNever; TUnknown; TString] /\ union some_id [TNever; TUnknown; TString] = TUnknown.
Proof. split; [repeat constructor|by vm_compute]. Qed.

(** The values of a union are exactly the values of its members. *)
Theorem union_values type_id template unique other ms v :
  distinct_ids type_id -> Forall (made type_id) ms ->
  has template unique other (union type_id ms) v <-> exists t, t ∈ ms /\ has template unique other t v.
Proof. intros H M. rewrite union_made by done. by apply has_ucan. Qed.
Print Assumptions union_values.
Example union_values_example :
  union some_id [TBoolLit true; TStrLit [97%N]; TString; TBoolLit false; TNumLit 1; TNumLit 2] =
    TUnion [TString; TBoolLit false; TBoolLit true; TNumLit 1; TNumLit 2].
Proof. by vm_compute. Qed.

(** Nesting does not matter, unless the inner union has both Boolean literals: then
    it may become [boolean]. *)
Theorem union_nesting_partial type_id ms ns :
  distinct_ids type_id -> Forall (made type_id) ms -> Forall (made type_id) ns -> ~ both_booleans ns ->
  union type_id (union type_id ns :: ms) = union type_id (ns ++ ms).
Proof.
  intros H M N B. rewrite (union_made type_id H (_ :: _)), (union_made type_id H ns), (union_made type_id H (_ ++ _)).
  - apply ucan_nest; [done|by apply made_all_cf|by apply made_all_cf|done].
  - by apply Forall_app.
  - done.
  - constructor; [by constructor|done].
Qed.
Print Assumptions union_nesting_partial.
Example union_nesting_example :
  ~ both_booleans [TNumLit 1; TBoolLit true] /\
  union some_id [union some_id [TNumLit 1; TBoolLit true]; TString; TNumber] =
  union some_id [TNumLit 1; TBoolLit true; TString; TNumber].
Proof.
  split; [|by vm_compute]. intros [_ B]. cbn in B. rewrite !elem_of_cons, elem_of_nil in B.
  destruct B as [B|[B|[]]]; done.
Qed.
Theorem union_nesting_refuted :
  exists ms ns, Forall (made some_id) ms /\ Forall (made some_id) ns /\
    union some_id (union some_id ns :: ms) <> union some_id (ns ++ ms).
Proof.
  exists [TStrLit [120%N]], [TBoolLit true; TBoolLit false].
  split; [repeat constructor|]. split; [repeat constructor|]. by vm_compute.
Qed.
Print Assumptions union_nesting_refuted.

(* ------------------------------------------------------------------ *)

Theorem intersection_order_free type_id ms ns :
  distinct_ids type_id -> same_members ms ns -> intersection type_id ms = intersection type_id ns.
Proof.
  intros H E. apply (ican_ext type_id H). intros t. rewrite !elem_of_list_fmap. by setoid_rewrite (E _).
Qed.
Print Assumptions intersection_order_free.
Example intersection_order_example :
  same_members [TUnknown; TOther KObject 1 []; TUnknown] [TOther KObject 1 []; TUnknown] /\
  intersection some_id [TOther KObject 2 []; TOther KObject 1 []; TUnknown] =
    TInter [TOther KObject 1 []; TOther KObject 2 []].
Proof.
  split; [|by vm_compute]. intros t. rewrite !elem_of_cons, elem_of_nil. tauto.
Qed.

(** [never] absorbs; [any] absorbs all but [never]; [unknown] is dropped. *)
Theorem intersection_special type_id ms :
  distinct_ids type_id -> Forall (made type_id) ms ->
  (TNever ∈ ms -> intersection type_id ms = TNever) /\
  (intersection type_id ms = TAny <-> TAny ∈ ms /\ TNever ∉ ms) /\
  (intersection type_id ms = TUnknown <-> Forall (eq TUnknown) ms) /\
  intersection type_id (TUnknown :: ms) = intersection type_id ms /\
  (forall t, made type_id t -> intersection type_id [t] = t).
Proof.
  intros H M. assert (Forall (cf type_id) ms) as F by (by apply made_all_cf).
  split; [|split; [|split; [|split]]].
  - intros N. rewrite inter_made by done. rewrite ican_unfold by done.
    by rewrite (proj2 (is_never_elem ms)).
  - rewrite inter_made by done. by apply cf_ican_any.
  - rewrite inter_made by done. by apply cf_ican_unknown.
  - rewrite (inter_made type_id H ms) by done. rewrite (inter_made type_id H (TUnknown :: ms)) by (constructor; [apply M_unknown|done]).
    by rewrite !ican_unfold by done.
  - intros t Mt. pose proof (made_cf type_id H t Mt) as C.
    rewrite (inter_made type_id H [t]) by (constructor; [done|constructor]). rewrite ican_unfold by done. cbn [existsb]. rewrite !orb_false_r.
    destruct t; try reflexivity; try (rewrite ikept_id; [done|done|by repeat constructor|by repeat constructor]).
    cbn [is_any is_never]. inversion C as [|l F' P S K L B|? D]; subst; [|done].
    unfold inter_members. cbn [mbind list_bind]. rewrite app_nil_r, ikept_id by done.
    destruct (close_inter_cases type_id ms0) as [|u| |k Lk Bk]; cbn in L; try Lia.lia; done.
Qed.
Print Assumptions intersection_special.

(** Without [any], the values of an intersection are exactly the values all its
    members have in common; in every case it is [never] only when there are none. *)
Theorem intersection_values type_id template unique other ms v :
  distinct_ids type_id -> Forall (made type_id) ms -> TAny ∉ ms ->
  has template unique other (intersection type_id ms) v <-> forall t, t ∈ ms -> has template unique other t v.
Proof. intros H M A. rewrite inter_made by done. by apply has_ican. Qed.
Print Assumptions intersection_values.
Theorem intersection_never_empty type_id template unique other ms :
  distinct_ids type_id -> Forall (made type_id) ms -> intersection type_id ms = TNever ->
  ~ exists v, forall t, t ∈ ms -> has template unique other t v.
Proof. intros H M. rewrite inter_made by done. intros E [v X]. eapply has_ican_never; eauto. Qed.
Print Assumptions intersection_never_empty.
Example intersection_never_example :
  intersection some_id [TStrLit [97%N]; TString; TOther KObject 1 []] = TInter [TStrLit [97%N]; TOther KObject 1 []] /\
  intersection some_id [TStrLit [97%N]; TStrLit [98%N]] = TNever /\
  intersection some_id [TString; TUniqueSymbol] = TNever.
Proof. by vm_compute. Qed.

(** Nesting does not matter without [any]. *)
Theorem intersection_nesting_partial type_id ms ns :
  distinct_ids type_id -> Forall (made type_id) ms -> Forall (made type_id) ns -> TAny ∉ ms -> TAny ∉ ns ->
  intersection type_id (intersection type_id ns :: ms) = intersection type_id (ns ++ ms).
Proof.
  intros H M N A B. rewrite (inter_made type_id H (_ :: _)), (inter_made type_id H ns), (inter_made type_id H (_ ++ _)).
  - apply ican_nest; [done|by apply made_all_cf|by apply made_all_cf|done|done].
  - by apply Forall_app.
  - done.
  - constructor; [by constructor|done].
Qed.
Print Assumptions intersection_nesting_partial.
Example intersection_nesting_example :
  intersection some_id [intersection some_id [TString; TOther KObject 1 []]; TStrLit [97%N]] =
    TInter [TStrLit [97%N]; TOther KObject 1 []].
Proof. by vm_compute. Qed.
Theorem intersection_nesting_refuted :
  exists ms ns, Forall (made some_id) ms /\ Forall (made some_id) ns /\
    intersection some_id (intersection some_id ns :: ms) = TNever /\
    intersection some_id (ns ++ ms) = TAny.
Proof.
  exists [TAny], [TStrLit [97%N]; TStrLit [98%N]].
  split; [repeat constructor|]. split; [repeat constructor|]. by vm_compute.
Qed.
Print Assumptions intersection_nesting_refuted.
