(** The type-relation engine: what it answers, against the rules of
    assignability, and how its answers depend on what it was asked before. *)
From Coq Require Import ZArith Lia.
From stdpp Require Import base decidable numbers sets list.
From Verif Require Import RelateModel RelateSpec RelateWitness RelateProofs RelateMainProofs
  RelateDepthProofs RelateLawProofs.

Local Open Scope N_scope.

(** ** The answers *)

(** No false errors: when a question is answered no, the rules do not relate the
    types; whatever was asked before, whatever the cache forgot, whatever the
    limits, and for recursive types as well. *)
Theorem rejected_not_assignable_partial : forall E keep qs k,
  forgetful keep -> well_formed E -> fixed_tuples E -> no_empty E -> plain E ->
  k_kind k <> StrictSubtype ->
  fst (query E keep k (after E keep qs [])) = false -> ~ meaning E k.
Proof. intros E keep qs k Hf Hw Hx Hn Hp Hk. by apply rejected. Qed.
Print Assumptions rejected_not_assignable_partial.

(** {n: C, v: string} is not {n: D, v: number}, although C and D are recursive. *)
Example loop_rejected :
  well_formed loop /\ fixed_tuples loop /\ no_empty loop /\ plain loop
  /\ fst (query loop keep_all (is_assignable 3 4) []) = false
  /\ ~ meaning loop (is_assignable 3 4).
Proof.
  destruct loop_simple as (Hx & Hn & _).
  split_and!; try done; [exact loop_well_formed|exact loop_plain|].
  by apply (rejected_not_assignable_partial loop keep_all [] _ keep_all_forgetful
    loop_well_formed Hx Hn loop_plain).
Qed.

(** For types that are not recursive, with room in the limits, a question
    answered yes follows by the rules. *)
Theorem accepted_assignable_partial : forall E h keep qs k,
  forgetful keep -> well_formed E -> fixed_tuples E -> no_empty E -> index_alone E ->
  measured E h -> unlimited E -> Forall (roomy E h) qs -> roomy E h k ->
  k_kind k <> StrictSubtype ->
  fst (query E keep k (after E keep qs [])) = true -> meaning E k.
Proof.
  intros E h keep qs k Hf Hw Hx Hn Hi Hm Hu Hq Hr Hk Ha.
  apply (truth_meaning E h Hm (wf_norm E Hw) k Hw Hx Hn Hi Hk).
  by apply (query_truth E keep Hf h Hm Hu (wf_norm E Hw) qs k Hq Hr).
Qed.
Print Assumptions accepted_assignable_partial.

(** If the types are also plain, the answers to all three questions are exactly
    what the rules say. *)
Theorem answers_follow_rules_partial : forall E h keep qs k,
  forgetful keep -> well_formed E -> fixed_tuples E -> no_empty E -> index_alone E -> plain E ->
  measured E h -> unlimited E -> Forall (roomy E h) qs -> roomy E h k ->
  (fst (query E keep k (after E keep qs [])) = true <-> meaning E k).
Proof.
  intros E h keep qs k Hf Hw Hx Hn Hi Hp Hm Hu Hq Hr.
  by apply (query_meaning E keep Hf h Hm Hu (wf_norm E Hw)).
Qed.
Print Assumptions answers_follow_rules_partial.

(** A reference to {a: number, b?: string} may be used as {a: string | number},
    not the other way round; a function that takes more may be used for one that
    takes less. *)
Example flat_answers :
  well_formed flat /\ fixed_tuples flat /\ no_empty flat /\ index_alone flat /\ plain flat
  /\ measured flat flat_depth /\ unlimited flat
  /\ Forall (roomy flat flat_depth)
       [is_assignable 7 10; is_assignable 10 7; is_strict_subtype 11 12; is_comparable 9 1]
  /\ map (fun k => fst (query flat keep_all k []))
       [is_assignable 7 10; is_assignable 10 7; is_strict_subtype 11 12; is_comparable 9 1]
     = [true; false; true; false]
  /\ meaning flat (is_assignable 7 10) /\ ~ meaning flat (is_assignable 10 7)
  /\ meaning flat (is_strict_subtype 11 12).
Proof.
  destruct flat_simple as (Hx & Hn & Hi).
  assert (forall k, roomy flat flat_depth k ->
    (fst (query flat keep_all k []) = true <-> meaning flat k)) as Hall.
  { intros k Hk. by apply (answers_follow_rules_partial flat flat_depth keep_all [] k keep_all_forgetful
      flat_well_formed Hx Hn Hi flat_plain flat_measured flat_unlimited (Forall_nil_2 _)). }
  assert (Forall (roomy flat flat_depth)
    [is_assignable 7 10; is_assignable 10 7; is_strict_subtype 11 12; is_comparable 9 1]) as Hr.
  { repeat constructor; apply Nat.leb_le; by vm_compute. }
  split_and!; try done; try exact flat_well_formed; try exact flat_plain;
    try exact flat_measured; try exact flat_unlimited.
  - apply Hall; [apply Nat.leb_le; by vm_compute|by vm_compute].
  - rewrite <- Hall; [by vm_compute|apply Nat.leb_le; by vm_compute].
  - apply Hall; [apply Nat.leb_le; by vm_compute|by vm_compute].
Qed.

(** ** The questions before *)

(** For types that are not recursive an answer does not depend on what was asked
    before, nor on what the cache keeps. *)
Theorem answers_history_free_partial : forall E h keep keep' qs qs' k,
  forgetful keep -> forgetful keep' ->
  (forall t, st_norm E t = t \/ st_kind E t = KRef (Some (st_norm E t))) ->
  measured E h -> unlimited E ->
  Forall (roomy E h) qs -> Forall (roomy E h) qs' -> roomy E h k ->
  fst (query E keep k (after E keep qs [])) = fst (query E keep' k (after E keep' qs' [])).
Proof.
  intros E h keep keep' qs qs' k Hf Hf' Hn Hm Hu Hq Hq' Hr.
  apply eq_bool_prop_intro. unfold Is_true.
  pose proof (query_truth E keep Hf h Hm Hu Hn qs k Hq Hr) as H1.
  pose proof (query_truth E keep' Hf' h Hm Hu Hn qs' k Hq' Hr) as H2.
  destruct (fst _), (fst _); naive_solver.
Qed.
Print Assumptions answers_history_free_partial.

(** A type may be used as itself and compares to itself: in every store, after
    every history, with every limit. *)
Theorem same_type_related : forall E keep qs t m rk,
  forgetful keep -> rk <> StrictSubtype ->
  fst (query E keep (Key t t rk m) (after E keep qs [])) = true.
Proof. intros E keep qs t m rk Hf. by apply same_type. Qed.
Print Assumptions same_type_related.

(** Every type may be used as [any] or [unknown]. *)
Theorem top_takes_all : forall E keep qs s d m,
  forgetful keep ->
  (forall t, st_norm E t = t \/ st_kind E t = KRef (Some (st_norm E t))) ->
  st_kind E d = KAny \/ st_kind E d = KUnknown ->
  fst (query E keep (Key s d Assignable m) (after E keep qs [])) = true.
Proof. intros E keep qs s d m Hf. by apply to_top. Qed.
Print Assumptions top_takes_all.

(** [never] and [any] may be used as every type; string intrinsics left out (see
    the refutation). *)
Theorem bottom_goes_everywhere_partial : forall E keep qs s d m,
  forgetful keep ->
  (forall t, st_norm E t = t \/ st_kind E t = KRef (Some (st_norm E t))) ->
  (forall t, st_kind E t <> KMapping) ->
  st_kind E s = KAny \/ st_kind E s = KNever ->
  fst (query E keep (Key s d Assignable m) (after E keep qs [])) = true.
Proof. intros E keep qs s d m Hf. by apply from_bottom. Qed.
Print Assumptions bottom_goes_everywhere_partial.

(** No type is a strict subtype of itself, unless the limits allow no step. *)
Theorem strict_subtype_irreflexive : forall E keep qs t m,
  forgetful keep ->
  (0 < l_depth (st_limits E))%nat -> (0 < l_in_progress (st_limits E))%nat ->
  l_steps (st_limits E) <> Some 0%nat ->
  fst (query E keep (Key t t StrictSubtype m) (after E keep qs [])) = false.
Proof. intros E keep qs t m Hf. by apply strict_self. Qed.
Print Assumptions strict_subtype_irreflexive.

Example loop_laws :
  forgetful keep_all
  /\ (forall t, st_norm loop t = t \/ st_kind loop t = KRef (Some (st_norm loop t)))
  /\ (forall t, st_kind flat t <> KMapping)
  /\ map (fun k => fst (query loop keep_all k (after loop keep_all [is_assignable 3 4] [])))
       [is_assignable 3 3; is_assignable 3 0; is_assignable 0 3; is_strict_subtype 3 3]
     = [true; true; true; false].
Proof.
  split_and!; [exact keep_all_forgetful|by left| |by vm_compute].
  intros t Ht. pose proof (flat_plain t) as H. by rewrite Ht in H.
Qed.

(** Comparability does not depend on the order, strict subtypes are not mutual. *)
Theorem comparable_symmetric_partial : forall E h keep qs s d m,
  forgetful keep ->
  (forall t, st_norm E t = t \/ st_kind E t = KRef (Some (st_norm E t))) ->
  measured E h -> unlimited E -> Forall (roomy E h) qs -> roomy E h (Key s d Comparable m) ->
  fst (query E keep (Key s d Comparable m) (after E keep qs []))
  = fst (query E keep (Key d s Comparable m) (after E keep qs [])).
Proof.
  intros E h keep qs s d m Hf Hn Hm Hu Hq Hr.
  assert (roomy E h (Key d s Comparable m)) as Hr'.
  { unfold roomy in *. cbn [k_src k_dst] in *. by rewrite (Nat.add_comm (h d)). }
  apply eq_bool_prop_intro. unfold Is_true.
  pose proof (query_truth E keep Hf h Hm Hu Hn qs _ Hq Hr) as H1.
  pose proof (query_truth E keep Hf h Hm Hu Hn qs _ Hq Hr') as H2.
  pose proof (truth_comparable E h Hm Hn s d m) as H3.
  destruct (fst _), (fst _); naive_solver.
Qed.
Print Assumptions comparable_symmetric_partial.

Theorem strict_subtype_asymmetric_partial : forall E h keep qs s d m,
  forgetful keep ->
  (forall t, st_norm E t = t \/ st_kind E t = KRef (Some (st_norm E t))) ->
  measured E h -> unlimited E -> Forall (roomy E h) qs ->
  roomy E h (Key s d StrictSubtype m) ->
  fst (query E keep (Key s d StrictSubtype m) (after E keep qs [])) = true ->
  fst (query E keep (Key d s StrictSubtype m) (after E keep qs [])) = false.
Proof.
  intros E h keep qs s d m Hf Hn Hm Hu Hq Hr Ha.
  assert (roomy E h (Key d s StrictSubtype m)) as Hr'.
  { unfold roomy in *. cbn [k_src k_dst] in *. by rewrite (Nat.add_comm (h d)). }
  apply (query_truth E keep Hf h Hm Hu Hn qs _ Hq Hr) in Ha.
  apply (truth_strict E h Hm Hn) in Ha.
  apply not_true_is_false. intros H. apply Ha.
  by apply (query_truth E keep Hf h Hm Hu Hn qs _ Hq Hr').
Qed.
Print Assumptions strict_subtype_asymmetric_partial.

(** ** Where the engine departs from this *)

(** What was assumed to end a cycle is kept as an answer when the assumption
    turns out wrong: the answer for C and D changes after A and B were compared,
    from no to a wrong yes. *)
Theorem history_free_refuted : exists E qs k,
  well_formed E /\ fixed_tuples E /\ no_empty E /\ index_alone E /\ plain E /\ unlimited E
  /\ fst (query E keep_all k []) = false /\ ~ meaning E k
  /\ fst (query E keep_all k (after E keep_all qs [])) = true.
Proof.
  exists loop, [is_assignable 3 4], (is_assignable 5 6).
  destruct loop_simple as (Hx & Hn & Hi).
  split_and!; try done;
    [exact loop_well_formed|exact loop_plain|exact loop_unlimited|].
  by apply (rejected_not_assignable_partial loop keep_all [] _ keep_all_forgetful
    loop_well_formed Hx Hn loop_plain).
Qed.
Print Assumptions history_free_refuted.

(** The same happens inside one question put to a fresh context. *)
Theorem fresh_answer_refuted : exists E k,
  well_formed E /\ fixed_tuples E /\ no_empty E /\ index_alone E /\ plain E /\ unlimited E
  /\ fst (query E keep_all k []) = true /\ ~ meaning E k.
Proof.
  exists loop, (is_assignable 7 10).
  destruct loop_simple as (Hx & Hn & Hi).
  split_and!; try done;
    [exact loop_well_formed|exact loop_plain|exact loop_unlimited|].
  by apply (rejected_not_assignable_partial loop keep_all [is_assignable 5 6] _ keep_all_forgetful
    loop_well_formed Hx Hn loop_plain).
Qed.
Print Assumptions fresh_answer_refuted.

(** Types that go deeper than the limit are related whatever they are made of:
    arrays of strings, forty levels deep, as arrays of numbers. *)
Theorem deep_types_refuted : exists E k,
  well_formed E /\ fixed_tuples E /\ no_empty E /\ index_alone E /\ plain E /\ unlimited E
  /\ fst (query E keep_all k []) = true /\ ~ meaning E k.
Proof.
  exists tower, (is_assignable 81 82).
  destruct tower_simple as (Hx & Hn & Hi).
  split_and!; try done;
    [exact tower_well_formed|exact tower_plain|exact tower_unlimited|].
  by apply (rejected_not_assignable_partial tower keep_all [is_assignable 41 42] _ keep_all_forgetful
    tower_well_formed Hx Hn tower_plain).
Qed.
Print Assumptions deep_types_refuted.

(** T may not be used as T | undefined, nor an unresolved conditional type C as
    C | undefined, nor [{}] as {} | undefined. *)
Theorem member_of_union_refuted : exists E s d, Forall2 (fun s d =>
    exists ms, st_kind E d = KUnion ms /\ s ∈ ms /\ assignable_to E false s d
      /\ fst (query E keep_all (is_assignable s d) []) = false) s d
  /\ map (st_kind E) s = [KParam 0; KCond 1 2; KEmpty].
Proof.
  exists odd, [4; 6; 8], [5; 7; 9]. split; [|done].
  repeat constructor; eexists; (split; [done|]); (split; [by left|]); (split; [|done]);
    apply assignable_fold; eapply rule_to_union; [done|by left|apply rule_same|
      done|by left|apply rule_same|done|by left|apply rule_same].
Qed.
Print Assumptions member_of_union_refuted.

(** string | undefined may be used as {}. *)
Theorem undefined_as_empty_refuted : exists E s d,
  o_strict_null (st_opts E) = true /\ st_kind E d = KEmpty
  /\ fst (query E keep_all (is_assignable s d) []) = true /\ ~ assignable_to E false s d.
Proof. exists odd, 10, 8. split_and!; try done. exact odd_not_empty. Qed.
Print Assumptions undefined_as_empty_refuted.

(** [any] and [never] may not be used as Uppercase<string>; [any] may be used as
    [never], and a string as a type parameter. *)
Theorem bottom_as_intrinsic_refuted : exists E any never upper str par,
  st_kind E any = KAny /\ st_kind E never = KNever /\ st_kind E upper = KMapping
  /\ st_kind E str = KString /\ st_kind E par = KParam 0
  /\ fst (query E keep_all (is_assignable any upper) []) = false
  /\ fst (query E keep_all (is_assignable never upper) []) = false
  /\ fst (query E keep_all (is_assignable any never) []) = true
  /\ fst (query E keep_all (is_assignable str par) []) = true.
Proof. by exists odd, 0, 12, 11, 1, 4. Qed.
Print Assumptions bottom_as_intrinsic_refuted.

(** A tuple may be used as a tuple too short for it: three elements as at most
    two, and up to two elements as one. *)
Theorem tuple_length_refuted : exists E,
  forall s d, (s, d) ∈ [(6, 7); (7, 8)] ->
  fst (query E keep_all (is_assignable s d) []) = true
  /\ exists xs ys n, st_kind E s = KTuple xs /\ st_kind E d = KTuple ys
     /\ tuple_length xs n /\ ~ tuple_length ys n.
Proof.
  exists tuples. intros s d Hin.
  apply elem_of_cons in Hin as [[= -> ->]|[[= -> ->]|Hin%elem_of_nil]%elem_of_cons]; [..|done];
    (split; [by vm_compute|]).
  - exists [element 1; element 2; element 4], [element 1; Elem 2 true false false], 3%nat.
    split_and!; try done; vm_compute; lia.
  - exists [element 1; Elem 2 true false false], [element 1], 2%nat.
    split_and!; try done; vm_compute; lia.
Qed.
Print Assumptions tuple_length_refuted.

(** [string, string] may not be used as [...string[]]. *)
Theorem tuple_rest_refuted : exists E s d str arr,
  st_kind E str = KString /\ st_kind E arr = KArray str false
  /\ st_spread E arr = str
  /\ st_kind E s = KTuple [element str; element str]
  /\ st_kind E d = KTuple [Elem arr false true false]
  /\ fst (query E keep_all (is_assignable s d) []) = false.
Proof. by exists tuples, 11, 10, 1, 9. Qed.
Print Assumptions tuple_rest_refuted.

(** number[] may be used as {foo: string, [n: number]: number}: the property is
    not looked for. *)
Theorem array_property_refuted : exists E s d num ps i,
  st_kind E num = KNumber /\ st_kind E s = KArray num false
  /\ st_kind E d = KObject (Shape ps [] [] [i])
  /\ (exists p, p ∈ ps /\ p_optional p = false /\ p_key p = PStr 0)
  /\ fst (query E keep_all (is_assignable s d) []) = true.
Proof.
  exists tuples, 12, 13, 2, [field 0 1], (Indexer 2 2 false). split_and!; try done.
  exists (field 0 1). split_and!; try done. by left.
Qed.
Print Assumptions array_property_refuted.

(** {a: number} may be used as {[k: string]: number}, its intersection with a
    type with a symbol index may not. *)
Theorem intersection_refuted : exists E s ms d x,
  st_kind E s = KInter ms /\ x ∈ ms
  /\ fst (query E keep_all (is_assignable x d) []) = true
  /\ fst (query E keep_all (is_assignable s d) []) = false.
Proof. exists tuples, 16, [14; 15], 17, 14. split_and!; try done. by left. Qed.
Print Assumptions intersection_refuted.
