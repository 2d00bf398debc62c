(** Property C40: span lookup returns the innermost span. *)
From stdpp Require Import base decidable numbers list.
From Coq Require Import NArith Lia.
From Verif Require Import RustStr SpanModel SpanSpec SpanProofs.

Local Open Scope N_scope.

(** C40: for every collection of spans, in any order and with repetitions, and every
    offset, the query returns the first (shortest) span covering the offset, or none when
    there is none. *)
Theorem query_is_innermost all offset : first_with (fun s => covers s offset) all (query_span (from_spans all) offset).
Proof. apply query_span_ok. Qed.
Print Assumptions query_is_innermost.

Example query_is_innermost_case :
  let all := [Span 0 10 [0; 1]; Span 4 6 [0; 3]; Span 2 8 [0; 2]; Span 5 5 [1; 0]; Span 5 12 [1; 1]] in
  map (query_span (from_spans all)) [0; 5; 6; 9; 11; 12] =
    [Some (Span 0 10 [0; 1]); Some (Span 5 5 [1; 0]); Some (Span 2 8 [0; 2]); Some (Span 5 12 [1; 1]); Some (Span 5 12 [1; 1]); None].
Proof. vm_compute. reflexivity. Qed.

(** C40: the answer does not depend on the order in which the spans were added. *)
Theorem query_order_independent all all' offset : (forall s, s ∈ all <-> s ∈ all') -> query_span (from_spans all) offset = query_span (from_spans all') offset.
Proof.
  intros E. eapply first_with_unique; [|apply query_span_ok]. eapply first_with_ext; [|apply query_span_ok].
  intros s. cbn. by rewrite E.
Qed.
Print Assumptions query_order_independent.

Example query_order_independent_case : forall s, s ∈ [Span 0 3 [0]; Span 0 3 [1]] <-> s ∈ [Span 0 3 [1]; Span 0 3 [0]; Span 0 3 [1]].
Proof. intros s. rewrite !elem_of_cons. tauto. Qed.

(** C40: the span of an identifier is the first of its spans. *)
Theorem span_of_is_first all id : exists r, first_with (fun s => sp_id s = id) all r /\
  span_of (from_spans all) id = (fun s => (sp_start s, sp_end s)) <$> r.
Proof.
  exists (by_id id all None). split.
  - pose proof (by_id_spec id all None ltac:(done)) as H. destruct (by_id id all None) as [m|]; cbn.
    + destruct H as [[?|[A B]] C]; [done|]. split; [done|]. split; [done|]. auto.
    + by destruct H.
  - unfold span_of, from_spans. cbn. by destruct (by_id id all None).
Qed.
Print Assumptions span_of_is_first.

Example span_of_is_first_case : span_of (from_spans [Span 0 9 [1]; Span 3 5 [1]; Span 4 4 [2]]) [1] = Some (3, 5).
Proof. reflexivity. Qed.

(** C40: the searched slices are partitioned by the searched predicate, as the standard
    library's binary search requires. *)
Theorem span_slices_partitioned all offset :
  (forall k k' s s', ix_segments (from_spans all) !! k = Some s -> ix_segments (from_spans all) !! k' = Some s' -> (k <= k')%nat -> seg_end s' <= offset -> seg_end s <= offset) /\
  (forall k k' s s', ix_empties (from_spans all) !! k = Some s -> ix_empties (from_spans all) !! k' = Some s' -> (k <= k')%nat -> sp_start s' < offset -> sp_start s < offset).
Proof.
  split; [apply segments_partitioned|]. intros k k' s s' H H' L E. enough (sp_start s <= sp_start s') by lia. cbn in H, H'. clear E.
  pose proof (empties_sorted all) as S. revert k k' L H H'. induction S as [|x l _ IH F]; intros k k' L H H'; [done|]. destruct k as [|k], k' as [|k']; cbn in H, H'; [|  |lia|].
  - simplify_eq. lia.
  - simplify_eq. rewrite Forall_forall in F. apply elem_of_list_lookup_2 in H'. by apply F.
  - apply (IH k k'); [lia|done|done].
Qed.
Print Assumptions span_slices_partitioned.

Example span_slices_partitioned_case : length (ix_segments (from_spans [Span 0 10 [1]; Span 3 5 [2]; Span 7 7 [3]])) = 3%nat.
Proof. reflexivity. Qed.
