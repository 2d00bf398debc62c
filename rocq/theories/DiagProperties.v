(** C48: the order of diagnostics. *)
From Coq Require Import NArith Sorting.Sorted.
From stdpp Require Import base decidable numbers sorting list.
From Verif Require Import RustStr RustStrProofs RustOrd DiagModel DiagSpec DiagProofs.

Local Open Scope N_scope.

(** The comparison is a total preorder, and two diagnostics are level exactly when they are the
    same up to the order of their labels and notes. *)
Theorem diagnostic_order_total_preorder :
  (forall a, diagnostic_cmp a a = Eq) /\
  (forall a b, diagnostic_cmp b a = CompOpp (diagnostic_cmp a b)) /\
  (forall a b c, before diagnostic_cmp a b -> before diagnostic_cmp b c -> before diagnostic_cmp a c) /\
  (forall a b, diagnostic_cmp a b = Eq <-> same_diagnostic a b).
Proof.
  split; [apply lawful_refl, diagnostic_cmp_lawful|]. split; [apply diagnostic_cmp_lawful|]. split; [apply diagnostic_cmp_lawful|].
  apply diagnostic_cmp_eq.
Qed.
Print Assumptions diagnostic_order_total_preorder.
(** Earlier files and earlier spans come first. *)
Theorem diagnostic_order_by_place a b :
  span_file (d_primary a) < span_file (d_primary b) \/
  (span_file (d_primary a) = span_file (d_primary b) /\ span_start (d_primary a) < span_start (d_primary b)) \/
  (span_file (d_primary a) = span_file (d_primary b) /\ span_start (d_primary a) = span_start (d_primary b) /\ span_end (d_primary a) < span_end (d_primary b)) ->
  diagnostic_cmp a b = Lt.
Proof.
  unfold diagnostic_cmp, cmp_then, cmp_on. intros [H|[[-> H]|[-> [-> H]]]]; rewrite ?N.compare_refl; apply N.compare_lt_iff in H; rewrite H; reflexivity.
Qed.
Print Assumptions diagnostic_order_by_place.

(** Sorting keeps every diagnostic, puts them in order, and gives the same report whatever
    order they were found in, up to the order of labels and notes inside one diagnostic. *)
Theorem sorted_report_deterministic l k : l ≡ₚ k ->
  sort_diagnostics l ≡ₚ l /\ StronglySorted (before diagnostic_cmp) (sort_diagnostics l) /\
  Forall2 same_diagnostic (sort_diagnostics l) (sort_diagnostics k).
Proof.
  intros H. split; [apply sort_by_perm|]. split; [|apply sort_same, H].
  apply sort_by_sorted; [apply lawful_total, diagnostic_cmp_lawful|apply lawful_trans, diagnostic_cmp_lawful].
Qed.
Print Assumptions sorted_report_deterministic.
Definition d1 := Diagnostic [0x41] Warning [0x6D] (Span 1 5 9) [Label (Span 1 5 9) [0x78] true; Label (Span 0 1 2) [0x79] false] [[0x6E]].
Definition d2 := Diagnostic [0x41] Error [0x6D] (Span 1 5 9) [] [].
Definition d3 := Diagnostic [0x42] Error [0x6D] (Span 0 7 9) [] [].
Example sorted_report_case : [d1; d2; d3] ≡ₚ [d3; d1; d2] /\ sort_diagnostics [d1; d2; d3] = [d3; d2; d1] /\ sort_diagnostics [d3; d1; d2] = [d3; d2; d1].
Proof. split; [apply (Permutation_cons_append [d1; d2] d3 : [d3; d1; d2] ≡ₚ [d1; d2; d3]) || (symmetry; exact (Permutation_cons_append [d1; d2] d3))|]. split; vm_compute; reflexivity. Qed.

(** The report itself can depend on the order: diagnostics with the same labels in another
    order stay in the order they were found. *)
Theorem sorted_report_exact_refuted : exists l k, l ≡ₚ k /\ sort_diagnostics l <> sort_diagnostics k.
Proof.
  set (a := Label (Span 0 0 1) [0x61] true). set (b := Label (Span 0 2 3) [0x62] false).
  set (x := Diagnostic [] Error [] (Span 0 0 1) [a; b] []). set (y := Diagnostic [] Error [] (Span 0 0 1) [b; a] []).
  exists [x; y], [y; x]. split; [apply Permutation_swap|]. vm_compute. discriminate.
Qed.
Print Assumptions sorted_report_exact_refuted.
