(** The order of diagnostics: diagnostics/src/lib.rs 360-430. *)
From stdpp Require Import base decidable numbers list.
From Coq Require Import NArith.
From Verif Require Import RustStr RustOrd.

Local Open Scope N_scope.

(** diagnostics/src/lib.rs: [Span], [Label], [Severity], [Diagnostic]. *)
Record span := Span { span_file : N; span_start : N; span_end : N }.
Record label := Label { label_span : span; label_message : rstr; label_primary : bool }.
Inductive severity := Error | Warning | Note | Help.
Record diagnostic := Diagnostic {
  d_code : rstr; d_severity : severity; d_message : rstr; d_primary : span; d_labels : list label; d_notes : list rstr }.

(** 422-430 [severity_rank]. *)
Definition severity_rank (s : severity) : N := match s with Error => 0 | Warning => 1 | Note => 2 | Help => 3 end.
(** 410-418 [label_cmp]: primary labels first. *)
Definition label_cmp : label -> label -> comparison :=
  cmp_then (fun a b => bool_cmp (label_primary b) (label_primary a))
  (cmp_then (cmp_on (fun a => span_file (label_span a)) N.compare)
  (cmp_then (cmp_on (fun a => span_start (label_span a)) N.compare)
  (cmp_then (cmp_on (fun a => span_end (label_span a)) N.compare)
            (cmp_on label_message lex_cmp)))).
(** 388-394: the loop over the zipped lists. *)
Fixpoint zip_cmp {A} (c : A -> A -> comparison) (a b : list A) : comparison :=
  match a, b with
  | x :: a, y :: b => match c x y with Eq => zip_cmp c a b | r => r end
  | _, _ => Eq
  end.
(** [Vec<String>::cmp]: lexicographic. *)
Fixpoint list_cmp {A} (c : A -> A -> comparison) (a b : list A) : comparison :=
  match a, b with
  | x :: a, y :: b => match c x y with Eq => list_cmp c a b | r => r end
  | [], _ :: _ => Lt
  | _ :: _, [] => Gt
  | [], [] => Eq
  end.
Definition len_cmp {A} (a b : list A) : comparison := Nat.compare (length a) (length b).
(** 381-396 [compare_labels]. *)
Definition compare_labels (a b : list label) : comparison :=
  cmp_then len_cmp (zip_cmp label_cmp) (sort_by label_cmp a) (sort_by label_cmp b).
(** 398-408 [compare_notes]. *)
Definition compare_notes (a b : list rstr) : comparison :=
  cmp_then len_cmp (list_cmp lex_cmp) (sort_by lex_cmp a) (sort_by lex_cmp b).
(** 360-371 [diagnostic_cmp]. *)
Definition diagnostic_cmp : diagnostic -> diagnostic -> comparison :=
  cmp_then (cmp_on (fun a => span_file (d_primary a)) N.compare)
  (cmp_then (cmp_on (fun a => span_start (d_primary a)) N.compare)
  (cmp_then (cmp_on (fun a => span_end (d_primary a)) N.compare)
  (cmp_then (cmp_on d_code lex_cmp)
  (cmp_then (cmp_on (fun a => severity_rank (d_severity a)) N.compare)
  (cmp_then (cmp_on d_message lex_cmp)
  (cmp_then (cmp_on d_labels compare_labels)
            (cmp_on d_notes compare_notes))))))).
(** 373-375 [sort_diagnostics]. *)
Definition sort_diagnostics (l : list diagnostic) : list diagnostic := sort_by diagnostic_cmp l.
