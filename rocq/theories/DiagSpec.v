(** When two diagnostics say the same. *)
From stdpp Require Import base decidable numbers list.
From Verif Require Import RustStr DiagModel.

(** The same diagnostic, up to the order in which its labels and notes are listed. *)
Definition same_diagnostic (a b : diagnostic) : Prop :=
  d_code a = d_code b /\ d_severity a = d_severity b /\ d_message a = d_message b /\ d_primary a = d_primary b /\
  d_labels a ≡ₚ d_labels b /\ d_notes a ≡ₚ d_notes b.
(** [a] comes before or level with [b]. *)
Definition before (cmp : diagnostic -> diagnostic -> comparison) (a b : diagnostic) : Prop := cmp a b <> Gt.
