(** Specification of span lookup. *)
From stdpp Require Import base decidable list numbers.
From Coq Require Import NArith.
From Verif Require Import RustStr SpanModel.

Local Open Scope N_scope.

(** A span covers the offsets from its start up to its end; an empty one (end not after
    start) only its start. *)
Definition covers (s : span) (o : N) : Prop :=
  (sp_start s < sp_end s /\ sp_start s <= o < sp_end s) \/ (sp_end s <= sp_start s /\ o = sp_start s).
(** Shorter first, then earlier, then by identifier, then by end. *)
Definition precedes (s t : span) : Prop :=
  sp_end s - sp_start s < sp_end t - sp_start t \/
  (sp_end s - sp_start s = sp_end t - sp_start t /\
   (sp_start s < sp_start t \/
    (sp_start s = sp_start t /\ (lex_cmp (sp_id s) (sp_id t) = Lt \/ (sp_id s = sp_id t /\ sp_end s <= sp_end t))))).
(** The first of the spans with a property. *)
Definition first_with (P : span -> Prop) (all : list span) (r : option span) : Prop :=
  match r with
  | Some s => s ∈ all /\ P s /\ forall t, t ∈ all -> P t -> precedes s t
  | None => forall t, t ∈ all -> ~ P t
  end.
