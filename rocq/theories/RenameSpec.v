(** What renaming should preserve. *)
From Coq Require Import NArith.
From stdpp Require Import base decidable numbers gmap list.
From Verif Require Import RustStr LineModel RenameModel.

(** Looking a name up, from the innermost scope outwards.  Inside a parameter list
    the variables of the function's body are hidden. *)
Fixpoint lookup_name (name : sym -> rstr) (hidden : list sym) (path : list scope) (n : rstr) : option sym :=
  match path with
  | [] => None
  | s :: path =>
      match List.find (fun y => bool_decide (name y = n)) (sc_symbols s) with
      | Some y => if bool_decide (y ∈ hidden) then lookup_name name hidden path n else Some y
      | None => lookup_name name hidden path n
      end
  end.

(** The name of a symbol after renaming. *)
Definition new_name (P : program) (r : renames) (y : sym) : rstr := default (sym_name P y) (r !! y).

(** Programs as the binder makes them: scopes and symbols are distinct, a scope
    has one symbol for a name, symbols know their scope, tokens bear the names
    of symbols declared around them, and exports are at the top. *)
Record wf_program (P : program) : Prop := {
  wf_scopes : NoDup (List.map sc_id (all_scopes P));
  wf_symbols : NoDup (all_scopes P ≫= sc_symbols);
  wf_names : forall s, s ∈ all_scopes P -> NoDup (List.map (sym_name P) (sc_symbols s));
  wf_decl : forall s y, s ∈ all_scopes P -> y ∈ sc_symbols s -> decl_scope P y = sc_id s;
  wf_occs : forall s above o y, s :: above ∈ all_paths P -> o ∈ sc_occs s -> o_sym o = Some y ->
    o_name o = sym_name P y /\ exists d, d ∈ s :: above /\ y ∈ sc_symbols d;
  wf_exported : forall y, y ∈ exported P -> y ∈ sc_symbols (root (scopes P));
}.

(** No [with] statement mentions, from an inner function, a variable of a function
    that is neither top-level nor has a [with] or direct [eval] itself. *)
Definition withs_reach_dynamic (P : program) : Prop :=
  forall s above o y pre w mid d outer,
    s :: above ∈ all_paths P -> o ∈ sc_occs s -> o_sym o = Some y ->
    s :: above = pre ++ w :: mid ++ d :: outer ->
    has_with w = true -> y ∈ sc_symbols d ->
    outer = [] \/ sc_dynamic d = true.

(** Letters, digits, [$] and [_]. *)
Definition ident_start (c : N) : Prop :=
  (97 <= c <= 122 \/ 65 <= c <= 90 \/ c = 36 \/ c = 95)%N.
Definition ident_part (c : N) : Prop := ident_start c \/ (48 <= c <= 57)%N.

(** Names taken one after another from a generator, each with its own condition. *)
Fixpoint take_names (tries : nat) (counter : N) (conds : list (rstr -> bool)) : option (list rstr) :=
  match conds with
  | [] => Some []
  | c :: conds =>
      '(n, counter) ← next_name tries counter c;
      ns ← take_names tries counter conds;
      Some (n :: ns)
  end.

(** A text with parts replaced: it is cut into kept and replaced parts, in order,
    at the given byte positions. *)
Inductive edited : N -> rstr -> list replacement -> rstr -> Prop :=
| edited_end pos kept : edited pos kept [] kept
| edited_step pos kept old rest r reps out :
    r_start r = (pos + str_len kept)%N -> r_end r = (r_start r + str_len old)%N ->
    edited (r_end r) rest reps out ->
    edited pos (kept ++ old ++ rest) (r :: reps) (kept ++ r_text r ++ out).

(** The string literal that starts at byte [start] of the source ends at byte [e]. *)
Inductive literal_body (q : N) : rstr -> Prop :=
| body_nil : literal_body q []
| body_plain c b : c <> q -> c <> 0x5C%N -> literal_body q b -> literal_body q (c :: b)
| body_escape c b : literal_body q b -> literal_body q (0x5C%N :: c :: b).
Definition literal_at (source : rstr) (start e : N) : Prop :=
  exists pre q body rest, source = pre ++ q :: body ++ q :: rest /\ str_len pre = start /\
    (q = 0x22%N \/ q = 0x27%N) /\ literal_body q body /\ e = (start + 2 + str_len body)%N.
