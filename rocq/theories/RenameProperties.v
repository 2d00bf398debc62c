(** What the minifier's renaming preserves: C41, C42, C43. *)
From Coq Require Import NArith String.
From stdpp Require Import base decidable numbers gmap sets list.
From Verif Require Import RustStr RustOrd LineModel RenameModel RenameSpec RenameProofs RenameBindProofs RenameExamples.
Local Open Scope N_scope.
Local Open Scope list_scope.

(* ------------------------------------------------------------------ *)
(** * C41 *)

(** Renaming always finishes, for every program (also with Annex B functions). *)
Theorem renaming_total P : exists r, assign_names P = Some r.
Proof. rewrite assign_names_steps. apply steps_total. Qed.
Print Assumptions renaming_total.

(** Every reference finds, under the new names, the symbol it found under the old
    ones, and one that found nothing still finds nothing; also in a parameter
    list, where some symbols are [hidden].
    Partial: for programs with no functions hoisted out of blocks, in which no
    [with] statement mentions a variable of an ordinary function around it, and
    for tokens whose symbol is what a lookup of their name finds.  Without these
    it is false: see the three theorems below. *)
Theorem renaming_preserves_binding_partial P r hidden s above o :
  wf_program P -> annex_b P = [] -> withs_reach_dynamic P ->
  assign_names P = Some r ->
  s :: above ∈ all_paths P -> o ∈ sc_occs s ->
  lookup_name (sym_name P) hidden (s :: above) (o_name o) = o_sym o ->
  lookup_name (new_name P r) hidden (s :: above) (apply_occ r o) = o_sym o.
Proof. intros W NB WD. by apply binding. Qed.
Print Assumptions renaming_preserves_binding_partial.


(** The demo program: [total] keeps clear of the global [b] and of [a]'s use. *)
Example renaming_demo :
  wf_program demo /\ annex_b demo = [] /\ withs_reach_dynamic demo /\
  match assign_names demo with
  | Some r =>
      List.map (fun y => r !! y) [5; 6; 7; 8] = [Some (txt "a"); Some (txt "c"); Some (txt "d"); Some (txt "a")] /\
      Forall (fun y => r !! y = None) [1; 2; 3; 4; 9; 10]
  | None => False
  end.
Proof.
  split; [|split; [|split]].
  - apply wf_b_spec. vm_compute. reflexivity.
  - reflexivity.
  - apply withs_b_spec. vm_compute. reflexivity.
  - vm_compute. split; [reflexivity|]. repeat constructor.
Qed.
Example renaming_demo_binding :
  exists above s o, s :: above ∈ all_paths demo /\ o ∈ sc_occs s /\ length above = 2%nat /\ o_sym o = Some 6 /\
    lookup_name (sym_name demo) [] (s :: above) (o_name o) = o_sym o.
Proof.
  eexists _, _, (use "total" 6). split; [|split; [|split; [|split]]].
  - right. right. left.
  - cbn. set_solver.
  - reflexivity.
  - reflexivity.
  - vm_compute. reflexivity.
Qed.

(** With a function hoisted out of a block, a use of a variable between the two
    comes to mean the function. *)
Theorem renaming_hoisted_refuted : exists P r s above o,
  wf_program P /\ withs_reach_dynamic P /\ assign_names P = Some r /\
  s :: above ∈ all_paths P /\ o ∈ sc_occs s /\
  lookup_name (sym_name P) [] (s :: above) (o_name o) = o_sym o /\
  lookup_name (new_name P r) [] (s :: above) (apply_occ r o) <> o_sym o.
Proof.
  eexists hoisted, _, _, _, (use "value" 3). split; [apply wf_b_spec; vm_compute; reflexivity|].
  split; [apply withs_b_spec; vm_compute; reflexivity|]. split; [vm_compute; reflexivity|].
  split; [right; right; right; left|]. split; [cbn; set_solver|]. split; [vm_compute; reflexivity|]. vm_compute. discriminate.
Qed.
Print Assumptions renaming_hoisted_refuted.

(** With a variable that keeps its name because a [with] mentions it, a use of an
    outer variable comes to mean that variable. *)
Theorem renaming_with_refuted : exists P r s above o,
  wf_program P /\ annex_b P = [] /\ assign_names P = Some r /\
  s :: above ∈ all_paths P /\ o ∈ sc_occs s /\
  lookup_name (sym_name P) [] (s :: above) (o_name o) = o_sym o /\
  lookup_name (new_name P r) [] (s :: above) (apply_occ r o) <> o_sym o.
Proof.
  eexists pinned_name, _, _, _, (use "long" 2). split; [apply wf_b_spec; vm_compute; reflexivity|].
  split; [reflexivity|]. split; [vm_compute; reflexivity|].
  split; [right; right; left|]. split; [cbn; set_solver|]. split; [vm_compute; reflexivity|]. vm_compute. discriminate.
Qed.
Print Assumptions renaming_with_refuted.

(** When the binder gave a token another symbol than its name finds, as for
    [catch (x) { var x = 1; }], the token no longer means what it meant. *)
Theorem renaming_catch_var_refuted : exists P r s above o y,
  wf_program P /\ annex_b P = [] /\ withs_reach_dynamic P /\ assign_names P = Some r /\
  s :: above ∈ all_paths P /\ o ∈ sc_occs s /\
  lookup_name (sym_name P) [] (s :: above) (o_name o) = Some y /\
  lookup_name (new_name P r) [] (s :: above) (apply_occ r o) <> Some y.
Proof.
  eexists catch_var, _, _, _, (use "x" 2), 3. split; [apply wf_b_spec; vm_compute; reflexivity|].
  split; [reflexivity|]. split; [apply withs_b_spec; vm_compute; reflexivity|]. split; [vm_compute; reflexivity|].
  split; [right; right; left|]. split; [cbn; set_solver|]. split; [vm_compute; reflexivity|]. vm_compute. discriminate.
Qed.
Print Assumptions renaming_catch_var_refuted.

(** Exported symbols keep their names, and so do all symbols a direct [eval] can see. *)
Theorem renaming_keeps_exports P r y : wf_program P -> annex_b P = [] -> assign_names P = Some r ->
  y ∈ exported P -> new_name P r y = sym_name P y.
Proof.
  intros W NB A Y. unfold new_name. rewrite (kept P NB W r y A); [done|]. unfold keeps_name. by rewrite bool_decide_eq_true_2.
Qed.
Print Assumptions renaming_keeps_exports.
Theorem renaming_keeps_eval P r s above x y : wf_program P -> annex_b P = [] -> assign_names P = Some r ->
  s :: above ∈ all_paths P -> sc_eval s = true -> x ∈ s :: above -> y ∈ sc_symbols x -> new_name P r y = sym_name P y.
Proof. intros W NB A S E X Y. unfold new_name. by rewrite (eval_kept P NB W r s above x y A S E X Y). Qed.
Print Assumptions renaming_keeps_eval.
(** So does a symbol mentioned inside a [with] and declared at or around it: a
    property of the object may hide it. *)
Theorem renaming_keeps_with P r s above o y pre w post d : wf_program P -> annex_b P = [] -> assign_names P = Some r ->
  s :: above ∈ all_paths P -> o ∈ sc_occs s -> o_sym o = Some y -> s :: above = pre ++ w :: post ->
  has_with w = true -> d ∈ w :: post -> y ∈ sc_symbols d -> new_name P r y = sym_name P y.
Proof. intros W NB A S O E Eq H D Y. unfold new_name. by rewrite (with_kept P NB W r s above o y pre w post d A S O E Eq H D Y). Qed.
Print Assumptions renaming_keeps_with.
Example renaming_keeps_demo : (exists above s, s :: above ∈ all_paths demo /\ sc_eval s = true) /\
  (exists above s o, s :: above ∈ all_paths demo /\ o ∈ sc_occs s /\ o_sym o = Some 1 /\ has_with s = true).
Proof.
  split.
  - eexists _, _. split; [right; right; right; left|]. reflexivity.
  - eexists _, _, (use "count" 1). split; [right; right; right; right; left|]. split; [cbn; set_solver|]. split; reflexivity.
Qed.

(** New names are not reserved words, and symbols of a scope have different names. *)
Theorem renaming_fresh P r s y n : wf_program P -> annex_b P = [] -> assign_names P = Some r ->
  s ∈ all_scopes P -> y ∈ sc_symbols s -> r !! y = Some n -> n ∉ reserved_names.
Proof. intros W NB. by apply renamed_fresh. Qed.
Print Assumptions renaming_fresh.
Theorem renaming_distinct P r s y z : wf_program P -> annex_b P = [] -> assign_names P = Some r ->
  s ∈ all_scopes P -> y ∈ sc_symbols s -> z ∈ sc_symbols s -> new_name P r y = new_name P r z -> y = z.
Proof. intros W NB. by apply distinct_names. Qed.
Print Assumptions renaming_distinct.

(* ------------------------------------------------------------------ *)
(** * C42 *)

(** Names taken from one generator are different, allowed each in its turn, and
    identifiers. *)
Theorem generated_names tries counter conds ns : take_names tries counter conds = Some ns ->
  NoDup ns /\ Forall2 (fun n (allowed : rstr -> bool) => allowed n = true) ns conds /\
  Forall (fun n => exists c cs, n = c :: cs /\ ident_start c /\ Forall ident_part cs) ns.
Proof.
  intros H. apply take_names_spec in H as (A & B & C). split; [done|]. split; [done|].
  eapply Forall_impl; [exact B|]. cbn. intros n (k & _ & ->). apply encode_ident.
Qed.
Print Assumptions generated_names.
Example generated_names_demo :
  let avoid := fun l (n : rstr) => negb (bool_decide (n ∈ List.map txt l)) in
  take_names 9 53 [avoid []; avoid ["ab"; "bb"]%string; avoid []] = Some [txt "_"; txt "cb"; txt "db"].
Proof. vm_compute. reflexivity. Qed.

(** Names are not skipped: the name given is the first allowed one. *)
Theorem generated_name_first tries counter allowed n counter' : next_name tries counter allowed = Some (n, counter') ->
  exists k, counter <= k /\ counter' = k + 1 /\ n = encode k /\ allowed n = true /\
    forall j, counter <= j < k -> allowed (encode j) = false.
Proof. intros H. apply next_name_spec in H as (k & A & -> & -> & B & C). by exists k. Qed.
Print Assumptions generated_name_first.

(** However many names are to be avoided, one more than that many tries is enough. *)
Theorem generator_terminates (avoid : gset rstr) counter tries : (size avoid < tries)%nat ->
  exists n counter', next_name tries counter (fun n => negb (bool_decide (n ∈ avoid))) = Some (n, counter').
Proof. apply next_name_total. Qed.
Print Assumptions generator_terminates.

(** Different counters give different names. *)
Theorem generated_injective n m : encode n = encode m -> n = m.
Proof. apply encode_inj. Qed.
Print Assumptions generated_injective.
Example names_far_apart : encode 53 = txt "_" /\ encode 54 = txt "ab" /\ encode 107 = txt "_b" /\ encode 108 = txt "ac" /\ encode 100000000000 <> encode 3.
Proof. vm_compute. repeat split; congruence. Qed.

(* ------------------------------------------------------------------ *)
(** * C43 *)

(** Replacements that start at different places and do not overlap, given in any
    order, are all made and nothing else is changed. *)
Theorem rewrite_edits source reps rs out : NoDup (List.map r_start reps) -> rs ≡ₚ List.map (extend source) reps ->
  edited 0 source rs out -> rewrite_source source reps = Some out.
Proof. apply rewrite_any. Qed.
Print Assumptions rewrite_edits.
Example rewrite_edits_demo : let source := txt "let long = other + 1" in
  let reps := [Rep 11 16 (txt "b"); Rep 4 8 (txt "a")] in
  NoDup (List.map r_start reps) /\ edited 0 source [Rep 4 8 (txt "a"); Rep 11 16 (txt "b")] (txt "let a = b + 1") /\
  rewrite_source source reps = Some (txt "let a = b + 1").
Proof.
  cbn zeta. split; [|split].
  - repeat constructor; set_solver.
  - exact (edited_step 0 (txt "let ") (txt "long") (txt " = other + 1") (Rep 4 8 (txt "a")) _ (txt " = b + 1") eq_refl eq_refl
      (edited_step 8 (txt " = ") (txt "other") (txt " + 1") (Rep 11 16 (txt "b")) [] (txt " + 1") eq_refl eq_refl
        (edited_end 16 (txt " + 1")))).
  - vm_compute. reflexivity.
Qed.

(** And whatever it returns is such an edit: it returns nothing (it panics) when
    replacements overlap or cut a character. *)
Theorem rewrite_only_edits source reps out : rewrite_source source reps = Some out ->
  exists rs, rs ≡ₚ List.map (extend source) reps /\ edited 0 source rs out.
Proof. apply rewrite_some. Qed.
Print Assumptions rewrite_only_edits.
Example rewrite_overlap : rewrite_source (txt "abcdef") [Rep 0 3 (txt "x"); Rep 2 4 (txt "y")] = None.
Proof. vm_compute. reflexivity. Qed.

(** A replacement that starts at a string literal covers all of it; any other is
    made as it is. *)
Theorem rewrite_literals source r e : literal_at source (r_start r) e ->
  extend source r = Rep (r_start r) (N.max (r_end r) e) (r_text r).
Proof. apply extend_literal. Qed.
Print Assumptions rewrite_literals.
Theorem rewrite_others source r : (forall e, ~ literal_at source (r_start r) e) -> extend source r = r.
Proof. apply extend_other. Qed.
Print Assumptions rewrite_others.
Example rewrite_literals_demo : literal_at (txt "f('a\'b', x)") 2 8 /\ (forall e, ~ literal_at (txt "f('a', x)") 0 e).
Proof.
  split.
  - exists (txt "f("), 0x27, (txt "a\'b"), (txt ", x)"). split; [reflexivity|]. split; [reflexivity|]. split; [by right|]. split; [|reflexivity].
    apply body_plain; [done|done|]. apply body_escape. apply body_plain; [done|done|]. constructor.
  - intros e (pre & q & body & rest & E & L & Q & _). destruct pre as [|c pre].
    + injection E as <- _. by destruct Q.
    + exfalso. rewrite LineProofs.str_len_cons in L. pose proof (LineProofs.len_utf8_pos c).
      assert (0 < 0) as X; [|by apply N.lt_irrefl in X]. rewrite <- L at 2. by apply N.add_pos_l.
Qed.
