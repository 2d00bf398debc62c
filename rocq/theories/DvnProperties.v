(** C80: value numbering keeps what programs do. *)
From stdpp Require Import base decidable list numbers gmap.
From Coq Require Import NArith ZArith.
From Verif Require Import VmBase RustStr ILModel CfgSpec CfgProofs ILSpec ILCheck DomModel DomSpec DomProperties DvnModel DvnSpec DvnProofs DvnWitness DvnFlatProofs.
From Verif Require EvalModel DomProofs.

Local Open Scope N_scope.

(** For every program in SSA form, value numbering changes no execution: after any
    number of blocks every variable, the outside world and the place in the program are
    as before.  The machine is arbitrary, but the evaluator must agree with it, and what
    the program does must not change the results of the operators it uses: see
    [property_reads_refuted]. *)
Theorem value_numbering_preserves_partial : forall V W (m : machine V W) ev c d b,
  prog_ok c -> strict_ssa c -> phis_complete c -> blocks_match c -> calls_ok c -> built (c_graph c) -> is_Some (c_blocks c !! c_entry c) ->
  dom_of c = Some d -> sound_evaluator ev m -> unaffected m c -> optpass_dvn ev c d = Done b ->
  let c' := Cfg (c_graph c) b (c_entry c) in
  forall e w n, run m c' n (start c' e w) = run m c n (start c e w).
Proof.
  intros V W m ev c d b H1 H2 H3 H4 H5 H6 H7 H8 H9 H10 E. pose proof (dvn_ok m c H1 H2 H3 ev H9 H10 d (built_wf _ H6) H4 H7 (dominator_children_exact c d H6 H8) H5) as H.
  rewrite E in H. apply H.
Qed.
Print Assumptions value_numbering_preserves_partial.

(** The result is again a program in SSA form, whatever the evaluator. *)
Theorem value_numbering_keeps_form : forall ev c d b,
  prog_ok c -> strict_ssa c -> phis_complete c -> blocks_match c -> calls_ok c -> built (c_graph c) -> is_Some (c_blocks c !! c_entry c) ->
  dom_of c = Some d -> optpass_dvn ev c d = Done b ->
  let c' := Cfg (c_graph c) b (c_entry c) in
  prog_ok c' /\ strict_ssa c' /\ phis_complete c' /\ blocks_match c' /\ calls_ok c'.
Proof.
  intros ev c d b H1 H2 H3 H4 H5 H6 H7 H8 E.
  pose proof (dvn_ok unit_machine c H1 H2 H3 ev (unit_sound ev) (unit_unaffected c) d (built_wf _ H6) H4 H7 (dominator_children_exact c d H6 H8) H5) as H.
  rewrite E in H. apply H.
Qed.
Print Assumptions value_numbering_keeps_form.

(** The pass ends, and panics only if the evaluator does. *)
Theorem value_numbering_ends : forall ev c d,
  prog_ok c -> strict_ssa c -> phis_complete c -> blocks_match c -> calls_ok c -> built (c_graph c) -> is_Some (c_blocks c !! c_entry c) ->
  dom_of c = Some d ->
  (exists b, optpass_dvn ev c d = Done b) \/ optpass_dvn ev c d = Panicked /\ exists op a b, ev_bin ev op a b = EvalModel.Panics.
Proof.
  intros ev c d H1 H2 H3 H4 H5 H6 H7 H8.
  pose proof (dvn_ok unit_machine c H1 H2 H3 ev (unit_sound ev) (unit_unaffected c) d (built_wf _ H6) H4 H7 (dominator_children_exact c d H6 H8) H5) as H.
  destruct (optpass_dvn ev c d); [eauto|right; done|done].
Qed.
Print Assumptions value_numbering_ends.

(** The hypotheses hold of a diamond whose computations are merged across its branch,
    folded and called at compile time, and whose phi entries are replaced. *)
Example diamond_case : let c := diamond in
  (prog_ok c /\ strict_ssa c /\ phis_complete c /\ blocks_match c) /\ calls_ok c /\ built (c_graph c) /\ is_Some (c_blocks c !! c_entry c) /\
  sound_evaluator joiner (words false) /\ unaffected (words false) c /\
  exists d b, dom_of c = Some d /\ optpass_dvn joiner c d = Done b /\
    block_of b 1 !! 0%nat = Some (inst_var_assign 4 (AVar 3)) /\ block_of b 1 !! 2%nat = Some (inst_var_assign 10 (AVar 9)) /\
    block_of b 2 !! 0%nat = Some (inst_var_assign 5 (AConst (KStr [97; 98]))) /\ block_of b 2 !! 1%nat = Some (inst_var_assign 7 (AConst (KBool true))) /\
    block_of b 3 = [dvn_phi 6 [(1, AVar 3); (2, AConst (KStr [97; 98]))]; inst_var_assign 8 (AVar 3);
      inst_call None (ABuiltin [5]) (AConst (KBool true)) [AVar 6; AVar 3; AVar 9]].
Proof.
  cbv zeta. split; [apply (il_check_spec 4); [apply program_built|vm_compute; reflexivity]|]. split; [apply calls_okb_spec; vm_compute; reflexivity|].
  split; [apply program_built|]. split; [by eexists|]. split; [apply words_sound|]. split; [apply words_unaffected|].
  destruct (dom_of diamond) as [d|] eqn:Ed; [|vm_compute in Ed; discriminate Ed]. exists d.
  destruct (optpass_dvn joiner diamond d) as [b| |] eqn:Eb; [|vm_compute in Ed; injection Ed as <-; vm_compute in Eb; discriminate Eb..].
  exists b. split; [done|]. split; [done|]. vm_compute in Ed. injection Ed as <-. vm_compute in Eb. injection Eb as <-. repeat split; vm_compute; reflexivity.
Qed.

(** In the result no copy is of a copy, which is what removing copies relies on
    (C33), provided unreachable blocks are gone. *)
Theorem value_numbering_flattens_copies : forall ev c d b,
  prog_ok c -> strict_ssa c -> phis_complete c -> blocks_match c -> calls_ok c -> built (c_graph c) -> is_Some (c_blocks c !! c_entry c) ->
  (forall l, is_Some (c_blocks c !! l) -> reaches (c_graph c) (c_entry c) l) ->
  dom_of c = Some d -> optpass_dvn ev c d = Done b -> copies_flat (Cfg (c_graph c) b (c_entry c)).
Proof.
  intros ev c d b H1 H2 H3 H4 H5 H6 H7 HR H8 E. destruct (DomProofs.dom_of_ok c H6) as (d' & E' & Hent & Hdom). rewrite E' in H8. injection H8 as ->.
  exact (dvn_flat c H1 H2 H3 ev d (built_wf _ H6) H4 H7 Hdom Hent H5 (dominator_children_exact c d H6 E') b HR E).
Qed.
Print Assumptions value_numbering_flattens_copies.

(** The chain of copies that removing copies alone gets wrong. *)
Definition copy_chain : cfg := program []
  [(0, [inst_call (Some 0) (ABuiltin [5]) (AConst KUndefined) []; inst_var_assign 1 (AVar 0); inst_var_assign 2 (AVar 1); inst_call None (ABuiltin [5]) (AConst KUndefined) [AVar 2]])].
Example flat_case : let c := copy_chain in
  (prog_ok c /\ strict_ssa c /\ phis_complete c /\ blocks_match c) /\ calls_ok c /\ built (c_graph c) /\ is_Some (c_blocks c !! c_entry c) /\
  (forall l, is_Some (c_blocks c !! l) -> reaches (c_graph c) (c_entry c) l) /\ ~ copies_flat c /\
  exists d b, dom_of c = Some d /\ optpass_dvn joiner c d = Done b /\ block_of b 0 !! 2%nat = Some (inst_var_assign 2 (AVar 0)).
Proof.
  cbv zeta. split; [apply (il_check_spec 1); [apply program_built|vm_compute; reflexivity]|]. split; [apply calls_okb_spec; vm_compute; reflexivity|]. split; [apply program_built|].
  split; [eauto|]. split.
  { intros l [is H]. destruct (decide (l = 0)) as [->|Hn]; [constructor|]. unfold copy_chain, program in H. cbn [c_blocks] in H. cbn in H. by rewrite lookup_insert_ne in H by done. }
  split.
  { intros F. refine (F 2 (AVar 1) _ 1 (AVar 0) eq_refl _).
    - exists 0, 2%nat. eexists. split; [vm_compute; reflexivity|]. done.
    - exists 0, 1%nat. eexists. split; [vm_compute; reflexivity|]. done. }
  destruct (dom_of copy_chain) as [d|] eqn:Ed; [|vm_compute in Ed; discriminate Ed]. exists d.
  destruct (optpass_dvn joiner copy_chain d) as [b| |] eqn:Eb; [|vm_compute in Ed; injection Ed as <-; vm_compute in Eb; discriminate Eb..].
  exists b. split; [done|]. split; [done|]. vm_compute in Ed. injection Ed as <-. vm_compute in Eb. injection Eb as <-. vm_compute; reflexivity.
Qed.

(** A property is read, written and read again: the second read is replaced by what the
    first gave, and the program passes the old value on. *)
Theorem property_reads_refuted : exists V W (m : machine V W) ev c d b e w n,
  prog_ok c /\ strict_ssa c /\ phis_complete c /\ blocks_match c /\ calls_ok c /\ built (c_graph c) /\ is_Some (c_blocks c !! c_entry c) /\
  dom_of c = Some d /\ sound_evaluator ev m /\ optpass_dvn ev c d = Done b /\
  let c' := Cfg (c_graph c) b (c_entry c) in
  ~ same_on (fun _ => False) (run m c n (start c e w)) (run m c' n (start c' e w)).
Proof.
  exists word, (word * list (list word))%type, (words true), joiner, reread.
  destruct (dom_of reread) as [d|] eqn:Ed; [|vm_compute in Ed; discriminate Ed]. exists d.
  destruct (optpass_dvn joiner reread d) as [b| |] eqn:Eb; [|vm_compute in Ed; injection Ed as <-; vm_compute in Eb; discriminate Eb..].
  exists b, (fun _ => yes), (yes, []), 1%nat.
  destruct (il_check_spec 2 reread) as (H1 & H2 & H3 & H4); [apply program_built|vm_compute; reflexivity|].
  split; [done|]. split; [done|]. split; [done|]. split; [done|]. split; [apply calls_okb_spec; vm_compute; reflexivity|]. split; [apply program_built|].
  split; [by eexists|]. split; [done|]. split; [apply words_sound|]. split; [done|]. cbv zeta.
  vm_compute in Ed. injection Ed as <-. vm_compute in Eb. injection Eb as <-.
  intros H. vm_compute in H. destruct H as [H _]. discriminate H.
Qed.
Print Assumptions property_reads_refuted.
