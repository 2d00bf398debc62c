(** C82: the passes of an optimizer round, one after the other. *)
From stdpp Require Import base decidable list numbers gmap.
From Coq Require Import NArith ZArith.
From Verif Require Import VmBase RustStr ILModel CfgSpec CfgProofs ILSpec ILCheck PassModel PassProofs BranchProofs DomModel DomProperties DvnModel DvnSpec DvnProofs DvnWitness DvnProperties PassProperties OptRoundModel RoundProofs.
From Verif Require EvalModel DomProofs.

Local Open Scope N_scope.

(** Value numbering, dead code elimination and removal of copies, in this order, keep
    what a program does, block by block and effect by effect, for every program in SSA
    form without unreachable blocks: no copy is of a copy when copies are removed.  The
    result is again in SSA form.  As for value numbering (C80), the program must not
    change what its own operators give. *)
Theorem straight_passes_preserve_partial : forall V W (m : machine V W) ev c c',
  prog_ok c -> strict_ssa c -> phis_complete c -> blocks_match c -> calls_ok c -> built (c_graph c) -> is_Some (c_blocks c !! c_entry c) ->
  (forall l, is_Some (c_blocks c !! l) -> reaches (c_graph c) (c_entry c) l) ->
  sound_evaluator ev m -> unaffected m c -> straight_passes ev c = Some c' ->
  (prog_ok c' /\ strict_ssa c' /\ phis_complete c' /\ blocks_match c' /\ calls_ok c' /\ c_graph c' = c_graph c /\ c_entry c' = c_entry c) /\
  forall e w n, same_on (fun _ => False) (run m c n (start c e w)) (run m c' n (start c' e w)).
Proof.
  intros V W m ev c c' H1 H2 H3 H4 H5 H6 H7 HR H9 H10 E. unfold straight_passes in E. destruct (dom_of c) as [d|] eqn:Ed; [|done].
  destruct (optpass_dvn ev c d) as [b| |] eqn:Eb; [|done..].
  pose proof (value_numbering_preserves_partial V W m ev c d b H1 H2 H3 H4 H5 H6 H7 Ed H9 H10 Eb) as R1.
  destruct (value_numbering_keeps_form ev c d b H1 H2 H3 H4 H5 H6 H7 Ed Eb) as (F1 & F2 & F3 & F4 & F5).
  pose proof (value_numbering_flattens_copies ev c d b H1 H2 H3 H4 H5 H6 H7 HR Ed Eb) as Fl.
  destruct (dce_form _ F1 F2 F3) as ((G1 & G2 & G3 & G4 & G5) & Gf).
  destruct (copies_form _ G1 G2 G3 (Gf Fl)) as (c2 & E2 & I1 & I2 & I3 & I4 & I5 & I6 & I7). rewrite E in E2. injection E2 as <-.
  split; [repeat (split; [auto|]); done|]. intros e w n.
  destruct (copies_preserve m _ G1 G2 (Gf Fl)) as (c2 & E2 & K2). rewrite E in E2. injection E2 as <-.
  pose proof (dce_preserves m _ F1 e e w n (fun _ _ => eq_refl)) as K1. specialize (K2 e e w n (fun _ _ => eq_refl)).
  rewrite <- R1. eapply same_on_trans; (eapply same_on_mono; [|eassumption]; done).
Qed.
Print Assumptions straight_passes_preserve_partial.

(** They never panic unless the evaluator does. *)
Theorem straight_passes_end : forall ev c,
  prog_ok c -> strict_ssa c -> phis_complete c -> blocks_match c -> calls_ok c -> built (c_graph c) -> is_Some (c_blocks c !! c_entry c) ->
  (forall l, is_Some (c_blocks c !! l) -> reaches (c_graph c) (c_entry c) l) ->
  (exists c', straight_passes ev c = Some c') \/ exists op a b, ev_bin ev op a b = EvalModel.Panics.
Proof.
  intros ev c H1 H2 H3 H4 H5 H6 H7 HR. unfold straight_passes. destruct (DomProofs.dom_of_ok c H6) as (d & Ed & _). rewrite Ed.
  destruct (value_numbering_ends ev c d H1 H2 H3 H4 H5 H6 H7 Ed) as [[b Eb]|[_ Pn]]; [|by right]. rewrite Eb. left.
  destruct (value_numbering_keeps_form ev c d b H1 H2 H3 H4 H5 H6 H7 Ed Eb) as (F1 & F2 & F3 & F4 & F5).
  pose proof (value_numbering_flattens_copies ev c d b H1 H2 H3 H4 H5 H6 H7 HR Ed Eb) as Fl.
  destruct (dce_form _ F1 F2 F3) as ((G1 & G2 & G3 & G4 & G5) & Gf). destruct (copies_form _ G1 G2 G3 (Gf Fl)) as (c2 & E2 & _). eauto.
Qed.
Print Assumptions straight_passes_end.

(** Impossible branches too, unless a branch is then on a bigint constant (C34). *)
Theorem first_passes_preserve_partial : forall V W (m : machine V W) ev c c1 c' fuel,
  prog_ok c -> strict_ssa c -> phis_complete c -> blocks_match c -> calls_ok c -> built (c_graph c) -> is_Some (c_blocks c !! c_entry c) ->
  (forall l, is_Some (c_blocks c !! l) -> reaches (c_graph c) (c_entry c) l) ->
  sound_evaluator ev m -> unaffected m c -> (forall k, m_truthy m (m_const m k) = to_boolean k) ->
  straight_passes ev c = Some c1 -> (forall l k i z, in_prog c1 l k i -> is_cond_goto i = true -> AConst (KBigInt z) ∉ i_args i) ->
  first_passes ev fuel c = Some (Some c') ->
  (prog_ok c' /\ strict_ssa c' /\ phis_complete c' /\ blocks_match c') /\
  forall e w n, same_on (fun _ => False) (run m c n (start c e w)) (run m c' n (start c' e w)).
Proof.
  intros V W m ev c c1 c' fuel H1 H2 H3 H4 H5 H6 H7 HR H9 H10 Ht E1 Hz E. unfold first_passes in E. rewrite E1 in E.
  destruct (straight_passes_preserve_partial V W m ev c c1 H1 H2 H3 H4 H5 H6 H7 HR H9 H10 E1) as ((F1 & F2 & F3 & F4 & F5 & Fg & Fe) & R1).
  destruct (branches_preserved_partial c1 fuel F1 F2 F3 F4 ltac:(by rewrite Fg) Hz) as (r & Er & K). rewrite E in Er. injection Er as <-.
  destruct (K c' eq_refl) as [Form Rn]. split; [done|]. intros e w n. eapply same_on_trans; [apply R1|]. eapply same_on_mono; [|exact (Rn V W m Ht e e w n (fun _ => eq_refl))]. done.
Qed.
Print Assumptions first_passes_preserve_partial.

(** The diamond of C80: a computation and a property read are shared, a call and a
    concatenation folded, and every copy is gone. *)
Example round_case : let c := diamond in
  (prog_ok c /\ strict_ssa c /\ phis_complete c /\ blocks_match c) /\ calls_ok c /\ built (c_graph c) /\ is_Some (c_blocks c !! c_entry c) /\
  (forall l, is_Some (c_blocks c !! l) -> reaches (c_graph c) (c_entry c) l) /\
  sound_evaluator joiner (words false) /\ unaffected (words false) c /\ (forall k, m_truthy (words false) (m_const (words false) k) = to_boolean k) /\
  match straight_passes joiner c, first_passes joiner 5 c with
  | Some c1, Some (Some c2) =>
      map (fun i => i_tgts i) (block_of (c_blocks c1) 0) = [[1]; [3]; [9]; []] /\ map (fun i => i_args i) (block_of (c_blocks c1) 1) = [[AVar 1; AConst (KStr [120]); AVar 3]] /\
      block_of (c_blocks c1) 2 = [] /\
      block_of (c_blocks c1) 3 = [dvn_phi 6 [(1, AVar 3); (2, AConst (KStr [97; 98]))]; inst_call None (ABuiltin [5]) (AConst (KBool true)) [AVar 6; AVar 3; AVar 9]] /\
      block_of (c_blocks c2) 3 = block_of (c_blocks c1) 3
  | _, _ => False
  end.
Proof.
  cbv zeta. split; [apply (il_check_spec 4); [apply program_built|vm_compute; reflexivity]|]. split; [apply calls_okb_spec; vm_compute; reflexivity|].
  split; [apply program_built|]. split; [by eexists|]. split.
  { assert (Ed : forall a b, bool_decide (b ∈ children (c_graph diamond) a) = true -> edge (c_graph diamond) a b) by (intros a b; apply bool_decide_eq_true_1).
    intros l [is H]. apply elem_of_list_to_map_2 in H. repeat (apply elem_of_cons in H as [[= -> _]|H]); [..|by apply elem_of_nil in H].
    - constructor.
    - eapply rtc_l; [by apply (Ed 0 1)|constructor].
    - eapply rtc_l; [by apply (Ed 0 2)|constructor].
    - eapply rtc_l; [by apply (Ed 0 1)|]. eapply rtc_l; [by apply (Ed 1 3)|constructor]. }
  split; [apply words_sound|]. split; [apply words_unaffected|]. split; [done|]. vm_compute. auto 10.
Qed.
