(** C31-C34: optimizer passes preserve the meaning of programs. *)
From stdpp Require Import base decidable list numbers gmap relations sets sorting.
From Coq Require Import NArith ZArith.
From Verif Require Import VmBase RustStr ILModel CfgSpec CfgProofs ILSpec PassModel PassProofs BranchProofs SsaProofs ILCheck.

Local Open Scope N_scope.

(** ** C32: dead code elimination. Whatever the values of variables nothing reads, the
    original and the optimised program are at the same block with the same effects and the
    same values of all variables that are read, after any number of blocks. *)
Theorem dce_preserves_behaviour : forall V W (m : machine V W) c e e' w n,
  prog_ok c -> (forall x, reads c x -> e x = e' x) ->
  same_on (reads c) (run m c n (start c e w)) (run m (optpass_trivial_dce c) n (start (optpass_trivial_dce c) e' w)).
Proof. intros V W m c e e' w n Ok He. by apply dce_preserves. Qed.
Print Assumptions dce_preserves_behaviour.

(** A loop-free program with a branch, a phi, a dead addition and a copy. *)
Definition call_var (t : option N) (args : list arg) : inst := inst_call t (ABuiltin []) (AConst KUndefined) args.
Definition phi (t : N) (les : list (N * arg)) : inst := set_labels (set_args (inst_phi_empty t) (map snd les)) (map fst les).
Definition pass_demo (k : arg) : cfg := program [(0, 1); (0, 2); (1, 3); (2, 3)]
  [(0, [call_var (Some 0) []; inst_var_assign 5 (AVar 0); inst_cond_goto k 1 2]);
   (1, [inst_bin 6 (AVar 0) OAdd (AConst (KBool true))]);
   (2, []);
   (3, [phi 1 [(1, AConst KNull); (2, AVar 0)]; call_var None [AVar 1; AVar 5]])].
Lemma pass_demo_ok k : k = AVar 0 \/ (exists b, k = AConst (KBool b)) \/ (exists z, k = AConst (KBigInt z)) ->
  prog_ok (pass_demo k) /\ strict_ssa (pass_demo k) /\ phis_complete (pass_demo k) /\ blocks_match (pass_demo k).
Proof. intros H. apply (il_check_spec 5); [apply program_built|]. destruct H as [->|[[b ->]|[z ->]]]; vm_compute; reflexivity. Qed.
Example dce_case : prog_ok (pass_demo (AVar 0)) /\
  block_of (c_blocks (optpass_trivial_dce (pass_demo (AVar 0)))) 1 = [] /\
  block_of (c_blocks (optpass_trivial_dce (pass_demo (AVar 0)))) 3 = block_of (c_blocks (pass_demo (AVar 0))) 3.
Proof. split; [apply pass_demo_ok; auto|]. split; vm_compute; reflexivity. Qed.

(** ** C33: copy propagation. In programs in SSA form without copies of copies the pass
    succeeds and preserves behaviour; the values of the removed variables do not matter,
    so no use of one is left. *)
Theorem copies_preserved_partial : forall V W (m : machine V W) c,
  prog_ok c -> strict_ssa c -> copies_flat c ->
  exists c', optpass_redundant_assigns c = Some c' /\
    forall e e' w n, (forall x, ~ copied c x -> e x = e' x) ->
    same_on (fun x => ~ copied c x) (run m c n (start c e w)) (run m c' n (start c' e' w)).
Proof. intros V W m c. apply copies_preserve. Qed.
Print Assumptions copies_preserved_partial.

Example copies_case : prog_ok (pass_demo (AVar 0)) /\ strict_ssa (pass_demo (AVar 0)) /\ copies_flat (pass_demo (AVar 0)) /\
  match optpass_redundant_assigns (pass_demo (AVar 0)) with
  | Some c' => block_of (c_blocks c') 3 = [phi 1 [(1, AConst KNull); (2, AVar 0)]; call_var None [AVar 1; AVar 0]]
  | None => False
  end.
Proof.
  destruct (pass_demo_ok (AVar 0)) as (H1 & H2 & _ & _); [auto|]. split; [done|]. split; [done|]. split; [|vm_compute; reflexivity].
  intros t a C b a' -> C'. apply (all_copies_spec _ _ _ H1) in C, C'.
  assert (E : all_copies (c_blocks (pass_demo (AVar 0))) = [(5, AVar 0)]) by (vm_compute; reflexivity). rewrite E in C, C'.
  apply elem_of_list_singleton in C as [= -> ->]. apply elem_of_list_singleton in C' as [=].
Qed.

(** With a copy of a copy the program changes: [v1 = v0; v2 = v1; f(v2)] becomes [f(v1)]
    while the definition of v1 is removed. *)
Definition chain_prog : cfg := program [] [(0, [call_var (Some 0) []; inst_var_assign 1 (AVar 0); inst_var_assign 2 (AVar 1); call_var None [AVar 2]])].
Theorem copy_chains_preserved_refuted : exists V W (m : machine V W) c c' e w n,
  prog_ok c /\ strict_ssa c /\ optpass_redundant_assigns c = Some c' /\
  ~ same_on (fun _ => False) (run m c n (start c e w)) (run m c' n (start c' e w)).
Proof.
  exists const, (list (list const)), (calls [KBool true]), chain_prog.
  set (m := calls [KBool true]).
  assert (T : match optpass_redundant_assigns chain_prog with Some c' => differ (run m chain_prog 1 (start chain_prog (fun _ => KUndefined) [])) (run m c' 1 (start c' (fun _ => KUndefined) [])) | None => false end = true) by (vm_compute; reflexivity).
  destruct (optpass_redundant_assigns chain_prog) as [c'|] eqn:E; [|done].
  exists c', (fun _ => KUndefined), [], 1%nat. destruct (il_check_spec 1 chain_prog) as (H1 & H2 & _); [apply program_built|vm_compute; reflexivity|].
  split; [done|]. split; [done|]. split; [done|]. by apply differ_spec.
Qed.
Print Assumptions copy_chains_preserved_refuted.

(** ** C34: branches on constants *)
(** For every constant that is not a bigint the optimizer's truth value is ToBoolean... *)
Theorem branch_truthiness_partial : forall k, (forall z, k <> KBigInt z) -> coerce_to_bool k = to_boolean k.
Proof. exact coerce_to_bool_spec. Qed.
Print Assumptions branch_truthiness_partial.
(** ... and for every bigint it is the opposite. *)
Theorem bigint_truthiness_refuted : forall z, coerce_to_bool (KBigInt z) = negb (to_boolean (KBigInt z)).
Proof. intros z. cbn. by rewrite negb_involutive. Qed.
Print Assumptions bigint_truthiness_refuted.

(** The pass (folding branches, dropping the blocks this leaves unreachable, simplifying
    phis, to a fixed point) never panics, and whenever it ends the result behaves as the
    original, for programs in SSA form with complete phis that do not branch on a bigint
    constant. *)
Theorem branches_preserved_partial : forall c fuel,
  prog_ok c -> strict_ssa c -> phis_complete c -> blocks_match c -> built (c_graph c) ->
  (forall l k i z, in_prog c l k i -> is_cond_goto i = true -> AConst (KBigInt z) ∉ i_args i) ->
  exists r, branches_loop fuel c = Some r /\
    forall c', r = Some c' ->
      (prog_ok c' /\ strict_ssa c' /\ phis_complete c' /\ blocks_match c') /\
      forall V W (m : machine V W), (forall k, m_truthy m (m_const m k) = to_boolean k) ->
      forall e e' w n, (forall x, e x = e' x) -> same_on (fun _ => True) (run m c n (start c e w)) (run m c' n (start c' e' w)).
Proof.
  intros c fuel H1 H2 H3 H4 H5%built_wf H6. destruct (branches_loop_spec fuel c) as (r & E & Hr); [by constructor|].
  exists r. split; [done|]. intros c' ->. destruct (Hr c' eq_refl) as [G K]. split; [|exact K]. destruct G. done.
Qed.
Print Assumptions branches_preserved_partial.

Example branches_case : let c := pass_demo (AConst (KBool false)) in
  prog_ok c /\ strict_ssa c /\ phis_complete c /\ blocks_match c /\ built (c_graph c) /\
  (forall l k i z, in_prog c l k i -> is_cond_goto i = true -> AConst (KBigInt z) ∉ i_args i) /\
  match branches_loop 5 c with
  | Some (Some c') => elements (dom (c_blocks c')) = [0; 3; 2] /\ block_of (c_blocks c') 3 = [inst_var_assign 1 (AVar 0); call_var None [AVar 1; AVar 5]]
  | _ => False
  end.
Proof.
  cbv zeta. destruct (pass_demo_ok (AConst (KBool false))) as (H1 & H2 & H3 & H4); [eauto|]. split; [done|]. split; [done|]. split; [done|]. split; [done|]. split; [apply program_built|]. split; [|vm_compute; auto].
  intros l k i z Hi%all_at_spec Hc.
  assert (T : forallb (fun '(_, _, i) => negb (is_cond_goto i) || bool_decide (i_args i = [AConst (KBool false)])) (all_at (pass_demo (AConst (KBool false)))) = true) by (vm_compute; reflexivity).
  rewrite forallb_forall in T. specialize (T (l, k, i)). cbn beta iota in T. rewrite Hc in T. cbn [negb orb] in T. apply elem_of_list_In in Hi. apply T, bool_decide_eq_true in Hi. rewrite Hi. intros [=]%elem_of_list_singleton.
Qed.

(** [if (1n) a else b] runs [b]. *)
Theorem bigint_branch_preserved_refuted : exists V W (m : machine V W) c c' fuel e w n,
  prog_ok c /\ strict_ssa c /\ phis_complete c /\ blocks_match c /\ built (c_graph c) /\
  (forall k, m_truthy m (m_const m k) = to_boolean k) /\ branches_loop fuel c = Some (Some c') /\
  ~ same_on (fun _ => False) (run m c n (start c e w)) (run m c' n (start c' e w)).
Proof.
  exists const, (list (list const)), (calls []), (pass_demo (AConst (KBigInt 1))).
  set (c := pass_demo (AConst (KBigInt 1))). set (m := calls []).
  assert (T : match branches_loop 5 c with Some (Some c') => differ (run m c 3 (start c (fun _ => KUndefined) [])) (run m c' 3 (start c' (fun _ => KUndefined) [])) | _ => false end = true) by (vm_compute; reflexivity).
  destruct (branches_loop 5 c) as [[c'|]|] eqn:E; [|done..].
  exists c', 5%nat, (fun _ => KUndefined), [], 3%nat. destruct (pass_demo_ok (AConst (KBigInt 1))) as (H1 & H2 & H3 & H4); [eauto|].
  split; [done|]. split; [done|]. split; [done|]. split; [done|]. split; [apply program_built|]. split; [done|]. split; [done|]. by apply differ_spec.
Qed.
Print Assumptions bigint_branch_preserved_refuted.

(** ** C31: leaving SSA form *)
(** The copies placed on the edge from [p]: a block's phis are stripped, and on the edge
    from every predecessor that all phis mention the new instructions leave the variables
    as the phis would, provided no phi reads (on that edge) the target of an earlier phi of
    the same block. *)
Theorem phi_copies_partial : forall V W (m : machine V W) child is counter,
  (forall i, i ∈ phis_of is -> length (i_tgts i) = 1%nat /\ length (i_labels i) = length (i_args i) /\ NoDup (i_labels i)) ->
  exists nbs counter', strip_phis child is [] counter = Some (rest_of is, nbs, counter') /\
    forall p e w, (forall i, i ∈ phis_of is -> p ∈ i_labels i) ->
      (forall a i b j c x, phis_of is = a ++ i :: b ++ j :: c -> phi_entry p (zip (i_labels j) (i_args j)) = Some (AVar x) -> x ∉ i_tgts i) ->
      exec_insts m (flat_map (fun b => if N.eqb (n_parent b) p then n_insts b else []) nbs) (e, w) = (exec_phis m (Some p) e (phis_of is) e, w).
Proof.
  intros V W m child is counter Ok. destruct (strip_phis_edge child is Ok [] counter) as (nbs & counter' & E & _ & H); [constructor|]. exists nbs, counter'. split; [done|].
  intros p e w Hp No. fold (on_edge p nbs). rewrite H. cbn [on_edge flat_map app]. apply phis_after_copies; [done|]. intros i Hi. destruct (Ok i Hi) as (T & L & Nd). split; [done|].
  intros E0. assert (Hl := Hp i Hi). rewrite <- (map_fst_zip (i_labels i) (i_args i) L) in Hl. apply elem_of_list_fmap in Hl as ([q a] & -> & Hq).
  assert (X : phi_entry q (zip (i_labels i) (i_args i)) = Some a) by (apply phi_entry_NoDup; [by rewrite map_fst_zip|done]). cbn in E0. congruence.
Qed.
Print Assumptions phi_copies_partial.

(** Two phis, where the first reads the target of the second: allowed. *)
Example phi_copies_case : let is := [phi 3 [(0, AVar 1); (1, AVar 4)]; phi 4 [(0, AVar 2); (1, AVar 5)]] in
  (forall i, i ∈ phis_of is -> length (i_tgts i) = 1%nat /\ length (i_labels i) = length (i_args i) /\ NoDup (i_labels i)) /\
  (forall i, i ∈ phis_of is -> 1 ∈ i_labels i) /\
  (forall a i b j c x, phis_of is = a ++ i :: b ++ j :: c -> phi_entry 1 (zip (i_labels j) (i_args j)) = Some (AVar x) -> x ∉ i_tgts i).
Proof.
  cbv zeta. split; [|split].
  - intros i Hi. repeat (apply elem_of_cons in Hi as [->|Hi]); [..|by apply elem_of_nil in Hi]; (split; [done|]; split; [done|]); apply (bool_decide_eq_true_1 _); reflexivity.
  - intros i Hi. repeat (apply elem_of_cons in Hi as [->|Hi]); [..|by apply elem_of_nil in Hi]; apply (bool_decide_eq_true_1 _); reflexivity.
  - intros a i b j c x E. destruct a as [|? [|? []]]; [|destruct b; discriminate E..]. destruct b as [|? []]; [|discriminate E..]. cbn in E. injection E as <- <- _. cbn. intros [= <-]. apply (bool_decide_eq_false_1 _). reflexivity.
Qed.

(** Two phis that exchange their values in a loop: after the copies both have the same. *)
Definition swap_prog : cfg := program [(0, 1); (1, 1); (1, 2)]
  [(0, [call_var (Some 1) []; call_var (Some 2) []]);
   (1, [phi 3 [(0, AVar 1); (1, AVar 4)]; phi 4 [(0, AVar 2); (1, AVar 3)]; call_var (Some 5) [AVar 3]; inst_cond_goto (AVar 5) 1 2]);
   (2, [call_var None [AVar 3; AVar 4]])].
Theorem leaving_ssa_preserves_refuted : exists V W (m : machine V W) c counter c' counter' e w n n' e1 w1 e2 w2,
  prog_ok c /\ strict_ssa c /\ phis_complete c /\ blocks_match c /\ built (c_graph c) /\ deconstruct_ssa c counter = Some (c', counter') /\
  run m c n (start c e w) = Stopped e1 w1 /\ run m c' n' (start c' e w) = Stopped e2 w2 /\ w1 <> w2.
Proof.
  exists const, (list (list const)), (calls [KStr [1]; KStr [2]; KBool true; KBool false]), swap_prog, 3.
  set (m := calls _). set (c := swap_prog).
  assert (T : match deconstruct_ssa c 3 with
    | Some (c', _) => match run m c 5 (start c (fun _ => KUndefined) []), run m c' 7 (start c' (fun _ => KUndefined) []) with Stopped _ w1, Stopped _ w2 => negb (bool_decide (w1 = w2)) | _, _ => false end
    | None => false end = true) by (vm_compute; reflexivity).
  destruct (deconstruct_ssa c 3) as [[c' counter']|] eqn:E; [|done]. exists c', counter', (fun _ => KUndefined), [], 5%nat, 7%nat.
  destruct (run m c 5 _) as [|e1 w1] eqn:E1; [done|]. destruct (run m c' 7 _) as [|e2 w2] eqn:E2; [done|]. exists e1, w1, e2, w2.
  destruct (il_check_spec 2 swap_prog) as (H1 & H2 & H3 & H4); [apply program_built|vm_compute; reflexivity|].
  split; [done|]. split; [done|]. split; [done|]. split; [done|]. split; [apply program_built|]. split; [done|].
  split; [done|]. split; [done|]. by apply negb_true_iff, bool_decide_eq_false in T.
Qed.
Print Assumptions leaving_ssa_preserves_refuted.
