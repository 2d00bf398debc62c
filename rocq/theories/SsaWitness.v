(** A checker for source programs, to show that concrete programs meet the hypotheses of
    the theorems about building SSA form. *)
From stdpp Require Import base decidable list numbers gmap relations sets sorting.
From Coq Require Import NArith ZArith.
From Verif Require Import VmBase RustStr ILModel CfgSpec CfgProofs ILSpec PassModel ILCheck SsaSpec.

Local Open Scope N_scope.

Definition inst_below (n : N) (i : inst) : bool :=
  negb (is_phi i) && forallb (fun v => N.ltb v n) (i_tgts i) && forallb (fun a => match a with AVar v => N.ltb v n | _ => true end) (i_args i).
Definition source_check (c : cfg) (n : N) (ways : list (list N)) : bool :=
  forallb (fun '(l, is) => block_okb is && flow_okb c l is && forallb (inst_below n) is && existsb (fun w => bool_decide (head w = Some l)) ways) (map_to_list (c_blocks c)) &&
  bool_decide (parents (c_graph c) (c_entry c) = ∅) && bool_decide (is_Some (c_blocks c !! c_entry c)) &&
  bool_decide (labels (c_graph c) ⊆ dom (c_blocks c)) && bool_decide (dom (c_blocks c) ⊆ {[c_entry c]} ∪ labels (c_graph c)) &&
  forallb (fix ok (w : list N) := match w with [] => false | [l] => N.eqb l (c_entry c) | l :: ((q :: _) as w) => bool_decide (l ∈ children (c_graph c) q) && ok w end) ways.
Lemma source_check_spec c n ways : built (c_graph c) -> source_check c n ways = true -> source c n.
Proof.
  intros Hb. pose proof (built_wf _ Hb) as [Wf _]. unfold source_check. rewrite !andb_true_iff, !forallb_forall. intros [[[[[H1 H2] H3] H4] H5] H6]. apply bool_decide_eq_true in H2, H3, H4, H5.
  assert (Hl : forall l is, c_blocks c !! l = Some is -> block_okb is = true /\ flow_okb c l is = true /\ forallb (inst_below n) is = true /\ existsb (fun w => bool_decide (head w = Some l)) ways = true).
  { intros l is E. assert (H : In (l, is) (map_to_list (c_blocks c))) by (apply elem_of_list_In; by apply elem_of_map_to_list). apply H1 in H. rewrite !andb_true_iff in H. naive_solver. }
  assert (W : forall w l, In w ways -> head w = Some l -> reaches (c_graph c) (c_entry c) l).
  { intros w l Hw. apply H6 in Hw. clear H6. revert l Hw. induction w as [|x w IH]; intros l Hw; [done|]. intros [= ->]. destruct w as [|q w]; [apply N.eqb_eq in Hw as ->; apply rtc_refl|].
    apply andb_prop in Hw as [He Hw]. apply bool_decide_eq_true in He. eapply rtc_r; [by apply IH|done]. }
  split; [split| | | | | |].
  - intros l. unfold block_of. destruct (c_blocks c !! l) as [is|] eqn:E; cbn; [apply block_okb_spec; by apply (Hl l)|]. split; [by intros ? ?%elem_of_nil|]. split; [by intros ? ?%elem_of_nil|]. by intros [].
  - intros l. unfold flow_ok, block_of. destruct (c_blocks c !! l) as [is|] eqn:E; cbn; [|done]. destruct (Hl l is E) as (_ & F & _). unfold flow_okb in F. destruct (last is) as [i|]; [|done]. intros Ec. rewrite Ec in F.
    apply bool_decide_eq_true in F. intros x. unfold edge. rewrite <- F. by rewrite elem_of_list_to_set.
  - done.
  - split; [intros l Hl'; apply elem_of_dom; auto|]. intros l Hl'%elem_of_dom. apply H5, elem_of_union in Hl' as [->%elem_of_singleton|]; auto.
  - done.
  - intros l [is E]. destruct (Hl l is E) as (_ & _ & _ & (w & Hw & Hh%bool_decide_eq_true)%existsb_exists). by apply (W w).
  - intros p Hp. apply Wf in Hp. rewrite H2 in Hp. by apply elem_of_empty in Hp.
  - intros l i Hi. unfold block_of in Hi. destruct (c_blocks c !! l) as [is|] eqn:E; [|by apply elem_of_nil in Hi]. destruct (Hl l is E) as (_ & _ & F & _). rewrite forallb_forall in F.
    apply elem_of_list_In in Hi. apply F in Hi. unfold inst_below in Hi. rewrite !andb_true_iff, !forallb_forall in Hi. destruct Hi as [[A B] C]. split; [by apply negb_true_iff|]. split.
    + intros v Hv%elem_of_list_In. by apply N.ltb_lt, B.
    + intros v Hv%elem_of_list_In. apply C in Hv. by apply N.ltb_lt.
Qed.
