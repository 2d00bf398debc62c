From stdpp Require Import base decidable list numbers gmap relations sets.
From Coq Require Import NArith Lia.
From Verif Require Import RustStr ILModel CfgSpec CfgProofs DomModel DomSpec LoopInfoModel.

Lemma entries_spec loops h l : (h, l) ∈ loop_entries loops <-> loops !! h = Some l.
Proof.
  unfold loop_entries. rewrite elem_of_list_fmap. split.
  - intros (h' & [= -> ->] & Hh). apply elem_of_sorted, elem_of_dom in Hh as [l' ->]. done.
  - intros E. exists h. rewrite E. split; [done|]. apply elem_of_sorted, elem_of_dom. by exists l.
Qed.
Lemma entries_heads loops : NoDup (map fst (loop_entries loops)).
Proof. unfold loop_entries. rewrite map_map. cbn. rewrite map_id. apply NoDup_sorted. Qed.
Lemma smaller_in_spec a b : smaller_in a b = true <-> a ⊂ b.
Proof.
  unfold smaller_in. rewrite andb_true_iff, !bool_decide_eq_true. split.
  - intros [H1 H2]. split; [done|]. intros H3. apply (subseteq_size (C := gset N)) in H3. lia.
  - intros H. split; [by apply (subset_size (C := gset N))|by destruct H].
Qed.

(** Nested or disjoint, pairwise. *)
Definition nesting (ls : list (N * gset N)) : Prop := forall a b, a ∈ ls -> b ∈ ls -> a.1 <> b.1 -> a.2 ⊂ b.2 \/ b.2 ⊂ a.2 \/ a.2 ## b.2.

Lemma overlapping_nil ls : NoDup (map fst ls) -> nesting ls -> overlapping ls = [].
Proof.
  induction ls as [|i ls IH]; intros ND HN; cbn; [done|]. cbn in ND. apply NoDup_cons in ND as [Hi ND].
  rewrite IH; [|done|intros a b Ha Hb; apply HN; by right]. rewrite app_nil_r.
  assert (F : List.filter (fun j => overlaps i.2 j.2) ls = []); [|by rewrite F].
  assert (HO : forall j, j ∈ ls -> overlaps i.2 j.2 = false).
  { intros j Hj. assert (Hne : i.1 <> j.1) by (intros E; apply Hi; rewrite E; apply elem_of_list_fmap; by exists j).
    unfold overlaps. destruct (HN i j) as [H|[H|H]]; [by left|by right|done| | |].
    - apply smaller_in_spec in H. by rewrite H.
    - apply smaller_in_spec in H. rewrite H. by rewrite andb_false_r.
    - rewrite (bool_decide_eq_true_2 _ H). by rewrite andb_false_r. }
  clear -HO. induction ls as [|j ls IH]; cbn; [done|]. rewrite HO by (by left). apply IH. intros; apply HO. by right.
Qed.

Definition best (i : N * gset N) (ls : list (N * gset N)) (o : option (N * gset N)) : Prop :=
  match o with
  | None => forall j, j ∈ ls -> j.1 <> i.1 -> ~ i.2 ⊂ j.2
  | Some c => c ∈ ls /\ c.1 <> i.1 /\ i.2 ⊂ c.2 /\ forall j, j ∈ ls -> j.1 <> i.1 -> i.2 ⊂ j.2 -> (size c.2 <= size j.2)%nat
  end.
Lemma parent_fold i ls : forall done cur, best i done cur -> best i (done ++ ls) (fold_left (parent_step i) ls cur).
Proof.
  induction ls as [|j ls IH]; intros dn cur HB; cbn; [by rewrite app_nil_r|].
  replace (dn ++ j :: ls) with ((dn ++ [j]) ++ ls) by (by rewrite <- app_assoc). apply IH. clear IH.
  assert (Hin : forall k, k ∈ dn ++ [j] <-> k ∈ dn \/ k = j) by (intros k; rewrite elem_of_app, elem_of_list_singleton; done).
  assert (Keep : (j.1 = i.1 \/ ~ i.2 ⊂ j.2) -> best i (dn ++ [j]) cur).
  { intros Hj. destruct cur as [c|]; cbn in *.
    - destruct HB as (A1 & A2 & A3 & A4). split_and!; try done; [apply Hin; by left|].
      intros k [?| ->]%Hin; [by apply A4|]. tauto.
    - intros k [?| ->]%Hin; [by apply HB|]. tauto. }
  unfold parent_step. case_bool_decide as Hij; [apply Keep; by left|].
  destruct (smaller_in i.2 j.2) eqn:ES; [|apply Keep; right; rewrite <- smaller_in_spec; congruence].
  apply smaller_in_spec in ES. destruct cur as [c|]; cbn in HB.
  - destruct HB as (A1 & A2 & A3 & A4). destruct (bool_decide (size j.2 < size c.2)%nat || (bool_decide (size j.2 = size c.2) && N.ltb j.1 c.1)) eqn:EC.
    + apply orb_true_iff in EC. assert (Hle : (size j.2 <= size c.2)%nat).
      { destruct EC as [EC|EC]; [apply bool_decide_eq_true in EC; lia|]. apply andb_true_iff in EC as [EC _]. apply bool_decide_eq_true in EC. lia. }
      split_and!; [apply Hin; by right|congruence|done|]. intros k [Hk| ->]%Hin H1 H2; [|lia]. specialize (A4 k Hk H1 H2). lia.
    + apply orb_false_iff in EC as [EC _]. apply bool_decide_eq_false in EC.
      split_and!; [apply Hin; by left|done|done|]. intros k [Hk| ->]%Hin H1 H2; [by apply A4|lia].
  - split_and!; [apply Hin; by right|congruence|done|]. intros k [Hk| ->]%Hin H1 H2; [by destruct (HB k Hk H1)|lia].
Qed.
Lemma parent_best ls i : best i ls (loop_parent_of ls i).
Proof. apply (parent_fold i ls [] None). intros j Hj. by apply not_elem_of_nil in Hj. Qed.
Lemma parent_closest ls i c j : nesting ls -> (exists x, x ∈ i.2) -> loop_parent_of ls i = Some c -> j ∈ ls -> j.1 <> i.1 -> i.2 ⊂ j.2 -> j.1 <> c.1 -> c.2 ⊂ j.2.
Proof.
  intros HN [x Hx] E Hj H1 H2 Hjc. assert (HB := parent_best ls i). rewrite E in HB. destruct HB as (A1 & A2 & A3 & A4).
  destruct (HN c j A1 Hj) as [H|[H|H]]; [congruence|done| |].
  - apply (subset_size (C := gset N)) in H. specialize (A4 j Hj H1 H2). lia.
  - exfalso. apply (H x); [by apply A3|by apply H2].
Qed.

Lemma loop_exits_spec g nodes x y : (x, y) ∈ loop_exits g nodes <-> x ∈ nodes /\ edge g x y /\ y ∉ nodes.
Proof.
  unfold loop_exits. rewrite elem_of_list_In, in_flat_map. split.
  - intros (n & Hn & H). apply in_map_iff in H as (s & [= -> ->] & H). apply filter_In in H as [H1 H2]. apply negb_true_iff, bool_decide_eq_false in H2.
    apply elem_of_list_In, elem_of_sorted in Hn. apply elem_of_list_In in H1. unfold children_sorted in H1. apply elem_of_sorted in H1. done.
  - intros (H1 & H2 & H3). exists x. split; [by apply elem_of_list_In, elem_of_sorted|]. apply in_map_iff. exists y. split; [done|].
    apply filter_In. split; [apply elem_of_list_In; unfold children_sorted; by apply elem_of_sorted|]. by apply negb_true_iff, bool_decide_eq_false.
Qed.
Lemma loop_latches_spec g m h t : built g -> t ∈ loop_latches g m h <-> edge g t h /\ graph_has m h t = true.
Proof.
  intros [W1 _]%built_wf. unfold loop_latches. rewrite elem_of_list_In, filter_In, <- elem_of_list_In. unfold parents_sorted. rewrite elem_of_sorted, <- W1. done.
Qed.
