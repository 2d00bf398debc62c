(** The copies that replace the phis of a block. *)
From stdpp Require Import base decidable list numbers gmap relations sets sorting.
From Coq Require Import NArith ZArith.
From Verif Require Import VmBase RustStr ILModel CfgSpec CfgProofs ILSpec PassModel PassProofs BranchProofs.

Local Open Scope N_scope.

(** The instructions of the new blocks for parent [p]. *)
Definition on_edge (p : N) (nbs : list new_block) : list inst := flat_map (fun b => if N.eqb (n_parent b) p then n_insts b else []) nbs.
Definition phi_copy (p : N) (i : inst) : list inst :=
  match phi_entry p (zip (i_labels i) (i_args i)), i_tgts i with Some a, t :: _ => [inst_var_assign t a] | _, _ => [] end.

Lemma add_copy_edge parent child i nbs ctr : NoDup (map n_parent nbs) -> let r := (add_copy parent child i nbs ctr).1 in
  NoDup (map n_parent r) /\ (forall q, q ∈ map n_parent r <-> q = parent \/ q ∈ map n_parent nbs) /\
  forall p, on_edge p r = on_edge p nbs ++ if N.eqb p parent then [i] else [].
Proof.
  induction nbs as [|b nbs IH]; intros Nd; cbn [add_copy].
  - cbn. split; [repeat constructor; set_solver|]. split; [set_solver|]. intros p. rewrite (N.eqb_sym parent p). destruct (N.eqb p parent); done.
  - cbn in Nd. apply NoDup_cons in Nd as [Nb Nd]. destruct (N.eqb_spec (n_parent b) parent) as [E|E].
    + cbn [fst]. split; [by constructor|]. split; [cbn; set_solver|]. intros p. cbn. rewrite E, (N.eqb_sym parent p). destruct (N.eqb_spec p parent) as [->|]; [|by rewrite app_nil_r].
      replace (flat_map _ nbs) with (on_edge parent nbs) by done. assert (X : on_edge parent nbs = []).
      { clear -E Nb. rewrite E in Nb. induction nbs as [|b' nbs IH]; [done|]. cbn in *. apply not_elem_of_cons in Nb as [N1 N2]. destruct (N.eqb_spec (n_parent b') parent) as [E'|]; [congruence|]. by apply IH. }
      rewrite X. by rewrite !app_nil_r.
    + specialize (IH Nd). destruct (add_copy parent child i nbs ctr) as [r ctr'] eqn:Er. cbn [fst] in *. destruct IH as (H1 & H2 & H3). split; [|split].
      * cbn. constructor; [|done]. rewrite H2. intros [?|?]; done.
      * intros q. cbn. rewrite !elem_of_cons, H2. tauto.
      * intros p. cbn. fold (on_edge p r) (on_edge p nbs). by rewrite H3, app_assoc.
Qed.
Lemma add_copies_edge child t les : forall nbs ctr, NoDup (map n_parent nbs) -> NoDup (map fst les) -> let r := (add_copies child t les nbs ctr).1 in
  NoDup (map n_parent r) /\ forall p, on_edge p r = on_edge p nbs ++ match phi_entry p les with Some a => [inst_var_assign t a] | None => [] end.
Proof.
  induction les as [|[q a] les IH]; intros nbs ctr Nd Nl; cbn [add_copies].
  - cbn. split; [done|]. intros p. by rewrite app_nil_r.
  - cbn in Nl. apply NoDup_cons in Nl as [Nq Nl]. destruct (add_copy_edge q child (inst_var_assign t a) nbs ctr Nd) as (H1 & _ & H3).
    destruct (add_copy q child (inst_var_assign t a) nbs ctr) as [r ctr'] eqn:Er. cbn [fst] in *. destruct (IH r ctr' H1 Nl) as [K1 K2]. split; [done|].
    intros p. rewrite K2, H3, <- app_assoc. f_equal. cbn [phi_entry]. rewrite (N.eqb_sym q p). destruct (N.eqb_spec p q) as [->|]; [|done].
    destruct (phi_entry q les) as [a'|] eqn:E; [|done]. apply phi_entry_elem in E. destruct Nq. apply elem_of_list_fmap. by exists (q, a').
Qed.
Lemma strip_phis_edge child is : (forall i, i ∈ phis_of is -> length (i_tgts i) = 1%nat /\ length (i_labels i) = length (i_args i) /\ NoDup (i_labels i)) ->
  forall nbs ctr, NoDup (map n_parent nbs) -> exists nbs' ctr', strip_phis child is nbs ctr = Some (rest_of is, nbs', ctr') /\ NoDup (map n_parent nbs') /\
  forall p, on_edge p nbs' = on_edge p nbs ++ flat_map (phi_copy p) (phis_of is).
Proof.
  induction is as [|i is IH]; intros Ok nbs ctr Nd; cbn [strip_phis phis_of rest_of].
  - exists nbs, ctr. split; [done|]. split; [done|]. intros p. cbn. by rewrite app_nil_r.
  - cbn [phis_of] in Ok. destruct (is_phi i) eqn:Ep.
    + destruct (Ok i ltac:(constructor)) as (T & L & Nl). destruct (i_tgts i) as [|t []] eqn:Et; try done.
      destruct (add_copies_edge child t (zip (i_labels i) (i_args i)) nbs ctr Nd) as [H1 H2]. { rewrite map_fst_zip; done. }
      destruct (add_copies child t (zip (i_labels i) (i_args i)) nbs ctr) as [r ctr'] eqn:Er. cbn [fst] in *.
      destruct (IH ltac:(intros j Hj; apply Ok; by constructor) r ctr' H1) as (nbs' & ctr'' & -> & K1 & K2). exists nbs', ctr''. split; [done|]. split; [done|].
      intros p. cbn [flat_map]. rewrite K2, H2, <- app_assoc. f_equal. f_equal. unfold phi_copy. rewrite Et. by destruct (phi_entry p _).
    + exists nbs, ctr. split; [done|]. split; [done|]. intros p. cbn. by rewrite app_nil_r.
Qed.
(** The copies in order give each target the value of its phi when no copy overwrites a
    variable that a later copy reads. *)
Definition no_overwrite (p : N) (is : list inst) : Prop :=
  forall a i b j c x, is = a ++ i :: b ++ j :: c -> phi_entry p (zip (i_labels j) (i_args j)) = Some (AVar x) -> x ∉ i_tgts i.
Lemma copies_exec {V W} (m : machine V W) p e0 w is : (forall i, i ∈ is -> length (i_tgts i) = 1%nat /\ phi_entry p (zip (i_labels i) (i_args i)) <> None) -> no_overwrite p is ->
  forall e, (forall j x, j ∈ is -> phi_entry p (zip (i_labels j) (i_args j)) = Some (AVar x) -> e x = e0 x) ->
  exec_insts m (flat_map (phi_copy p) is) (e, w) = (exec_phis m (Some p) e0 is e, w).
Proof.
  induction is as [|i is IH]; intros Ok No e He; [done|]. cbn [flat_map exec_phis]. destruct (Ok i ltac:(constructor)) as [T N]. unfold phi_copy at 1. unfold phi_value.
  destruct (phi_entry p (zip (i_labels i) (i_args i))) as [a|] eqn:Ea; [|done]. destruct (i_tgts i) as [|t []] eqn:Et; try done. cbn [app exec_insts].
  change (exec_inst m (inst_var_assign t a) (e, w)) with (assign e [t] (eval m e a), w).
  assert (Ev : eval m e a = eval m e0 a). { destruct a as [| | |x]; cbn; try done. apply (He i); [constructor|done]. } rewrite Ev. apply IH.
  - intros j Hj. apply Ok. by constructor.
  - intros a' i' b j c x E. apply (No (i :: a') i' b j c x). by rewrite E.
  - intros j x Hj Hx. unfold assign. rewrite bool_decide_eq_false_2; [apply (He j); [by constructor|done]|]. rewrite <- Et.
    apply elem_of_list_split in Hj as (b & c & ->). by apply (No [] i b j c x).
Qed.
Lemma phis_after_copies {V W} (m : machine V W) p e is :  no_overwrite p is -> (forall i, i ∈ is -> length (i_tgts i) = 1%nat /\ phi_entry p (zip (i_labels i) (i_args i)) <> None) -> forall w,
  exec_insts m (flat_map (phi_copy p) is) (e, w) = (exec_phis m (Some p) e is e, w).
Proof. intros No Ok w. by apply copies_exec. Qed.

Lemma available_here c x l k k' : defines c x l k' -> (k' < k)%nat -> available c x l k.
Proof. intros H Hk p _. right. eauto. Qed.
Lemma available_preds c x l k : l <> c_entry c -> (forall q, edge (c_graph c) q l -> available c x q (length (block_of (c_blocks c) q))) -> available c x l k.
Proof.
  intros Hl Hq p Hp. inversion Hp as [|q l' p' Hp' He]; subst; [done|]. left. destruct (Hq q He p' Hp') as [(l' & k' & Hi & Hd)|(k' & _ & Hd)]; [exists l', k'|exists q, k']; (split; [|done]); [by constructor|constructor].
Qed.
