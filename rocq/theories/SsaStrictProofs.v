(** When the phis of SSA form read only what has been written. *)
From stdpp Require Import base decidable sets numbers gmap list.
From Coq Require Import NArith ZArith Lia.
From Verif Require Import VmBase RustStr ILModel CfgSpec CfgProofs ILSpec ILCheck CfgPruneModel CfgPruneProofs SsaModel SsaFormProofs SsaSimProofs SsaBuildProofs SsaUseProofs SsaPhiProofs.

Local Open Scope N_scope.

Lemma phi_entry_in p a ls : forall es, NoDup ls -> (p, a) ∈ zip ls es -> phi_entry p (zip ls es) = Some a.
Proof.
  induction ls as [|l ls IH]; intros [|b es] Nd; cbn; try (by intros ?%elem_of_nil). apply NoDup_cons in Nd as [Hl Nd]. intros [[= -> ->]|H]%elem_of_cons; [by rewrite N.eqb_refl|].
  destruct (N.eqb_spec l p) as [->|]; [|by apply IH]. exfalso. apply Hl. by eapply elem_of_zip_l.
Qed.

Section build.
  Context (c : cfg) (n0 : N).
  Context (Hb : built (c_graph c)) (Hbm : blocks_match c) (Hentry : is_Some (c_blocks c !! c_entry c)).
  Context (Hreach : forall l, is_Some (c_blocks c !! l) -> reaches (c_graph c) (c_entry c) l) (Hfirst : forall p, ~ edge (c_graph c) p (c_entry c)).
  Context (Hplain : forall l i, i ∈ block_of (c_blocks c) l -> is_phi i = false /\ small n0 i).
  Lemma ssa_phi_reads c' n' : construct_ssa c n0 = Some (c', n') ->
    (forall v l k p x, defines c v l k -> edge (c_graph c) p x -> ~ (forall q, edge (c_graph c) q x -> q = p) -> available c v p (length (block_of (c_blocks c) p))) ->
    forall x l k i p, in_prog c' l k i -> is_phi i = true -> edge (c_graph c') p l -> (p, AVar x) ∈ zip (i_labels i) (i_args i) -> available c' x p (length (block_of (c_blocks c') p)).
  Proof.
    intros H Hj x l k i p Hi Hp He Hx q Hq. destruct (ssa_facts c n0 Hb Hbm Hentry Hreach Hfirst Hplain c' n' H) as (vs & G & F1 & F2 & F3 & F4 & F5 & F6 & F7 & F8).
    apply (path_same c c' F1 F2) in Hq. rewrite F1 in He. pose proof (path_step c _ _ _ Hq He) as Hql. destruct (F6 l _ Hql) as (Kin & nx & Kout & P & R & n2 & Gl & Eb & HP & HR & _).
    assert (Hl : NoDup (i_labels i)). { destruct (ssa_labels c n0 Hb Hbm Hentry Hreach Hplain c' n' H l i) as [? _]; [by eapply elem_of_list_lookup_2|done|done]. }
    unfold in_prog in Hi. rewrite Eb in Hi. apply lookup_app_Some in Hi as [Hi|[_ Hi]].
    2: { rewrite (rename_block_plain _ _ _ _ _ _ HR (fun j Hj => proj1 (Hplain l j Hj)) i) in Hp; [done|by eapply elem_of_list_lookup_2]. }
    destruct (Forall3_lookup_r _ _ _ _ k i HP Hi) as (v & t & Hv & _ & _ & _ & Hent). destruct (Hent p He) as (Ki & ni & Kp & Gp & En). unfold ent in En. rewrite (phi_entry_in p (AVar x) _ _ Hl Hx) in En. injection En as ->.
    destruct (F5 l v) as (Hv0 & (y & ky & Hdef) & Hjoin); [by eapply elem_of_list_lookup_2|].
    destruct (F6 p q Hq) as (Kin' & nx' & Kout' & P' & R' & n2' & Gp' & Eb' & HP' & HR' & _). rewrite Gp in Gp'. injection Gp' as <- <- <-.
    destruct (known c c' n0 vs G F2 F3 F6 F7 F8 _ Hq p q eq_refl _ _ _ _ _ _ Gp Eb' HP' HR' v Hv0) as [_ [[Et Hno]|(l1 & k1 & Hl1 & D)]].
    - exfalso. destruct (Hj v y ky p l Hdef He (Hjoin p) q Hq) as [(l1 & k1 & Hl1 & i1 & D1 & D2)|(k1 & _ & i1 & D1 & D2)]; [apply (Hno l1)|apply (Hno p)]; [by constructor|by eapply in_tgts|constructor|by eapply in_tgts].
    - apply elem_of_cons in Hl1 as [->|Hl1]; [right|left; by exists l1, k1]. exists k1. split; [|done]. destruct D as (i1 & D1 & _). by eapply lookup_lt_Some.
  Qed.
End build.

(** Checking that variables are written before control leaves a block. *)
Definition leaves_check (fuel : nat) (c : cfg) : bool :=
  forallb (fun '(l, k, i) => forallb (fun v => forallb (fun '(p, is) => bool_decide (children (c_graph c) p = ∅) || availb fuel c v p (length is)) (map_to_list (c_blocks c))) (i_tgts i)) (all_at c).
Lemma leaves_check_spec fuel c : built (c_graph c) -> blocks_match c -> leaves_check fuel c = true ->
  forall v l k p x, defines c v l k -> edge (c_graph c) p x -> available c v p (length (block_of (c_blocks c) p)).
Proof.
  intros Hb Hbm H v l k p x (i & Hi%all_at_spec & Hv) He. unfold leaves_check in H. rewrite forallb_forall in H. specialize (H (l, k, i) ltac:(by apply elem_of_list_In)). cbn beta iota in H.
  rewrite forallb_forall in H. specialize (H v ltac:(by apply elem_of_list_In)). rewrite forallb_forall in H. destruct (edge_has c Hb Hbm p x He) as [[is Ep] _].
  specialize (H (p, is)). cbn beta iota in H. unfold block_of. rewrite Ep. apply (availb_spec fuel); [by apply built_wf|]. destruct (orb_prop _ _ (H ltac:(apply elem_of_list_In; by apply elem_of_map_to_list))) as [Q|Q]; [|done].
  apply bool_decide_eq_true in Q. unfold edge in He. rewrite Q in He. by apply elem_of_empty in He.
Qed.
