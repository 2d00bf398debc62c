(** A checker for the well-formedness conditions of ILSpec.v, to show that concrete
    programs meet the hypotheses of the theorems about passes. *)
From stdpp Require Import base decidable list numbers gmap relations sets sorting.
From Coq Require Import NArith ZArith.
From Verif Require Import VmBase RustStr ILModel CfgSpec CfgProofs ILSpec PassModel PassProofs BranchProofs SsaProofs.

Local Open Scope N_scope.

Definition all_at (c : cfg) : list (N * nat * inst) :=
  flat_map (fun '(l, is) => imap (fun k i => (l, k, i)) is) (map_to_list (c_blocks c)).
Lemma all_at_spec c l k i : in_prog c l k i <-> (l, k, i) ∈ all_at c.
Proof.
  unfold in_prog, all_at, block_of. rewrite elem_of_list_In, in_flat_map. split.
  - destruct (c_blocks c !! l) as [is|] eqn:E; [|done]. intros Hk. exists (l, is). split; [apply elem_of_list_In; by apply elem_of_map_to_list|].
    apply elem_of_list_In, elem_of_lookup_imap. exists k, i. done.
  - intros ([l' is] & Hm%elem_of_list_In%elem_of_map_to_list & Hi%elem_of_list_In). apply elem_of_lookup_imap in Hi as (k' & i' & [= -> -> ->] & Hi). by rewrite Hm.
Qed.
Definition inst_okb (i : inst) : bool :=
  match i_t i with
  | IBin => Nat.eqb (length (i_tgts i)) 1 && Nat.eqb (length (i_args i)) 2
  | IUn | IVarAssign => Nat.eqb (length (i_tgts i)) 1 && Nat.eqb (length (i_args i)) 1
  | IPropAssign => Nat.eqb (length (i_tgts i)) 0 && Nat.eqb (length (i_args i)) 3
  | ICondGoto => Nat.eqb (length (i_tgts i)) 0 && Nat.eqb (length (i_args i)) 1 && Nat.eqb (length (i_labels i)) 2
  | ICall => Nat.leb (length (i_tgts i)) 1
  | IForeignLoad | IUnknownLoad => Nat.eqb (length (i_tgts i)) 1 && Nat.eqb (length (i_args i)) 0
  | IForeignStore | IUnknownStore => Nat.eqb (length (i_tgts i)) 0 && Nat.eqb (length (i_args i)) 1
  | IPhi => Nat.eqb (length (i_tgts i)) 1 && Nat.eqb (length (i_labels i)) (length (i_args i))
  | ILabel | IGoto | IDummy => false
  end.
Lemma inst_okb_spec i : inst_okb i = true -> inst_ok i.
Proof.
  unfold inst_okb, inst_ok. destruct (i_t i); try done; intros H; repeat (apply andb_prop in H as [H ?]); rewrite ?Nat.eqb_eq, ?Nat.leb_le in *; repeat split; try done; by apply nil_length_inv.
Qed.
Definition block_okb (is : list inst) : bool :=
  forallb inst_okb is && forallb (fun i => negb (is_phi i)) (rest_of is) && forallb (fun i => negb (is_cond_goto i)) (removelast is).
Lemma block_okb_spec is : block_okb is = true -> block_ok is.
Proof.
  unfold block_okb. rewrite !andb_true_iff, !forallb_forall. intros [[H1 H2] H3]. split; [|split].
  - intros i Hi. apply inst_okb_spec, H1. by apply elem_of_list_In.
  - intros i Hi. apply negb_true_iff, H2. by apply elem_of_list_In.
  - intros a i b -> Hc. destruct b as [|j b _] using rev_ind; [done|]. rewrite (app_comm_cons b), app_assoc, removelast_last in H3. specialize (H3 i). rewrite Hc in H3. discriminate H3. apply in_or_app. right. by left.
Qed.
Definition flow_okb (c : cfg) (l : N) (is : list inst) : bool :=
  match last is with Some i => if is_cond_goto i then bool_decide (list_to_set (i_labels i) = children (c_graph c) l) else true | None => true end.
Definition defs (c : cfg) : list (N * (N * nat)) := flat_map (fun '(l, k, i) => map (fun t => (t, (l, k))) (i_tgts i)) (all_at c).
Lemma defs_spec c x l k : defines c x l k <-> (x, (l, k)) ∈ defs c.
Proof.
  unfold defines, defs. rewrite elem_of_list_In, in_flat_map. split.
  - intros (i & Hi%all_at_spec & Hx). exists (l, k, i). split; [by apply elem_of_list_In|]. apply in_map_iff. exists x. split; [done|]. by apply elem_of_list_In.
  - intros ([[l' k'] i] & Hi%elem_of_list_In & (x' & [= -> -> ->] & Hx%elem_of_list_In)%in_map_iff). exists i. split; [by apply all_at_spec|done].
Qed.
Fixpoint availb (fuel : nat) (c : cfg) (x l : N) (k : nat) : bool :=
  existsb (fun '(y, (l', k')) => N.eqb y x && N.eqb l' l && Nat.ltb k' k) (defs c) ||
  match fuel with
  | O => false
  | S fuel => negb (N.eqb l (c_entry c)) && forallb (fun q => availb fuel c x q (length (block_of (c_blocks c) q))) (elements (parents (c_graph c) l))
  end.
Lemma availb_spec fuel c x : wf (c_graph c) -> forall l k, availb fuel c x l k = true -> available c x l k.
Proof.
  intros Wf. assert (D : forall l k, existsb (fun '(y, (l', k')) => N.eqb y x && N.eqb l' l && Nat.ltb k' k) (defs c) = true -> available c x l k).
  { intros l k ([y [l' k']] & Hd%elem_of_list_In & Hc)%existsb_exists. apply andb_prop in Hc as [Hc Hk]. apply andb_prop in Hc as [->%N.eqb_eq ->%N.eqb_eq]. apply Nat.ltb_lt in Hk. apply (available_here c x l k k'); [|done]. by apply defs_spec. }
  induction fuel as [|fuel IH]; intros l k H; cbn [availb] in H; apply orb_prop in H as [H|H]; try done; [by apply D|by apply D|].
  apply andb_prop in H as [Hl Hq]. apply negb_true_iff, N.eqb_neq in Hl. rewrite forallb_forall in Hq. apply available_preds; [done|]. intros q He. apply IH, Hq, elem_of_list_In, elem_of_elements. by apply (proj1 Wf).
Qed.
Definition useb (fuel : nat) (c : cfg) (l : N) (k : nat) (i : inst) : bool :=
  if is_phi i then
    forallb (fun '(p, a) => match a with AVar x => availb fuel c x p (length (block_of (c_blocks c) p)) || negb (bool_decide (p ∈ parents (c_graph c) l)) | _ => true end) (zip (i_labels i) (i_args i))
    && bool_decide (NoDup (i_labels i)) && forallb (fun p => bool_decide (p ∈ i_labels i)) (elements (parents (c_graph c) l))
  else forallb (fun a => match a with AVar x => availb fuel c x l k | _ => true end) (i_args i).
Definition il_check (fuel : nat) (c : cfg) : bool :=
  forallb (fun '(l, is) => block_okb is && flow_okb c l is) (map_to_list (c_blocks c)) &&
  bool_decide (NoDup (map fst (defs c))) && forallb (fun '(l, k, i) => useb fuel c l k i) (all_at c) &&
  match phis_of (block_of (c_blocks c) (c_entry c)) with [] => true | _ => false end &&
  bool_decide (labels (c_graph c) ⊆ dom (c_blocks c)) && bool_decide (dom (c_blocks c) ⊆ {[c_entry c]} ∪ labels (c_graph c)).
Lemma NoDup_fst_inj {A B} (l : list (A * B)) : NoDup (map fst l) -> forall x y z, (x, y) ∈ l -> (x, z) ∈ l -> y = z.
Proof.
  induction l as [|[a b] l IH]; cbn; intros Nd x y z H1 H2; [by apply elem_of_nil in H1|]. apply NoDup_cons in Nd as [N1 Nd].
  apply elem_of_cons in H1 as [H1|H1]; apply elem_of_cons in H2 as [H2|H2]; [congruence| | |by eapply IH]; destruct N1; apply elem_of_list_fmap; [injection H1 as -> ->; by exists (a, z)|injection H2 as -> ->; by exists (a, y)].
Qed.
Lemma il_check_spec fuel c : built (c_graph c) -> il_check fuel c = true -> prog_ok c /\ strict_ssa c /\ phis_complete c /\ blocks_match c.
Proof.
  intros Wf%built_wf. unfold il_check. rewrite !andb_true_iff, !forallb_forall. intros [[[[[H1 H2] H3] H4] H5] H6]. apply bool_decide_eq_true in H2, H5, H6.
  assert (Hb : forall l is, c_blocks c !! l = Some is -> block_okb is = true /\ flow_okb c l is = true). { intros l is E. apply andb_prop. apply (H1 (l, is)). apply elem_of_list_In. by apply elem_of_map_to_list. }
  assert (Hu : forall l k i, in_prog c l k i -> useb fuel c l k i = true). { intros l k i Hi%all_at_spec. apply (H3 (l, k, i)). by apply elem_of_list_In. }
  split; [split|split; [constructor|split; [split|split]]].
  - intros l. unfold block_of. destruct (c_blocks c !! l) as [is|] eqn:E; cbn; [apply block_okb_spec; by apply (Hb l)|]. split; [by intros ? ?%elem_of_nil|]. split; [by intros ? ?%elem_of_nil|]. by intros [].
  - intros l. unfold flow_ok, block_of. destruct (c_blocks c !! l) as [is|] eqn:E; cbn; [|done]. destruct (Hb l is E) as [_ F]. unfold flow_okb in F. destruct (last is) as [i|]; [|done]. intros Ec. rewrite Ec in F.
    apply bool_decide_eq_true in F. intros n. unfold edge. rewrite <- F. by rewrite elem_of_list_to_set.
  - intros x l k l' k' D1%defs_spec D2%defs_spec. assert (E := NoDup_fst_inj _ H2 _ _ _ D1 D2). by injection E.
  - intros x l k i Hi Hp Hx. specialize (Hu l k i Hi). unfold useb in Hu. rewrite Hp, forallb_forall in Hu. apply (availb_spec fuel); [done|]. apply (Hu (AVar x)). by apply elem_of_list_In.
  - intros x l k i p Hi Hp He Hx. specialize (Hu l k i Hi). unfold useb in Hu. rewrite Hp, !andb_true_iff, forallb_forall in Hu. destruct Hu as [[Hu _] _].
    specialize (Hu (p, AVar x)). cbn beta iota in Hu. apply elem_of_list_In in Hx. apply Hu, orb_prop in Hx as [Hx|Hx]; [by apply (availb_spec fuel)|]. apply negb_true_iff, bool_decide_eq_false in Hx. destruct Hx. by apply (proj1 Wf).
  - by destruct (phis_of _).
  - intros l k i Hi Hp. specialize (Hu l k i Hi). unfold useb in Hu. rewrite Hp, !andb_true_iff, !forallb_forall in Hu. destruct Hu as [[_ Hn] Hq]. apply bool_decide_eq_true in Hn. split; [done|].
    intros p He. apply (bool_decide_eq_true (p ∈ i_labels i)), Hq, elem_of_list_In, elem_of_elements. by apply (proj1 Wf).
  - intros l Hl. apply elem_of_dom. auto.
  - intros l Hl%elem_of_dom. apply H6, elem_of_union in Hl as [->%elem_of_singleton|]; auto.
Qed.

(** Programs for the examples. *)
Definition program (es : list (N * N)) (bs : list (N * block)) : cfg := Cfg (fold_left (fun g e => connect g (fst e) (snd e)) es ∅) (list_to_map bs) 0.
Lemma program_built es bs : built (c_graph (program es bs)).
Proof. cbn. assert (B : built ∅) by (apply built_empty). revert B. generalize (∅ : graph). induction es as [|x es IH]; intros g B; cbn; [done|]. apply IH. by apply built_connect. Qed.
(** Constants as values; the world is the list of argument lists of the calls made, and
    the n-th call returns the n-th of the given results. *)
Definition calls (results : list const) : machine const (list (list const)) :=
  Machine _ _ (fun k => k) (fun _ => KNull) (fun n => KBool true) to_boolean (fun _ a _ _ => a) (fun _ a _ => a)
    (fun _ vs w => (w ++ [vs], nth (length w) results KUndefined)) (fun _ _ _ w => w) (fun _ _ => KUndefined) (fun _ _ w => w) (fun _ _ => KUndefined) (fun _ _ w => w).
(** Decides that two runs have made different calls. *)
Definition differ (s s' : @state const (list (list const))) : bool :=
  match s, s' with
  | Running _ _ _ w, Running _ _ _ w' | Stopped _ w, Stopped _ w' => negb (bool_decide (w = w'))
  | _, _ => true
  end.
Lemma differ_spec s s' : differ s s' = true -> ~ same_on (fun _ => False) s s'.
Proof. destruct s, s'; cbn; intros H; try (by intros []); apply negb_true_iff, bool_decide_eq_false in H; naive_solver. Qed.
