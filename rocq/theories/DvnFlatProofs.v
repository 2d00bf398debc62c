(** After value numbering no copy is of a copy. *)
From stdpp Require Import base decidable sets numbers gmap list.
From Coq Require Import NArith ZArith Lia.
From Verif Require Import VmBase RustStr RustStrProofs ILModel CfgSpec CfgProofs ILSpec PassModel PassProofs SsaProofs BranchProofs DomModel DomSpec DomProofs DvnModel DvnSpec DvnProofs DvnWitness.
From Verif Require EvalModel.

Local Open Scope N_scope.

Lemma snoc_Some {A} (x : A) (l : list A) (i : nat) (y : A) : (l ++ [x]) !! i = Some y -> ((i < length l)%nat /\ l !! i = Some y) \/ (i = length l /\ x = y).
Proof.
  intros [H|[H1 H2]]%lookup_app_Some; [left; split; [by eapply lookup_lt_Some|done]|]. right. apply list_lookup_singleton_Some in H2 as [H2 ->]. split; [lia|done].
Qed.

(** ** Tables whose entries are final *)
Definition root (s : DvnModel.state) (a : arg) : Prop := forall y, a = AVar y -> tgt_to_coc s !! y = None \/ tgt_to_coc s !! y = Some (AVar y).
Definition roots (s : DvnModel.state) : Prop :=
  (forall t a, tgt_to_coc s !! t = Some a -> root s a) /\ forall v t, (v, AVar t) ∈ val_to_coc s -> tgt_to_coc s !! t = Some (AVar t).
Definition is_copy (i : inst) (t : N) (a : arg) : Prop := i_t i = IVarAssign /\ (exists ts, i_tgts i = t :: ts) /\ exists as_, i_args i = a :: as_.

Section inst.
Context (ev : evaluator).
Lemma canon_root s a : roots s -> root s (canon_arg ev s a).
Proof.
  intros [H _]. destruct a as [p|k|f|t]; cbn.
  - destruct (ev_val ev p); done.
  - done.
  - done.
  - destruct (tgt_to_coc s !! t) as [a|] eqn:E; [by eapply H|]. intros y [= <-]. by left.
Qed.
Lemma insert_tgt_spec s t a s' : insert_tgt s t a = Some s' -> tgt_to_coc s !! t = None /\ s' = State (val_to_coc s) (<[t := a]> (tgt_to_coc s)).
Proof. unfold insert_tgt. destruct (tgt_to_coc s !! t); [done|]. by intros [= <-]. Qed.
(** What numbering an instruction does to the tables. *)
Definition inst_effect (s s' : DvnModel.state) (i : inst) : Prop :=
  (i_t i = IVarAssign -> exists t a, is_copy i t a /\ tgt_to_coc s !! t = None /\ s' = State (val_to_coc s) (<[t := a]> (tgt_to_coc s)) /\ root s a) /\
  (i_t i <> IVarAssign -> s' = s \/ exists t v ts, i_tgts i = t :: ts /\ tgt_to_coc s !! t = None /\
    s' = State ((v, AVar t) :: val_to_coc s) (<[t := AVar t]> (tgt_to_coc s))).
Lemma assign_effect s t a s' i : root s a -> option_map (fun s => (s, inst_var_assign t a)) (insert_tgt s t a) = Some (s', i) -> inst_effect s s' i.
Proof.
  intros Hr H. destruct (insert_tgt s t a) as [s1|] eqn:E; [|done]. cbn in H. injection H as -> <-. apply insert_tgt_spec in E as [E1 E2]. split; [|done].
  intros _. exists t, a. split; [|done]. split; [done|]. cbn. eauto.
Qed.
Lemma number_val_effect s v t ts i s' i' : roots s -> (forall v a, (v, a) ∈ val_to_coc s -> exists t, a = AVar t) -> i_tgts i = t :: ts -> i_t i <> IVarAssign ->
  number_val s v t i = Some (s', i') -> inst_effect s s' i'.
Proof.
  intros Hr Hv Ht Hi. unfold number_val. destruct (find_val v (val_to_coc s)) as [a|] eqn:F.
  - apply assign_effect. apply find_val_elem in F. destruct (Hv _ _ F) as [t2 ->]. intros y [= <-]. right. by eapply Hr.
  - intros H. destruct (insert_tgt _ t (AVar t)) as [s1|] eqn:E; [|done]. cbn in H. injection H as -> <-. apply insert_tgt_spec in E as [E1 E2]. cbn in *.
    split; [done|]. intros _. right. by exists t, v, ts.
Qed.
Lemma number_inst_effect s i s' i' : roots s -> (forall v a, (v, a) ∈ val_to_coc s -> exists t, a = AVar t) ->
  number_inst ev s i = Some (s', i') -> inst_effect s s' i'.
Proof.
  intros Hr Hv. unfold number_inst. set (i1 := set_args i (map (canon_arg ev s) (i_args i))).
  assert (Ha : forall a, a ∈ i_args i1 -> root s a). { intros a (x & -> & _)%elem_of_list_fmap. by apply canon_root. }
  clearbody i1. destruct (evaluate ev i1) as [[v|]|]; [| |done].
  - destruct (i_tgts i1) as [|t ts]; [done|]. apply assign_effect. by apply canon_root.
  - assert (Keep : i_t i1 <> IVarAssign -> Some (s, i1) = Some (s', i') -> inst_effect s s' i').
    { intros Hn [= <- <-]. split; [done|]. by left. }
    destruct (i_t i1) eqn:Et; try (apply Keep; congruence); destruct (i_tgts i1) as [|t ts] eqn:Ht; try done; destruct (i_args i1) as [|x xs] eqn:Ea; try done.
    + destruct xs as [|y xs]; [done|]. eapply number_val_effect; try done. congruence.
    + eapply number_val_effect; try done. congruence.
    + intros H. destruct (insert_tgt s t x) as [s1|] eqn:E; [|done]. cbn in H. injection H as -> <-. apply insert_tgt_spec in E as [E1 E2]. split; [|done].
      intros _. exists t, x. split; [split; [done|]; eauto|]. split; [done|]. split; [done|]. apply Ha. constructor.
Qed.
End inst.

Section flat.
Context (c : cfg) (Ok : prog_ok c) (Hssa : strict_ssa c) (Hphi : phis_complete c) (ev : evaluator).
Context (d : domi) (Hwf : wf (c_graph c)) (Hm : blocks_match c) (He : is_Some (c_blocks c !! c_entry c)).
Context (Hdom : dom_ok (edge (c_graph c)) d) (Hent : d_entry d = c_entry c) (Hcalls : calls_ok c).
Notation um := unit_machine.
Notation good := (good_state um c ev).
Notation rl := (rel um c).
Notation sg := (seg um c).
Notation brel := (blocks_rel um c).
Notation dm := (dominates (edge (c_graph c)) (c_entry c)).
Notation sdm := (strictly_dominates (edge (c_graph c)) (c_entry c)).
Notation blk l := (block_of (c_blocks c) l).

Lemma fresh s t l k : good s -> placed c s l k -> defines c t l k -> (exists p, path c (l :: p)) -> tgt_to_coc s !! t = None ->
  forall x, tgt_to_coc s !! x <> Some (AVar t).
Proof.
  intros (G & _) [P _] D Hp Hn x Hx. apply (not_own c Hssa t l k D); [|done]. destruct (G _ _ Hx) as [_ [E|K]]; [congruence|].
  eapply available_trans; [by eapply P|]. intros l' k' D'. apply (K _ _ D'). constructor.
Qed.
Lemma tgts_one l k i : in_prog c l k i -> forall t ts, i_tgts i = t :: ts -> ts = [].
Proof.
  intros I t ts E. assert (O : inst_ok i). { apply (proj1 (proj1 Ok l)). by apply elem_of_list_lookup_2 in I. }
  unfold inst_ok in O. rewrite E in O. destruct (i_t i), ts; try done; cbn in O; try (destruct O; done); try lia.
Qed.
Lemma roots_step s s' l k i i' : good s -> placed c s l k -> (exists p, path c (l :: p)) -> in_prog c l k i -> rl l k i i' ->
  roots s -> inst_effect s s' i' -> roots s' /\ (forall x a, tgt_to_coc s !! x = Some a -> tgt_to_coc s' !! x = Some a).
Proof.
  intros G P Hp I R [R1 R2] [E1 E2].
  assert (Ins : forall t a, t ∈ i_tgts i' -> tgt_to_coc s !! t = None -> root s a \/ a = AVar t ->
    forall t' a', <[t := a]> (tgt_to_coc s) !! t' = Some a' -> forall y, a' = AVar y -> <[t := a]> (tgt_to_coc s) !! y = None \/ <[t := a]> (tgt_to_coc s) !! y = Some (AVar y)).
  { intros t a Ht Hn Ha t' a' Hl y ->. assert (D : defines c t l k) by (exists i; split; [done|]; by rewrite <- (r_tgts _ _ _ _ _ _ R)).
    destruct (decide (y = t)) as [->|Hy].
    - apply lookup_insert_Some in Hl as [[_ ->]|[_ Hl]]; [rewrite lookup_insert; by right|]. by destruct (fresh s t l k G P D Hp Hn t').
    - rewrite lookup_insert_ne by done. apply lookup_insert_Some in Hl as [[_ ->]|[_ Hl]]; [|by eapply R1]. destruct Ha as [Ha|[= ->]]; [by apply Ha|done]. }
  destruct (decide (i_t i' = IVarAssign)) as [Hi|Hi].
  - destruct (E1 Hi) as (t & a & (_ & (ts & Ht) & _) & Hn & -> & Ha). assert (Hin : t ∈ i_tgts i') by (rewrite Ht; constructor). split; [split; cbn|].
    + intros t' a' Hl y Hy. eapply Ins; eauto.
    + intros v t' Hv. apply R2 in Hv. rewrite lookup_insert_ne; [done|congruence].
    + intros x b Hx. cbn. rewrite lookup_insert_ne; [done|congruence].
  - destruct (E2 Hi) as [->|(t & v & ts & Ht & Hn & ->)]; [done|]. assert (Hin : t ∈ i_tgts i') by (rewrite Ht; constructor). split; [split; cbn|].
    + intros t' a' Hl y Hy. eapply Ins; eauto.
    + intros v' t' [[= -> ->]|Hv]%elem_of_cons; [by rewrite lookup_insert|]. apply R2 in Hv. rewrite lookup_insert_ne; [done|congruence].
    + intros x b Hx. cbn. rewrite lookup_insert_ne; [done|congruence].
Qed.

(** ** One block *)
Definition covers (s : DvnModel.state) (is : list inst) : Prop := forall k i t a, is !! k = Some i -> is_copy i t a -> tgt_to_coc s !! t = Some a.
Definition above (b : gmap N block) (l : N) (cur : list inst) (l' : N) : list inst := if N.eqb l' l then cur else block_of b l'.
Definition flat_list (b : gmap N block) (l : N) (cur is : list inst) : Prop :=
  forall k i t y, is !! k = Some i -> is_copy i t (AVar y) -> forall l' k' i', defines c y l' k' -> above b l cur l' !! k' = Some i' -> i_t i' <> IVarAssign.
Lemma avail_dominates y l k l' k' : available c y l k -> (exists p, path c (l :: p)) -> defines c y l' k' -> dm l' l.
Proof.
  intros A Hp D. split; [by apply reach_path|]. intros w Hw. destruct (walk_inv _ _ _ _ Hw) as (p & -> & _). apply path_walk in Hw.
  destruct (A _ Hw) as [(l2 & k2 & Hin & D2)|(k2 & _ & D2)]; destruct (ssa_once _ Hssa _ _ _ _ _ D D2) as [-> ->]; [by constructor|constructor].
Qed.
Lemma copy_arg l k i i' t a : in_prog c l k i -> rl l k i i' -> is_copy i' t a -> i_tgts i = [t] /\ forall y, a = AVar y -> available c y l k.
Proof.
  intros I R (Hi & (ts & Ht) & as_ & Ha). split.
  - rewrite <- (r_tgts _ _ _ _ _ _ R), Ht. f_equal. eapply tgts_one; [exact I|]. by rewrite <- (r_tgts _ _ _ _ _ _ R).
  - intros y ->. apply (r_args _ _ _ _ _ _ R); [|rewrite Ha; constructor]. rewrite <- (r_phi _ _ _ _ _ _ R). unfold is_phi. by rewrite Hi.
Qed.
Lemma copy_exists l k i i' y : in_prog c l k i -> rl l k i i' -> i_t i' = IVarAssign -> y ∈ i_tgts i -> exists a, is_copy i' y a.
Proof.
  intros I R Hi Hy. pose proof (r_ok _ _ _ _ _ _ R) as O. unfold inst_ok in O. rewrite Hi in O. destruct O as [O1 O2].
  rewrite <- (r_tgts _ _ _ _ _ _ R) in Hy. destruct (i_tgts i') as [|t [|]] eqn:Et; try done. destruct (i_args i') as [|a [|]] eqn:Ea; try done.
  apply elem_of_list_singleton in Hy as ->. exists a. split; [done|]. eauto.
Qed.
Lemma number_block_flat b l : brel b -> (exists p, path c (l :: p)) -> forall is pre s, good s -> placed c s l (length pre) -> roots s -> sg l 0 pre -> sg l (length pre) is ->
  (forall x, sdm x l -> covers s (block_of b x)) -> covers s pre -> flat_list b l pre pre ->
  match number_block ev s is with
  | Some (s', is') => roots s' /\ (forall x, sdm x l -> covers s' (block_of b x)) /\ covers s' (pre ++ is') /\ flat_list b l (pre ++ is') (pre ++ is')
  | None => True
  end.
Proof.
  intros B Hp. induction is as [|i' is IH]; intros pre s G P Rt Sp Si Cv Cp Fl; cbn [number_block]; [rewrite app_nil_r; done|].
  destruct (Si 0%nat i' eq_refl) as (i & I & R). rewrite Nat.add_0_r in I, R. pose proof (number_inst_ok um c Hssa ev (unit_sound ev) (unit_unaffected c) s l _ i i' G P Hp I R) as St.
  destruct (number_inst ev s i') as [[s1 i1]|] eqn:En; [|done]. destruct St as (G1 & P1 & R1).
  assert (Vv : forall v a, (v, a) ∈ val_to_coc s -> exists t, a = AVar t). { intros v a Hv. destruct G as (_ & G2 & _). destruct (G2 _ _ Hv) as (t & -> & _). eauto. }
  pose proof (number_inst_effect ev s i' s1 i1 Rt Vv En) as Ef. destruct (roots_step s s1 l _ i i1 G P Hp I R1 Rt Ef) as [Rt1 Mono].
  assert (New : forall t a, is_copy i1 t a -> tgt_to_coc s1 !! t = Some a /\ root s a).
  { intros t a (Hi & (ts & Ht) & as_ & Ha). destruct (proj1 Ef Hi) as (t2 & a2 & (_ & (ts2 & Ht2) & as2 & Ha2) & _ & -> & Hr). cbn.
    rewrite Ht in Ht2. rewrite Ha in Ha2. injection Ht2 as -> ->. injection Ha2 as -> ->. by rewrite lookup_insert. }
  specialize (IH (pre ++ [i1]) s1 G1). rewrite app_length in IH. cbn [length] in IH. rewrite Nat.add_1_r in IH. specialize (IH P1 Rt1).
  destruct (number_block ev s1 is) as [[s2 is2]|]; [|done]. rewrite <- app_assoc in IH. apply IH; clear IH.
  - intros j x Hx. apply snoc_Some in Hx as [[Hj Hx]|[-> <-]]; [by apply Sp|]. exists i. done.
  - intros j x Hx. specialize (Si (S j) x Hx). rewrite Nat.add_succ_r in Si. exact Si.
  - intros x Hx k j t a Hj Hc. apply Mono. by eapply Cv.
  - intros k j t a Hj Hc. apply snoc_Some in Hj as [[_ Hj]|[_ <-]]; [apply Mono; by eapply Cp|]. by apply New.
  - intros k j t y Hj Hc l' k' i2 D2 Hi2 Hva.
    assert (Own : forall n x x', in_prog c l n x -> rl l n x x' -> available c y l n -> y ∈ i_tgts x -> False).
    { intros n x x' In Rn An Hy. eapply (not_own c Hssa y l n); [by exists x|done|done]. }
    unfold above in Hi2. destruct (N.eqb_spec l' l) as [->|Hl].
    + apply snoc_Some in Hi2 as [[Hk2 Hi2]|[-> <-]].
      * apply snoc_Some in Hj as [[Hk Hj]|[-> <-]].
        -- eapply (Fl k j t y Hj Hc l k' i2 D2); [unfold above; by rewrite N.eqb_refl|done].
        -- destruct (New _ _ Hc) as [_ Hr]. destruct (Sp k' i2 Hi2) as (x2 & I2 & R2). cbn in I2, R2.
           assert (Hy2 : y ∈ i_tgts x2). { destruct D2 as (x3 & I3 & H3). unfold in_prog in *. congruence. }
           destruct (copy_exists _ _ _ _ _ I2 R2 Hva Hy2) as [a2 Hc2]. pose proof (Cp _ _ _ _ Hi2 Hc2) as Ea. destruct (Hr y eq_refl) as [Hn|Hs]; [congruence|].
           assert (a2 = AVar y) as -> by congruence. destruct (copy_arg _ _ _ _ _ _ I2 R2 Hc2) as [_ A2]. by eapply (Own k' x2 i2); eauto.
      * assert (Hy2 : y ∈ i_tgts i). { destruct D2 as (x3 & I3 & H3). unfold in_prog in *. congruence. }
        apply snoc_Some in Hj as [[Hk Hj]|[-> <-]].
        -- destruct (Sp k j Hj) as (x2 & I2 & R2). cbn in I2, R2. destruct (copy_arg _ _ _ _ _ _ I2 R2 Hc) as [_ A2].
           eapply (Own (length pre) i i1); [done|done| |done]. eapply available_mono; [by apply A2|lia].
        -- destruct (copy_arg _ _ _ _ _ _ I R1 Hc) as [_ A2]. by eapply (Own (length pre) i i1); eauto.
    + assert (Hx : sdm l' l).
      { split; [|done]. apply snoc_Some in Hj as [[Hk Hj]|[-> <-]].
        - destruct (Sp k j Hj) as (x2 & I2 & R2). cbn in I2, R2. destruct (copy_arg _ _ _ _ _ _ I2 R2 Hc) as [_ A2]. eapply avail_dominates; eauto.
        - destruct (copy_arg _ _ _ _ _ _ I R1 Hc) as [_ A2]. eapply avail_dominates; eauto. }
      apply snoc_Some in Hj as [[Hk Hj]|[-> <-]].
      * eapply (Fl k j t y Hj Hc l' k' i2 D2); [unfold above; by destruct (N.eqb_spec l' l)|done].
      * destruct (New _ _ Hc) as [_ Hr]. destruct (after_inst um c b B l' k' i2 Hi2) as (x2 & I2 & R2).
        assert (Hy2 : y ∈ i_tgts x2). { destruct D2 as (x3 & I3 & H3). unfold in_prog in *. congruence. }
        destruct (copy_exists _ _ _ _ _ I2 R2 Hva Hy2) as [a2 Hc2]. pose proof (Cv _ Hx _ _ _ _ Hi2 Hc2) as Ea. destruct (Hr y eq_refl) as [Hn|Hs]; [congruence|].
        assert (a2 = AVar y) as -> by congruence. destruct (copy_arg _ _ _ _ _ _ I2 R2 Hc2) as [_ A2].
        eapply (not_own c Hssa y l' k'); [done|by apply A2|]. apply reach_path. eapply dominates_reach. apply Hx.
Qed.

(** ** The dominator tree *)
Context (Hd : forall p b, b ∈ immediately_dominated_by d p <-> immediately_dominates (edge (c_graph c)) (c_entry c) p b).
Definition same (b b' : gmap N block) (x : N) : Prop := forall k i, i_t i = IVarAssign -> block_of b x !! k = Some i <-> block_of b' x !! k = Some i.
Definition flat_at (b : gmap N block) (x : N) : Prop :=
  forall k i t y, block_of b x !! k = Some i -> is_copy i t (AVar y) -> forall l' k' i', defines c y l' k' -> block_of b l' !! k' = Some i' -> i_t i' <> IVarAssign.
Lemma same_trans b1 b2 b3 x : same b1 b2 x -> same b2 b3 x -> same b1 b3 x.
Proof. intros H1 H2 k i Hi. rewrite (H1 k i Hi). by apply H2. Qed.
Lemma same_covers s b b' x : same b b' x -> covers s (block_of b x) -> covers s (block_of b' x).
Proof. intros H C k i t a Hi Hc. apply (C k i t a); [|done]. apply H; [apply Hc|done]. Qed.
Lemma same_flat b b' x : brel b -> (exists p, path c (x :: p)) -> (forall z, dm z x -> same b b' z) -> flat_at b x -> flat_at b' x.
Proof.
  intros B Hp H F k i t y Hi Hc l' k' i' D Hi' Hv.
  assert (Hx : dm x x) by (apply dominates_refl; by apply reach_path).
  apply (H x Hx) in Hi; [|apply Hc]. destruct (after_inst um c b B x k i Hi) as (j & I & R). destruct (copy_arg _ _ _ _ _ _ I R Hc) as [_ A].
  pose proof (avail_dominates _ _ _ _ _ (A y eq_refl) Hp D) as Dm. apply (H _ Dm) in Hi'; [|done]. by eapply F.
Qed.
Lemma block_insert b x is y : block_of (<[x := is]> b) y = if N.eqb y x then is else block_of b y.
Proof. unfold block_of. destruct (N.eqb_spec y x) as [->|Hn]; [by rewrite lookup_insert|by rewrite lookup_insert_ne by done]. Qed.
Lemma canon_phis_same s pred is : forall k i, i_t i = IVarAssign -> is !! k = Some i <-> canon_phis ev s pred is !! k = Some i.
Proof.
  induction is as [|x is IH]; intros k i Hi; cbn [canon_phis]; [done|]. destruct (is_phi x) eqn:E; [|done]. destruct k as [|k]; cbn; [|by apply IH].
  unfold is_phi in E. apply bool_decide_eq_true in E. split; [congruence|]. intros [= <-]. unfold canon_phi, set_labels, set_args in Hi. cbn in Hi. congruence.
Qed.
Lemma canon_children_same s pred cs : forall b b', canon_children ev s pred cs b = Some b' -> forall x, same b b' x.
Proof.
  induction cs as [|n cs IH]; intros b b' H x; cbn in H; [by injection H as <-|]. destruct (b !! n) as [is|] eqn:E; [|done].
  eapply same_trans; [|by apply (IH _ _ H)]. intros k i Hi. rewrite block_insert. destruct (N.eqb_spec x n) as [->|Hn]; [|done].
  unfold block_of at 1. rewrite E. by apply canon_phis_same.
Qed.
Lemma kid_above l x : dm l x -> l = x \/ exists n, immediately_dominates (edge (c_graph c)) (c_entry c) l n /\ dm n x.
Proof.
  rewrite <- Hent. intros H. remember (length (d_order d) - po (d_order d) x)%nat as r eqn:Er. revert x H Er. induction (lt_wf r) as [r _ IH]. intros x H ->.
  pose proof (proj1 H) as Hx. apply (dominates_cases _ d Hdom l x Hx) in H as [->|(y & Hy & H)]; [by left|right].
  destruct (idom_up _ d Hdom _ _ Hy) as (L & Ox & Oy & _). pose proof (order_po_lt _ d Hdom _ Oy) as Ly. pose proof Hy as Hy2. apply (k_idom _ d Hdom) in Hy2.
  edestruct (IH (length (d_order d) - po (d_order d) y)%nat) as [->|(n & Hn & Hny)]; [|exact H|done| |].
  - lia.
  - exists x. split; [done|]. by apply dominates_refl.
  - exists n. split; [done|]. eapply dominates_trans; [done|]. apply Hy2.
Qed.
Lemma inner_flat fuel : forall s b l b', brel b -> good s -> placed c s l 0 -> (exists p, path c (l :: p)) -> roots s ->
  (forall x, sdm x l -> covers s (block_of b x)) -> inner ev (c_graph c) d fuel s b l = Done b' ->
  brel b' /\ (forall x, ~ dm l x -> same b b' x) /\ forall x, dm l x -> flat_at b' x.
Proof.
  induction fuel as [|fuel IH]; intros s b l b' B G P Hp Rt Cv; cbn [inner]; [done|].
  destruct (proj2 (proj1 B l) (node_block c Hm He _ (reach_node um c Ok Hssa Hphi ev (unit_sound ev) (unit_unaffected c) d Hwf Hm He Hd _ Hp))) as [is Hb]. rewrite Hb. destruct (proj2 B _ _ Hb) as [L Sg].
  pose proof (number_block_ok um c Hssa ev (unit_sound ev) (unit_unaffected c) l Hp is s 0 G P Sg) as H.
  pose proof (number_block_flat b l B Hp is [] s G P Rt) as F.
  destruct (number_block ev s is) as [[s1 is1]|]; [|done]. destruct H as (G1 & P1 & L1 & Sg1).
  destruct F as (Rt1 & Cv1 & Cl1 & Fl1); [done|done|done|done|done|]. cbn [app] in Cl1, Fl1.
  assert (B1 : brel (<[l := is1]> b)) by (apply blocks_rel_insert; try done; congruence).
  destruct (canon_children_ok um c ev (unit_sound ev) s1 l (children_sorted (c_graph c) l) G1) with (b := <[l := is1]> b) as (b2 & E2 & B2); [|done|].
  { intros n Hn. apply elem_of_sorted in Hn. apply (node_block c Hm He). destruct (proj2 Hwf _ _ Hn) as [_ ?]. set_solver. }
  rewrite E2. rewrite L in P1. cbn [Nat.add] in P1. pose proof (canon_children_same _ _ _ _ _ E2) as S2.
  assert (Dl : dm l l) by (apply dominates_refl; by apply reach_path).
  assert (Cv2 : forall x, dm x l -> covers s1 (block_of b2 x)).
  { intros x Hx. eapply same_covers; [apply S2|]. rewrite block_insert. destruct (N.eqb_spec x l) as [->|Hn]; [done|]. by apply Cv1. }
  assert (Fr2 : forall x, ~ dm l x -> same b b2 x).
  { intros x Hx. eapply same_trans; [|apply S2]. intros k i Hi. rewrite block_insert. destruct (N.eqb_spec x l) as [->|Hn]; [|done]. done. }
  assert (F2 : flat_at b2 l).
  { apply (same_flat (<[l := is1]> b)); [done|done|intros; apply S2|]. intros k i t y Hi Hc l' k' i' D Hi'. rewrite block_insert, N.eqb_refl in Hi. rewrite block_insert in Hi'.
    by eapply (Fl1 k i t y Hi Hc l' k' i' D). }
  assert (Goal : forall (ks done_ : list N), (forall n, n ∈ ks -> immediately_dominates (edge (c_graph c)) (c_entry c) l n) ->
    (forall n, immediately_dominates (edge (c_graph c)) (c_entry c) l n -> n ∈ done_ \/ n ∈ ks) ->
    forall b2, brel b2 -> (forall x, dm x l -> covers s1 (block_of b2 x)) -> (forall x, ~ dm l x -> same b b2 x) -> flat_at b2 l ->
    (forall n x, n ∈ done_ -> dm n x -> flat_at b2 x) -> visit (inner ev (c_graph c) d fuel s1) b2 ks = Done b' ->
    brel b' /\ (forall x, ~ dm l x -> same b b' x) /\ forall x, dm l x -> flat_at b' x).
  { clear b2 E2 B2 S2 Cv2 Fr2 F2. induction ks as [|n ks IHk]; intros done_ Hk Hall b2 B2 Cv2 Fr2 F2 Fd; cbn [visit].
    - intros [= <-]. split; [done|]. split; [done|]. intros x Hx. apply kid_above in Hx as [<-|(n & Hn & Hx)]; [done|]. destruct (Hall n Hn) as [Hin|Hin]; [by eapply Fd|by apply elem_of_nil in Hin].
    - destruct (Hk n ltac:(constructor)) as [Sd Cl]. destruct (inner ev (c_graph c) d fuel s1 b2 n) as [b3| |] eqn:En; try done.
      destruct (IH s1 b2 n b3) as (B3 & Fr3 & F3); try done.
      + destruct P1 as [P1 P2]. split; intros; (eapply available_below; [exact Sd|eauto]).
      + apply reach_path. apply Sd.
      + intros x Hx. by apply Cv2, Cl.
      + assert (Nl : forall x, dm x l -> ~ dm n x).
        { intros x Hx Hn. apply (proj2 Sd). apply (dominates_antisym _ _ _ _ (proj1 Sd)). by eapply dominates_trans. }
        apply (IHk (n :: done_)).
        * intros; apply Hk. by constructor.
        * intros n' Hn'. destruct (Hall n' Hn') as [?|[->|?]%elem_of_cons]; [left; by constructor|left; constructor|by right].
        * done.
        * intros x Hx. eapply same_covers; [apply Fr3; by apply Nl|by apply Cv2].
        * intros x Hx. eapply same_trans; [by apply Fr2|]. apply Fr3. intros Hn. apply Hx. eapply dominates_trans; [apply Sd|done].
        * apply (same_flat b2); [done|done| |done]. intros z Hz. apply Fr3. by apply Nl.
        * intros n' x [->|Hn']%elem_of_cons Hx; [by apply F3|]. intros k i t y Hi Hc l' k' i' D Hi' Hv.
          assert (Nx : ~ dm n x). { intros Hnx. by eapply (F3 x Hnx k i t y Hi Hc). }
          assert (F : flat_at b3 x); [|by eapply F]. apply (same_flat b2); [done|apply reach_path; apply Hx| |by eapply Fd].
          intros z Hz. apply Fr3. intros Hnz. apply Nx. by eapply dominates_trans. }
  apply (Goal _ []); try done.
  - intros n Hn. by apply Hd.
  - intros n Hn. right. by apply Hd.
  - intros n x Hn. by apply elem_of_nil in Hn.
Qed.
Lemma dvn_flat b : all_reachable c -> optpass_dvn ev c d = Done b -> copies_flat (Cfg (c_graph c) b (c_entry c)).
Proof.
  intros Hr H.
  assert (G0 : good (State [] ∅)). { split; [|split]; cbn; [by intros t a|by intros v a ?%elem_of_nil|by intros t a]. }
  assert (P0 : placed c (State [] ∅) (c_entry c) 0). { split; cbn; [by intros t a|by intros v a ?%elem_of_nil]. }
  assert (R0 : roots (State [] ∅)). { split; cbn; [by intros t a|by intros v a ?%elem_of_nil]. }
  unfold optpass_dvn in H. apply inner_flat in H as (B & _ & F); [|exact (blocks_rel_init um c Ok Hssa Hphi Hcalls)|done|done|exists []; exact (path_entry c)|done|intros x [Hx Hn]; by apply dominates_entry in Hx].
  intros t a (l & k & i & I & Ei & Et & Ea) y a' -> (l' & k' & i' & I' & Ei' & Et' & Ea').
  unfold in_prog in I, I'. cbn [c_blocks] in I, I'. destruct (after_inst um c b B _ _ _ I) as (j & J & R). destruct (after_inst um c b B _ _ _ I') as (j' & J' & R').
  refine (F l _ k i t y I _ l' k' i' _ I' Ei').
  - split; [|intros w Hw; by apply walk_has_entry in Hw].
    assert (S : is_Some (c_blocks c !! l)). { unfold in_prog, block_of in J. destruct (c_blocks c !! l); [done|]. by rewrite lookup_nil in J. }
    apply Hr in S. by apply reach_path, reaches_path.
  - split; [done|]. rewrite Et, Ea. eauto.
  - exists j'. split; [done|]. rewrite <- (r_tgts _ _ _ _ _ _ R'), Et'. constructor.
Qed.
End flat.
