(** Removing impossible branches (opt/optpass_impossible_branches.rs) preserves behaviour. *)
From stdpp Require Import base decidable list numbers gmap sets relations.
From Coq Require Import NArith ZArith Lia.
From Verif Require Import VmBase RustStr RustStrProofs ILModel CfgSpec CfgProofs ILSpec PassModel PassProofs.

Local Open Scope N_scope.

(** Every program the pass sees on the way. *)
Record good (c : cfg) : Prop := {
  gd_ok : prog_ok c; gd_ssa : strict_ssa c; gd_wf : wf (c_graph c); gd_match : blocks_match c; gd_phis : phis_complete c;
  gd_conds : forall l k i b, in_prog c l k i -> is_cond_goto i = true -> AConst (KBigInt b) ∉ i_args i }.
(** Lockstep equality of two programs. *)
Definition lock {V W} (m : machine V W) (c c' : cfg) : Prop := forall e e' w n, (forall x, e x = e' x) ->
  same_on (fun _ => True) (run m c n (start c e w)) (run m c' n (start c' e' w)).
Lemma lock_refl {V W} (m : machine V W) c : (forall s s', same_on (fun _ => True) s s' -> same_on (fun _ => True) (step m c s) (step m c s')) -> lock m c c.
Proof. intros H e e' w n He. apply same_on_run; [exact H|]. by split. Qed.
Lemma same_on_trans {V W} (s1 s2 s3 : @state V W) P : same_on P s1 s2 -> same_on P s2 s3 -> same_on P s1 s3.
Proof.
  destruct s1, s2, s3; cbn; try done.
  - intros (-> & -> & -> & H1) (-> & -> & -> & H2). repeat split; auto. intros x Hx. rewrite H1; auto.
  - intros (-> & H1) (-> & H2). split; auto. intros x Hx. rewrite H1; auto.
Qed.
Lemma lock_trans {V W} (m : machine V W) c1 c2 c3 : lock m c1 c2 -> lock m c2 c3 -> lock m c1 c3.
Proof. intros H1 H2 e e' w n He. eapply same_on_trans; [by apply (H1 e e')|by apply H2]. Qed.
(** [exec_block] and [next] only look at the values of variables. *)
Section ext.
  Context {V W : Type} (m : machine V W).
  Lemma eval_ext e e' a : (forall x, e x = e' x) -> eval m e a = eval m e' a.
  Proof. intros H. destruct a; cbn; auto. Qed.
  Lemma exec_insts_ext is : forall s s', (forall x, s.1 x = s'.1 x) -> s.2 = s'.2 -> (forall x, (exec_insts m is s).1 x = (exec_insts m is s').1 x) /\ (exec_insts m is s).2 = (exec_insts m is s').2.
  Proof.
    induction is as [|i is IH]; intros [e w] [e' w'] He Hw; cbn in *; [done|]. subst w'. apply IH; unfold exec_inst; cbn [fst snd].
    - rewrite (map_ext _ _ (fun a => eval_ext e e' a He)). intros x. unfold assign. case_bool_decide; auto.
    - by rewrite (map_ext _ _ (fun a => eval_ext e e' a He)).
  Qed.
  Lemma phi_value_ext prev e e' i : (forall x, e x = e' x) -> phi_value m prev e i = phi_value m prev e' i.
  Proof. intros H. unfold phi_value. destruct prev; [|done]. destruct (phi_entry _ _); [|done]. by apply eval_ext. Qed.
  Lemma exec_phis_ext prev e0 e0' is : (forall x, e0 x = e0' x) -> forall e e', (forall x, e x = e' x) -> forall x, exec_phis m prev e0 is e x = exec_phis m prev e0' is e' x.
  Proof.
    intros H0. induction is as [|i is IH]; intros e e' He x; cbn; [done|]. apply IH. intros y. unfold assign. rewrite (phi_value_ext prev e0 e0') by done. case_bool_decide; auto.
  Qed.
  Lemma exec_block_ext prev is e e' w : (forall x, e x = e' x) -> (forall x, (exec_block m prev is (e, w)).1 x = (exec_block m prev is (e', w)).1 x) /\ (exec_block m prev is (e, w)).2 = (exec_block m prev is (e', w)).2.
  Proof. intros H. unfold exec_block. apply exec_insts_ext; cbn; [|done]. by apply exec_phis_ext. Qed.
  Lemma next_ext c l e e' : (forall x, e x = e' x) -> next m c l e = next m c l e'.
  Proof. intros H. unfold next. destruct (last _) as [i|]; [|done]. destruct (is_cond_goto i), (i_args i) as [|a []], (i_labels i) as [|? [|? []]]; try done. by rewrite (eval_ext e e' a). Qed.
  (** Two programs whose blocks do the same and end the same run in lockstep. *)
  Lemma lock_step c c' (I : N -> option N -> Prop) : c_entry c' = c_entry c -> I (c_entry c) None ->
    (forall l prev e w n, I l prev -> next m c l (exec_block m prev (block_of (c_blocks c) l) (e, w)).1 = Some n -> I n (Some l)) ->
    (forall l prev e w, I l prev -> let r := exec_block m prev (block_of (c_blocks c) l) (e, w) in let r' := exec_block m prev (block_of (c_blocks c') l) (e, w) in
       (forall x, r.1 x = r'.1 x) /\ r.2 = r'.2 /\ next m c l r.1 = next m c' l r.1) -> lock m c c'.
  Proof.
    intros He H0 Hn Hb e e' w n Hee.
    assert (H : forall n s s', same_on (fun _ => True) s s' -> match s with Running l prev _ _ => I l prev | _ => True end -> same_on (fun _ => True) (run m c n s) (run m c' n s')).
    { clear e e' w n Hee. induction n as [|n IH]; intros s s' Hs Hi; [done|]. cbn [run]. destruct s as [l p e w|e w], s' as [l' p' e' w'|e' w']; cbn in Hs; try done.
      - destruct Hs as (<- & <- & <- & Hs). destruct (Hb l p e w Hi) as (B1 & B2 & B3). specialize (Hn l p e w).
        destruct (exec_block_ext p (block_of (c_blocks c') l) e e' w) as [X1 X2]; [auto|].
        assert (E1 : forall x, (exec_block m p (block_of (c_blocks c) l) (e, w)).1 x = (exec_block m p (block_of (c_blocks c') l) (e', w)).1 x) by (intros; by rewrite B1, X1).
        cbn [step]. rewrite <- (next_ext c' l _ _ E1), <- B3. destruct (next m c l _) as [n'|] eqn:En.
        + apply IH; [|by apply (Hn n')]. cbn. repeat split; auto. by rewrite B2, X2.
        + apply IH; [|done]. cbn. split; [by rewrite B2, X2|auto].
      - apply IH; done. }
    apply H; [|done]. unfold start. rewrite He. by split.
  Qed.
End ext.

(** Strictness survives removing jumps, edges and unreachable blocks. *)
Lemma path_sub c c' : c_entry c' = c_entry c -> (forall a b, edge (c_graph c') a b -> edge (c_graph c) a b) -> forall p, path c' p -> path c p.
Proof. intros He Hs p H. induction H as [|l n p Hp IH Hln]; [rewrite He; constructor|constructor; auto]. Qed.
Lemma path_elem c : forall p l, path c p -> l ∈ p -> exists p', path c (l :: p').
Proof.
  intros p l H. induction H as [|l' n p Hp IH Hln].
  - intros ->%elem_of_list_singleton. exists []. constructor.
  - intros [->|Hl]%elem_of_cons; [exists (l' :: p); by constructor|auto].
Qed.
Lemma ssa_sub c c' : c_entry c' = c_entry c -> (forall a b, edge (c_graph c') a b -> edge (c_graph c) a b) ->
  (forall l k i, in_prog c' l k i -> in_prog c l k i) -> (forall x l k p, path c' (l :: p) -> defines c x l k -> defines c' x l k) -> strict_ssa c -> strict_ssa c'.
Proof.
  intros He Hs Hi Hd S.
  assert (D : forall x l k, defines c' x l k -> defines c x l k) by (intros x l k (i & ? & ?); exists i; auto).
  assert (A : forall x l k, available c x l k -> available c' x l k).
  { intros x l k H p Hp. destruct (H p) as [(l' & k' & Hl & Hx)|(k' & Hk & Hx)]; [by eapply path_sub| |].
    - left. exists l', k'. split; [done|]. destruct (path_elem c' (l :: p) l' Hp) as [p' Hp']; [by constructor|]. eauto.
    - right. exists k'. eauto. }
  constructor.
  - intros x l k l' k' H1 H2. eapply ssa_once; eauto.
  - intros x l k i H1 H2 H3. apply A. eapply ssa_use; eauto.
  - intros x l k i p H1 H2 H3 H4. assert (H := ssa_phi _ S x l k i p (Hi _ _ _ H1) H2 (Hs _ _ H3) H4). intros q Hq.
    destruct (A _ _ _ H q Hq) as [?|(k' & Hk & Hx)]; [by left|right]. exists k'. split; [|done]. destruct Hx as (j & Hj & _). by apply lookup_lt_Some in Hj.
Qed.
Lemma reaches_path c l : reaches (c_graph c) (c_entry c) l <-> exists p, path c (l :: p).
Proof.
  split.
  - intros H. apply rtc_ind_r with (P := fun l => exists p, path c (l :: p)) (3 := H).
    + exists []. constructor.
    + intros a b _ Hab [p Hp]. exists (a :: p). by constructor.
  - intros [p Hp]. remember (l :: p) as q eqn:E. revert l p E. induction Hp as [|a b q Hq IH Hab]; intros l p E; injection E as <- <-; [constructor|]. eapply rtc_r; [by eapply IH|done].
Qed.

(** ** Folding one branch *)
Lemma coerce_to_bool_spec k : (forall z, k <> KBigInt z) -> coerce_to_bool k = to_boolean k.
Proof.
  intros H. destruct k as [z| | |x|s|]; cbn; try done; [by destruct (H z)|by rewrite negb_orb|]. destruct s; cbn; done.
Qed.
Lemma block_of_insert b l is l' : block_of (<[l := is]> b) l' = if decide (l' = l) then is else block_of b l'.
Proof. unfold block_of. case_decide as H; [subst; by rewrite lookup_insert|by rewrite lookup_insert_ne]. Qed.
Lemma children_one (g : graph) l n : (forall x, x ∈ children g l <-> x = n) -> children_sorted g l = [n].
Proof.
  intros H. unfold children_sorted. assert (E : forall x, x ∈ sorted (children g l) <-> x = n) by (intros; by rewrite elem_of_sorted).
  assert (Nd := NoDup_sorted (children g l)). destruct (sorted (children g l)) as [|a [|b q]].
  - specialize (E n). destruct E as [_ E]. specialize (E eq_refl). by apply elem_of_nil in E.
  - f_equal. apply E. constructor.
  - assert (a = n) by (apply E; constructor). assert (b = n) by (apply E; constructor; constructor). subst. apply NoDup_cons in Nd as [Nd _]. destruct Nd. constructor.
Qed.
Lemma fold_branch_spec c l : good c -> l ∈ labels (c_graph c) -> exists c', fold_branch c l = Some c' /\ good c' /\ labels (c_graph c') = labels (c_graph c) /\
  forall V W (m : machine V W), (forall k, m_truthy m (m_const m k) = to_boolean k) -> lock m c c'.
Proof.
  intros G Hl. destruct (gd_match _ G) as [M1 M2]. destruct (M1 l Hl) as [is Eis]. unfold fold_branch. rewrite Eis.
  assert (Eb : block_of (c_blocks c) l = is) by (unfold block_of; by rewrite Eis).
  assert (Same : exists c', Some c = Some c' /\ good c' /\ labels (c_graph c') = labels (c_graph c) /\ forall V W (m : machine V W), (forall k, m_truthy m (m_const m k) = to_boolean k) -> lock m c c').
  { exists c. split; [done|]. split; [done|]. split; [done|]. intros V W m _. apply (lock_step m c c (fun _ _ => True)); auto. }
  destruct (last is) as [i|] eqn:El; [|done]. destruct (is_cond_goto i) eqn:Ec; [|done].
  destruct (proj1 (gd_ok _ G) l) as (B1 & B2 & B3). rewrite Eb in B1, B2, B3.
  assert (Oi : inst_ok i) by (apply B1; by apply last_Some_elem_of).
  assert (Et : i_t i = ICondGoto) by (unfold is_cond_goto in Ec; by apply bool_decide_eq_true in Ec). unfold inst_ok in Oi. rewrite Et in Oi. destruct Oi as (Og & Oa & Ol).
  destruct (i_args i) as [|cond []] eqn:Ea; try done. destruct (i_labels i) as [|t [|f []]] eqn:Elb; try done.
  destruct is as [|i' is' _] using rev_ind; [done|]. rewrite last_snoc in El. injection El as ->. rewrite removelast_last.
  assert (Fl : forall n, n ∈ [t; f] <-> edge (c_graph c) l n). { assert (F := proj2 (gd_ok _ G) l). unfold flow_ok in F. rewrite Eb, last_snoc, Elb in F. by apply F. }
  assert (Ni : is_phi i = false) by (unfold is_phi; by rewrite Et).
  (** the block without its jump *)
  assert (Eph : phis_of (is' ++ [i]) = phis_of is' /\ rest_of (is' ++ [i]) = rest_of is' ++ [i]).
  { clear -Ni. induction is' as [|x is' IH]; cbn [app phis_of rest_of]; [by rewrite Ni|]. destruct (is_phi x); [|done]. destruct IH as [-> ->]. done. }
  assert (NoC : forall j, last is' = Some j -> is_cond_goto j = false).
  { intros j Hj. destruct (is_cond_goto j) eqn:Ej; [|done]. destruct is' as [|j' is2 _] using rev_ind; [done|]. rewrite last_snoc in Hj. injection Hj as ->. rewrite <- app_assoc in B3. by specialize (B3 is2 j _ eq_refl Ej). }
  (** any graph with the right successors will do *)
  assert (Main : forall g taken, wf g -> labels g = labels (c_graph c) -> (forall a, a <> l -> children g a = children (c_graph c) a) -> (forall x, x ∈ children g l <-> x = taken) -> taken ∈ [t; f] ->
    (forall V W (m : machine V W) e, (forall k, m_truthy m (m_const m k) = to_boolean k) -> (if m_truthy m (eval m e cond) then t else f) = taken) ->
    let c' := Cfg g (<[l := is']> (c_blocks c)) (c_entry c) in good c' /\ labels (c_graph c') = labels (c_graph c) /\
    forall V W (m : machine V W), (forall k, m_truthy m (m_const m k) = to_boolean k) -> lock m c c').
  { intros g taken Wg Lg Cg Cl Ht Hm c'.
    assert (Bc : forall l', block_of (c_blocks c') l' = if decide (l' = l) then is' else block_of (c_blocks c) l') by (intros; cbn; apply block_of_insert).
    assert (In : forall l' k j, in_prog c' l' k j -> in_prog c l' k j).
    { unfold in_prog. intros l' k j. rewrite Bc. case_decide; [subst l'|done]. rewrite Eb. intros Hj. by apply lookup_app_l_Some. }
    assert (Ed : forall a b, edge g a b -> edge (c_graph c) a b). { unfold edge. intros a b. destruct (decide (a = l)) as [->|Ha]; [|by rewrite Cg]. intros ->%Cl. by apply Fl. }
    split; [constructor|split; [done|]].
    - split.
      + intros l'. rewrite Bc. case_decide; [|by apply (gd_ok _ G)]. split; [intros j Hj; apply B1; set_solver|]. split.
        * intros j Hj. apply B2. destruct Eph as [_ ->]. set_solver.
        * intros a j b -> Hj. specialize (B3 a j (b ++ [i])). rewrite <- app_assoc in B3. specialize (B3 eq_refl Hj). by destruct b.
      + intros l'. unfold flow_ok. rewrite Bc. case_decide as Hd.
        * destruct (last is') as [j|] eqn:Ej; [|done]. by rewrite (NoC j eq_refl).
        * assert (F := proj2 (gd_ok _ G) l'). unfold flow_ok in F. destruct (last (block_of (c_blocks c) l')) as [j|]; [|done]. intros Hj n. rewrite (F Hj n). unfold edge. cbn. by rewrite Cg.
    - apply (ssa_sub c c'); [done|done|done| |apply G]. intros x l' k p _ (j & Hj & Hx). exists j. split; [|done]. unfold in_prog in *. rewrite Bc. case_decide; [subst l'|done].
      rewrite Eb in Hj. apply lookup_app_Some in Hj as [Hj|[Hk Hj]]; [done|]. destruct (k - length is')%nat eqn:Ek; [|done]. injection Hj as <-. rewrite Og in Hx. by apply elem_of_nil in Hx.
    - done.
    - unfold blocks_match, c'; cbn [c_graph c_blocks c_entry]; rewrite Lg; split.
      + intros l' Hl'. destruct (decide (l' = l)) as [->|]; [rewrite lookup_insert; eauto|rewrite lookup_insert_ne by done; auto].
      + intros l'. destruct (decide (l' = l)) as [->|]; [auto|rewrite lookup_insert_ne by done; auto].
    - destruct (gd_phis _ G) as [P1 P2]. split.
      + cbn [c_entry c_blocks c']. rewrite block_of_insert. case_decide as Hd; [|done]. rewrite Hd, Eb in P1. destruct Eph as [<- _]. done.
      + intros l' k j Hj Hp. destruct (P2 l' k j (In _ _ _ Hj) Hp) as [P3 P4]. split; [done|]. intros p Hpe. apply P4. by apply Ed.
    - intros l' k j b Hj Hc. eapply (gd_conds _ G); eauto.
    - intros V W m Hm'. apply (lock_step m c c' (fun _ _ => True)); try done. intros l' prev e w _. rewrite Bc. case_decide as Hd; cbn zeta.
      + subst l'. rewrite Eb. unfold exec_block. destruct Eph as [-> ->]. cbn [fst snd]. rewrite exec_insts_app. set (r := exec_insts m (rest_of is') _). cbn [exec_insts].
        assert (Er : (forall x, (exec_inst m i r).1 x = r.1 x) /\ (exec_inst m i r).2 = r.2).
        { unfold exec_inst, effect. rewrite Et, Og. cbn. split; [|done]. intros x. unfold assign. rewrite bool_decide_eq_false_2; [done|]. by intros ?%elem_of_nil. }
        destruct Er as [Er1 Er2]. split; [done|]. split; [done|]. unfold next. rewrite Bc, decide_True by done. rewrite Eb, last_snoc, Ec, Ea, Elb. rewrite (Hm V W m (exec_inst m i r).1 Hm').
        assert (Ech : children_sorted (c_graph c') l = [taken]) by (by apply children_one). rewrite Ech.
        destruct (last is') as [j|] eqn:Ej; [by rewrite (NoC j eq_refl)|done].
      + split; [done|]. split; [done|]. unfold next. rewrite Bc, decide_False by done. unfold children_sorted. cbn [c_graph c']. by rewrite Cg. }
  destruct (N.eqb_spec t f) as [->|Hne].
  - destruct (Main (c_graph c) f (gd_wf _ G) eq_refl ltac:(done)) as (M3 & M4 & M5).
    + intros x. fold (edge (c_graph c) l x). rewrite <- Fl. rewrite elem_of_cons, elem_of_list_singleton. tauto.
    + constructor.
    + intros V W m e _. by destruct (m_truthy _ _).
    + eexists. split; [done|]. split; [exact M3|]. split; [exact M4|exact M5].
  - destruct cond as [|k| |]; try done.
    assert (Hk : forall z, k <> KBigInt z).
    { intros z ->. apply (gd_conds _ G l (length is') i z); [|done|rewrite Ea; constructor]. unfold in_prog. rewrite Eb. rewrite lookup_app_r by lia. by rewrite Nat.sub_diag. }
    set (never := if coerce_to_bool k then f else t). set (taken := if coerce_to_bool k then t else f).
    assert (Hn : never ∈ labels (c_graph c)).
    { apply (proj2 (gd_wf _ G) l never). apply Fl. unfold never. destruct (coerce_to_bool k); set_solver. }
    destruct (disconnect_spec (c_graph c) l never Hl Hn) as (g & Eg & Lg & Cg & Pg). rewrite Eg. assert (Wg := disconnect_wf _ _ _ _ Eg (gd_wf _ G)).
    destruct (Main g taken Wg Lg) as (M3 & M4 & M5).
    + intros a Ha. by rewrite Cg, decide_False.
    + intros x. rewrite Cg, decide_True by done. rewrite elem_of_difference, elem_of_singleton. fold (edge (c_graph c) l x). rewrite <- Fl. rewrite elem_of_cons, elem_of_list_singleton.
      unfold taken, never. destruct (coerce_to_bool k); split; [intros [[?|?] ?]; congruence|intros ->; auto|intros [[?|?] ?]; congruence|intros ->; auto].
    + unfold taken. destruct (coerce_to_bool k); set_solver.
    + intros V W m e Hm. cbn [eval]. rewrite Hm. unfold taken. by rewrite coerce_to_bool_spec.
    + eexists. split; [done|]. split; [exact M3|]. split; [exact M4|exact M5].
Qed.
Lemma fold_branches_spec ls : forall c, good c -> (forall l, l ∈ ls -> l ∈ labels (c_graph c)) -> exists c', fold_branches c ls = Some c' /\ good c' /\
  forall V W (m : machine V W), (forall k, m_truthy m (m_const m k) = to_boolean k) -> lock m c c'.
Proof.
  induction ls as [|l ls IH]; intros c G Hl; cbn [fold_branches].
  - exists c. split; [done|]. split; [done|]. intros V W m _. apply (lock_step m c c (fun _ _ => True)); auto.
  - destruct (fold_branch_spec c l G) as (c1 & -> & G1 & L1 & K1); [apply Hl; constructor|].
    destruct (IH c1 G1) as (c2 & -> & G2 & K2); [intros x Hx; rewrite L1; apply Hl; by constructor|].
    exists c2. split; [done|]. split; [done|]. intros V W m Hm. eapply lock_trans; [by apply K1|by apply K2].
Qed.

(** ** Dropping unreachable blocks *)
Definition all_reachable (c : cfg) : Prop := forall l, is_Some (c_blocks c !! l) -> reaches (c_graph c) (c_entry c) l.
Lemma next_edge {V W} (m : machine V W) c l e n : flow_ok c l -> next m c l e = Some n -> edge (c_graph c) l n.
Proof.
  intros F. assert (Q : match children_sorted (c_graph c) l with [n] => Some n | _ => None end = Some n -> edge (c_graph c) l n).
  { intros Hn. destruct (children_sorted (c_graph c) l) as [|n' []] eqn:Ech; try done. injection Hn as ->. unfold edge. apply elem_of_sorted. unfold children_sorted in Ech. rewrite Ech. constructor. }
  unfold next, flow_ok in *. destruct (last (block_of (c_blocks c) l)) as [i|]; [|done]. destruct (is_cond_goto i); [|done].
  destruct (i_args i) as [|a [|]]; try done. destruct (i_labels i) as [|t [|f [|]]]; try done. intros [= <-]. apply F; [done|]. destruct (m_truthy _ _); [constructor|constructor; constructor].
Qed.
Lemma pop_unreachable_good c : good c -> exists c' dead, find_and_pop_unreachable c = Some (c', dead) /\ good c' /\ all_reachable c' /\
  forall V W (m : machine V W), lock m c c'.
Proof.
  intros G. destruct (gd_match _ G) as [M1 M2].
  destruct (pop_unreachable_spec c (gd_wf _ G)) as (c' & dead & E & En & Wf & Hd & Hl & He & Hb). { intros n Hn. apply elem_of_dom. auto. }
  assert (Hb1 : forall l, reaches (c_graph c) (c_entry c) l -> block_of (c_blocks c') l = block_of (c_blocks c) l).
  { intros l Hr. unfold block_of. rewrite Hb, decide_False; [done|]. rewrite Hd. tauto. }
  assert (Hb2 : forall l is, c_blocks c' !! l = Some is -> c_blocks c !! l = Some is /\ reaches (c_graph c) (c_entry c) l).
  { intros l is. rewrite Hb. case_decide as Hdl; [done|]. intros Hx. split; [done|]. rewrite Hd in Hdl. destruct (M2 l) as [Hin| ->]; [eauto| |constructor].
    destruct (find_unreachable_spec (c_graph c) (c_entry c) (gd_wf _ G)) as (d & _ & _ & _ & Hd2). destruct (decide (l ∈ d)) as [Hx2|Hx2].
    - apply Hd2 in Hx2. tauto.
    - destruct (decide (l ∈ labels (c_graph c'))) as [Hy%Hl|Hy]; [tauto|]. rewrite Hl in Hy. exfalso. apply Hdl. split; [done|]. tauto. }
  assert (Bk : forall l, block_of (c_blocks c') l = [] \/ block_of (c_blocks c') l = block_of (c_blocks c) l /\ reaches (c_graph c) (c_entry c) l).
  { intros l. destruct (c_blocks c' !! l) as [is|] eqn:El; [right|left; unfold block_of; by rewrite El]. destruct (Hb2 l is El) as [E1 E2]. split; [|done]. unfold block_of. by rewrite El, E1. }
  assert (Inp : forall l k i, in_prog c' l k i -> in_prog c l k i /\ reaches (c_graph c) (c_entry c) l).
  { unfold in_prog. intros l k i Hi. destruct (Bk l) as [Ex|[Ex Hr]]; rewrite Ex in Hi; [by rewrite lookup_nil in Hi|done]. }
  assert (Ed : forall a b, edge (c_graph c') a b -> edge (c_graph c) a b) by (intros a b; rewrite He; tauto).
  assert (Rch : forall l, reaches (c_graph c) (c_entry c) l -> reaches (c_graph c') (c_entry c') l).
  { intros l Hr. rewrite En. apply rtc_ind_r with (P := fun l => reaches (c_graph c') (c_entry c) l) (3 := Hr); [constructor|]. intros a b Hra Hab IH. eapply rtc_r; [done|]. by apply He. }
  exists c', dead. split; [done|]. split; [constructor|split].
  - split.
    + intros l. destruct (Bk l) as [->|[-> _]]; [|by apply (gd_ok _ G)]. split; [by intros i ?%elem_of_nil|]. split; [by intros i ?%elem_of_nil|]. by intros [].
    + intros l. unfold flow_ok. destruct (Bk l) as [->|[-> Hr]]; [done|]. assert (F := proj2 (gd_ok _ G) l). unfold flow_ok in F. destruct (last (block_of (c_blocks c) l)) as [i|]; [|done].
      intros Hc n. rewrite (F Hc n), He. tauto.
  - apply (ssa_sub c c'); [done|done| | |apply G]; [intros; by apply Inp|]. intros x l k p Hp (i & Hi & Hx). exists i. split; [|done]. unfold in_prog in *. rewrite Hb1; [done|].
    apply reaches_path. exists p. by eapply path_sub.
  - done.
  - split.
    + intros l [Hin Hr]%Hl. destruct (M1 l Hin) as [is Eis]. exists is. rewrite Hb, decide_False; [done|]. rewrite Hd. tauto.
    + intros l [is Eis]. destruct (Hb2 l is Eis) as [E1 E2]. destruct (M2 l) as [?| ->]; [eauto|left; by apply Hl|right; done].
  - destruct (gd_phis _ G) as [P1 P2]. split.
    + rewrite En. rewrite Hb1 by constructor. done.
    + intros l k i Hi Hp. apply Inp in Hi as [Hi _]. destruct (P2 l k i Hi Hp) as [P3 P4]. split; [done|]. intros p Hpe. apply P4. by apply Ed.
  - intros l k i b Hi Hc. apply Inp in Hi as [Hi _]. eapply (gd_conds _ G); eauto.
  - intros l [is Eis]. apply Rch. by eapply Hb2.
  - intros V W m. apply (lock_step m c c' (fun l _ => reaches (c_graph c) (c_entry c) l)); [done|constructor| |].
    + intros l prev e w n Hr Hn. eapply rtc_r; [done|]. eapply next_edge; [apply (gd_ok _ G)|done].
    + intros l prev e w Hr. cbn zeta. rewrite Hb1 by done. split; [done|]. split; [done|]. unfold next. rewrite Hb1 by done.
      assert (Ech : children_sorted (c_graph c') l = children_sorted (c_graph c) l). { unfold children_sorted. f_equal. apply set_eq. intros x. fold (edge (c_graph c') l x). rewrite He. unfold edge. tauto. }
      by rewrite Ech.
Qed.

(** ** Simplifying phis *)
Lemma phi_entry_NoDup p les : NoDup (map fst les) -> forall a, phi_entry p les = Some a <-> (p, a) ∈ les.
Proof.
  induction les as [|[q b] les IH]; cbn; intros Nd a; [split; [done|by intros ?%elem_of_nil]|]. apply NoDup_cons in Nd as [Hq Nd]. destruct (N.eqb_spec q p) as [->|Hne].
  - split; [intros [= ->]; constructor|]. intros [[= ->]|Ha]%elem_of_cons; [done|]. destruct Hq. apply elem_of_list_fmap. by exists (p, a).
  - rewrite (IH Nd). split; [intros; by constructor|]. intros [[= -> ->]|Ha]%elem_of_cons; done.
Qed.
Lemma dedup_last_NoDup es : NoDup (map fst es) -> dedup_last es = es.
Proof.
  induction es as [|[p a] es IH]; intros Nd; [done|]. cbn in Nd. apply NoDup_cons in Nd as [Hp Nd]. cbn [dedup_last]. destruct es as [|[q b] es]; [done|].
  destruct (N.eqb_spec p q) as [->|_]; [destruct Hp; cbn; constructor|]. by rewrite IH.
Qed.
Lemma map_fst_filter_NoDup (P : N * arg -> Prop) `{forall x, Decision (P x)} es : NoDup (map fst es) -> NoDup (map fst (filter P es)).
Proof.
  induction es as [|[p a] es IH]; intros Nd; [done|]. cbn in Nd. apply NoDup_cons in Nd as [Hp Nd]. rewrite filter_cons. case_decide; [|auto]. cbn. constructor; [|auto].
  intros ([q b] & -> & Hin)%elem_of_list_fmap. apply elem_of_list_filter in Hin as [_ Hin]. apply Hp. apply elem_of_list_fmap. by exists (q, b).
Qed.
Lemma map_fst_zip {A B} (l : list A) (k : list B) : length l = length k -> map fst (zip l k) = l.
Proof. revert k. induction l as [|x l IH]; intros [|y k] H; cbn; try done. f_equal. apply IH. cbn in H. lia. Qed.
Lemma map_snd_zip {A B} (l : list A) (k : list B) : length l = length k -> map snd (zip l k) = k.
Proof. revert k. induction l as [|x l IH]; intros [|y k] H; cbn; try done. f_equal. apply IH. cbn in H. lia. Qed.
Lemma zip_map_fst_snd {A B} (es : list (A * B)) : zip (map fst es) (map snd es) = es.
Proof. induction es as [|[a b] es IH]; cbn; [done|]. by f_equal. Qed.
Section phi.
  Context (ps : gset N) (i : inst).
  Context (Nd : NoDup (i_labels i)) (Len : length (i_labels i) = length (i_args i)) (Hps : forall p, p ∈ ps -> p ∈ i_labels i).
  Let es := phi_entries ps i.
  Lemma entries_perm : es ≡ₚ filter (fun e => fst e ∈ ps) (zip (i_labels i) (i_args i)).
  Proof.
    unfold es, phi_entries. rewrite dedup_last_NoDup; [apply sort_by_perm|]. rewrite (sort_by_perm pair_cmp). apply map_fst_filter_NoDup. by rewrite map_fst_zip.
  Qed.
  Lemma entries_nodup : NoDup (map fst es).
  Proof. rewrite entries_perm. apply map_fst_filter_NoDup. by rewrite map_fst_zip. Qed.
  Lemma entries_elem p a : (p, a) ∈ es <-> p ∈ ps /\ (p, a) ∈ zip (i_labels i) (i_args i).
  Proof. rewrite entries_perm. rewrite elem_of_list_filter. done. Qed.
  Lemma entries_keys p : p ∈ map fst es <-> p ∈ ps.
  Proof.
    split.
    - intros ([q a] & -> & H)%elem_of_list_fmap. by apply entries_elem in H as [H _].
    - intros H. assert (Hl := Hps p H). rewrite <- (map_fst_zip (i_labels i) (i_args i) Len) in Hl. apply elem_of_list_fmap in Hl as ([q a] & -> & Hq). apply elem_of_list_fmap. exists (q, a). split; [done|]. by apply entries_elem.
  Qed.
  Lemma entries_length : length es = size ps.
  Proof.
    rewrite <- (map_length fst es). replace ps with (list_to_set (map fst es) : gset N) at 1; [by rewrite size_list_to_set by apply entries_nodup|].
    apply set_eq. intros p. rewrite elem_of_list_to_set. apply entries_keys.
  Qed.
  Lemma entries_lookup p : p ∈ ps -> phi_entry p es = phi_entry p (zip (i_labels i) (i_args i)).
  Proof.
    intros H. assert (N2 : NoDup (map fst (zip (i_labels i) (i_args i)))) by (by rewrite map_fst_zip).
    apply option_eq. intros a. rewrite (phi_entry_NoDup p es entries_nodup), (phi_entry_NoDup p _ N2), entries_elem. tauto.
  Qed.
End phi.
(** A phi becomes a shorter phi, or a copy when one predecessor is left. *)
Definition simp (ps : gset N) (i : inst) : inst :=
  if is_phi i then
    match i_tgts i, phi_entries ps i with
    | t :: _, [(_, a)] => inst_var_assign t a
    | _, es => set_labels (set_args i (map snd es)) (map fst es)
    end
  else i.
Definition phi_fine (ps : gset N) (i : inst) : Prop :=
  length (i_tgts i) = 1%nat /\ length (i_labels i) = length (i_args i) /\ NoDup (i_labels i) /\ forall p, p ∈ ps -> p ∈ i_labels i.
Lemma simplify_block_map u ps is : (forall i, i ∈ rest_of is -> is_phi i = false) -> (forall i, i ∈ is -> is_phi i = true -> phi_fine ps i /\ ps <> ∅) ->
  simplify_block u ps is = map (simp ps) is.
Proof.
  intros Hr Hp. unfold simplify_block.
  assert (F1 : filter (fun i => is_phi i = true) is = phis_of is).
  { rewrite (phis_rest is) at 1. rewrite filter_app. assert (E1 : forall l : list inst, (forall i, i ∈ l -> is_phi i = true) -> filter (fun i => is_phi i = true) l = l).
    { induction l as [|x l IH]; intros H; [done|]. rewrite filter_cons, decide_True by (apply H; constructor). f_equal. apply IH. intros; apply H; by constructor. }
    assert (E2 : forall l : list inst, (forall i, i ∈ l -> is_phi i = false) -> filter (fun i => is_phi i = true) l = []).
    { induction l as [|x l IH]; intros H; [done|]. rewrite filter_cons, decide_False; [apply IH; intros; apply H; by constructor|]. rewrite (H x ltac:(constructor)). done. }
    rewrite E1, E2, app_nil_r; [done|done|by apply phis_of_phi]. }
  assert (F2 : filter (fun i => is_phi i = false) is = rest_of is).
  { rewrite (phis_rest is) at 1. rewrite filter_app. assert (E1 : forall l : list inst, (forall i, i ∈ l -> is_phi i = false) -> filter (fun i => is_phi i = false) l = l).
    { induction l as [|x l IH]; intros H; [done|]. rewrite filter_cons, decide_True by (apply H; constructor). f_equal. apply IH. intros; apply H; by constructor. }
    assert (E2 : forall l : list inst, (forall i, i ∈ l -> is_phi i = true) -> filter (fun i => is_phi i = false) l = []).
    { induction l as [|x l IH]; intros H; [done|]. rewrite filter_cons, decide_False; [apply IH; intros; apply H; by constructor|]. rewrite (H x ltac:(constructor)). done. }
    rewrite E2, E1; [done|done|by apply phis_of_phi]. }
  rewrite F1, F2. rewrite (phis_rest is) at 4. rewrite map_app.
  assert (R : map (simp ps) (rest_of is) = rest_of is).
  { clear -Hr. induction (rest_of is) as [|x l IH]; [done|]. cbn. rewrite IH by (intros; apply Hr; by constructor). f_equal. unfold simp. by rewrite (Hr x ltac:(constructor)). }
  rewrite R, app_assoc. f_equal.
  assert (P : forall i, i ∈ phis_of is -> is_phi i = true /\ phi_fine ps i /\ ps <> ∅).
  { intros i Hi. assert (X := phis_of_phi _ _ Hi). split; [done|]. apply Hp; [|done]. rewrite (phis_rest is). set_solver. }
  clear -P. generalize dependent (phis_of is). intros l P.
  destruct (decide (size ps = 1%nat)) as [Hs|Hs].
  - assert (E1 : flat_map (fun i => (simplify_phi u ps i).1) l = []).
    { induction l as [|x l IH]; [done|]. cbn. rewrite IH by (intros; apply P; by constructor). rewrite app_nil_r. destruct (P x ltac:(constructor)) as (_ & (T & L & Nd & Hps) & _).
      assert (Le := entries_length ps x Nd L Hps). unfold simplify_phi. destruct (i_tgts x); [done|]. destruct (phi_entries ps x) as [|[] []]; cbn in Le; try done; lia. }
    rewrite E1. cbn [app]. clear E1. induction l as [|x l IH]; [done|]. cbn. rewrite IH by (intros; apply P; by constructor). destruct (P x ltac:(constructor)) as (Px & (T & L & Nd & Hps) & _).
    assert (Le := entries_length ps x Nd L Hps). unfold simplify_phi, simp. rewrite Px. destruct (i_tgts x); [done|]. destruct (phi_entries ps x) as [|[] []]; cbn in Le; try lia; done.
  - assert (E2 : flat_map (fun i => (simplify_phi u ps i).2) l = []).
    { induction l as [|x l IH]; [done|]. cbn. rewrite IH by (intros; apply P; by constructor). rewrite app_nil_r. destruct (P x ltac:(constructor)) as (_ & (T & L & Nd & Hps) & Ne).
      assert (Le := entries_length ps x Nd L Hps). assert (size ps <> 0%nat) by (intros Hz; by apply size_empty_inv, leibniz_equiv in Hz). unfold simplify_phi. destruct (i_tgts x); [done|].
      destruct (phi_entries ps x) as [|[] []]; cbn in Le; try done; lia. }
    rewrite E2, app_nil_r. clear E2. induction l as [|x l IH]; [done|]. cbn. rewrite IH by (intros; apply P; by constructor). destruct (P x ltac:(constructor)) as (Px & (T & L & Nd & Hps) & Ne).
    assert (Le := entries_length ps x Nd L Hps). assert (size ps <> 0%nat) by (intros Hz; by apply size_empty_inv, leibniz_equiv in Hz). unfold simplify_phi, simp. rewrite Px. destruct (i_tgts x); [done|].
    destruct (phi_entries ps x) as [|[] []]; cbn in Le; try lia; done.
Qed.
Lemma simp_other ps i : is_phi i = false -> simp ps i = i.
Proof. unfold simp. by intros ->. Qed.
Lemma simp_tgts ps i : (is_phi i = true -> length (i_tgts i) = 1%nat) -> i_tgts (simp ps i) = i_tgts i.
Proof.
  intros H. unfold simp. destruct (is_phi i); [|done]. specialize (H eq_refl). destruct (i_tgts i) as [|t []] eqn:E; try done. destruct (phi_entries ps i) as [|[q a] []]; cbn; try done.
Qed.
Lemma simp_cond ps i : is_cond_goto (simp ps i) = is_cond_goto i.
Proof.
  unfold simp. destruct (is_phi i) eqn:E; [|done]. unfold is_phi in E. apply bool_decide_eq_true in E. unfold is_cond_goto.
  destruct (i_tgts i) as [|t ts]; [destruct (phi_entries ps i) as [|[q a] []]; cbn; by rewrite E|]. destruct (phi_entries ps i) as [|[q a] []]; cbn; by rewrite ?E.
Qed.
(** the two shapes of a simplified phi *)
Lemma simp_phi ps i : is_phi i = true -> phi_fine ps i ->
  (size ps = 1%nat /\ exists t q a, i_tgts i = [t] /\ phi_entries ps i = [(q, a)] /\ simp ps i = inst_var_assign t a) \/
  (size ps <> 1%nat /\ simp ps i = set_labels (set_args i (map snd (phi_entries ps i))) (map fst (phi_entries ps i)) /\ is_phi (simp ps i) = true).
Proof.
  intros Hp (T & L & Nd & Hps). assert (Le := entries_length ps i Nd L Hps). unfold simp. rewrite Hp. destruct (i_tgts i) as [|t []] eqn:Eg; try done.
  destruct (phi_entries ps i) as [|[q a] [|e2 es]] eqn:Ee; cbn in Le.
  - right. split; [lia|]. split; [done|]. done.
  - left. split; [done|]. exists t, q, a. done.
  - right. split; [lia|]. split; [done|]. done.
Qed.

Section simplify.
  Context (c : cfg) (G : good c) (R : all_reachable c).
  Let g := c_graph c.
  Lemma parents_edge l p : p ∈ parents g l <-> edge g p l.
  Proof. symmetry. apply (proj1 (gd_wf _ G)). Qed.
  Lemma phi_in l i : i ∈ block_of (c_blocks c) l -> is_phi i = true -> phi_fine (parents g l) i /\ parents g l <> ∅ /\ l <> c_entry c.
  Proof.
    intros Hi Hp. assert (O := proj1 (proj1 (gd_ok _ G) l) i Hi). assert (Hp' := Hp). unfold is_phi in Hp'. apply bool_decide_eq_true in Hp'. unfold inst_ok in O. rewrite Hp' in O.
    destruct (gd_phis _ G) as [P1 P2]. assert (Hi' := Hi). apply elem_of_list_lookup in Hi' as [k Hk]. destruct (P2 l k i Hk Hp) as [P3 P4].
    assert (Hne : l <> c_entry c). { intros ->. rewrite (phis_rest (block_of (c_blocks c) (c_entry c))), P1 in Hi. cbn in Hi. apply (proj1 (proj2 (proj1 (gd_ok _ G) (c_entry c)))) in Hi. congruence. }
    split; [|split; [|done]].
    - split; [tauto|]. split; [tauto|]. split; [done|]. intros p Hpp. apply P4. by apply parents_edge.
    - assert (Hs : is_Some (c_blocks c !! l)). { unfold block_of in Hi. destruct (c_blocks c !! l); [eauto|by apply elem_of_nil in Hi]. }
      apply R, reaches_path in Hs as [p Hpa]. inversion Hpa; subst; [done|]. intros E. assert (Hin : l0 ∈ parents g l) by (by apply parents_edge). rewrite E in Hin. by apply not_elem_of_empty in Hin.
  Qed.
  Lemma simplified_block l : block_of (c_blocks (simplify_phis c)) l = map (simp (parents g l)) (block_of (c_blocks c) l).
  Proof.
    unfold simplify_phis, block_of at 1. cbn [c_blocks]. rewrite map_lookup_imap. destruct (c_blocks c !! l) as [is|] eqn:E; cbn; [|unfold block_of; by rewrite E].
    assert (Eb : block_of (c_blocks c) l = is) by (unfold block_of; by rewrite E). rewrite Eb. apply simplify_block_map.
    - assert (H := proj1 (proj2 (proj1 (gd_ok _ G) l))). by rewrite Eb in H.
    - intros i Hi Hp. rewrite <- Eb in Hi. destruct (phi_in l i Hi Hp) as (? & ? & _). done.
  Qed.
  Lemma in_simplified l k j : in_prog (simplify_phis c) l k j <-> exists i, in_prog c l k i /\ j = simp (parents g l) i.
  Proof. unfold in_prog. rewrite simplified_block, list_lookup_fmap. destruct (_ !! k) as [i|]; cbn; [|naive_solver]. split; [intros [= <-]; eauto|intros (? & [= ->] & ->); done]. Qed.
  Lemma simplified_defines x l k : defines (simplify_phis c) x l k <-> defines c x l k.
  Proof.
    assert (T : forall i, in_prog c l k i -> i_tgts (simp (parents g l) i) = i_tgts i).
    { intros i Hi. apply simp_tgts. intros Hp. by apply (phi_in l i (elem_of_list_lookup_2 _ _ _ Hi) Hp). }
    split.
    - intros (j & (i & Hi & ->)%in_simplified & Hx). exists i. split; [done|]. by rewrite T in Hx.
    - intros (i & Hi & Hx). exists (simp (parents g l) i). split; [apply in_simplified; eauto|]. by rewrite T.
  Qed.
  Lemma simplified_path p : path (simplify_phis c) p <-> path c p.
  Proof. split; apply path_sub; done. Qed.
  Lemma simplified_available x l k : available (simplify_phis c) x l k <-> available c x l k.
  Proof. unfold available. setoid_rewrite simplified_path. setoid_rewrite simplified_defines. done. Qed.
  Lemma one_parent_loop l q k k2 x i : (forall p, edge g p l <-> p = q) -> l <> c_entry c -> in_prog c l k2 i -> is_phi i = true ->
    (q, AVar x) ∈ zip (i_labels i) (i_args i) -> defines c x l k -> forall n p, (length p <= n)%nat -> path c (l :: p) -> False.
  Proof.
    intros Hq Hne Hi Hp Hx Hd. assert (Av : available c x q (length (block_of (c_blocks c) q))). { eapply (ssa_phi _ (gd_ssa _ G)); try done. by apply Hq. }
    induction n as [|n IH]; intros p Hn Hpa; inversion Hpa as [|q' l' p' Hp' He]; subst; try done; [cbn in Hn; lia|].
    apply Hq in He as ->. destruct (Av p' Hp') as [(l' & k' & Hl & Hd')|(k' & _ & Hd')]; destruct (ssa_once _ (gd_ssa _ G) _ _ _ _ _ Hd Hd') as [<- _].
    - destruct (path_suffix c l p' q Hp' Hl) as (p'' & Hp'' & Hl''). apply (IH p''); [cbn in Hn; lia|done].
    - apply (IH p'); [cbn in Hn; lia|done].
  Qed.
  Lemma lowered_copies {V W} (m : machine V W) ps q e0 w is : (forall i, i ∈ is -> is_phi i = true /\ phi_fine ps i) -> size ps = 1%nat -> q ∈ ps ->
    (forall i j x, i ∈ is -> j ∈ is -> (q, AVar x) ∈ zip (i_labels i) (i_args i) -> x ∉ i_tgts j) ->
    forall e, (forall i x, i ∈ is -> (q, AVar x) ∈ zip (i_labels i) (i_args i) -> e x = e0 x) ->
    forall e', (forall x, e x = e' x) ->
    (forall x, exec_phis m (Some q) e0 is e x = (exec_insts m (map (simp ps) is) (e', w)).1 x) /\ (exec_insts m (map (simp ps) is) (e', w)).2 = w.
  Proof.
    intros Hf Hs Hq. induction is as [|i is IH]; intros Hn e He e' Hee; [done|]. cbn [map exec_phis exec_insts].
    destruct (Hf i ltac:(constructor)) as [Hp Hfi]. destruct (simp_phi ps i Hp Hfi) as [(_ & t & q' & a & Et & Ee & ->)|(? & _)]; [|done].
    destruct Hfi as (_ & L & Nd & Hps). assert (q' = q). { assert (X : q ∈ map fst (phi_entries ps i)) by (by apply entries_keys). rewrite Ee in X. cbn in X. by apply elem_of_list_singleton in X. } subst q'.
    assert (Ea : phi_entry q (zip (i_labels i) (i_args i)) = Some a). { rewrite <- (entries_lookup ps i Nd L q Hq), Ee. cbn. by rewrite N.eqb_refl. }
    assert (Hz : (q, a) ∈ zip (i_labels i) (i_args i)) by (by apply phi_entry_elem in Ea).
    assert (Ev : phi_value m (Some q) e0 i = eval m e' a). { unfold phi_value. rewrite Ea. destruct a as [| | |x]; cbn; try done. rewrite <- Hee. symmetry. eapply He; [constructor|done]. }
    change (exec_inst m (inst_var_assign t a) (e', w)) with (assign e' [t] (eval m e' a), w). rewrite Ev, Et. apply IH.
    - intros; apply Hf; by constructor.
    - intros i' j x Hi Hj. apply Hn; by constructor.
    - intros i' x Hi Hx. unfold assign. rewrite bool_decide_eq_false_2; [eapply He; [by constructor|done]|]. rewrite <- Et. eapply (Hn i' i); [by constructor|constructor|done].
    - intros x. unfold assign. case_bool_decide; auto.
  Qed.
  Lemma map_simp_other ps is : (forall i, i ∈ is -> is_phi i = false) -> map (simp ps) is = is.
  Proof. induction is as [|i is IH]; intros H; [done|]. cbn. rewrite simp_other by (apply H; constructor). f_equal. apply IH. intros; apply H; by constructor. Qed.
  Lemma simplified_split l : let is := block_of (c_blocks c) l in let ps := parents g l in
    (phis_of is = [] /\ map (simp ps) is = is) \/
    (size ps = 1%nat /\ phis_of (map (simp ps) is) = [] /\ rest_of (map (simp ps) is) = map (simp ps) (phis_of is) ++ rest_of is) \/
    (size ps <> 1%nat /\ phis_of (map (simp ps) is) = map (simp ps) (phis_of is) /\ rest_of (map (simp ps) is) = rest_of is).
  Proof.
    intros is ps. assert (Hr := proj1 (proj2 (proj1 (gd_ok _ G) l))). fold is in Hr.
    assert (Hf : forall i, i ∈ phis_of is -> is_phi i = true /\ phi_fine ps i). { intros i Hi. assert (Hp := phis_of_phi _ _ Hi). split; [done|]. apply (phi_in l i); [|done]. fold is. rewrite (phis_rest is). set_solver. }
    destruct (phis_of is) as [|i0 phis] eqn:Ep; [left; split; [done|]; apply map_simp_other; intros i Hi; rewrite (phis_rest is), Ep in Hi; by apply Hr|right].
    assert (Em : map (simp ps) is = map (simp ps) (i0 :: phis) ++ rest_of is). { rewrite (phis_rest is) at 1. rewrite Ep, map_app. f_equal. by apply map_simp_other. }
    destruct (decide (size ps = 1%nat)) as [Hs|Hs]; [left|right]; (split; [done|]); rewrite Em.
    - apply (phis_of_app []); [by intros i ?%elem_of_nil|]. intros j [(i & -> & Hi)%elem_of_list_fmap|Hj]%elem_of_app; [|by apply Hr]. destruct (Hf i Hi) as [Hp Hfi].
      destruct (simp_phi ps i Hp Hfi) as [(_ & t & q & a & _ & _ & ->)|(? & _)]; [done|done].
    - apply phis_of_app; [|done]. intros j (i & -> & Hi)%elem_of_list_fmap. destruct (Hf i Hi) as [Hp Hfi]. destruct (simp_phi ps i Hp Hfi) as [(? & _)|(_ & _ & ?)]; done.
  Qed.
  Lemma simplify_good : good (simplify_phis c).
  Proof.
    assert (S := gd_ssa _ G). constructor.
    - split.
      + intros l. rewrite simplified_block. set (ps := parents g l). destruct (proj1 (gd_ok _ G) l) as (B1 & B2 & B3). split; [|split].
        * intros j (i & -> & Hi)%elem_of_list_fmap. destruct (is_phi i) eqn:Hp; [|rewrite simp_other by done; auto]. destruct (phi_in l i Hi Hp) as [Hf _].
          destruct (simp_phi ps i Hp Hf) as [(_ & t & q & a & _ & _ & ->)|(_ & -> & _)]; [done|]. unfold is_phi in Hp. apply bool_decide_eq_true in Hp. unfold inst_ok. cbn. rewrite Hp. split; [apply Hf|by rewrite !map_length].
        * intros j Hj. destruct (simplified_split l) as [(E1 & E2)|[(Hs & E1 & E2)|(Hs & E1 & E2)]]; fold ps in E2; rewrite E2 in Hj; [auto| |auto].
          apply elem_of_app in Hj as [(i & -> & Hi)%elem_of_list_fmap|Hj]; [|auto]. assert (Hp := phis_of_phi _ _ Hi).
          assert (Hi' : i ∈ block_of (c_blocks c) l) by (rewrite (phis_rest (block_of (c_blocks c) l)); set_solver).
          destruct (simp_phi ps i Hp (proj1 (phi_in l i Hi' Hp))) as [(_ & t & q & a & _ & _ & ->)|(? & _)]; [done|done].
        * intros a j b E Hc. assert (Ha : exists a' i b', block_of (c_blocks c) l = a' ++ i :: b' /\ j = simp ps i /\ b = map (simp ps) b').
          { apply map_eq_app in E as (a' & r & Er0 & _ & Er). destruct r as [|i b']; [done|]. cbn in Er. injection Er as <- <-. by exists a', i, b'. }
          destruct Ha as (a' & i & b' & Eb & -> & ->). rewrite simp_cond in Hc. by rewrite (B3 a' i b' Eb Hc).
      + intros l. unfold flow_ok. rewrite simplified_block. assert (F := proj2 (gd_ok _ G) l). unfold flow_ok in F. rewrite fmap_last. destruct (last (block_of (c_blocks c) l)) as [i|]; cbn; [|done].
        rewrite simp_cond. intros Hc. rewrite simp_other; [by apply F|]. unfold is_phi, is_cond_goto in *. apply bool_decide_eq_true in Hc. by rewrite Hc.
    - constructor.
      + intros x l k l' k'. rewrite !simplified_defines. apply (ssa_once _ S).
      + intros x l k j (i & Hi & ->)%in_simplified Hp Hx. rewrite simplified_available. destruct (is_phi i) eqn:Hpi.
        * assert (Hin := elem_of_list_lookup_2 _ _ _ Hi). destruct (phi_in l i Hin Hpi) as (Hf & _ & Hne).
          destruct (simp_phi (parents g l) i Hpi Hf) as [(Hs & t & q & a & Et & Ee & Es)|(_ & _ & Es)]; [|congruence]. rewrite Es in Hx. apply elem_of_list_singleton in Hx as <-.
          destruct Hf as (_ & L & Nd & Hps).
          assert (Hq : (q, AVar x) ∈ phi_entries (parents g l) i) by (rewrite Ee; constructor). apply (entries_elem _ _ Nd L) in Hq as [Hq Hz].
          assert (Hk : forall p', p' ∈ parents g l -> p' = q). { intros p' Hp'. apply (entries_keys _ _ Nd L Hps) in Hp'. rewrite Ee in Hp'. by apply elem_of_list_singleton in Hp'. }
          intros p Hpa. inversion Hpa as [|q' l' p' Hp' He]; subst; [done|]. assert (q' = q) by (apply Hk; by apply parents_edge). subst q'.
          assert (Av := ssa_phi _ S x l k i q Hi Hpi He Hz). destruct (Av p' Hp') as [(l' & k' & Hl & Hd)|(k' & _ & Hd)]; left; [exists l', k'|exists q, k']; (split; [|done]); [by constructor|constructor].
        * rewrite simp_other in Hx by done. by apply (ssa_use _ S x l k i).
      + intros x l k j p (i & Hi & ->)%in_simplified Hp He Hx. rewrite simplified_available, simplified_block, map_length. destruct (is_phi i) eqn:Hpi; [|rewrite simp_other in Hp by done; congruence].
        assert (Hin := elem_of_list_lookup_2 _ _ _ Hi). destruct (phi_in l i Hin Hpi) as (Hf & _ & Hne).
        destruct (simp_phi (parents g l) i Hpi Hf) as [(Hs & t & q & a & Et & Ee & Es)|(_ & Es & _)]; [by rewrite Es in Hp|]. rewrite Es in Hx. cbn in Hx. rewrite zip_map_fst_snd in Hx.
        destruct Hf as (_ & L & Nd & Hps). apply (entries_elem _ _ Nd L) in Hx as [_ Hx]. by apply (ssa_phi _ S x l k i p).
    - apply G.
    - destruct (gd_match _ G) as [M1 M2]. split; cbn.
      + intros l Hl. rewrite map_lookup_imap. destruct (M1 l Hl) as [is ->]. cbn. eauto.
      + intros l. rewrite map_lookup_imap. destruct (c_blocks c !! l) as [is|] eqn:E; cbn; [|by intros []]. intros _. apply M2. eauto.
    - split.
      + change (c_entry (simplify_phis c)) with (c_entry c). rewrite simplified_block. destruct (gd_phis _ G) as [P1 _]. destruct (simplified_split (c_entry c)) as [(E1 & E2)|[(Hs & E1 & E2)|(Hs & E1 & E2)]].
        * by rewrite E2.
        * done.
        * by rewrite E1, P1.
      + intros l k j (i & Hi & ->)%in_simplified Hp. destruct (is_phi i) eqn:Hpi; [|rewrite simp_other in Hp by done; congruence]. assert (Hin := elem_of_list_lookup_2 _ _ _ Hi). destruct (phi_in l i Hin Hpi) as (Hf & _ & Hne).
        destruct (simp_phi (parents g l) i Hpi Hf) as [(Hs & t & q & a & Et & Ee & Es)|(_ & Es & _)]; [by rewrite Es in Hp|]. rewrite Es. cbn. destruct Hf as (_ & L & Nd & Hps). split; [by apply entries_nodup|].
        intros p He. apply (entries_keys _ _ Nd L Hps). by apply parents_edge.
    - intros l k j b (i & Hi & ->)%in_simplified Hc. rewrite simp_cond in Hc. rewrite simp_other; [by apply (gd_conds _ G l k i b)|]. unfold is_phi, is_cond_goto in *. apply bool_decide_eq_true in Hc. by rewrite Hc.
  Qed.
  Lemma simplify_lock {V W} (m : machine V W) : lock m c (simplify_phis c).
  Proof.
    apply (lock_step m c _ (fun l prev => (exists p, path c (l :: p)) /\ match prev with None => l = c_entry c | Some q => edge g q l end)); [done|split; [exists []; constructor|done]| |].
    - intros l prev e w n [[p Hp] _] Hn. assert (He := next_edge m c l _ n (proj2 (gd_ok _ G) l) Hn). split; [exists (l :: p); by constructor|done].
    - intros l prev e w [[p Hp] Hprev]. rewrite simplified_block. set (is := block_of (c_blocks c) l). set (ps := parents g l). cbn zeta.
      assert (Hf : forall i, i ∈ phis_of is -> is_phi i = true /\ phi_fine ps i /\ i ∈ is /\ l <> c_entry c).
      { intros i Hi. assert (Hpi := phis_of_phi _ _ Hi). assert (Hin : i ∈ is) by (rewrite (phis_rest is); set_solver). destruct (phi_in l i Hin Hpi) as (? & _ & ?). done. }
      assert (Nx : forall e, next m c l e = next m (simplify_phis c) l e).
      { intros e1. unfold next. rewrite simplified_block. fold is. fold ps. rewrite fmap_last. change (c_graph (simplify_phis c)) with (c_graph c). destruct (last is) as [i|] eqn:El; cbn [fmap option_fmap option_map]; [|done].
        rewrite simp_cond. destruct (is_cond_goto i) eqn:Ec; [|done]. rewrite simp_other; [done|]. unfold is_phi, is_cond_goto in *. apply bool_decide_eq_true in Ec. by rewrite Ec. }
      apply and_assoc. split; [|by apply Nx]. unfold exec_block.
      destruct (simplified_split l) as [(E1 & E2)|[(Hs & E1 & E2)|(Hs & E1 & E2)]]; fold is in E1, E2; fold ps in E1, E2.
      + by rewrite E2.
      + rewrite E1, E2. cbn [fst snd exec_phis]. rewrite exec_insts_app. fold ps in Hs.
        destruct (phis_of is) as [|i0 phis] eqn:Ep; [by cbn|]. rewrite <- Ep in *. destruct prev as [q|].
        * assert (Hq : q ∈ ps) by (by apply parents_edge).
          assert (Hone : forall p', edge g p' l <-> p' = q). { intros p'. rewrite <- parents_edge. fold ps. apply size_1_elem_of in Hs as [z Hz]. rewrite leibniz_equiv_iff in Hz. rewrite Hz in Hq |- *. apply elem_of_singleton in Hq as ->. by rewrite elem_of_singleton. }
          destruct (lowered_copies m ps q e w (phis_of is)) with (e := e) (e' := e) as [X1 X2]; try done.
          { intros i Hi. by destruct (Hf i Hi) as (? & ? & _). }
          { intros i j x Hi Hj Hz Hx. destruct (Hf i Hi) as (Hpi & _ & Hin & Hne). destruct (Hf j Hj) as (_ & _ & Hjn & _). apply elem_of_list_lookup in Hin as [k2 Hk2]. apply elem_of_list_lookup in Hjn as [k Hk].
            apply (one_parent_loop l q k k2 x i Hone Hne Hk2 Hpi Hz) with (n := length p) (p := p); [by exists j|done|done]. }
          apply exec_insts_ext; cbn [fst snd]; [exact X1|done].
        * destruct (Hf i0) as (_ & _ & _ & Hne); [rewrite Ep; constructor|done].
      + rewrite E1, E2. cbn [fst snd]. apply exec_insts_ext; cbn [fst snd]; [|done].
        assert (H : forall l0, (forall i, i ∈ l0 -> i ∈ phis_of is) -> forall f x, exec_phis m prev e l0 f x = exec_phis m prev e (map (simp ps) l0) f x); [|by apply H].
        induction l0 as [|i l0 IH]; intros Hl0 f x; [done|]. cbn [map exec_phis]. destruct (Hf i) as (Hpi & Hfi & _ & Hne); [apply Hl0; constructor|].
        destruct (simp_phi ps i Hpi Hfi) as [(? & _)|(_ & Es & _)]; [done|]. destruct prev as [q|]; [|done]. destruct Hfi as (T & L & Nd & Hps).
        assert (Ev : phi_value m (Some q) e i = phi_value m (Some q) e (simp ps i)).
        { rewrite Es. unfold phi_value. cbn [set_labels set_args i_labels i_args]. rewrite zip_map_fst_snd, (entries_lookup ps i Nd L q); [done|]. by apply parents_edge. }
        rewrite <- Ev, simp_tgts by done. apply IH. intros; apply Hl0; by constructor.
  Qed.
End simplify.

Lemma branches_round_spec c : good c -> exists c', branches_round c = Some c' /\ good c' /\
  forall V W (m : machine V W), (forall k, m_truthy m (m_const m k) = to_boolean k) -> lock m c c'.
Proof.
  intros G. unfold branches_round. destruct (fold_branches_spec (labels_sorted (c_graph c)) c G) as (c1 & -> & G1 & K1). { intros l. unfold labels_sorted. by rewrite elem_of_sorted. }
  destruct (pop_unreachable_good c1 G1) as (c2 & d & -> & G2 & R2 & K2). exists (simplify_phis c2). split; [done|]. split; [by apply simplify_good|].
  intros V W m Hm. eapply lock_trans; [by apply K1|]. eapply lock_trans; [by apply K2|]. by apply simplify_lock.
Qed.
Lemma branches_loop_spec fuel : forall c, good c -> exists o, branches_loop fuel c = Some o /\ forall c', o = Some c' -> good c' /\
  forall V W (m : machine V W), (forall k, m_truthy m (m_const m k) = to_boolean k) -> lock m c c'.
Proof.
  induction fuel as [|fuel IH]; intros c G; cbn [branches_loop]; [by exists None|]. destruct (branches_round_spec c G) as (c1 & -> & G1 & K1). case_bool_decide as E.
  - subst c1. exists (Some c). split; [done|]. intros c' [= <-]. done.
  - destruct (IH c1 G1) as (o & -> & H). exists o. split; [done|]. intros c' Ho. destruct (H c' Ho) as [G' K']. split; [done|]. intros V W m Hm. eapply lock_trans; [by apply K1|by apply K'].
Qed.
