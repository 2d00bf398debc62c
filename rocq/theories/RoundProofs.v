(** Passes that drop and change instructions one by one keep SSA form; a round of passes. *)
From stdpp Require Import base decidable sets numbers gmap list.
From Coq Require Import NArith ZArith Lia.
From Verif Require Import VmBase RustStr ILModel CfgSpec CfgProofs ILSpec PassModel PassProofs BranchProofs SsaProofs DomModel DomProofs DvnModel DvnSpec DvnProofs.

Local Open Scope nat_scope.

(** ** Lists with some elements dropped *)
Section pos.
Context {A : Type} (f : A -> option A).
Definition pos (l : list A) (k : nat) : nat := length (omap f (take k l)).
Lemma omap_app_ (l1 l2 : list A) : omap f (l1 ++ l2) = omap f l1 ++ omap f l2.
Proof. induction l1 as [|x l1 IH]; cbn; [done|]. destruct (f x); cbn; [by f_equal|done]. Qed.
Lemma pos_cons x l k : pos (x :: l) (S k) = (if f x then S else id) (pos l k).
Proof. unfold pos. cbn. by destruct (f x). Qed.
Lemma omap_fwd l : forall k x y, l !! k = Some x -> f x = Some y -> omap f l !! pos l k = Some y.
Proof.
  induction l as [|z l IH]; intros [|k] x y H E; cbn in H; try done.
  - injection H as ->. cbn. by rewrite E.
  - rewrite pos_cons. cbn. destruct (f z); cbn; by eapply IH.
Qed.
Lemma omap_bwd l : forall k y, omap f l !! k = Some y -> exists j x, l !! j = Some x /\ f x = Some y /\ k = pos l j.
Proof.
  induction l as [|z l IH]; intros k y H; cbn in H; [done|]. destruct (f z) as [z'|] eqn:E.
  - destruct k as [|k]; cbn in H; [injection H as <-; exists 0, z; done|]. destruct (IH k y H) as (j & x & H1 & H2 & ->). exists (S j), x. rewrite pos_cons, E. done.
  - destruct (IH k y H) as (j & x & H1 & H2 & ->). exists (S j), x. rewrite pos_cons, E. done.
Qed.
Lemma pos_lt l : forall j k x y, j < k -> l !! j = Some x -> f x = Some y -> pos l j < pos l k.
Proof.
  induction l as [|z l IH]; intros [|j] [|k] x y L H E; cbn in H; try done; try lia.
  - injection H as ->. rewrite pos_cons, E. unfold pos at 1. cbn. lia.
  - rewrite !pos_cons. assert (pos l j < pos l k) by (eapply IH; [lia|done|done]). destruct (f z); cbn; lia.
Qed.
Lemma pos_all l : pos l (length l) = length (omap f l).
Proof. unfold pos. by rewrite firstn_all. Qed.
End pos.

Section shrink.
Context (c : cfg) (Ok : prog_ok c) (S : strict_ssa c) (P : phis_complete c) (f : inst -> option inst).
Notation blk l := (block_of (c_blocks c) l).
Definition keeps (y : N) : Prop := forall l k i, in_prog c l k i -> y ∈ i_tgts i -> exists i', f i = Some i' /\ y ∈ i_tgts i'.
Record shrinks : Prop := {
  sh_same l k i i' : in_prog c l k i -> f i = Some i' -> i_t i' = i_t i /\ i_labels i' = i_labels i /\ inst_ok i' /\ length (i_args i') = length (i_args i);
  sh_tgts l k i i' x : in_prog c l k i -> f i = Some i' -> x ∈ i_tgts i' -> x ∈ i_tgts i;
  sh_cond l k i : in_prog c l k i -> is_cond_goto i = true -> is_Some (f i);
  sh_args l k i i' y : in_prog c l k i -> f i = Some i' -> is_phi i = false -> AVar y ∈ i_args i' -> available c y l k /\ keeps y;
  sh_phis l k i i' y p : in_prog c l k i -> f i = Some i' -> is_phi i = true -> edge (c_graph c) p l -> (p, AVar y) ∈ zip (i_labels i') (i_args i') ->
    available c y p (length (blk p)) /\ keeps y }.
Context (H : shrinks) (b' : gmap N block) (Hb : b' = (omap f : block -> block) <$> c_blocks c).
Notation c' := (Cfg (c_graph c) b' (c_entry c)).
Lemma shrunk l : block_of b' l = omap f (blk l).
Proof. rewrite Hb. by apply (block_of_fmap (omap f)). Qed.
Lemma same_phi l k i i' : in_prog c l k i -> f i = Some i' -> is_phi i' = is_phi i /\ is_cond_goto i' = is_cond_goto i.
Proof. intros I E. destruct (sh_same H _ _ _ _ I E) as (T & _). unfold is_phi, is_cond_goto. by rewrite T. Qed.
Lemma shrunk_in l k' i' : in_prog c' l k' i' -> exists k i, in_prog c l k i /\ f i = Some i' /\ k' = pos f (blk l) k.
Proof. unfold in_prog. cbn [c_blocks]. rewrite shrunk. intros E. by apply omap_bwd in E. Qed.
Lemma shrunk_defines x l k' : defines c' x l k' -> exists k, defines c x l k /\ k' = pos f (blk l) k.
Proof. intros (i' & I' & Hx). destruct (shrunk_in _ _ _ I') as (k & i & I & E & ->). exists k. split; [|done]. exists i. split; [done|]. by eapply (sh_tgts H). Qed.
Lemma kept_defines x l k : keeps x -> defines c x l k -> defines c' x l (pos f (blk l) k) /\ exists i i', in_prog c l k i /\ f i = Some i'.
Proof.
  intros Kx (i & I & Hx). destruct (Kx _ _ _ I Hx) as (i' & E & Hx'). split; [|eauto]. exists i'. split; [|done]. unfold in_prog. cbn [c_blocks]. rewrite shrunk. by eapply omap_fwd.
Qed.
Lemma shrunk_path p : path c' p -> path c p.
Proof. apply (path_sub c c'); done. Qed.
Lemma shrunk_available x l k : available c x l k -> keeps x -> available c' x l (pos f (blk l) k).
Proof.
  intros A Kx p Hp%shrunk_path. destruct (A p Hp) as [(l2 & k2 & Hin & D)|(k2 & L & D)].
  - left. exists l2, (pos f (blk l2) k2). split; [done|]. by apply kept_defines.
  - right. destruct (kept_defines _ _ _ Kx D) as (D' & i & i' & I & E). exists (pos f (blk l) k2). split; [|done]. by eapply pos_lt.
Qed.
Lemma shrunk_split l : phis_of (block_of b' l) = omap f (phis_of (blk l)) /\ rest_of (block_of b' l) = omap f (rest_of (blk l)).
Proof.
  rewrite shrunk. rewrite (phis_rest (blk l)) at 1 3. rewrite omap_app_. apply phis_of_app.
  - intros i' (i & Hi & E)%elem_of_list_omap. assert (Hi2 : i ∈ blk l) by (rewrite (phis_rest (blk l)); set_solver). apply elem_of_list_lookup in Hi2 as [k I].
    rewrite (proj1 (same_phi _ _ _ _ I E)). by eapply phis_of_phi.
  - intros i' (i & Hi & E)%elem_of_list_omap. assert (Hi2 : i ∈ blk l) by (rewrite (phis_rest (blk l)); set_solver). apply elem_of_list_lookup in Hi2 as [k I].
    rewrite (proj1 (same_phi _ _ _ _ I E)). by apply (proj1 Ok l).
Qed.
Lemma shrunk_last l i' : last (block_of b' l) = Some i' -> is_cond_goto i' = true -> exists i, last (blk l) = Some i /\ is_cond_goto i = true /\ i_labels i' = i_labels i.
Proof.
  rewrite last_lookup. intros (k & i & I & E & _)%shrunk_in Hc. exists i. assert (Hc2 : is_cond_goto i = true) by (by rewrite <- (proj2 (same_phi _ _ _ _ I E))).
  destruct (sh_same H _ _ _ _ I E) as (_ & L & _). split; [|done]. apply elem_of_list_split_length in I as (l1 & l2 & El & _).
  rewrite (proj2 (proj2 (proj1 Ok l)) _ _ _ El Hc2) in El. rewrite El. apply last_snoc.
Qed.
Lemma shrink_ok : prog_ok c' /\ strict_ssa c' /\ phis_complete c' /\ (blocks_match c -> blocks_match c') /\ (calls_ok c -> calls_ok c').
Proof.
  assert (Op : prog_ok c').
  { split.
    - intros l. cbn [c_blocks]. split; [|split].
      + intros i' Hi'. apply elem_of_list_lookup in Hi' as [k Hk]. destruct (shrunk_in l k i' Hk) as (j & i & I & E & _). by eapply (sh_same H).
      + intros i' Hi'. rewrite (proj2 (shrunk_split l)) in Hi'. apply elem_of_list_omap in Hi' as (i & Hi & E).
        assert (Hi2 : i ∈ blk l) by (rewrite (phis_rest (blk l)); set_solver). apply elem_of_list_lookup in Hi2 as [k I].
        rewrite (proj1 (same_phi _ _ _ _ I E)). by apply (proj1 Ok l).
      + intros is1 i' is2 El Hc. assert (I' : in_prog c' l (length is1) i') by (unfold in_prog; cbn [c_blocks]; rewrite El; by apply list_lookup_middle).
        destruct (shrunk_in _ _ _ I') as (k & i & I & E & Ek). apply elem_of_list_split_length in I as HS. destruct HS as (l1 & l2 & Eb & ->).
        rewrite (proj2 (same_phi _ _ _ _ I E)) in Hc. rewrite (proj2 (proj2 (proj1 Ok l)) _ _ _ Eb Hc) in Eb.
        rewrite shrunk, Eb, omap_app_ in El. cbn in El. rewrite E in El. unfold pos in Ek. rewrite Eb, take_app in Ek.
        apply app_inj_1 in El as [_ El]; [|by rewrite Ek]. by injection El as <-.
    - intros l. unfold flow_ok. cbn [c_blocks c_graph]. destruct (last (block_of b' l)) as [i'|] eqn:El; [|done]. intros Hc.
      destruct (shrunk_last l i' El Hc) as (i & Ei & Hi & ->). pose proof (proj2 Ok l) as F. unfold flow_ok in F. rewrite Ei in F. by apply F. }
  split; [done|]. split; [|split; [|split]].
  - split.
    + intros x l k l' k' D1 D2. apply shrunk_defines in D1 as (j1 & D1 & ->), D2 as (j2 & D2 & ->). destruct (ssa_once _ S _ _ _ _ _ D1 D2) as [-> ->]. done.
    + intros x l k' i' I' Np Hx. destruct (shrunk_in _ _ _ I') as (k & i & I & E & ->). rewrite (proj1 (same_phi _ _ _ _ I E)) in Np.
      destruct (sh_args H _ _ _ _ _ I E Np Hx) as [A Kx]. by apply shrunk_available.
    + intros x l k' i' p I' Hp Hedge Hx. destruct (shrunk_in _ _ _ I') as (k & i & I & E & ->). rewrite (proj1 (same_phi _ _ _ _ I E)) in Hp.
      destruct (sh_phis H _ _ _ _ _ _ I E Hp Hedge Hx) as [A Kx]. cbn [c_blocks]. rewrite shrunk, <- pos_all. by apply shrunk_available.
  - split; cbn [c_blocks c_entry c_graph].
    + rewrite (proj1 (shrunk_split (c_entry c))), (proj1 P). done.
    + intros l k' i' I' Hp. destruct (shrunk_in _ _ _ I') as (k & i & I & E & ->). rewrite (proj1 (same_phi _ _ _ _ I E)) in Hp.
      destruct (sh_same H _ _ _ _ I E) as (_ & -> & _). by eapply (proj2 P).
  - intros [M1 M2]. split; cbn [c_blocks c_entry c_graph]; rewrite Hb; intros l; rewrite lookup_fmap, ?fmap_is_Some; auto.
  - intros Cl l k' i' I' Ht. destruct (shrunk_in _ _ _ I') as (k & i & I & E & ->). destruct (sh_same H _ _ _ _ I E) as (T & _ & _ & ->). rewrite T in Ht. by eapply Cl.
Qed.
Lemma shrunk_reachable : all_reachable c -> all_reachable c'.
Proof. intros R l. cbn [c_blocks c_entry c_graph]. rewrite Hb, lookup_fmap, fmap_is_Some. apply R. Qed.
End shrink.

(** ** Dead code *)
Definition dce_inst (used : gset N) (i : inst) : option inst :=
  if dce_dead used i then if bool_decide (i_t i = ICall) then Some (set_tgts i []) else None else Some i.
Lemma dce_block_omap used is : dce_block used is = omap (dce_inst used) is.
Proof. induction is as [|i is IH]; [done|]. cbn. unfold dce_inst at 1. destruct (dce_dead used i); [|by f_equal]. destruct (bool_decide _); [by f_equal|done]. Qed.
Lemma dce_keeps c y : reads c y -> keeps c (dce_inst (used_vars (c_blocks c))) y.
Proof.
  intros R l k i I Hy. exists i. split; [|done]. unfold dce_inst, dce_dead. rewrite (proj2 (andb_false_iff _ _)); [done|]. right.
  apply not_true_is_false. intros F. rewrite forallb_forall in F. specialize (F y (proj1 (elem_of_list_In _ _) Hy)). apply negb_true_iff, bool_decide_eq_false in F. apply F. by apply used_vars_spec.
Qed.
Lemma dce_shrinks c : prog_ok c -> strict_ssa c -> shrinks c (dce_inst (used_vars (c_blocks c))).
Proof.
  intros Ok S. set (u := used_vars (c_blocks c)).
  assert (Cases : forall i i', dce_inst u i = Some i' -> i' = i \/ i_t i = ICall /\ i' = set_tgts i []).
  { intros i i'. unfold dce_inst. destruct (dce_dead u i); [|by intros [= <-]; left]. case_bool_decide as T; [|done]. intros [= <-]. by right. }
  assert (Io : forall l k i, in_prog c l k i -> inst_ok i). { intros l k i I. apply (proj1 (proj1 Ok l)). by eapply elem_of_list_lookup_2. }
  assert (Ar : forall i i', dce_inst u i = Some i' -> i_args i' = i_args i) by (intros i i' [->|[_ ->]]%Cases; done).
  split.
  - intros l k i i' I E. specialize (Io _ _ _ I). destruct (Cases _ _ E) as [->|[T ->]]; [done|]. split; [done|]. split; [done|]. split; [|done]. unfold inst_ok, set_tgts. cbn. rewrite T. cbn. lia.
  - intros l k i i' x I E. destruct (Cases _ _ E) as [->|[T ->]]; [done|]. by intros ?%elem_of_nil.
  - intros l k i I Hc. specialize (Io _ _ _ I). unfold is_cond_goto in Hc. apply bool_decide_eq_true in Hc. unfold inst_ok in Io. rewrite Hc in Io. destruct Io as [Io _].
    unfold dce_inst, dce_dead. rewrite Io. cbn. eauto.
  - intros l k i i' y I E Np Hy. rewrite (Ar _ _ E) in Hy. split; [by eapply (ssa_use _ S)|]. apply dce_keeps. by exists l, k, i.
  - intros l k i i' y p I E Hp Hedge Hy. destruct (Cases _ _ E) as [->|[T ->]].
    + split; [by eapply (ssa_phi _ S)|]. apply dce_keeps. exists l, k, i. split; [done|]. by eapply elem_of_zip_r.
    + unfold is_phi in Hp. apply bool_decide_eq_true in Hp. congruence.
Qed.
Lemma dce_form c : prog_ok c -> strict_ssa c -> phis_complete c -> let c' := optpass_trivial_dce c in
  (prog_ok c' /\ strict_ssa c' /\ phis_complete c' /\ (blocks_match c -> blocks_match c') /\ (calls_ok c -> calls_ok c')) /\ (copies_flat c -> copies_flat c').
Proof.
  intros Ok S P. cbv zeta. assert (E : dce_block (used_vars (c_blocks c)) <$> c_blocks c = (omap (dce_inst (used_vars (c_blocks c))) : block -> block) <$> c_blocks c).
  { apply map_fmap_ext. intros l is _. apply dce_block_omap. }
  split; [apply (shrink_ok c Ok S P _ (dce_shrinks c Ok S)); exact E|].
  assert (Cp : forall t a, copy (optpass_trivial_dce c) t a -> copy c t a).
  { intros t a (l & k' & i' & I' & T & Et & Ea). destruct (shrunk_in c _ (dce_block (used_vars (c_blocks c)) <$> c_blocks c) E l k' i' I') as (k & i & I & Ei & _).
    unfold dce_inst in Ei. destruct (dce_dead _ i); [|injection Ei as <-; by exists l, k, i]. case_bool_decide; [|done]. injection Ei as <-. done. }
  intros F t a Ht y a' Hy Hc. by eapply (F t a (Cp _ _ Ht) y a' Hy), Cp.
Qed.

(** ** Copies *)
Definition copy_inst_f (s : gmap N arg) (i : inst) : option inst := if is_var_assign i then None else Some (subst_inst s i).
Lemma drop_copies_omap s is : map (subst_inst s) (drop_copies is) = omap (copy_inst_f s) is.
Proof.
  unfold drop_copies. induction is as [|i is IH]; [done|]. cbn [omap list_omap]. unfold copy_inst_f at 1. destruct (is_var_assign i) eqn:E.
  - rewrite filter_cons_False by (rewrite E; done). exact IH.
  - rewrite filter_cons_True by done. cbn [map]. f_equal. exact IH.
Qed.
Lemma copies_shrinks c : prog_ok c -> strict_ssa c -> copies_flat c -> shrinks c (copy_inst_f (list_to_map (all_copies (c_blocks c)))).
Proof.
  intros Ok S Fl. set (s := list_to_map (all_copies (c_blocks c)) : gmap N arg).
  assert (Sl : forall t a, s !! t = Some a <-> copy c t a) by (intros; by apply subst_lookup).
  assert (Cs : forall i i', copy_inst_f s i = Some i' -> i' = subst_inst s i /\ is_var_assign i = false) by (intros i i'; unfold copy_inst_f; destruct (is_var_assign i); [done|]; by intros [= <-]).
  assert (Io : forall l k i, in_prog c l k i -> inst_ok i). { intros l k i I. apply (proj1 (proj1 Ok l)). by eapply elem_of_list_lookup_2. }
  assert (Kp : forall y, ~ copied c y -> keeps c (copy_inst_f s) y).
  { intros y Hn l k i I Hy. exists (subst_inst s i). split; [|done]. unfold copy_inst_f. destruct (is_var_assign i) eqn:E; [|done]. exfalso. apply Hn.
    unfold is_var_assign in E. apply bool_decide_eq_true in E. specialize (Io _ _ _ I). unfold inst_ok in Io. rewrite E in Io. destruct Io as [I1 I2].
    destruct (i_tgts i) as [|t []] eqn:Et; try done. destruct (i_args i) as [|a []] eqn:Ea; try done. apply elem_of_list_singleton in Hy as ->. exists a, l, k, i. done. }
  assert (Sub : forall a y, subst_arg s a = AVar y -> ~ copied c y /\ exists x, a = AVar x /\ forall l k, available c x l k -> available c y l k).
  { intros a y. destruct a as [p|k|g|x]; cbn; try done. destruct (s !! x) as [a|] eqn:E.
    - intros ->. apply Sl in E. split; [intros [a' Ha']; by eapply (Fl _ _ E)|]. exists x. split; [done|]. intros l k A. eapply available_trans; [done|].
      intros l' k' (i & I & Hx). destruct (copy_unique c S _ _ _ _ _ E I Hx) as (T & Et & Ea). eapply (ssa_use _ S); [done| |rewrite Ea; constructor]. unfold is_phi. by rewrite T.
    - intros [= <-]. split; [intros [a Ha%Sl]; congruence|]. eauto. }
  split.
  - intros l k i i' I [-> _]%Cs. specialize (Io _ _ _ I). unfold subst_inst, set_args. cbn. split; [done|]. split; [done|]. split; [|by rewrite map_length].
    unfold inst_ok in *. cbn. destruct (i_t i); rewrite ?map_length; try done; try (destruct Io as [-> ->]; done).
  - intros l k i i' x I [-> _]%Cs. done.
  - intros l k i I Hc. unfold copy_inst_f. destruct (is_var_assign i) eqn:E; [|eauto]. unfold is_var_assign, is_cond_goto in *. apply bool_decide_eq_true in E, Hc. congruence.
  - intros l k i i' y I [-> _]%Cs Np Hy. cbn in Hy. apply elem_of_list_fmap in Hy as (a & Ea & Ha). symmetry in Ea. destruct (Sub _ _ Ea) as (Hn & x & -> & A). split; [|by apply Kp].
    apply A. by eapply (ssa_use _ S).
  - intros l k i i' y p I [-> _]%Cs Hp Hedge Hy. cbn in Hy. rewrite zip_with_fmap_r in Hy || idtac.
    assert (Hz : exists a, (p, a) ∈ zip (i_labels i) (i_args i) /\ subst_arg s a = AVar y).
    { revert Hy. generalize (i_labels i), (i_args i). intros ls. induction ls as [|q ls IH]; intros [|a as_] Hy; cbn in Hy; try by apply elem_of_nil in Hy.
      apply elem_of_cons in Hy as [[= -> ->]|Hy]; [exists a; split; [constructor|done]|]. destruct (IH _ Hy) as (a2 & ? & ?). exists a2. split; [by constructor|done]. }
    destruct Hz as (a & Ha & Ea). destruct (Sub _ _ Ea) as (Hn & x & -> & A). split; [|by apply Kp]. apply A. by eapply (ssa_phi _ S).
Qed.
Lemma copies_form c : prog_ok c -> strict_ssa c -> phis_complete c -> copies_flat c -> exists c', optpass_redundant_assigns c = Some c' /\ c_graph c' = c_graph c /\ c_entry c' = c_entry c /\
  prog_ok c' /\ strict_ssa c' /\ phis_complete c' /\ (blocks_match c -> blocks_match c') /\ (calls_ok c -> calls_ok c').
Proof.
  intros Ok S P F. unfold optpass_redundant_assigns. rewrite bool_decide_eq_true_2 by (by apply copies_nodup). eexists. split; [done|]. split; [done|]. split; [done|].
  apply (shrink_ok c Ok S P _ (copies_shrinks c Ok S F)). apply map_fmap_ext. intros l is _. apply drop_copies_omap.
Qed.
Lemma same_on_mono {V W} (P Q : N -> Prop) (s s' : @ILSpec.state V W) : (forall x, Q x -> P x) -> same_on P s s' -> same_on Q s s'.
Proof. intros H. destruct s, s'; cbn; try done; naive_solver. Qed.
