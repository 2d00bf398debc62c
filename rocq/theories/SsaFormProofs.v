(** Building SSA form keeps what programs do. *)
From stdpp Require Import base decidable sets numbers gmap list.
From Coq Require Import NArith ZArith Lia.
From Verif Require Import VmBase RustStr ILModel CfgSpec CfgProofs ILSpec PassModel PassProofs BranchProofs DomModel DomSpec DomProofs CfgPruneModel CfgPruneProofs SsaModel.

Local Open Scope N_scope.

(** ** Where phis are put *)
Definition with_phi (v : N) (P : gset N) (b0 b : gmap N block) : Prop :=
  forall l, b !! l = (fun is => if decide (l ∈ P) then inst_phi_empty v :: is else is) <$> b0 !! l.
Lemma put_phis_spec v b0 ls : forall ins seen q b ins' seen' q' b', with_phi v ins b0 b -> put_phis v ls ins seen q b = Some (ins', seen', q', b') -> ins ⊆ seen ->
  with_phi v ins' b0 b' /\ ins' = ins ∪ list_to_set ls /\ seen' = seen ∪ list_to_set ls /\ (forall x, x ∈ q -> x ∈ q') /\ (forall x, x ∈ seen' -> x ∈ seen \/ x ∈ q').
Proof.
  induction ls as [|l ls IH]; intros ins seen q b ins' seen' q' b' Hw H Hs; cbn in H.
  - injection H as <- <- <- <-. split; [done|]. split; [clear; set_solver|]. split; [clear; set_solver|]. auto.
  - case_bool_decide as Hl.
    + destruct (IH _ _ _ _ _ _ _ _ Hw H Hs) as (I1 & -> & -> & I4 & I5). assert (Hl2 : l ∈ seen) by (by apply Hs). split; [done|].
      split; [clear -Hl; set_solver|]. split; [clear -Hl2; set_solver|]. split; [done|]. done.
    + destruct (b !! l) as [is|] eqn:Eb; [|done]. apply IH in H as (I1 & -> & -> & I4 & I5).
      * split; [done|]. split; [clear; set_solver|]. split; [clear; set_solver|]. split.
        -- intros x Hx. apply I4. case_bool_decide; [done|]. apply elem_of_app. by left.
        -- intros x Hx. destruct (I5 x Hx) as [Hx2|]; [|by right]. apply elem_of_union in Hx2 as [->%elem_of_singleton|]; [|by left]. case_bool_decide; [by left|]. right. apply I4. apply elem_of_app. right. by apply elem_of_list_singleton.
      * intros x. destruct (decide (x = l)) as [->|Hx].
        -- rewrite lookup_insert. specialize (Hw l). rewrite Eb in Hw. destruct (b0 !! l) as [is0|]; [|done]. cbn in *. rewrite decide_False in Hw by done. rewrite decide_True by (clear; set_solver). congruence.
        -- rewrite lookup_insert_ne by done. rewrite Hw. destruct (b0 !! x); cbn; [|done]. destruct (decide (x ∈ ins)) as [HA|HA]; destruct (decide (x ∈ {[l]} ∪ ins)) as [HB|HB]; try reflexivity; exfalso; clear -HA HB Hx; set_solver.
      * clear -Hs. set_solver.
Qed.
Lemma phi_loop_spec df v b0 fuel : forall ins seen q b b', with_phi v ins b0 b -> ins ⊆ seen -> (forall x, x ∈ seen -> x ∈ q \/ set_at df x ⊆ ins) -> (forall l, l ∈ ins -> exists d, l ∈ set_at df d) ->
  phi_loop fuel df v ins seen q b = Some b' -> exists P, with_phi v P b0 b' /\ (forall x, x ∈ seen \/ x ∈ P -> set_at df x ⊆ P) /\ forall l, l ∈ P -> exists d, l ∈ set_at df d.
Proof.
  induction fuel as [|fuel IH]; intros ins seen q b b' Hw Hs Hq Hd H; destruct q as [|d q]; cbn in H; try done.
  1, 2: injection H as <-; exists ins; split; [done|]; split; [|done]; intros x [Hx|Hx]; [|apply Hs in Hx]; destruct (Hq x Hx) as [?%elem_of_nil|]; done.
  destruct (put_phis _ _ _ _ _ _) as [[[[ins1 seen1] q1] b1]|] eqn:E; [|done]. destruct (put_phis_spec _ _ _ _ _ _ _ _ _ _ _ Hw E Hs) as (I1 & I2 & I3 & I4 & I5).
  assert (Hls : forall x, x ∈ (list_to_set (sorted (set_at df d)) : gset N) <-> x ∈ set_at df d) by (intros x; by rewrite elem_of_list_to_set, elem_of_sorted).
  destruct (IH ins1 seen1 q1 b1 b' I1) as (P & P1 & P2 & P3).
  - rewrite I2, I3. set_solver.
  - intros x Hx. destruct (I5 x Hx) as [Hx1|]; [|by left]. destruct (Hq x Hx1) as [[->|Hxq]%elem_of_cons|Hsub]; [| left; auto |]; right; rewrite I2; intros y Hy; apply elem_of_union; [right; by apply Hls|left; auto].
  - intros l. rewrite I2. intros [Hl|Hl]%elem_of_union; [auto|]. exists d. by apply Hls.
  - done.
  - exists P. split; [done|]. split; [|done]. intros x [Hx|Hx]; apply P2; [left; rewrite I3; set_solver|by right].
Qed.
Lemma insert_vars_spec df defs vars : NoDup vars -> forall b b', insert_vars df defs vars b = Some b' -> exists vs : N -> list N,
  (forall l, b' !! l = (fun is => map inst_phi_empty (vs l) ++ is) <$> b !! l) /\ (forall l, NoDup (vs l)) /\ (forall l v, v ∈ vs l -> v ∈ vars /\ exists d, l ∈ set_at df d) /\
  forall v x, v ∈ vars -> x ∈ set_at defs v \/ v ∈ vs x -> forall l, l ∈ set_at df x -> v ∈ vs l.
Proof.
  induction 1 as [|v vars Hv Nd IH]; intros b b' H; cbn [insert_vars] in H.
  - injection H as <-. exists (fun _ => []). split; [intros l; cbn; by destruct (b !! l)|]. split; [intros; constructor|]. split; [by intros ? ? ?%elem_of_nil|by intros ? ? ?%elem_of_nil].
  - destruct (phi_loop _ _ _ _ _ _ _) as [b1|] eqn:E; [|done]. apply (phi_loop_spec df v b) in E as (P & P1 & P2 & P3).
    + destruct (IH _ _ H) as (vs & V1 & V2 & V3 & V4). exists (fun l => vs l ++ if decide (l ∈ P) then [v] else []). split; [|split; [|split]].
      * intros l. rewrite V1, P1. destruct (b !! l) as [is|]; cbn; [|done]. f_equal. case_decide; [|by rewrite app_nil_r]. by rewrite map_app, <- app_assoc.
      * intros l. apply NoDup_app. split; [done|]. split; [|case_decide; [apply NoDup_singleton|constructor]]. intros x Hx. case_decide; [|by intros ?%elem_of_nil]. intros ->%elem_of_list_singleton. by destruct (V3 l v Hx).
      * intros l x [Hx|Hx]%elem_of_app; [destruct (V3 l x Hx); split; [set_solver|done]|]. case_decide; [|by apply elem_of_nil in Hx]. apply elem_of_list_singleton in Hx as ->. split; [set_solver|auto].
      * intros u x Hu Hx l Hl. apply elem_of_app. destruct (decide (u = v)) as [->|Huv].
        -- right. rewrite decide_True; [set_solver|]. apply (P2 x); [|done]. destruct Hx as [Hx|[Hx|Hx]%elem_of_app]; [by left|by destruct (V3 x v Hx)|]. case_decide; [by right|by apply elem_of_nil in Hx].
        -- left. apply (V4 u x); [set_solver| |done]. destruct Hx as [Hx|[Hx|Hx]%elem_of_app]; [by left|by right|]. case_decide; set_solver.
    + intros l. destruct (b !! l); cbn; [|done]. by rewrite decide_False by set_solver.
    + set_solver.
    + intros x Hx. left. by rewrite elem_of_sorted.
    + set_solver.
Qed.
Lemma set_at_add k v m u : set_at (add_to k v m) u = if decide (u = k) then {[v]} ∪ set_at m k else set_at m u.
Proof. unfold set_at, add_to. case_decide; [subst; by rewrite lookup_insert|by rewrite lookup_insert_ne]. Qed.
Lemma add_all_spec l ts : forall m u x, x ∈ set_at (fold_left (fun m v => add_to v l m) ts m) u <-> x ∈ set_at m u \/ (x = l /\ u ∈ ts).
Proof.
  induction ts as [|t ts IH]; intros m u x; cbn [fold_left]; [set_solver|]. rewrite IH, set_at_add. case_decide; set_solver.
Qed.
Lemma calculate_defs_spec b v x : x ∈ set_at (calculate_defs b) v <-> exists is, b !! x = Some is /\ v ∈ flat_map i_tgts is.
Proof.
  unfold calculate_defs. apply (map_fold_ind (fun m b => x ∈ set_at m v <-> exists is, b !! x = Some is /\ v ∈ flat_map i_tgts is)).
  - unfold set_at. rewrite lookup_empty. split; [set_solver|]. intros (is & H & _). by rewrite lookup_empty in H.
  - intros l is b' m Hl IH. rewrite add_all_spec, IH. split.
    + intros [(is' & H1 & H2)|[-> H2]]; [|exists is; by rewrite lookup_insert]. exists is'. rewrite lookup_insert_ne; [done|]. intros ->. congruence.
    + intros (is' & H1 & H2). destruct (decide (x = l)) as [->|Hx]; [rewrite lookup_insert in H1; injection H1 as <-; by right|]. rewrite lookup_insert_ne in H1 by done. left. by exists is'.
Qed.
Lemma defs_dom b v x : x ∈ set_at (calculate_defs b) v -> v ∈ dom (calculate_defs b).
Proof. unfold set_at. intros H. apply elem_of_dom. destruct (calculate_defs b !! v); [by eexists|set_solver]. Qed.

(** ** Renaming *)
Lemma stack_push K v x u : stack_of (push K v x) u = if decide (u = v) then x :: stack_of K v else stack_of K u.
Proof. unfold stack_of, push. case_decide; [subst; by rewrite lookup_insert|by rewrite lookup_insert_ne]. Qed.
Lemma stack_pop K v u : stack_of (pop_name K v) u = if decide (u = v) then tail (stack_of K v) else stack_of K u.
Proof. unfold stack_of, pop_name. case_decide; [subst; by rewrite lookup_insert|by rewrite lookup_insert_ne]. Qed.
Lemma top_push K v x u : top (push K v x) u = if decide (u = v) then x else top K u.
Proof. unfold top. rewrite stack_push. by case_decide. Qed.
Definition stk_eq (K K' : stacks) : Prop := forall v, stack_of K v = stack_of K' v.
Lemma stk_eq_pops ts : forall K K', stk_eq K K' -> stk_eq (fold_left pop_name ts K) (fold_left pop_name ts K').
Proof. induction ts as [|t ts IH]; intros K K' H; cbn; [done|]. apply IH. intros v. rewrite !stack_pop. case_decide; by rewrite H. Qed.
(** What is pushed for the targets is popped again. *)
Definition cnt (v : N) (ts : list N) : nat := length (filter (fun t => t = v) ts).
Lemma pops_drop ts : forall K v, stack_of (fold_left pop_name ts K) v = drop (cnt v ts) (stack_of K v).
Proof.
  induction ts as [|t ts IH]; intros K v; cbn [fold_left]; [by rewrite drop_0|]. rewrite IH, stack_pop. unfold cnt. rewrite filter_cons. case_decide as H; case_decide; try congruence.
  - subst. cbn [length]. by destruct (stack_of K t); cbn; rewrite ?drop_nil.
Qed.
Lemma rename_tgts_stack ts : forall K n ts' K' n', rename_tgts K n ts = (ts', K', n') -> forall v, drop (cnt v ts) (stack_of K' v) = stack_of K v.
Proof.
  induction ts as [|t ts IH]; intros K n ts' K' n' H v; cbn in H; [injection H as <- <- <-; by rewrite drop_0|]. destruct (rename_tgts (push K t n) (n + 1) ts) as [[ts1 K1] n1] eqn:E. injection H as <- <- <-.
  specialize (IH _ _ _ _ _ E v). rewrite stack_push in IH. unfold cnt in *. rewrite filter_cons. case_decide as H1; case_decide as H2; try congruence. subst v. cbn [length]. rewrite <- Nat.add_1_r, <- drop_drop. by rewrite IH.
Qed.
Lemma rename_block_stack is : forall K n is' K' n', rename_block K n is = (is', K', n') -> forall v, drop (cnt v (flat_map i_tgts is)) (stack_of K' v) = stack_of K v.
Proof.
  induction is as [|i is IH]; intros K n is' K' n' H v; cbn [rename_block flat_map] in *; [injection H as <- <- <-; by rewrite drop_0|]. unfold rename_inst in H.
  assert (Et : i_tgts (if is_phi i then i else set_args i (map (rename_arg K) (i_args i))) = i_tgts i) by (by destruct (is_phi i)). rewrite Et in H.
  destruct (rename_tgts K n (i_tgts i)) as [[ts1 K1] n1] eqn:E. destruct (rename_block K1 n1 is) as [[is2 K2] n2] eqn:E2. injection H as <- <- <-.
  unfold cnt. rewrite filter_app, app_length. rewrite Nat.add_comm, <- drop_drop. fold (cnt v (i_tgts i)) (cnt v (flat_map i_tgts is)). rewrite (IH _ _ _ _ _ E2). by apply (rename_tgts_stack _ _ _ _ _ _ E).
Qed.

Fixpoint names (n : N) (vs : list N) : list N := match vs with [] => [] | _ :: vs => n :: names (n + 1) vs end.
Fixpoint pushes (K : stacks) (n : N) (vs : list N) : stacks := match vs with [] => K | v :: vs => pushes (push K v n) (n + 1) vs end.
Lemma rename_app A : forall B K n, rename_block K n (A ++ B) = let '(A', K1, n1) := rename_block K n A in let '(B', K2, n2) := rename_block K1 n1 B in (A' ++ B', K2, n2).
Proof.
  induction A as [|i A IH]; intros B K n; cbn [app rename_block]; [by destruct (rename_block K n B) as [[? ?] ?]|]. destruct (rename_inst K n i) as [[i1 K1] n1]. rewrite IH. destruct (rename_block K1 n1 A) as [[A1 K2] n2].
  by destruct (rename_block K2 n2 B) as [[? ?] ?].
Qed.
Lemma rename_inst_phi K n i K1 n1 i1 : rename_inst K n i = (i1, K1, n1) -> is_phi i1 = is_phi i /\ is_cond_goto i1 = is_cond_goto i /\ i_labels i1 = i_labels i.
Proof.
  unfold rename_inst. destruct (rename_tgts _ _ _) as [[ts K2] n2]. intros [= <- <- <-]. unfold is_phi, is_cond_goto. destruct (bool_decide (i_t i = IPhi)) eqn:E; cbn; rewrite ?E; done.
Qed.
Lemma rename_block_plain is : forall K n is' K' n', rename_block K n is = (is', K', n') -> (forall i, i ∈ is -> is_phi i = false) -> forall i, i ∈ is' -> is_phi i = false.
Proof.
  induction is as [|i is IH]; intros K n is' K' n' H Hp j Hj; cbn [rename_block] in H; [injection H as <- <- <-; by apply elem_of_nil in Hj|].
  destruct (rename_inst K n i) as [[i1 K1] n1] eqn:E. destruct (rename_block K1 n1 is) as [[is2 K2] n2] eqn:E2. injection H as <- <- <-. apply elem_of_cons in Hj as [->|Hj].
  - destruct (rename_inst_phi _ _ _ _ _ _ E) as [-> _]. apply Hp. constructor.
  - eapply IH; [exact E2| |done]. intros x Hx. apply Hp. by constructor.
Qed.

Section rename.
  Context (g : graph) (e0 : N) (d : domi) (vs : N -> list N) (rs : N -> block) (n0 : N) (U : N -> Prop).
  Context (Hrs : forall x i, i ∈ rs x -> is_phi i = false).
  Local Notation visit := (stacks * N * stacks)%type.

  Definition phi_is (F : N -> N -> option stacks) (x v t : N) (i : inst) : Prop :=
    is_phi i = true /\ i_tgts i = [t] /\ length (i_labels i) = length (i_args i) /\ NoDup (i_labels i) /\ (forall p, p ∈ i_labels i <-> is_Some (F p x)) /\
    forall p, ent p i = (fun K => AVar (top K v)) <$> F p x.
  Definition shape (F : N -> N -> option stacks) (x : N) (o : option visit) (n : N) (is : block) : Prop :=
    exists P R, is = P ++ R /\ Forall3 (phi_is F x) (vs x) (match o with None => vs x | Some (_, nx, _) => names nx (vs x) end) P /\
      match o with
      | None => R = rs x
      | Some (Kin, nx, Kout) => exists n2, rename_block (pushes Kin nx (vs x)) (nx + N.of_nat (length (vs x))) (rs x) = (R, Kout, n2) /\ n2 <= n /\ (forall v, v < n0 -> top Kin v < nx) /\ n0 <= nx
      end.
  Definition inv (F : N -> N -> option stacks) (G : gmap N visit) (b : gmap N block) (n : N) : Prop :=
    forall x, U x -> exists is, b !! x = Some is /\ shape F x (G !! x) n is.
  Lemma phi_is_ext F F' x v t i : (forall p, F p x = F' p x) -> phi_is F x v t i -> phi_is F' x v t i.
  Proof. intros H (H1 & H2 & H3 & H3a & H3b & H4). repeat split; try done. - by rewrite <- H, <- H3b. - rewrite <- H. by apply H3b. - intros p. by rewrite <- H. Qed.
  Lemma shape_ext F F' x o n n' is : (forall p, F p x = F' p x) -> n <= n' -> shape F x o n is -> shape F' x o n' is.
  Proof.
    intros H Hn (P & R & -> & H1 & H2). exists P, R. split; [done|]. split; [eapply Forall3_impl; [exact H1|]; intros; by eapply phi_is_ext|].
    destruct o as [[[Kin nx] Kout]|]; [|done]. destruct H2 as (n2 & H2 & H3 & H4 & H5). exists n2. repeat split; try done. lia.
  Qed.
  Lemma inv_ext F F' G b n n' : (forall p x, F p x = F' p x) -> n <= n' -> inv F G b n -> inv F' G b n'.
  Proof. intros H Hn I x Hx. destruct (I x Hx) as (is & E & Hs). exists is. split; [done|]. eapply shape_ext; [|exact Hn|exact Hs]. auto. Qed.
  (** The rest of a block starts with no phi. *)
  Lemma shape_plain F x o n P R : Forall3 (phi_is F x) (vs x) (match o with None => vs x | Some (_, nx, _) => names nx (vs x) end) P ->
    match o with None => R = rs x | Some (Kin, nx, Kout) => exists n2, rename_block (pushes Kin nx (vs x)) (nx + N.of_nat (length (vs x))) (rs x) = (R, Kout, n2) /\ n2 <= n /\ (forall v, v < n0 -> top Kin v < nx) /\ n0 <= nx end ->
    forall i, i ∈ R -> is_phi i = false.
  Proof.
    intros _ H i Hi. destruct o as [[[Kin nx] Kout]|]; [|subst; by apply (Hrs x)]. destruct H as (n2 & H & _). eapply rename_block_plain; [exact H|apply Hrs|done].
  Qed.
  Lemma fill_phis_spec F l K x vs0 : F l x = None -> forall ts P R is', Forall3 (phi_is F x) vs0 ts P -> (forall i, i ∈ R -> is_phi i = false) -> fill_phis l K vs0 (P ++ R) = Some is' ->
    exists P', is' = P' ++ R /\ Forall3 (phi_is (fun p y => if decide (p = l /\ y = x) then Some K else F p y) x) vs0 ts P'.
  Proof.
    intros HF ts P R is' H HR. revert is'. induction H as [|v t i vs0 ts P (H1 & H2 & H3 & H3a & H3b & H4) _ IH]; intros is' Hf.
    - cbn [app] in Hf. exists []. split; [|constructor]. destruct R as [|r R]; cbn in Hf; [by injection Hf as <-|]. rewrite (HR r) in Hf by constructor. by injection Hf as <-.
    - cbn [app fill_phis] in Hf. rewrite H1 in Hf. destruct (insert_phi i l (AVar (top K v))) as [i1|] eqn:E1; [|done]. destruct (fill_phis l K vs0 (P ++ R)) as [is1|] eqn:E2; [|done]. injection Hf as <-.
      destruct (IH _ eq_refl) as (P' & -> & HP'). exists (i1 :: P'). split; [done|]. constructor; [|done]. unfold insert_phi in E1. destruct (_ && _) eqn:Ec; [|done]. injection E1 as <-.
      assert (Hl : l ∉ i_labels i). { rewrite H3b, HF. by intros []. } clear Ec.
      repeat split; cbn; try done.
      + rewrite !app_length. cbn. lia.
      + apply NoDup_app. split; [done|]. split; [set_solver|apply NoDup_singleton].
      + rewrite elem_of_app, elem_of_list_singleton, H3b. case_decide as Hd; [intros _; by eexists|]. intros [?| ->]; [done|]. by destruct Hd.
      + rewrite elem_of_app, elem_of_list_singleton, H3b. case_decide as Hd; [intros _; right; by destruct Hd|auto].
      + intros p. unfold ent. cbn. rewrite entry_app by done. fold (ent p i). rewrite H4. case_decide as Hd.
        * destruct Hd as [-> _]. rewrite HF. cbn. by rewrite N.eqb_refl.
        * destruct (F p x); cbn; [done|]. destruct (N.eqb_spec l p) as [->|]; [by destruct Hd|done].
  Qed.
  Lemma fill_children_spec l K origs G n cs : NoDup cs -> (forall s, s ∈ cs -> U s /\ origs s = vs s) -> forall F b b', (forall s, s ∈ cs -> F l s = None) -> inv F G b n -> fill_children l K origs cs b = Some b' ->
    inv (fun p x => if decide (p = l /\ x ∈ cs) then Some K else F p x) G b' n.
  Proof.
    induction 1 as [|s cs Hs Nd IH]; intros Hcs F b b' HF I H; cbn in H.
    - injection H as <-. eapply inv_ext; [|reflexivity|exact I]. intros p x. cbn. rewrite decide_False; [done|]. by intros [_ ?%elem_of_nil].
    - destruct (b !! s) as [is|] eqn:Eb; [|done]. destruct (fill_phis l K (origs s) is) as [is1|] eqn:E1; [|done].
      destruct (Hcs s) as [HU Ho]; [by constructor|]. destruct (I s HU) as (is' & Eb' & (P & R & -> & H1 & H2)). rewrite Eb in Eb'. injection Eb' as ->. rewrite Ho in E1.
      destruct (fill_phis_spec F l K s (vs s) (HF s ltac:(constructor)) _ _ _ _ H1 (shape_plain F s (G !! s) n P R H1 H2) E1) as (P' & -> & H1').
      assert (I1 : inv (fun p y => if decide (p = l /\ y = s) then Some K else F p y) G (<[s := P' ++ R]> b) n).
      { intros x Hx. destruct (decide (x = s)) as [->|Hxs].
        - exists (P' ++ R). rewrite lookup_insert. split; [done|]. exists P', R. done.
        - destruct (I x Hx) as (isx & Ex & Sx). exists isx. rewrite lookup_insert_ne by done. split; [done|]. eapply shape_ext; [|reflexivity|exact Sx]. intros p. cbn. rewrite decide_False; [done|]. by intros [_ ->]. }
      eapply IH in I1; [|intros s' Hs'; apply Hcs; by constructor| |exact H].
      + eapply inv_ext; [|reflexivity|exact I1]. intros p x. cbn. destruct (decide (p = l)) as [->|]; [|by rewrite !decide_False by (by intros [??])].
        destruct (decide (l = l /\ x ∈ cs)) as [[_ Hx]|Hx]; [rewrite decide_True; [done|]; split; [done|]; by constructor|].
        destruct (decide (l = l /\ x = s)) as [[_ Hy]|Hy]; [rewrite decide_True; [done|]; split; [done|]; rewrite Hy; by constructor|].
        rewrite decide_False; [done|]. intros [_ [Hz|Hz]%elem_of_cons]; [by apply Hy|by apply Hx].
      + intros s' Hs'. cbn. rewrite decide_False; [apply HF; by constructor|]. intros [_ ->]. done.
  Qed.
  Lemma rename_phis F x vs0 : forall P K n, Forall3 (phi_is F x) vs0 vs0 P -> exists P', rename_block K n P = (P', pushes K n vs0, n + N.of_nat (length vs0)) /\ Forall3 (phi_is F x) vs0 (names n vs0) P'.
  Proof.
    induction vs0 as [|v vs0 IH]; intros P K n H; inversion H as [|? ? i ? ? P0 (H1 & H2 & H3 & H3a & H3b & H4) HP]; subst.
    - exists []. cbn. split; [|constructor]. by rewrite N.add_0_r.
    - destruct (IH P0 (push K v n) (n + 1) HP) as (P' & E & HP'). exists (set_tgts i [n] :: P'). cbn [rename_block pushes names]. unfold rename_inst. rewrite H1, H2. cbn [rename_tgts]. rewrite E. split.
      + f_equal. cbn [length]. lia.
      + constructor; [|done]. repeat split; try done; by apply H3b.
  Qed.
  Lemma rename_tgts_top ts : forall K n ts' K' n', rename_tgts K n ts = (ts', K', n') -> n <= n' /\ ((forall v, v < n0 -> top K v < n) -> forall v, v < n0 -> top K' v < n').
  Proof.
    induction ts as [|t ts IH]; intros K n ts' K' n' H; cbn in H; [by injection H as <- <- <-|]. destruct (rename_tgts (push K t n) (n + 1) ts) as [[ts1 K1] n1] eqn:E. injection H as <- <- <-.
    destruct (IH _ _ _ _ _ E) as [I1 I2]. split; [lia|]. intros Hb. apply I2. intros v Hv. rewrite top_push. case_decide; [lia|]. specialize (Hb v Hv). lia.
  Qed.
  Lemma rename_block_top is : forall K n is' K' n', rename_block K n is = (is', K', n') -> n <= n' /\ ((forall v, v < n0 -> top K v < n) -> forall v, v < n0 -> top K' v < n').
  Proof.
    induction is as [|i is IH]; intros K n is' K' n' H; cbn [rename_block] in H; [by injection H as <- <- <-|].
    destruct (rename_inst K n i) as [[i1 K1] n1] eqn:E. destruct (rename_block K1 n1 is) as [[is2 K2] n2] eqn:E2. injection H as <- <- <-. unfold rename_inst in E.
    destruct (rename_tgts K n _) as [[ts3 K3] n3] eqn:E3. injection E as <- <- <-. destruct (rename_tgts_top _ _ _ _ _ _ E3) as [A1 A2]. destruct (IH _ _ _ _ _ E2) as [B1 B2]. split; [lia|]. auto.
  Qed.
  (** Renaming a block that has not been visited. *)
  Lemma shape_rename F x n is K is' K1 n1 : shape F x None n is -> (forall v, v < n0 -> top K v < n) -> n0 <= n -> rename_block K n is = (is', K1, n1) -> shape F x (Some (K, n, K1)) n1 is'.
  Proof.
    intros (P & R & -> & H1 & ->) HK Hn H. rewrite rename_app in H. destruct (rename_phis F x (vs x) P K n H1) as (P' & E & HP'). rewrite E in H.
    destruct (rename_block (pushes K n (vs x)) _ (rs x)) as [[R' K2] n2] eqn:E2. injection H as <- <- <-. exists P', R'. split; [done|]. split; [done|]. exists n2. done.
  Qed.

  Context (Hd : forall p x, x ∈ immediately_dominated_by d p <-> immediately_dominates (edge g) e0 p x).
  Local Notation idom := (immediately_dominates (edge g) e0).
  Local Notation dominates := (dominates (edge g) e0).
  Definition filled (G : gmap N visit) (p x : N) : option stacks := if decide (x ∈ children g p) then (fun o : visit => o.2) <$> G !! p else None.
  Definition from_above (G : gmap N visit) (x : N) (K : stacks) : Prop :=
    (x = e0 /\ forall v, top K v = v) \/ exists y Ky ny Ko, idom y x /\ G !! y = Some (Ky, ny, Ko) /\ forall v, top K v = top Ko v.
  Definition tree (G : gmap N visit) : Prop := forall x Kin nx Kout, G !! x = Some (Kin, nx, Kout) -> from_above G x Kin.
  Lemma from_above_mono G G' x K : G ⊆ G' -> from_above G x K -> from_above G' x K.
  Proof. intros Hs [H|(y & Ky & ny & Ko & H1 & H2 & H3)]; [by left|]. right. exists y, Ky, ny, Ko. split; [done|]. split; [by eapply lookup_weaken|done]. Qed.

  Context (Hsib : forall p x y z, idom p x -> idom p y -> dominates x z -> dominates y z -> x = y).
  Context (Hup : forall p x z, idom p x -> dominates x z -> dominates p z) (Hanti : forall p x, idom p x -> ~ dominates x p).
  Context (Hrefl : forall p x, idom p x -> dominates x x /\ dominates p p) (Uch : forall x y, y ∈ children g x -> U y) (Uid : forall p x, idom p x -> U x).
  Context (origs : N -> list N) (Horigs : forall x, origs x = vs x).

  Definition closed (G G' : gmap N visit) : Prop := forall x y, is_Some (G' !! x) -> G !! x = None -> idom x y -> is_Some (G' !! y).
  Lemma rename_inner_spec fuel : forall l K b n K' b' n' G, U l -> dominates l l -> rename_inner fuel g d origs l (K, b, n) = Some (K', b', n') -> inv (filled G) G b n -> tree G ->
    (forall x, dominates l x -> G !! x = None) -> from_above G l K -> (forall v, v < n0 -> top K v < n) -> n0 <= n ->
    exists G', G ⊆ G' /\ inv (filled G') G' b' n' /\ tree G' /\ n <= n' /\ stk_eq K' K /\ is_Some (G' !! l) /\ closed G G' /\ forall x, is_Some (G' !! x) -> is_Some (G !! x) \/ dominates l x.
  Proof.
    induction fuel as [|fuel IH]; intros l K b n K' b' n' G Ul Rl H I T Hun Hfrom HK Hn; cbn [rename_inner fst snd] in H; [done|].
    destruct (I l Ul) as (is & Eb & Sh). rewrite Eb in H. pose proof (Hun l Rl) as Gl. rewrite Gl in Sh. destruct (rename_block K n is) as [[is' K1] n1] eqn:Er.
    destruct (fill_children l K1 origs (children_sorted g l) (<[l := is']> b)) as [b1|] eqn:Ef; [|done].
    set (G1 := <[l := (K, n, K1)]> G). destruct (rename_block_top _ _ _ _ _ _ Er) as [Hn1 Ht1]. specialize (Ht1 HK).
    assert (I0 : inv (filled G) G1 (<[l := is']> b) n1).
    { intros x Hx. unfold G1. destruct (decide (x = l)) as [->|Hxl].
      - rewrite !lookup_insert. exists is'. split; [done|]. by eapply shape_rename.
      - rewrite !lookup_insert_ne by done. destruct (I x Hx) as (isx & Ex & Sx). exists isx. split; [done|]. eapply shape_ext; [|exact Hn1|exact Sx]. done. }
    assert (I1 : inv (filled G1) G1 b1 n1).
    { eapply inv_ext; [|reflexivity|eapply (fill_children_spec l K1 origs G1 n1 (children_sorted g l)); [apply NoDup_sorted| | |exact I0|exact Ef]].
      - intros p x. cbn beta. unfold filled, G1. destruct (decide (p = l)) as [->|Hp].
        + rewrite lookup_insert. destruct (decide (x ∈ children g l)) as [Hc|Hc].
          * rewrite decide_True; [done|]. split; [done|]. unfold children_sorted. by apply elem_of_sorted.
          * rewrite decide_False; [done|]. intros [_ Hq]. apply Hc. unfold children_sorted in Hq. by apply elem_of_sorted in Hq.
        + rewrite decide_False by (by intros [??]). by rewrite lookup_insert_ne.
      - intros s Hs. unfold children_sorted in Hs. rewrite elem_of_sorted in Hs. split; [by eapply Uch|done].
      - intros s _. unfold filled. rewrite Gl. by case_decide. }
    assert (Sub : G ⊆ G1) by by apply insert_subseteq.
    assert (T1 : tree G1).
    { intros x Kin nx Kout. unfold G1. destruct (decide (x = l)) as [->|Hx]; [rewrite lookup_insert; intros [= <- <- <-]|rewrite lookup_insert_ne by done; intros E]; (eapply from_above_mono; [exact Sub|]); [done|by eapply T]. }
    (* the blocks below *)
    assert (Loop : forall ks Kc bc nc Gc o, NoDup ks -> (forall x, x ∈ ks -> idom l x) -> (forall x z, x ∈ ks -> dominates x z -> Gc !! z = None) -> inv (filled Gc) Gc bc nc -> tree Gc -> G1 ⊆ Gc -> n1 <= nc -> stk_eq Kc K1 ->
      closed G1 Gc -> (forall x, is_Some (Gc !! x) -> is_Some (G !! x) \/ dominates l x) ->
      fold_left (fun o x => match o with Some st => rename_inner fuel g d origs x st | None => None end) ks (Some (Kc, bc, nc)) = Some o ->
      exists G', Gc ⊆ G' /\ inv (filled G') G' o.1.2 o.2 /\ tree G' /\ n1 <= o.2 /\ stk_eq o.1.1 K1 /\ (forall x, x ∈ ks -> is_Some (G' !! x)) /\ closed G1 G' /\ forall x, is_Some (G' !! x) -> is_Some (G !! x) \/ dominates l x).
    { induction ks as [|k ks IHk]; intros Kc bc nc Gc o Nd Hks Hfree Ic Tc Sc Nc Kq Cc Dc E; cbn [fold_left] in E.
      - injection E as <-. exists Gc. cbn. split; [done|]. split; [done|]. split; [done|]. split; [done|]. split; [done|]. split; [by intros x ?%elem_of_nil|]. done.
      - apply NoDup_cons in Nd as [Hk Nd]. assert (Hlk : idom l k) by (apply Hks; constructor).
        destruct (rename_inner fuel g d origs k (Kc, bc, nc)) as [[[K2 b2] n2]|] eqn:Ek; [|by clear -E; exfalso; induction ks; cbn in E; auto].
        destruct (IH k Kc bc nc K2 b2 n2 Gc) as (G2 & Q1 & Q2 & Q3 & Q4 & Q5 & Q6 & Q7 & Q8); try done.
        + by eapply Uid.
        + by destruct (Hrefl l k Hlk).
        + intros x Hx. apply (Hfree k); [constructor|done].
        + right. exists l, K, n, K1. split; [done|]. split; [apply (lookup_weaken G1 Gc); [unfold G1; apply lookup_insert|done]|]. intros v. unfold top. by rewrite Kq.
        + intros v Hv. assert (Q : top Kc v = top K1 v) by (unfold top; by rewrite Kq). rewrite Q. specialize (Ht1 v Hv). lia.
        + lia.
        + assert (Sc2 : G1 ⊆ G2) by (etrans; [exact Sc|exact Q1]).
          destruct (IHk K2 b2 n2 G2 o Nd) as (G' & R1 & R2 & R3 & R4 & R5 & R6 & R7 & R8); try done.
          * intros x Hx. apply Hks. by constructor.
          * intros x z Hx Hxz. destruct (G2 !! z) eqn:Ez; [|done]. exfalso. destruct (Q8 z (mk_is_Some _ _ Ez)) as [[? Hz]|Hz].
            -- rewrite (Hfree x z) in Hz; [done|by constructor|done].
            -- assert (x = k) by (apply (Hsib l x k z); auto; apply Hks; by constructor). by subst.
          * lia.
          * intros v. by rewrite Q5.
          * intros x y Hx Hg Hxy. destruct (Gc !! x) as [ox|] eqn:Ex.
            -- destruct (Cc x y (mk_is_Some _ _ Ex) Hg Hxy) as [oy Ey]. exists oy. by eapply lookup_weaken.
            -- by apply (Q7 x y).
          * intros x Hx. destruct (Q8 x Hx) as [Hc|Hc]; [by apply Dc|]. right. by eapply Hup.
          * exists G'. split; [by etrans|]. split; [done|]. split; [done|]. split; [done|]. split; [done|]. split; [|done].
            intros x [->|Hx]%elem_of_cons; [|auto]. destruct Q6 as [ok Eok]. exists ok. by eapply lookup_weaken. }
    destruct (fold_left _ (immediately_dominated_by d l) _) as [[[K2 b2] n2]|] eqn:El; [|done]. injection H as <- <- <-.
    destruct (Loop (immediately_dominated_by d l) K1 b1 n1 G1 (K2, b2, n2)) as (G' & R1 & R2 & R3 & R4 & R5 & R6 & R7 & R8); try done.
    - apply NoDup_sorted.
    - intros x. apply Hd.
    - intros x z Hx%Hd Hz. unfold G1. rewrite lookup_insert_ne; [apply Hun; by eapply Hup|]. intros <-. by apply (Hanti l x).
    - intros x y [o Ho] Hg Hxy. congruence.
    - intros x [o Ho]. unfold G1 in Ho. destruct (decide (x = l)) as [->|]; [by right|]. rewrite lookup_insert_ne in Ho by done. left. by exists o.
    - exists G'. split; [by etrans|]. split; [done|]. split; [done|]. cbn in R4. split; [lia|]. cbn in R5. split.
      { intros v. rewrite pops_drop, R5. by apply (rename_block_stack _ _ _ _ _ _ Er). }
      split; [exists (K, n, K1); eapply lookup_weaken; [|exact R1]; unfold G1; apply lookup_insert|]. split; [|done].
      intros x y Hx Hg Hxy. destruct (decide (x = l)) as [->|Hxl]; [apply R6; by apply Hd|]. apply (R7 x y); [done| |done]. unfold G1. by rewrite lookup_insert_ne.
  Qed.
End rename.
