(** Proofs about value numbering. *)
From stdpp Require Import base decidable sets numbers gmap list.
From Coq Require Import NArith ZArith Lia.
From Verif Require Import VmBase RustStr RustStrProofs ILModel CfgSpec CfgProofs ILSpec PassModel PassProofs SsaProofs BranchProofs DomModel DomSpec DomProofs DvnModel DvnSpec.
From Verif Require EvalModel.

Local Open Scope N_scope.

(** ** Paths *)
Lemma path_split c l2 : forall p l, path c (l :: p) -> l2 ∈ p -> exists q p', p = q ++ l2 :: p' /\ path c (l2 :: p').
Proof.
  induction p as [|q p IH]; intros l H Hin; [by apply elem_of_nil in Hin|]. inversion H; subst.
  destruct (decide (l2 = q)) as [->|Hne]; [exists [], p; done|]. apply elem_of_cons in Hin as [?|Hin]; [done|].
  destruct (IH q) as (q' & p' & -> & ?); [done|done|]. by exists (q :: q'), p'.
Qed.
Lemma path_walk c p : forall l, path c (l :: p) <-> walk (edge (c_graph c)) (c_entry c) l (l :: p).
Proof.
  induction p as [|q p IH]; intros l; split; intros H.
  - inversion H; subst. constructor.
  - inversion H as [|u v t Hu He]; subst; [constructor|]. inversion Hu.
  - inversion H; subst. econstructor; [by apply IH|done].
  - inversion H as [|u v t Hu He]; subst. assert (u = q) as -> by (by inversion Hu). constructor; [by apply IH|done].
Qed.
Lemma reach_path c l : reach (edge (c_graph c)) (c_entry c) l <-> exists p, path c (l :: p).
Proof.
  split; intros [p H]; [|exists (l :: p); by apply path_walk].
  destruct (walk_inv _ _ _ _ H) as (t & -> & _). exists t. by apply path_walk.
Qed.
Lemma dominates_antisym R e a b : dominates R e a b -> dominates R e b a -> a = b.
Proof.
  intros A B. destruct A as [[l H] A]. destruct (walk_nodup _ _ _ _ H) as (l' & H' & _ & Nd).
  destruct (walk_prefix _ _ _ _ _ H' (A _ H')) as (pre & l2 & -> & H2). destruct (decide (a = b)) as [|Hne]; [done|].
  pose proof (proj2 B _ H2) as Hb. destruct (walk_inv _ _ _ _ H') as (t & E & _). destruct (walk_inv _ _ _ _ H2) as (t2 & -> & _).
  destruct pre as [|x pre]; cbn in E; injection E as -> ?; [done|]. apply NoDup_app in Nd as (_ & Nd & _). destruct (Nd b); [constructor|done].
Qed.
Lemma no_mutual c b t l k l2 k2 : strict_ssa c -> defines c b l k -> defines c t l2 k2 -> available c b l2 k2 -> available c t l k ->
  forall p, path c (l :: p) -> False.
Proof.
  intros S Db D2 Ab Ht' p0 Hp0. enough (H : forall n p, (length p <= n)%nat -> path c (l :: p) -> False) by (by apply (H _ p0 (le_n _))).
  induction n as [|n IH]; intros p Hn Hp.
  - destruct p; [|cbn in Hn; lia]. destruct (Ht' [] Hp) as [(? & ? & ?%elem_of_nil & _)|(j & Hj & Hd)]; [done|].
    destruct (ssa_once _ S _ _ _ _ _ D2 Hd) as [-> ->]. destruct (Ab [] Hp) as [(? & ? & ?%elem_of_nil & _)|(j' & ? & Hd')]; [done|].
    destruct (ssa_once _ S _ _ _ _ _ Db Hd') as [_ ->]. lia.
  - assert (Q : exists p', path c (l2 :: p') /\ ((length p' < length p)%nat \/ p' = p /\ l2 = l /\ (k2 < k)%nat)).
    { destruct (Ht' p Hp) as [(l' & k' & Hin & Hd)|(j & Hj & Hd)]; destruct (ssa_once _ S _ _ _ _ _ D2 Hd) as [-> ->].
      - destruct (path_suffix c l' p l Hp Hin) as (p' & ? & ?). exists p'. auto.
      - exists p. auto. }
    destruct Q as (p' & Hp' & Hlen). destruct (Ab p' Hp') as [(l' & k' & Hin & Hd)|(j & Hj & Hd)]; destruct (ssa_once _ S _ _ _ _ _ Db Hd) as [-> ->].
    + destruct (path_suffix c l' p' l2 Hp' Hin) as (p'' & Hp'' & ?). apply (IH p''); [|done]. destruct Hlen as [?|(-> & _)]; lia.
    + destruct Hlen as [?|(_ & _ & ?)]; [|lia]. apply (IH p'); [lia|done].
Qed.
Lemma available_trans c x y l k : available c x l k -> (forall l' k', defines c x l' k' -> available c y l' k') -> available c y l k.
Proof.
  intros Hx Hy p Hp. destruct (Hx p Hp) as [(l' & k' & Hin & Hd)|(k' & Hk & Hd)].
  - destruct (path_split _ _ _ _ Hp Hin) as (q & p' & -> & Hp'). left. destruct (Hy _ _ Hd _ Hp') as [(l2 & k2 & ? & ?)|(k2 & ? & ?)].
    + exists l2, k2. split; [|done]. apply elem_of_app. right. by constructor.
    + exists l', k2. split; [|done]. apply elem_of_app. right. constructor.
  - destruct (Hy _ _ Hd _ Hp) as [?|(k2 & ? & ?)]; [by left|right]. exists k2. split; [lia|done].
Qed.
Lemma available_below c x l l' : strictly_dominates (edge (c_graph c)) (c_entry c) l l' -> available c x l (length (block_of (c_blocks c) l)) -> available c x l' 0.
Proof.
  intros [[_ Hd] Hne] H p Hp. left. apply path_walk in Hp as Hw. apply Hd in Hw. apply elem_of_cons in Hw as [?|Hin]; [done|].
  destruct (path_split _ _ _ _ Hp Hin) as (q & p' & -> & Hp'). destruct (H _ Hp') as [(l2 & k2 & ? & ?)|(k2 & ? & ?)].
  - exists l2, k2. split; [|done]. apply elem_of_app. right. by constructor.
  - exists l, k2. split; [|done]. apply elem_of_app. right. constructor.
Qed.

(** ** The executions of a program *)
Section points.
Context {V W : Type} (m : machine V W) (c : cfg).
Context (Ok : prog_ok c) (Hssa : strict_ssa c) (Hphi : phis_complete c).
Notation blk l := (block_of (c_blocks c) l).
Notation nphi l := (length (phis_of (blk l))).

(** The machine can be just before instruction [k] of block [l]. *)
Inductive at_point : N -> nat -> (N -> V) -> W -> Prop :=
| at_start e w : at_point (c_entry c) 0 e w
| at_inst l k i e w : at_point l k e w -> in_prog c l k i -> is_phi i = false ->
    at_point l (S k) (exec_inst m i (e, w)).1 (exec_inst m i (e, w)).2
| at_phis p l e w : at_point p (length (blk p)) e w -> edge (c_graph c) p l ->
    at_point l (nphi l) (exec_phis m (Some p) e (phis_of (blk l)) e) w.
Lemma at_path l k e w : at_point l k e w -> exists p, path c (l :: p).
Proof.
  induction 1 as [| |p l e w H IH He]; [eexists; constructor|done|]. destruct IH as [q Hq]. eexists. by econstructor.
Qed.

(** ** Equations between variables *)
Inductive rhs := RArg (a : arg) | RVal (v : val).
Definition value (r : rhs) (e : N -> V) (w : W) : V :=
  match r with
  | RArg a => eval m e a
  | RVal (NBin a op b) => m_bin m op (eval m e a) (eval m e b) w
  | RVal (NUn op a) => m_un m op (eval m e a) w
  end.
Definition args_of (r : rhs) : list arg :=
  match r with RArg a => [a] | RVal (NBin a _ b) => [a; b] | RVal (NUn _ a) => [a] end.
Definition known (r : rhs) (l : N) (k : nat) : Prop := forall y, AVar y ∈ args_of r -> available c y l k.
Definition holds (t : N) (r : rhs) : Prop := forall l k e w, at_point l k e w -> available c t l k -> e t = value r e w.
Definition sound_eq (t : N) (r : rhs) : Prop := holds t r /\ (r = RArg (AVar t) \/ forall l k, defines c t l k -> known r l k).

Definition steady (r : rhs) : Prop := forall l k i vs e w, in_prog c l k i -> value r e (effect m i vs w).1 = value r e w.
Lemma value_agree r e e' w : (forall y, AVar y ∈ args_of r -> e y = e' y) -> value r e w = value r e' w.
Proof.
  intros H. assert (E : forall a, a ∈ args_of r -> eval m e a = eval m e' a).
  { intros a Ha. destruct a; cbn; try done. by apply H. }
  destruct r as [a|[a op b|op a]]; cbn in *; rewrite ?(E a), ?(E b); try done; by repeat constructor.
Qed.
Lemma not_own t l k : defines c t l k -> available c t l k -> (exists p, path c (l :: p)) -> False.
Proof. intros D A [p Hp]. by eapply (no_mutual c t t). Qed.
Lemma phi_index l i : i ∈ phis_of (blk l) -> exists j, (j < nphi l)%nat /\ in_prog c l j i.
Proof.
  intros [j Hj]%elem_of_list_lookup. exists j. split; [by eapply lookup_lt_Some|]. unfold in_prog. rewrite (phis_rest (blk l)). by apply lookup_app_l_Some.
Qed.
Lemma at_phi_avail x l : (forall j, (j < nphi l)%nat -> ~ defines c x l j) -> available c x l (nphi l) -> available c x l 0.
Proof.
  generalize (nphi l). intros n. induction n as [|n IH]; intros H A; [done|]. apply IH; [intros; apply H; lia|]. apply available_back; [done|]. apply H. lia.
Qed.
Lemma new_equation t l k i r : in_prog c l k i -> is_phi i = false -> t ∈ i_tgts i -> known r l k ->
  (forall e w, at_point l k e w -> (effect m i (map (eval m e) (i_args i)) w).2 = value r e w) ->
  steady r -> sound_eq t r.
Proof.
  intros I Np Ht K He St. assert (D : defines c t l k) by (by exists i). split; [|right; intros l' k' D'; by destruct (ssa_once _ Hssa _ _ _ _ _ D D') as [-> ->]].
  intros l1 k1 e w P. induction P as [e w|l1 k1 i1 e w P IH I1 Np1|p l1 e w P IH Hedge]; intros A.
  - destruct (A [] (path_entry c)) as [(? & ? & ?%elem_of_nil & _)|(? & ? & _)]; [done|lia].
  - assert (Hr : forall y, AVar y ∈ args_of r -> y ∈ i_tgts i1 -> (t ∈ i_tgts i1 \/ available c t l1 k1) -> False).
    { intros y Hy Hy1 Q. assert (D1 : defines c y l1 k1) by (by exists i1). destruct (at_path _ _ _ _ P) as [q Hq]. destruct Q as [Q|Q].
      - assert (D2 : defines c t l1 k1) by (by exists i1). destruct (ssa_once _ Hssa _ _ _ _ _ D D2) as [-> ->]. eapply (not_own y); [done|by apply K|eauto].
      - eapply (no_mutual c y t l1 k1 l k); eauto. }
    cbn [exec_inst fst snd]. unfold assign at 1. case_bool_decide as Ht1.
    + assert (D2 : defines c t l1 k1) by (by exists i1). destruct (ssa_once _ Hssa _ _ _ _ _ D D2) as [-> ->]. assert (i1 = i) as -> by (unfold in_prog in *; congruence).
      rewrite (He _ _ P), (St _ _ i) by exact I. apply value_agree. intros y Hy. unfold assign. case_bool_decide as Q; [|done]. destruct (Hr y Hy Q). by left.
    + assert (A1 : available c t l1 k1). { apply available_back; [done|]. intros (i2 & I2 & H2). unfold in_prog in *. congruence. }
      rewrite (IH A1), (St l1 k1 i1) by done. apply value_agree. intros y Hy. unfold assign. case_bool_decide as Q; [|done]. destruct (Hr y Hy Q). by right.
  - assert (Nt : forall j, (j < nphi l1)%nat -> ~ defines c t l1 j).
    { intros j Hj D2. destruct (ssa_once _ Hssa _ _ _ _ _ D D2) as [-> ->]. unfold in_prog in I. rewrite (phis_rest (blk l1)) in I.
      rewrite lookup_app_l in I by done. apply elem_of_list_lookup_2 in I. apply phis_of_phi in I. congruence. }
    apply (at_phi_avail _ _ Nt) in A. assert (Ap := available_pred _ _ p _ _ A Hedge (le_n _)).
    rewrite exec_phis_other.
    2:{ intros j Hj Hin. destruct (phi_index _ _ Hj) as (n & Hn & In). apply (Nt n Hn). by exists j. }
    rewrite (IH Ap). apply value_agree. intros y Hy. rewrite exec_phis_other; [done|]. intros j Hj Hin. destruct (phi_index _ _ Hj) as (n & Hn & In).
    destruct (at_path _ _ _ _ P) as [q Hq]. eapply (no_mutual c y t l1 n l k); [done|by exists j|done|by apply K|eapply available_mono; [exact A|lia]|]. by econstructor.
Qed.

(** ** One instruction *)
Context (ev : evaluator) (Hev : sound_evaluator ev m) (Htl : unaffected m c).
Definition panics : Prop := exists op a b, ev_bin ev op a b = EvalModel.Panics.

Record rel (l : N) (k : nat) (i i' : inst) : Prop := Rel {
  r_tgts : i_tgts i' = i_tgts i;
  r_ok : inst_ok i';
  r_phi : is_phi i' = is_phi i;
  r_cond : is_cond_goto i' = is_cond_goto i;
  r_call : i_t i' = ICall -> (2 <= length (i_args i'))%nat;
  r_bin : i_t i' = IBin -> i_t i = IBin /\ i_bin i' = i_bin i;
  r_un : i_t i' = IUn -> i_t i = IUn /\ i_un i' = i_un i;
  r_labels : is_cond_goto i = true -> i_labels i' = i_labels i;
  r_args : is_phi i = false -> forall y, AVar y ∈ i_args i' -> available c y l k;
  r_effect : is_phi i = false -> forall e w, at_point l k e w ->
    effect m i' (map (eval m e) (i_args i')) w = effect m i (map (eval m e) (i_args i)) w;
  r_cargs : is_cond_goto i = true -> forall e w, at_point l k e w -> map (eval m e) (i_args i') = map (eval m e) (i_args i);
  r_entries : is_phi i = true -> NoDup (i_labels i') /\ forall p, edge (c_graph c) p l -> exists a a',
    phi_entry p (zip (i_labels i) (i_args i)) = Some a /\ phi_entry p (zip (i_labels i') (i_args i')) = Some a' /\
    known (RArg a') p (length (blk p)) /\ forall e w, at_point p (length (blk p)) e w -> eval m e a' = eval m e a }.

Definition reduced (a : arg) : Prop := forall b, a = ABuiltin b -> ev_val ev b = None.
Definition good_state (s : DvnModel.state) : Prop :=
  (forall t a, tgt_to_coc s !! t = Some a -> sound_eq t (RArg a)) /\
  (forall v a, (v, a) ∈ val_to_coc s -> exists t, a = AVar t /\ sound_eq t (RVal v)) /\
  (forall t a, tgt_to_coc s !! t = Some a -> reduced a).
Definition placed (s : DvnModel.state) (l : N) (k : nat) : Prop :=
  (forall t a, tgt_to_coc s !! t = Some a -> available c t l k) /\
  (forall v t, (v, AVar t) ∈ val_to_coc s -> available c t l k).

Lemma find_val_elem v l a : find_val v l = Some a -> (v, a) ∈ l.
Proof.
  induction l as [|[u b] l IH]; cbn; [done|]. case_bool_decide as E; [intros [= ->]; subst; constructor|]. intros; constructor; auto.
Qed.
Lemma canon_known s a l k : good_state s -> known (RArg a) l k -> known (RArg (canon_arg ev s a)) l k.
Proof.
  intros [G _] K. destruct a as [p|k0|f|t]; cbn [canon_arg].
  - destruct (ev_val ev p); intros y Hy; by apply elem_of_list_singleton in Hy.
  - done.
  - done.
  - destruct (tgt_to_coc s !! t) as [a|] eqn:E; [|done]. destruct (G _ _ E) as [_ [[= ->]|H]]; [done|]. intros y Hy.
    eapply available_trans; [apply K; constructor|]. intros l' k' D. by apply (H _ _ D).
Qed.
Lemma canon_eval s a l k e w : good_state s -> known (RArg a) l k -> at_point l k e w -> eval m e (canon_arg ev s a) = eval m e a.
Proof.
  intros [G _] K P. destruct a as [p|k0|f|t]; cbn [canon_arg]; try done.
  - destruct (ev_val ev p) eqn:E; [|done]. cbn. symmetry. by apply (se_val _ _ Hev).
  - destruct (tgt_to_coc s !! t) as [a|] eqn:E; [|done]. destruct (G _ _ E) as [H _]. symmetry. apply (H _ _ _ _ P (K _ ltac:(constructor))).
Qed.
Lemma phi_entry_map (f : arg -> arg) p ls as_ : phi_entry p (zip ls (map f as_)) = f <$> phi_entry p (zip ls as_).
Proof. revert as_. induction ls as [|q ls IH]; intros [|a as_]; cbn; try done. destruct (N.eqb q p); [done|apply IH]. Qed.

Lemma effect_args i a vs w : effect m (set_args i a) vs w = effect m i vs w.
Proof. done. Qed.
Lemma canons_eval s l k e w as_ : good_state s -> (forall y, AVar y ∈ as_ -> available c y l k) -> at_point l k e w ->
  map (eval m e) (map (canon_arg ev s) as_) = map (eval m e) as_.
Proof.
  intros G K P. rewrite map_map. apply map_ext_in. intros a Ha. apply elem_of_list_In in Ha. eapply canon_eval; [done| |done].
  intros y Hy. apply K. cbn in Hy. apply elem_of_list_singleton in Hy. by subst.
Qed.
Lemma rel_canon s l k i i' : good_state s -> in_prog c l k i -> rel l k i i' -> rel l k i (set_args i' (map (canon_arg ev s) (i_args i'))).
Proof.
  intros G I [H1 H2 H3 H4 H5 H6 H7 H8 H9 H10 H11 H12]. split; try done; cbn [i_args i_labels set_args i_t].
  - unfold inst_ok in *. cbn [i_t i_tgts i_args i_labels set_args]. rewrite map_length. destruct (i_t i'); try done; destruct H2 as [? E]; rewrite E; done.
  - rewrite map_length. done.
  - intros Np y Hy. apply elem_of_list_fmap in Hy as (a & E & Ha).
    assert (Q : known (RArg (canon_arg ev s a)) l k).
    { apply canon_known; [done|]. intros z Hz. apply elem_of_list_singleton in Hz. subst. auto. }
    apply Q. rewrite <- E. constructor.
  - intros Np e w P. rewrite effect_args. rewrite (canons_eval s l k e w); auto.
  - intros Hc e w P. assert (Np : is_phi i = false). { unfold is_phi, is_cond_goto in *. apply bool_decide_eq_true in Hc. rewrite Hc. done. }
    rewrite (canons_eval s l k e w); eauto.
  - intros Hp. destruct (H12 Hp) as [Nd E]. split; [done|]. intros p He. destruct (E p He) as (a & a' & E1 & E2 & K & Q).
    exists a, (canon_arg ev s a'). split; [done|]. split; [rewrite phi_entry_map, E2; done|]. split; [by apply canon_known|].
    intros e w P. rewrite <- (Q e w P). by eapply canon_eval.
Qed.

Lemma insert_ok s t a l k : good_state s -> placed s l k -> defines c t l k -> (exists p, path c (l :: p)) -> sound_eq t (RArg a) -> reduced a ->
  exists s', insert_tgt s t a = Some s' /\ good_state s' /\ placed s' l (S k).
Proof.
  intros (G1 & G2 & G3) [P1 P2] D Hp Hs Hred. unfold insert_tgt. destruct (tgt_to_coc s !! t) as [a'|] eqn:E.
  { destruct (not_own t l k D (P1 _ _ E) Hp). }
  eexists. split; [done|]. split; [split; [|split]|split]; cbn.
  - intros t' a' [[<- <-]|[? ?]]%lookup_insert_Some; [done|by apply G1].
  - done.
  - intros t' a' [[<- <-]|[? ?]]%lookup_insert_Some; [done|by eapply G3].
  - intros t' a' [[<- <-]|[? ?]]%lookup_insert_Some; [by eapply available_here; [exact D|lia]|]. eapply available_mono; [by eapply P1|lia].
  - intros v t' Hv. eapply available_mono; [by eapply P2|lia].
Qed.
Definition step_ok (l : N) (k : nat) (i : inst) (o : option (DvnModel.state * inst)) : Prop :=
  match o with Some (s, i') => good_state s /\ placed s l (S k) /\ rel l k i i' | None => panics end.

Section inst.
Context (s : DvnModel.state) (l : N) (k : nat) (i i1 : inst) (t : N).
Context (G : good_state s) (P : placed s l k) (Hp : exists p, path c (l :: p)) (I : in_prog c l k i) (R : rel l k i i1).
Context (Np : is_phi i = false) (Ht : i_tgts i1 = [t]).
Lemma tgt_defines : defines c t l k.
Proof. exists i. split; [done|]. rewrite <- (r_tgts _ _ _ _ R), Ht. constructor. Qed.
Lemma tgt_elem : t ∈ i_tgts i.
Proof. rewrite <- (r_tgts _ _ _ _ R), Ht. constructor. Qed.
Lemma tgt_plain : is_cond_goto i = false.
Proof.
  destruct (is_cond_goto i) eqn:E; [|done]. rewrite <- (r_cond _ _ _ _ R) in E. apply bool_decide_eq_true in E. pose proof (r_ok _ _ _ _ R) as H.
  unfold inst_ok in H. rewrite E in H. destruct H as [H _]. congruence.
Qed.
Lemma rel_assign a : known (RArg a) l k -> (forall e w, at_point l k e w -> effect m i1 (map (eval m e) (i_args i1)) w = (w, eval m e a)) ->
  rel l k i (inst_var_assign t a).
Proof.
  intros K E. pose proof tgt_plain as Hc. split; try (rewrite ?Np, ?Hc; done).
  - cbn. rewrite <- (r_tgts _ _ _ _ R). done.
  - intros _ e w A. rewrite <- (r_effect _ _ _ _ R Np e w A), (E e w A). done.
Qed.
Lemma assign_ok a : reduced a -> known (RArg a) l k -> (forall e w, at_point l k e w -> effect m i1 (map (eval m e) (i_args i1)) w = (w, eval m e a)) ->
  step_ok l k i (option_map (fun s => (s, inst_var_assign t a)) (insert_tgt s t a)).
Proof.
  intros Hred K E. destruct (insert_ok s t a l k) as (s' & -> & G' & P'); try done; [by apply tgt_defines| |].
  - eapply (new_equation t l k i); [done|done|by apply tgt_elem|done| |done]. intros e w A. rewrite <- (r_effect _ _ _ _ R Np e w A), (E e w A). done.
  - cbn. split; [done|]. split; [done|]. by apply rel_assign.
Qed.
Lemma number_val_ok v : known (RVal v) l k -> (forall e w, at_point l k e w -> effect m i1 (map (eval m e) (i_args i1)) w = (w, value (RVal v) e w)) ->
  steady (RVal v) ->
  step_ok l k i (number_val s v t i1).
Proof.
  intros K E St. unfold number_val. destruct (find_val v (val_to_coc s)) as [a|] eqn:F.
  - apply find_val_elem in F. destruct G as (G1 & G2 & G3). destruct (G2 _ _ F) as (t2 & -> & [H _]). destruct P as [P1 P2].
    apply assign_ok; [done|intros y Hy; cbn in Hy; apply elem_of_list_singleton in Hy as [= ->]; by eapply P2|]. intros e w A. rewrite (E e w A).
    cbn [eval]. rewrite (H _ _ _ _ A (P2 _ _ F)). done.
  - assert (Q : sound_eq t (RVal v)).
    { eapply (new_equation t l k i); [done|done|by apply tgt_elem|done| |done]. intros e w A. rewrite <- (r_effect _ _ _ _ R Np e w A), (E e w A). done. }
    set (s1 := State ((v, AVar t) :: val_to_coc s) (tgt_to_coc s)).
    assert (X : insert_tgt s1 t (AVar t) = option_map (fun s' => State ((v, AVar t) :: val_to_coc s') (tgt_to_coc s')) (insert_tgt s t (AVar t))).
    { unfold insert_tgt. cbn. destruct (tgt_to_coc s !! t); done. }
    rewrite X. destruct (insert_ok s t (AVar t) l k) as (s' & -> & G' & P'); try done; [by apply tgt_defines|split; [done|by left]|].
    cbn. destruct G' as (G1 & G2 & G3), P' as [P1 P2]. split; [split; [done|split; [|done]]|split; [split; [done|]|done]]; cbn.
    + intros u a [[= -> ->]|Hu]%elem_of_cons; [eauto|by apply G2].
    + intros u t' [[= -> ->]|Hu]%elem_of_cons; [|by eapply P2]. eapply available_here; [by apply tgt_defines|lia].
Qed.
End inst.

Lemma to_consts_map as_ : forallb is_const as_ = true -> as_ = map AConst (to_consts as_).
Proof. induction as_ as [|[] as_ IH]; cbn; try done. intros H. f_equal. auto. Qed.
Lemma canon_reduced s a : good_state s -> reduced (canon_arg ev s a).
Proof.
  intros (_ & _ & G) b. destruct a as [q| | |t]; cbn; try done.
  - destruct (ev_val ev q) eqn:E; [done|]. by intros [= ->].
  - destruct (tgt_to_coc s !! t) eqn:E; [|done]. by eapply G.
Qed.

Lemma number_inst_ok s l k i i' : good_state s -> placed s l k -> (exists p, path c (l :: p)) -> in_prog c l k i -> rel l k i i' ->
  step_ok l k i (number_inst ev s i').
Proof.
  intros G P Hp I R0. unfold number_inst. set (i1 := set_args i' (map (canon_arg ev s) (i_args i'))).
  assert (R : rel l k i i1) by (by apply rel_canon). assert (Red : forall a, a ∈ i_args i1 -> reduced a).
  { intros a (b & -> & _)%elem_of_list_fmap. by apply canon_reduced. }
  clearbody i1. clear R0 i'. assert (Keep : step_ok l k i (Some (s, i1))).
  { cbn. split; [done|]. split; [|done]. destruct P as [P1 P2]. split; intros; (eapply available_mono; [eauto|lia]). }
  pose proof (r_ok _ _ _ _ R) as Oi. unfold inst_ok in Oi. unfold evaluate.
  destruct (i_t i1) eqn:Et; try exact Keep; try done.
  - (* Bin *)
    destruct Oi as [Ot Oa]. destruct (i_tgts i1) as [|t [|]] eqn:Ht; try done. destruct (i_args i1) as [|x [|y [|]]] eqn:Ea; try done.
    assert (Np : is_phi i = false) by (rewrite <- (r_phi _ _ _ _ R); unfold is_phi; by rewrite Et).
    assert (Kv : forall z, z = x \/ z = y -> known (RArg z) l k).
    { intros z Hz u Hu. cbn in Hu. apply elem_of_list_singleton in Hu. apply (r_args _ _ _ _ R Np). rewrite Ea, Hu. destruct Hz as [->| ->]; repeat constructor. }
    assert (Eff : forall e w, effect m i1 (map (eval m e) (i_args i1)) w = (w, m_bin m (i_bin i1) (eval m e x) (eval m e y) w)).
    { intros e w. rewrite Ea. unfold effect. rewrite Et. done. }
    destruct (r_bin _ _ _ _ R Et) as [Ei Eb]. 
    assert (Num : step_ok l k i (number_val s (NBin x (i_bin i1) y) t i1)).
    { apply number_val_ok; try done.
      - intros u [Hu|Hu]%elem_of_cons; [apply (Kv _ (or_introl eq_refl)); rewrite Hu; constructor|]. apply elem_of_list_singleton in Hu. apply (Kv _ (or_intror eq_refl)). rewrite Hu. constructor.
      - intros e w A. rewrite Eff. done.
      - intros l' k' i' vs e w I'. cbn. rewrite Eb. by apply (Htl _ _ _ _ _ _ vs w I I'). }
    destruct x as [o|kx|fx|vx]; try exact Num.
    + destruct y as [o2|ky|fy|vy]; try exact Num. destruct ky as [| | | |p|]; try exact Num.
      case_bool_decide as Eo; cbn [andb]; [|exact Num]. destruct (is_valid_member_ident p) eqn:Hv; [|exact Num].
      apply (assign_ok s l k i i1 t); try done; [by apply canon_reduced|apply canon_known; [done|]; intros u Hu; by apply elem_of_list_singleton in Hu|].
      intros e w A. rewrite Eff. f_equal. rewrite (canon_eval s _ l k e w); [|done| |done]. 2:{ intros u Hu. by apply elem_of_list_singleton in Hu. }
      rewrite Eo. cbn [eval]. apply (se_member _ _ Hev); [|done]. eapply Red; [constructor|done].
    + destruct y as [o2|ky|fy|vy]; try exact Num.
      set (sw := swaps ev (i_bin i1) kx ky). assert (Sw : sw = true -> exists a b, kx = KNum a /\ ky = KNum b /\ (i_bin i1 = OAdd \/ i_bin i1 = OMul)).
      { unfold sw, swaps. destruct (i_bin i1), kx, ky; try done; eauto 8. }
      assert (X : (if sw then ev_bin ev (i_bin i1) ky kx else ev_bin ev (i_bin i1) kx ky) = EvalModel.Panics -> panics).
      { intros H. destruct sw; do 3 eexists; exact H. }
      assert (Y : forall v, (if sw then ev_bin ev (i_bin i1) ky kx else ev_bin ev (i_bin i1) kx ky) = EvalModel.Folded v ->
        forall w, m_bin m (i_bin i1) (m_const m kx) (m_const m ky) w = m_const m v).
      { intros v H w. destruct sw; [|by apply (se_bin _ _ Hev)]. destruct (Sw eq_refl) as (a & b & -> & -> & Q). rewrite (se_commute _ _ Hev) by done.
        by apply (se_bin _ _ Hev). }
      clearbody sw. destruct (if sw then ev_bin ev (i_bin i1) ky kx else ev_bin ev (i_bin i1) kx ky) as [v| |]; [|exact Num|by apply X].
      apply (assign_ok s l k i i1 t); try done. { intros u Hu. by apply elem_of_list_singleton in Hu. }
      intros e w A. rewrite Eff. cbn. by rewrite (Y v).
  - (* Un *)
    destruct Oi as [Ot Oa]. destruct (i_tgts i1) as [|t [|]] eqn:Ht; try done. destruct (i_args i1) as [|x [|]] eqn:Ea; try done.
    assert (Np : is_phi i = false) by (rewrite <- (r_phi _ _ _ _ R); unfold is_phi; by rewrite Et).
    destruct (r_un _ _ _ _ R Et) as [Ei Eb]. 
    apply number_val_ok; try done.
    + intros u Hu. cbn in Hu. apply (r_args _ _ _ _ R Np). by rewrite Ea.
    + intros e w A. rewrite Ea. unfold effect. rewrite Et. done.
    + intros l' k' i' vs e w I'. cbn. rewrite Eb. by apply (Htl _ _ _ _ _ _ vs w I I').
  - (* VarAssign *)
    destruct Oi as [Ot Oa]. destruct (i_tgts i1) as [|t [|]] eqn:Ht; try done. destruct (i_args i1) as [|x [|]] eqn:Ea; try done.
    assert (Np : is_phi i = false) by (rewrite <- (r_phi _ _ _ _ R); unfold is_phi; by rewrite Et).
    assert (K : known (RArg x) l k) by (intros u Hu; apply (r_args _ _ _ _ R Np); by rewrite Ea).
    destruct (insert_ok s t x l k) as (s' & -> & G' & P'); try done.
    + by eapply tgt_defines.
    + eapply (new_equation t l k i); [done|done|by eapply tgt_elem|done| |done]. intros e w A. rewrite <- (r_effect _ _ _ _ R Np e w A), Ea. unfold effect. rewrite Et. done.
    + apply Red. constructor.
  - (* Call *)
    pose proof (r_call _ _ _ _ R Et) as Hl. destruct (i_args i1) as [|f [|this args]] eqn:Ea; try (cbn in Hl; lia).
    destruct (i_tgts i1) as [|t [|]] eqn:Ht; [exact Keep| |cbn in Oi; lia]. destruct f as [f| | |]; try exact Keep.
    case_bool_decide as Es; cbn [andb]; [|exact Keep]. destruct (forallb is_const args) eqn:Ec; [|exact Keep].
    destruct (ev_call ev f (to_consts args)) as [v|] eqn:Ev; [|exact Keep]. cbn [fmap option_fmap option_map].
    assert (Np : is_phi i = false) by (rewrite <- (r_phi _ _ _ _ R); unfold is_phi; by rewrite Et).
    apply (assign_ok s l k i i1 t); try done. { intros u Hu. by apply elem_of_list_singleton in Hu. }
    intros e w A. rewrite Ea. unfold effect. rewrite Et, Es. cbn [map eval]. rewrite (to_consts_map _ Ec), map_map. cbn [eval].
    apply (se_call _ _ Hev); [|done]. eapply Red; [constructor|done].
Qed.

(** ** Blocks *)
Definition seg (l : N) (k : nat) (is : list inst) : Prop :=
  forall j i', is !! j = Some i' -> exists i, in_prog c l (k + j) i /\ rel l (k + j) i i'.
Lemma number_block_ok l : (exists p, path c (l :: p)) -> forall is s k, good_state s -> placed s l k -> seg l k is ->
  match number_block ev s is with
  | Some (s', is') => good_state s' /\ placed s' l (k + length is) /\ length is' = length is /\ seg l k is'
  | None => panics
  end.
Proof.
  intros Hp. induction is as [|i' is IH]; intros s k G P Sg; cbn [number_block].
  - cbn [length]. rewrite Nat.add_0_r. done.
  - destruct (Sg 0%nat i' eq_refl) as (i & I & R). rewrite Nat.add_0_r in I, R. pose proof (number_inst_ok s l k i i' G P Hp I R) as H.
    destruct (number_inst ev s i') as [[s1 i1]|]; [|exact H]. destruct H as (G1 & P1 & R1).
    assert (Sg' : seg l (S k) is). { intros j x Hx. specialize (Sg (S j) x Hx). rewrite Nat.add_succ_r in Sg. exact Sg. }
    specialize (IH s1 (S k) G1 P1 Sg'). destruct (number_block ev s1 is) as [[s2 is2]|]; [|exact IH]. destruct IH as (G2 & P2 & L & S2).
    split; [done|]. split; [cbn [length]; by rewrite Nat.add_succ_r|]. split; [cbn; by rewrite L|].
    intros [|j] x Hx; cbn in Hx; [injection Hx as <-; exists i; by rewrite Nat.add_0_r|]. rewrite Nat.add_succ_r. by apply S2.
Qed.

Definition entries_of (s : DvnModel.state) (pred : N) (i : inst) : list (N * arg) :=
  map (fun '(l, a) => (l, if N.eqb l pred then canon_arg ev s a else a)) (zip (i_labels i) (i_args i)).
Lemma canon_phi_rel s pred l k i i' : good_state s -> is_phi i' = true -> rel l k i i' -> rel l k i (canon_phi ev s pred i').
Proof.
  intros G Hp R. pose proof (r_phi _ _ _ _ R) as E. rewrite Hp in E. symmetry in E. destruct (r_entries _ _ _ _ R E) as [Nd Hent].
  pose proof (r_ok _ _ _ _ R) as Oi. assert (Ti : i_t i' = IPhi) by (by apply bool_decide_eq_true in Hp). unfold inst_ok in Oi. rewrite Ti in Oi. destruct Oi as [Ot Ol].
  assert (Nc : is_cond_goto i = false). { rewrite <- (r_cond _ _ _ _ R). unfold is_cond_goto. by rewrite Ti. }
  unfold canon_phi. fold (entries_of s pred i'). pose proof (sort_by_perm entry_cmp (entries_of s pred i')) as Pm. set (es := sort_by entry_cmp (entries_of s pred i')) in *.
  assert (Fst : map fst (entries_of s pred i') = i_labels i').
  { unfold entries_of. rewrite map_map. rewrite <- (map_fst_zip (i_labels i') (i_args i') Ol) at 2. apply map_ext. by intros []. }
  assert (Nd1 : NoDup (map fst (entries_of s pred i'))) by (by rewrite Fst).
  assert (Nd2 : NoDup (map fst es)). { eapply NoDup_Permutation_proper; [|exact Nd1]. unfold map. apply fmap_Permutation, Pm. }
  split; try (rewrite ?E, ?Nc; done); cbn [i_t i_tgts i_args i_labels set_labels set_args]; try (intros Q; rewrite Ti in Q; discriminate Q).
  - by apply (r_tgts _ _ _ _ R).
  - unfold inst_ok. cbn [i_t i_tgts i_args i_labels set_labels set_args]. rewrite Ti, !map_length. done.
  - rewrite Nc. unfold is_cond_goto. cbn [i_t set_labels set_args]. rewrite Ti. done.
  - intros _. split; [done|]. intros p He. destruct (Hent p He) as (a & a' & E1 & E2 & K & Q).
    exists a, (if N.eqb p pred then canon_arg ev s a' else a'). split; [done|]. rewrite zip_map_fst_snd. split.
    + apply phi_entry_NoDup; [done|]. rewrite Pm. unfold entries_of. apply phi_entry_elem in E2. apply elem_of_list_fmap. by exists (p, a').
    + destruct (N.eqb p pred); [|done]. split; [by apply canon_known|]. intros e w A. rewrite <- (Q e w A). by eapply canon_eval.
Qed.
Lemma canon_phis_lookup s pred is : length (canon_phis ev s pred is) = length is /\
  forall j x, canon_phis ev s pred is !! j = Some x -> exists y, is !! j = Some y /\ (x = y \/ is_phi y = true /\ x = canon_phi ev s pred y).
Proof.
  induction is as [|i is [L IH]]; cbn [canon_phis]; [done|]. destruct (is_phi i) eqn:E; [|split; [done|]; intros; eauto]. split; [cbn; by rewrite L|].
  intros [|j] x Hx; cbn in Hx; [injection Hx as <-; exists i; auto|]. by apply IH.
Qed.

Definition blocks_rel (b : gmap N block) : Prop :=
  (forall l, is_Some (b !! l) <-> is_Some (c_blocks c !! l)) /\
  forall l is, b !! l = Some is -> length is = length (blk l) /\ seg l 0 is.
Lemma blocks_rel_insert b l is : blocks_rel b -> is_Some (b !! l) -> length is = length (blk l) -> seg l 0 is -> blocks_rel (<[l := is]> b).
Proof.
  intros [H1 H2] Hb L Sg. split.
  - intros l'. rewrite <- H1, lookup_insert_is_Some'. split; [intros [<-|?]; done|by right].
  - intros l' is' [[<- <-]|[_ ?]]%lookup_insert_Some; [done|by apply H2].
Qed.
Lemma canon_children_ok s pred cs : good_state s -> (forall n, n ∈ cs -> is_Some (c_blocks c !! n)) -> forall b, blocks_rel b ->
  exists b', canon_children ev s pred cs b = Some b' /\ blocks_rel b'.
Proof.
  intros G. induction cs as [|n cs IH]; intros Hc b B; cbn; [eauto|].
  destruct (proj2 (proj1 B n) (Hc n ltac:(constructor))) as [is Hb]. rewrite Hb. apply IH; [intros; apply Hc; by constructor|].
  destruct (proj2 B _ _ Hb) as [L Sg]. destruct (canon_phis_lookup s pred is) as [L' Q]. apply blocks_rel_insert; [done|by rewrite Hb|by rewrite L'|].
  intros j x Hx. destruct (Q j x Hx) as (y & Hy & HQ). destruct (Sg j y Hy) as (i & I & R). exists i. split; [done|].
  destruct HQ as [->|[Hp ->]]; [done|]. by apply canon_phi_rel.
Qed.

(** ** The dominator tree *)
Context (d : domi) (Hwf : wf (c_graph c)) (Hm : blocks_match c) (He : is_Some (c_blocks c !! c_entry c)).
Context (Hd : forall p b, b ∈ immediately_dominated_by d p <-> immediately_dominates (edge (c_graph c)) (c_entry c) p b).
Notation U := ({[c_entry c]} ∪ labels (c_graph c)).
Lemma reach_node l : (exists p, path c (l :: p)) -> l ∈ U.
Proof.
  intros [p Hp]. inversion Hp as [|q n p' H1 H2]; subst; [set_solver|]. destruct (proj2 Hwf _ _ H2) as [_ ?]. set_solver.
Qed.
Lemma node_block l : l ∈ U -> is_Some (c_blocks c !! l).
Proof. intros [->%elem_of_singleton|H]%elem_of_union; [done|]. by apply (proj1 Hm). Qed.
Lemma inner_ok fuel : forall s b l anc, blocks_rel b -> good_state s -> placed s l 0 -> (exists p, path c (l :: p)) ->
  NoDup (l :: anc) -> (forall x, x ∈ anc -> dominates (edge (c_graph c)) (c_entry c) x l) -> (size U < fuel + length (l :: anc))%nat ->
  match inner ev (c_graph c) d fuel s b l with Done b' => blocks_rel b' | Panicked => panics | Stuck => False end.
Proof.
  induction fuel as [|fuel IH]; intros s b l anc B G P Hp Nd Hanc Hf; cbn [inner].
  - apply (Nat.lt_irrefl (size U)). eapply Nat.lt_le_trans; [exact Hf|]. cbn [Nat.add]. rewrite <- (size_list_to_set (C := gset N) (l :: anc)) by done.
    apply subseteq_size. intros x Hx. apply elem_of_list_to_set in Hx. apply reach_node. apply elem_of_cons in Hx as [->|Hx]; [done|].
    apply reach_path. eapply dominates_reach. by apply Hanc.
  - destruct (proj2 (proj1 B l) (node_block _ (reach_node _ Hp))) as [is Hb]. rewrite Hb. destruct (proj2 B _ _ Hb) as [L Sg].
    pose proof (number_block_ok l Hp is s 0 G P Sg) as H. destruct (number_block ev s is) as [[s1 is1]|]; [|exact H]. destruct H as (G1 & P1 & L1 & Sg1).
    assert (B1 : blocks_rel (<[l := is1]> b)) by (apply blocks_rel_insert; try done; congruence).
    destruct (canon_children_ok s1 l (children_sorted (c_graph c) l) G1) with (b := <[l := is1]> b) as (b2 & -> & B2); [|done|].
    { intros n Hn. apply elem_of_sorted in Hn. apply node_block. destruct (proj2 Hwf _ _ Hn) as [_ ?]. set_solver. }
    rewrite L in P1. cbn [Nat.add] in P1.
    assert (Hk : forall n, n ∈ immediately_dominated_by d l -> immediately_dominates (edge (c_graph c)) (c_entry c) l n) by (intros; by apply Hd).
    revert Hk b2 B2. clear B1 Hb. generalize (immediately_dominated_by d l). intros ks. induction ks as [|n ks IHk]; intros Hk b2 B2; cbn [visit]; [done|].
    destruct (Hk n ltac:(constructor)) as [Sd _].
    assert (Hn : match inner ev (c_graph c) d fuel s1 b2 n with Done b' => blocks_rel b' | Panicked => panics | Stuck => False end).
    { apply (IH s1 b2 n (l :: anc)); try done.
      - destruct P1 as [P1 P2]. split; intros; (eapply available_below; [exact Sd|eauto]).
      - apply reach_path. apply Sd.
      - constructor; [|done]. intros [->|Hx]%elem_of_cons; [by destruct Sd|]. destruct Sd as [Dl Hne]. apply Hne. apply (dominates_antisym _ _ _ _ Dl). by apply Hanc.
      - intros x [->|Hx]%elem_of_cons; [apply Sd|]. eapply dominates_trans; [by apply Hanc|apply Sd].
      - cbn [length] in *. lia. }
    destruct (inner ev (c_graph c) d fuel s1 b2 n) as [b3| |]; try done. apply IHk; [|done]. intros; apply Hk. by constructor.
Qed.

(** ** The program before and after *)
Context (Hcalls : calls_ok c).
Lemma rel_refl l k i : in_prog c l k i -> rel l k i i.
Proof.
  intros I. split; try done.
  - apply (proj1 (proj1 Ok l)). by apply elem_of_list_lookup_2 in I.
  - by apply (Hcalls l k).
  - intros Np y Hy. by eapply (ssa_use _ Hssa).
  - intros Hp. destruct (proj2 Hphi _ _ _ I Hp) as [Nd Hin]. split; [done|]. intros p Hedge.
    assert (Oi : inst_ok i). { apply (proj1 (proj1 Ok l)). by apply elem_of_list_lookup_2 in I. }
    unfold inst_ok in Oi. apply bool_decide_eq_true in Hp as Ti. rewrite Ti in Oi. destruct Oi as [_ Ol].
    apply Hin in Hedge as Hl. rewrite <- (map_fst_zip (i_labels i) (i_args i) Ol) in Hl. apply elem_of_list_fmap in Hl as ([q a] & -> & Ha). cbn in *.
    assert (Ea : phi_entry q (zip (i_labels i) (i_args i)) = Some a). { apply phi_entry_NoDup; [|done]. by rewrite map_fst_zip. }
    exists a, a. split; [done|]. split; [done|]. split; [|done]. intros y Hy. cbn in Hy. apply elem_of_list_singleton in Hy. subst a.
    by eapply (ssa_phi _ Hssa).
Qed.
Lemma blocks_rel_init : blocks_rel (c_blocks c).
Proof.
  split; [done|]. intros l is Hb. assert (E : blk l = is) by (unfold block_of; by rewrite Hb). split; [by rewrite E|].
  intros j i Hj. exists i. assert (I : in_prog c l (0 + j) i) by (unfold in_prog; rewrite E; exact Hj). split; [done|]. by apply rel_refl.
Qed.

Section after.
Context (b : gmap N block) (B : blocks_rel b).
Notation c' := (Cfg (c_graph c) b (c_entry c)).
Notation blk' l := (block_of b l).
Lemma after_length l : length (blk' l) = length (blk l).
Proof.
  destruct B as [B1 B2]. destruct (b !! l) as [is|] eqn:Hb.
  - unfold block_of at 1. rewrite Hb. by apply B2.
  - unfold block_of. rewrite Hb. destruct (c_blocks c !! l) eqn:E; [|done]. destruct (proj2 (B1 l)) as [x Hx]; [by rewrite E|congruence].
Qed.
Lemma after_inst l k i' : blk' l !! k = Some i' -> exists i, in_prog c l k i /\ rel l k i i'.
Proof.
  destruct B as [B1 B2]. unfold block_of at 1. destruct (b !! l) as [is|] eqn:Hb; [|done]. intros H. by apply (proj2 (B2 _ _ Hb)) in H.
Qed.
Lemma before_inst l k i : in_prog c l k i -> exists i', blk' l !! k = Some i' /\ rel l k i i'.
Proof.
  intros I. destruct (blk' l !! k) as [i'|] eqn:E.
  - exists i'. split; [done|]. destruct (after_inst _ _ _ E) as (i2 & I2 & R). unfold in_prog in *. congruence.
  - apply lookup_ge_None in E. rewrite after_length in E. apply lookup_lt_Some in I. lia.
Qed.
Lemma split_by (X Y : list inst) : length Y = length X -> (forall k i i', X !! k = Some i -> Y !! k = Some i' -> is_phi i' = is_phi i) ->
  phis_of Y = take (length (phis_of X)) Y /\ rest_of Y = drop (length (phis_of X)) Y /\ rest_of X = drop (length (phis_of X)) X.
Proof.
  revert Y. induction X as [|i X IH]; intros [|i' Y] L H; try done. cbn [phis_of rest_of]. rewrite (H 0%nat i i' eq_refl eq_refl).
  destruct (is_phi i); [|done]. cbn [length take drop]. destruct (IH Y) as (E1 & E2 & E3); [by injection L| |by rewrite E1, E2, E3 at 1].
  intros k j j' Hj Hj'. apply (H (S k) j j' Hj Hj').
Qed.
Lemma after_split l : phis_of (blk' l) = take (nphi l) (blk' l) /\ rest_of (blk' l) = drop (nphi l) (blk' l) /\ rest_of (blk l) = drop (nphi l) (blk l).
Proof.
  apply split_by; [apply after_length|]. intros k i i' I I'. destruct (after_inst _ _ _ I') as (i2 & I2 & R). unfold in_prog in I2.
  rewrite I in I2. injection I2 as <-. apply (r_phi _ _ _ _ R).
Qed.

Lemma phis_same l p e w : edge (c_graph c) p l -> at_point p (length (blk p)) e w -> forall A A' k, length A' = length A ->
  (forall j i i', A !! j = Some i -> A' !! j = Some i' -> rel l (k + j) i i' /\ is_phi i = true) ->
  forall e0, exec_phis m (Some p) e A' e0 = exec_phis m (Some p) e A e0.
Proof.
  intros Hedge P A. induction A as [|i A IH]; intros [|i' A'] k L H e0; try done. cbn [exec_phis].
  destruct (H 0%nat i i' eq_refl eq_refl) as [R Hp]. rewrite (r_tgts _ _ _ _ R). destruct (r_entries _ _ _ _ R Hp) as [_ Q].
  destruct (Q p Hedge) as (a & a' & E1 & E2 & _ & E3). assert (Ev : phi_value m (Some p) e i' = phi_value m (Some p) e i).
  { unfold phi_value. rewrite E1, E2. by apply (E3 e w). }
  rewrite Ev. apply (IH A' (S k)); [by injection L|]. intros j x x' Hx Hx'. specialize (H (S j) x x' Hx Hx'). rewrite Nat.add_succ_r in H. exact H.
Qed.
Lemma insts_same l : forall A A' k e w, length A' = length A ->
  (forall j i i', A !! j = Some i -> A' !! j = Some i' -> in_prog c l (k + j) i /\ rel l (k + j) i i' /\ is_phi i = false) ->
  at_point l k e w -> exec_insts m A' (e, w) = exec_insts m A (e, w) /\
  at_point l (k + length A) (exec_insts m A (e, w)).1 (exec_insts m A (e, w)).2.
Proof.
  intros A. induction A as [|i A IH]; intros [|i' A'] k e w L H P; try done; [cbn; by rewrite Nat.add_0_r|]. cbn [exec_insts].
  destruct (H 0%nat i i' eq_refl eq_refl) as (I & R & Np). rewrite Nat.add_0_r in I, R.
  assert (Ex : exec_inst m i' (e, w) = exec_inst m i (e, w)).
  { unfold exec_inst. cbn [fst snd]. rewrite (r_effect _ _ _ _ R Np e w P), (r_tgts _ _ _ _ R). done. }
  rewrite Ex. destruct (exec_inst m i (e, w)) as [e1 w1] eqn:E1. cbn [length]. rewrite Nat.add_succ_r.
  apply (IH A' (S k)); [by injection L| |].
  - intros j x x' Hx Hx'. specialize (H (S j) x x' Hx Hx'). rewrite Nat.add_succ_r in H. exact H.
  - pose proof (at_inst l k i e w P I Np) as Q. rewrite E1 in Q. exact Q.
Qed.
Lemma phi_at l j i : (j < nphi l)%nat -> in_prog c l j i -> is_phi i = true.
Proof.
  intros Hj I. unfold in_prog in I. rewrite (phis_rest (blk l)) in I. rewrite lookup_app_l in I by done. apply elem_of_list_lookup_2 in I. by apply phis_of_phi in I.
Qed.
Lemma rest_at l j i : in_prog c l (nphi l + j) i -> is_phi i = false.
Proof.
  intros I. apply (proj1 (proj2 (proj1 Ok l))). pose proof (lookup_app_r (phis_of (blk l)) (rest_of (blk l)) (nphi l + j) ltac:(lia)) as Q.
  rewrite <- phis_rest in Q. unfold in_prog in I. rewrite I in Q. symmetry in Q. by apply elem_of_list_lookup_2 in Q.
Qed.
Lemma rest_same l e w : at_point l (nphi l) e w -> exec_insts m (rest_of (blk' l)) (e, w) = exec_insts m (rest_of (blk l)) (e, w) /\
  at_point l (length (blk l)) (exec_insts m (rest_of (blk l)) (e, w)).1 (exec_insts m (rest_of (blk l)) (e, w)).2.
Proof.
  intros P. destruct (after_split l) as (_ & E2 & E3). pose proof (phis_rest (blk l)) as E4. apply (f_equal length) in E4. rewrite app_length in E4. rewrite E4.
  apply insts_same; [rewrite E2, E3, !drop_length, after_length; done| |done].
  intros j i i' Hi Hi'. rewrite E2, lookup_drop in Hi'. rewrite E3, lookup_drop in Hi. destruct (after_inst _ _ _ Hi') as (i2 & I2 & R).
  assert (i2 = i) as -> by (unfold in_prog in I2; congruence). split; [done|]. split; [done|]. by eapply rest_at.
Qed.
Lemma next_same l e w : at_point l (length (blk l)) e w -> next m c' l e = next m c l e.
Proof.
  intros P. unfold next. cbn [c_blocks c_graph]. rewrite !last_lookup, after_length.
  destruct (blk l !! Nat.pred (length (blk l))) as [i|] eqn:Ei.
  - destruct (before_inst l _ i Ei) as (i' & -> & R). rewrite (r_cond _ _ _ _ R). destruct (is_cond_goto i) eqn:Ec; [|done].
    rewrite (r_labels _ _ _ _ R Ec). assert (Np : is_phi i = false). { unfold is_phi, is_cond_goto in *. apply bool_decide_eq_true in Ec. rewrite Ec. done. }
    assert (Oi : inst_ok i). { apply (proj1 (proj1 Ok l)). by apply elem_of_list_lookup_2 in Ei. }
    assert (Hl : length (blk l) = S (Nat.pred (length (blk l)))). { apply lookup_lt_Some in Ei. lia. }
    assert (Q : map (eval m e) (i_args i') = map (eval m e) (i_args i)).
    { set (n := Nat.pred (length (blk l))) in *. rewrite Hl in P. clearbody n. inversion P as [|l0 k0 i0 e0 w0 P0 I0 N0|p0 l0 e0 w0 P0 H0 Hk]; subst.
      - assert (i0 = i) as -> by (unfold in_prog in I0; congruence). pose proof (exec_cond_goto m i (e0, w0) Ec Oi) as X.
        pose proof (r_cargs _ _ _ _ R Ec _ _ P0) as Y.
        rewrite (evals_agree m (fun _ => True) _ e0 (i_args i')), (evals_agree m (fun _ => True) _ e0 (i_args i)); try done; intros; apply X.
      - assert (is_phi i = true) by (eapply (phi_at l n); [lia|done]). congruence. }
    destruct (i_args i') as [|a1 [|]], (i_args i) as [|a2 [|]]; try done. injection Q as Q. by rewrite Q.
  - destruct (blk' l !! Nat.pred (length (blk l))) as [i'|] eqn:Ei'; [|done]. destruct (after_inst _ _ _ Ei') as (i & I & _). unfold in_prog in I. congruence.
Qed.
Definition live (st : ILSpec.state (V := V) (W := W)) : Prop :=
  match st with
  | Running l None e w => l = c_entry c
  | Running l (Some p) e w => edge (c_graph c) p l /\ at_point p (length (blk p)) e w
  | Stopped _ _ => True
  end.
Lemma block_same l prev e w : live (Running l prev e w) -> exec_block m prev (blk' l) (e, w) = exec_block m prev (blk l) (e, w) /\
  at_point l (length (blk l)) (exec_block m prev (blk l) (e, w)).1 (exec_block m prev (blk l) (e, w)).2.
Proof.
  intros H. unfold exec_block. cbn [fst snd]. destruct (after_split l) as (E1 & _ & _). destruct prev as [p|]; cbn in H.
  - destruct H as [Hedge P]. assert (X : exec_phis m (Some p) e (phis_of (blk' l)) e = exec_phis m (Some p) e (phis_of (blk l)) e).
    { eapply (phis_same l p e w Hedge P _ _ 0).
      - rewrite E1, take_length, after_length. pose proof (phis_rest (blk l)) as E4. apply (f_equal length) in E4. rewrite app_length in E4. lia.
      - intros j i i' Hi Hi'. rewrite E1 in Hi'. apply lookup_take_Some in Hi' as [Hi' Hj]. destruct (after_inst _ _ _ Hi') as (i2 & I2 & R).
        assert (Hi2 : in_prog c l j i). { unfold in_prog. rewrite (phis_rest (blk l)). by apply lookup_app_l_Some. }
        assert (i2 = i) as -> by (unfold in_prog in *; congruence). split; [done|]. by eapply phi_at. }
    rewrite X. apply rest_same. by apply at_phis.
  - subst l. pose proof (proj1 Hphi) as E0. rewrite E1, E0. cbn [length take exec_phis]. apply rest_same. rewrite E0. constructor.
Qed.
Lemma step_same st : live st -> step m c' st = step m c st /\ live (step m c st).
Proof.
  intros H. destruct st as [l prev e w|e w]; [|done]. destruct (block_same l prev e w H) as [E P]. cbn [step c_blocks]. rewrite E.
  rewrite (next_same l _ _ P). split; [done|]. destruct (next m c l _) as [n|] eqn:En; [|done]. split; [|done]. eapply next_edge; [by apply (proj2 Ok)|exact En].
Qed.
Lemma run_same n : forall st, live st -> run m c' n st = run m c n st.
Proof. induction n as [|n IH]; intros st H; [done|]. destruct (step_same st H) as [E H']. cbn [run]. rewrite E. by apply IH. Qed.

Lemma after_defines x l k : defines c' x l k <-> defines c x l k.
Proof.
  split; intros (i & I & Hx).
  - destruct (after_inst _ _ _ I) as (i2 & I2 & R). exists i2. split; [done|]. by rewrite <- (r_tgts _ _ _ _ R).
  - destruct (before_inst _ _ _ I) as (i2 & I2 & R). exists i2. split; [done|]. by rewrite (r_tgts _ _ _ _ R).
Qed.
Lemma after_path p : path c' p <-> path c p.
Proof.
  split; induction 1 as [|l n p H IH Hedge].
  - exact (path_entry c).
  - exact (path_step c _ _ _ IH Hedge).
  - exact (path_entry c').
  - exact (path_step c' _ _ _ IH Hedge).
Qed.
Lemma after_available x l k : available c' x l k <-> available c x l k.
Proof. unfold available. setoid_rewrite after_path. setoid_rewrite after_defines. done. Qed.
Lemma after_wellformed : prog_ok c' /\ strict_ssa c' /\ phis_complete c' /\ blocks_match c' /\ calls_ok c'.
Proof.
  assert (Bo : forall l, block_ok (blk' l)).
  { intros l. split; [|split].
    - intros i' [k Hk]%elem_of_list_lookup. destruct (after_inst _ _ _ Hk) as (i & I & R). apply (r_ok _ _ _ _ R).
    - intros i' Hi'. destruct (after_split l) as (_ & E2 & E3). rewrite E2 in Hi'. apply elem_of_list_lookup in Hi' as [k Hk]. rewrite lookup_drop in Hk.
      destruct (after_inst _ _ _ Hk) as (i & I & R). rewrite (r_phi _ _ _ _ R). by eapply rest_at.
    - intros is1 i' is2 E Hc. assert (Hk : blk' l !! length is1 = Some i') by (rewrite E; by apply list_lookup_middle).
      destruct (after_inst _ _ _ Hk) as (i & I & R). rewrite (r_cond _ _ _ _ R) in Hc. pose proof (take_drop_middle _ _ _ I) as Em.
      pose proof (proj2 (proj2 (proj1 Ok l)) _ _ _ (eq_sym Em) Hc) as Ed. apply (f_equal length) in Ed. rewrite drop_length in Ed. cbn in Ed.
      pose proof (after_length l) as El. rewrite E, app_length in El. cbn in El. destruct is2; [done|]. cbn in El. lia. }
  split; [|split; [|split; [|split]]].
  - split; [done|]. intros l. unfold flow_ok. cbn [c_blocks c_graph]. destruct (last (blk' l)) as [i'|] eqn:El; [|done]. intros Hc n. rewrite last_lookup, after_length in El.
    destruct (after_inst _ _ _ El) as (i & I & R). rewrite (r_cond _ _ _ _ R) in Hc. rewrite (r_labels _ _ _ _ R Hc).
    pose proof (proj2 Ok l) as F. unfold flow_ok in F. rewrite last_lookup in F. unfold in_prog in I. rewrite I in F. by apply F.
  - split.
    + intros x l k l' k' D1%after_defines D2%after_defines. by eapply (ssa_once _ Hssa).
    + intros x l k i' I' Np Hx. apply after_available. destruct (after_inst _ _ _ I') as (i & I & R). rewrite (r_phi _ _ _ _ R) in Np. by apply (r_args _ _ _ _ R Np).
    + intros x l k i' p I' Hp Hedge Hx. apply after_available. cbn [c_blocks]. rewrite after_length. destruct (after_inst _ _ _ I') as (i & I & R).
      pose proof (r_ok _ _ _ _ R) as Oi. unfold inst_ok in Oi. apply bool_decide_eq_true in Hp as Ti. rewrite Ti in Oi. destruct Oi as [_ Ol].
      rewrite (r_phi _ _ _ _ R) in Hp. destruct (r_entries _ _ _ _ R Hp) as [Nd Q]. destruct (Q p Hedge) as (a & a' & _ & E2 & K & _).
      rewrite (proj2 (phi_entry_NoDup p _ ltac:(by rewrite map_fst_zip) (AVar x)) Hx) in E2. injection E2 as <-. apply K. constructor.
  - split.
    + cbn. destruct (after_split (c_entry c)) as (E1 & _). rewrite E1, (proj1 Hphi). done.
    + intros l k i' I' Hp. destruct (after_inst _ _ _ I') as (i & I & R). rewrite (r_phi _ _ _ _ R) in Hp. destruct (r_entries _ _ _ _ R Hp) as [Nd Q]. split; [done|].
      intros p Hedge. destruct (Q p Hedge) as (a & a' & _ & E2 & _). apply phi_entry_elem in E2. by apply elem_of_zip_l in E2.
  - destruct Hm as [M1 M2]. split; cbn; intros l Hl; [apply (proj1 B), M1|apply M2, (proj1 B)]; done.
  - intros l k i' I'. destruct (after_inst _ _ _ I') as (i & I & R). apply (r_call _ _ _ _ R).
Qed.
End after.
Lemma dvn_ok : match optpass_dvn ev c d with
  | Done b => (forall e w n, run m (Cfg (c_graph c) b (c_entry c)) n (start (Cfg (c_graph c) b (c_entry c)) e w) = run m c n (start c e w)) /\
      let c' := Cfg (c_graph c) b (c_entry c) in prog_ok c' /\ strict_ssa c' /\ phis_complete c' /\ blocks_match c' /\ calls_ok c'
  | Panicked => panics
  | Stuck => False
  end.
Proof.
  assert (H : match optpass_dvn ev c d with Done b' => blocks_rel b' | Panicked => panics | Stuck => False end).
  { apply (inner_ok _ _ _ _ []).
    - apply blocks_rel_init.
    - split; [|split]; cbn; intros *; rewrite ?lookup_empty; try done; intros H; by apply elem_of_nil in H.
    - split; cbn; intros *; rewrite ?lookup_empty; try done; intros H; by apply elem_of_nil in H.
    - exists []. constructor.
    - constructor; [by intros ?%elem_of_nil|constructor].
    - by intros x ?%elem_of_nil.
    - pose proof (size_union_alt {[c_entry c]} (labels (c_graph c))) as E. rewrite size_singleton in E.
      assert (size (labels (c_graph c) ∖ {[c_entry c]}) <= size (labels (c_graph c)))%nat by (apply subseteq_size; set_solver). cbn [length]. lia. }
  destruct (optpass_dvn ev c d) as [b| |]; [|done|done]. split; [|by apply after_wellformed].
  intros e w n. unfold start. cbn [c_entry]. by apply run_same.
Qed.
End points.
