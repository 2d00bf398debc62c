(** Removing one block from the control flow graph. *)
From stdpp Require Import base decidable sets numbers gmap list.
From Coq Require Import NArith ZArith Lia.
From Verif Require Import VmBase RustStr ILModel CfgSpec CfgProofs ILSpec PassModel PassProofs BranchProofs CfgPruneModel CfgPruneSpec.

Local Open Scope N_scope.

(** ** The graph *)
Lemma disconnect_edge g p c g' a b : disconnect g p c = Some g' -> edge g' a b <-> edge g a b /\ ~ (a = p /\ b = c).
Proof.
  intros E. destruct (disconnect_inv _ _ _ _ E) as [Hp Hc]. destruct (disconnect_spec g p c Hp Hc) as (g2 & E2 & _ & Hch & _). rewrite E in E2. injection E2 as <-.
  unfold edge. rewrite Hch. case_decide; set_solver.
Qed.
Lemma fold_connect_edge ps c : forall g a b, edge (fold_left (fun g p => connect g p c) ps g) a b <-> edge g a b \/ (a ∈ ps /\ b = c).
Proof.
  induction ps as [|p ps IH]; intros g a b; cbn [fold_left]; [set_solver|]. rewrite IH, connect_edge. set_solver.
Qed.
Lemma bypass_edge cur ps cs : cur ∉ ps -> forall g g', bypass g cur ps cs = Some g' -> forall a b, a <> cur -> edge g' a b <-> edge g a b \/ (a ∈ ps /\ b ∈ cs).
Proof.
  intros Hc. induction cs as [|c cs IH]; intros g g' E a b Ha; cbn in E; [injection E as <-; set_solver|]. destruct (disconnect g cur c) as [g1|] eqn:D; [|done].
  rewrite (IH _ _ E a b Ha), fold_connect_edge, (disconnect_edge _ _ _ _ _ _ D). set_solver.
Qed.
Lemma detach_edge cur ps : forall g g', detach g cur ps = Some g' -> forall a b, edge g' a b <-> edge g a b /\ ~ (a ∈ ps /\ b = cur).
Proof.
  induction ps as [|p ps IH]; intros g g' E a b; cbn in E; [injection E as <-; set_solver|]. destruct (disconnect g p cur) as [g1|] eqn:D; [|done].
  rewrite (IH _ _ E), (disconnect_edge _ _ _ _ _ _ D). set_solver.
Qed.

(** ** Phis *)
Definition ent (q : N) (i : inst) : option arg := phi_entry q (zip (i_labels i) (i_args i)).
Lemma position_Some l ls : forall k, position l ls = Some k -> ls !! k = Some l.
Proof.
  induction ls as [|x ls IH]; intros k; cbn; [done|]. destruct (N.eqb_spec x l) as [->|Hn]; [by intros [= <-]|]. destruct (position l ls) as [j|]; [|done]. intros [= <-]. cbn. by apply IH.
Qed.
Lemma position_None l ls : position l ls = None <-> l ∉ ls.
Proof.
  induction ls as [|x ls IH]; cbn; [set_solver|]. destruct (N.eqb_spec x l) as [->|Hn]; [set_solver|]. destruct (position l ls); cbn; set_solver.
Qed.
Lemma entry_position l ls : forall (as_ : list arg) k, length ls = length as_ -> position l ls = Some k -> phi_entry l (zip ls as_) = as_ !! k /\
  forall q, q <> l -> phi_entry q (zip (delete k ls) (delete k as_)) = phi_entry q (zip ls as_) /\ forall ex, phi_entry q (zip ls (<[k := ex]> as_)) = phi_entry q (zip ls as_).
Proof.
  induction ls as [|x ls IH]; intros [|a as_] k L; cbn in L |- *; try done. destruct (N.eqb_spec x l) as [->|Hn].
  - intros [= <-]. split; [done|]. intros q Hq. cbn. destruct (N.eqb_spec l q); [congruence|]. done.
  - destruct (position l ls) as [j|] eqn:Ej; [|done]. intros [= <-]. destruct (IH as_ j) as [H1 H2]; [lia|done|]. split; [exact H1|]. intros q Hq. cbn. destruct (N.eqb x q); [done|]. by apply H2.
Qed.
Lemma entry_set l ls : forall (as_ : list arg) k ex, length ls = length as_ -> position l ls = Some k -> phi_entry l (zip ls (<[k := ex]> as_)) = Some ex.
Proof.
  induction ls as [|x ls IH]; intros [|a as_] k ex L; cbn in L |- *; try done. destruct (N.eqb_spec x l) as [->|Hn].
  - intros [= <-]. cbn. by rewrite N.eqb_refl.
  - destruct (position l ls) as [j|] eqn:Ej; [|done]. intros [= <-]. cbn. destruct (N.eqb_spec x l); [done|]. apply IH; [lia|done].
Qed.
Lemma entry_app q ls : forall (as_ : list arg) l ex, length ls = length as_ -> phi_entry q (zip (ls ++ [l]) (as_ ++ [ex])) =
  match phi_entry q (zip ls as_) with Some a => Some a | None => if N.eqb l q then Some ex else None end.
Proof. induction ls as [|x ls IH]; intros [|a as_] l ex L; cbn in L |- *; try done. destruct (N.eqb x q); [done|]. apply IH. lia. Qed.
Lemma entry_None q ls : forall as_ : list arg, q ∉ ls -> phi_entry q (zip ls as_) = None.
Proof. induction ls as [|x ls IH]; intros [|a as_] H; cbn; try done. destruct (N.eqb_spec x q); [set_solver|]. apply IH. set_solver. Qed.
Lemma give_entry_spec ps ex : forall i i', length (i_labels i) = length (i_args i) -> give_entry ps ex i = Some i' ->
  i_tgts i' = i_tgts i /\ i_t i' = i_t i /\ (forall q, q ∈ ps -> ent q i' = Some ex) /\ forall q, (q ∉ ps) -> ent q i' = ent q i.
Proof.
  induction ps as [|p ps IH]; intros i i' L E; cbn in E; [injection E as <-; set_solver|].
  assert (Step : forall i1, length (i_labels i1) = length (i_args i1) -> i_tgts i1 = i_tgts i -> i_t i1 = i_t i -> ent p i1 = Some ex -> (forall q, q <> p -> ent q i1 = ent q i) ->
    give_entry ps ex i1 = Some i' -> i_tgts i' = i_tgts i /\ i_t i' = i_t i /\ (forall q, q ∈ p :: ps -> ent q i' = Some ex) /\ forall q, (q ∉ p :: ps) -> ent q i' = ent q i).
  { intros i1 L1 T1 T2 E1 E2 G. destruct (IH i1 i' L1 G) as (J1 & J2 & J3 & J4). split; [congruence|]. split; [congruence|]. split.
    - intros q Hq. destruct (decide (q ∈ ps)) as [Hp|Hp]; [by apply J3|]. rewrite J4 by done. apply elem_of_cons in Hq as [->|?]; [done|done].
    - intros q [Hq Hq2]%not_elem_of_cons. rewrite J4 by done. by apply E2. }
  destruct (position p (i_labels i)) as [k|] eqn:Ek.
  - eapply Step; [| | | | |exact E]; try done; cbn.
    + by rewrite insert_length.
    + unfold ent. cbn. by apply entry_set.
    + intros q Hq. unfold ent. cbn. destruct (entry_position p _ _ _ L Ek) as [_ H]. by apply (H q Hq).
  - destruct (insert_phi i p ex) as [i1|] eqn:Ei; [|done]. unfold insert_phi in Ei. destruct (_ && _); [|done]. injection Ei as <-. apply position_None in Ek.
    eapply Step; [| | | | |exact E]; try done; cbn.
    + rewrite !app_length. cbn. lia.
    + unfold ent. cbn. rewrite entry_app, entry_None, N.eqb_refl by done. done.
    + intros q Hq. unfold ent. cbn. rewrite entry_app by done. destruct (phi_entry q _); [done|]. by destruct (N.eqb_spec p q).
Qed.
Lemma update_phi_spec cur ps i i' : cur ∈ i_labels i -> update_phi cur ps i = Some i' ->
  i_tgts i' = i_tgts i /\ is_phi i' = is_phi i /\ (forall q, q ∈ ps -> ent q i' = ent cur i) /\ forall q, (q ∉ ps) -> q <> cur -> ent q i' = ent q i.
Proof.
  intros Hin. unfold update_phi, remove_phi. destruct (is_phi i && _) eqn:Ep; [|done]. apply andb_prop in Ep as [Ep L]. apply Nat.eqb_eq in L.
  destruct (position cur (i_labels i)) as [k|] eqn:Ek; [|by apply position_None in Ek]. destruct (entry_position cur _ _ _ L Ek) as [H1 H2].
  pose proof (position_Some _ _ _ Ek) as Hk. destruct (lookup_lt_is_Some_2 (i_args i) k) as [ex Hex]; [rewrite <- L; by eapply lookup_lt_Some|]. rewrite Hex.
  intros G. apply give_entry_spec in G as (J1 & J2 & J3 & J4).
  - cbn in J1, J2. split; [done|]. split; [unfold is_phi; by rewrite J2|]. split.
    + intros q Hq. rewrite J3 by done. unfold ent. by rewrite H1.
    + intros q Hq Hc. rewrite J4 by done. unfold ent. cbn. by apply H2.
  - cbn. rewrite (length_delete _ k (mk_is_Some _ _ Hk)), (length_delete _ k (mk_is_Some _ _ Hex)). lia.
Qed.

(** ** Blocks *)
Lemma map_phis_rest f is is' : map_phis f is = Some is' -> exists ps', mapM f (phis_of is) = Some ps' /\ is' = ps' ++ rest_of is.
Proof.
  revert is'. induction is as [|i is IH]; intros is'; cbn [map_phis phis_of rest_of]; [intros [= <-]; by exists []|]. destruct (is_phi i) eqn:Ep; [|intros [= <-]; by exists []].
  destruct (f i) as [j|] eqn:Ej; [|done]. destruct (map_phis f is) as [js|] eqn:Em; [|done]. intros [= <-]. destruct (IH js eq_refl) as (ps' & E1 & ->). exists (j :: ps'). cbn. by rewrite Ej, E1.
Qed.
Lemma mapM_Forall2 {A B} (f : A -> option B) l : forall k, mapM f l = Some k -> Forall2 (fun x y => f x = Some y) l k.
Proof. intros k H. by apply mapM_Some_1 in H. Qed.
Lemma move_all_spec cur cs insts ps : NoDup ps -> forall b b', move_all cur cs insts ps b = Some b' -> forall l,
  ((l ∉ ps) -> block_of b' l = block_of b l) /\ (l ∈ ps -> move_into cur cs insts (block_of b l) = Some (block_of b' l)).
Proof.
  induction 1 as [|p ps Hp Nd IH]; intros b b' E l; cbn in E; [injection E as <-; set_solver|]. destruct (b !! p) as [is|] eqn:Eb; [|done]. destruct (move_into cur cs insts is) as [is'|] eqn:Em; [|done].
  destruct (IH _ _ E l) as [I1 I2]. rewrite block_of_insert in I1, I2. split.
  - intros [H1 H2]%not_elem_of_cons. rewrite I1 by done. by rewrite decide_False.
  - intros [->|H1]%elem_of_cons; [|rewrite <- I2 by done; rewrite decide_False; [done|by intros ->]]. rewrite I1 by done. rewrite decide_True by done. unfold block_of at 1. by rewrite Eb.
Qed.
Lemma update_children_spec cur ps cs : NoDup cs -> forall b b', update_children cur ps cs b = Some b' -> forall l,
  ((l ∉ cs) -> block_of b' l = block_of b l) /\ (l ∈ cs -> map_phis (update_phi cur ps) (block_of b l) = Some (block_of b' l)).
Proof.
  induction 1 as [|p cs Hp Nd IH]; intros b b' E l; cbn in E; [injection E as <-; set_solver|]. destruct (b !! p) as [is|] eqn:Eb; [|done]. destruct (map_phis _ is) as [is'|] eqn:Em; [|done].
  destruct (IH _ _ E l) as [I1 I2]. rewrite block_of_insert in I1, I2. split.
  - intros [H1 H2]%not_elem_of_cons. rewrite I1 by done. by rewrite decide_False.
  - intros [->|H1]%elem_of_cons; [|rewrite <- I2 by done; rewrite decide_False; [done|by intros ->]]. rewrite I1 by done. rewrite decide_True by done. unfold block_of at 1. by rewrite Eb.
Qed.
Lemma phi_not_cond i : is_phi i = true -> is_cond_goto i = false.
Proof. unfold is_phi, is_cond_goto. intros H%bool_decide_eq_true. by rewrite H. Qed.
Lemma cond_not_phi i : is_cond_goto i = true -> is_phi i = false.
Proof. intros H. destruct (is_phi i) eqn:E; [|done]. by rewrite (phi_not_cond i E) in H. Qed.
Lemma parts_app A X : (forall i, i ∈ rest_of A -> is_phi i = false) -> (forall i, i ∈ X -> is_phi i = false) -> phis_of (A ++ X) = phis_of A /\ rest_of (A ++ X) = rest_of A ++ X.
Proof.
  intros HA HX. rewrite (phis_rest A) at 1 3. rewrite <- app_assoc. apply phis_of_app; [apply phis_of_phi|]. intros i [H|H]%elem_of_app; auto.
Qed.
Lemma no_phis_rest is : phis_of is = [] -> rest_of is = is.
Proof. intros H. rewrite (phis_rest is) at 2. by rewrite H. Qed.

Lemma parts_snoc A j : is_phi j = false -> phis_of (A ++ [j]) = phis_of A /\ rest_of (A ++ [j]) = rest_of A ++ [j].
Proof.
  intros Hj. induction A as [|i A [IH1 IH2]]; cbn [app phis_of rest_of]; [by rewrite Hj|]. destruct (is_phi i); [|done]. rewrite IH1, IH2. done.
Qed.

Section next.
  Context {V W : Type} (m : machine V W).
  Definition nxt (R : block) (ch : list N) (e : N -> V) : option N :=
    match last R with
    | Some i =>
        match is_cond_goto i, i_args i, i_labels i with
        | true, [a], [t; f] => Some (if m_truthy m (eval m e a) then t else f)
        | true, _, _ => None
        | false, _, _ => match ch with [n] => Some n | _ => None end
        end
    | None => match ch with [n] => Some n | _ => None end
    end.
  Definition ends_cond (R : block) : bool := match last R with Some i => is_cond_goto i | None => false end.
  Lemma nxt_plain R ch e : ends_cond R = false -> nxt R ch e = match ch with [n] => Some n | _ => None end.
  Proof. unfold ends_cond, nxt. destruct (last R); [|done]. by intros ->. Qed.
  Lemma ends_rest is : ends_cond is = ends_cond (rest_of is).
  Proof.
    unfold ends_cond. rewrite (phis_rest is) at 1. destruct (rest_of is) as [|i r] eqn:Er.
    - rewrite app_nil_r. cbn. destruct (last (phis_of is)) as [i|] eqn:E; [|done]. apply last_Some_elem_of in E. by apply phi_not_cond, (phis_of_phi is).
    - rewrite last_app. destruct (last (i :: r)) eqn:E; [done|]. by apply last_None in E.
  Qed.
  Lemma next_nxt c l e : next m c l e = nxt (rest_of (block_of (c_blocks c) l)) (children_sorted (c_graph c) l) e.
  Proof.
    set (is := block_of (c_blocks c) l). assert (Q : next m c l e = nxt is (children_sorted (c_graph c) l) e) by done. rewrite Q.
    destruct (ends_cond is) eqn:E; [|rewrite (nxt_plain is) by done; rewrite nxt_plain; [done|by rewrite <- ends_rest]].
    rewrite ends_rest in E. unfold nxt, ends_cond in *. assert (L : last is = last (rest_of is)); [|by rewrite L].
    rewrite (phis_rest is) at 1. rewrite last_app. by destruct (last (rest_of is)).
  Qed.
  Lemma nxt_app R X ch e : ends_cond R = false -> nxt (R ++ X) ch e = nxt X ch e.
  Proof.
    intros H. destruct X as [|x X]; [by rewrite app_nil_r, (nxt_plain R)|]. unfold nxt. rewrite last_app. destruct (last (x :: X)) eqn:E; [done|]. by apply last_None in E.
  Qed.
  Lemma cond_world i st : is_cond_goto i = true -> (exec_inst m i st).2 = st.2.
  Proof. unfold is_cond_goto. intros H%bool_decide_eq_true. unfold exec_inst, effect. by rewrite H. Qed.
  Lemma exec_phis_same q q' e is is' : Forall2 (fun i i' => i_tgts i' = i_tgts i /\ phi_value m q e i = phi_value m q' e i') is is' -> forall e1, exec_phis m q e is e1 = exec_phis m q' e is' e1.
  Proof. induction 1 as [|i i' is is' [H1 H2] _ IH]; intros e1; cbn; [done|]. by rewrite H1, H2, IH. Qed.
End next.

(** ** One block *)
Section step.
  Context (c : cfg) (cur : N) (c' : cfg) (lf : bool).
  Context (Hok : prog_ok c) (Hwf : wf (c_graph c)) (Hphis : phis_complete c) (Hforks : forks_ok c) (Hrem : removable c cur).
  Context (Hprune : prune_bblock c cur = Some (c', lf, true)).
  Local Notation B l := (block_of (c_blocks c) l).
  Local Notation B' l := (block_of (c_blocks c') l).
  Local Notation E a b := (edge (c_graph c) a b).
  Local Notation E' a b := (edge (c_graph c') a b).

  (** What the removal did. *)
  Record removed : Prop := {
    rm_ne : cur <> c_entry c; rm_entry : c_entry c' = c_entry c; rm_loop : ~ E cur cur;
    rm_can : (forall p a b, E p cur -> E p a -> E p b -> a = b) \/ B cur = [] /\ exists ch, children_sorted (c_graph c) cur = [ch];
    rm_edge a b : a <> cur -> E' a b <-> (E a b /\ b <> cur) \/ (E a cur /\ E cur b);
    rm_block l : l <> cur -> exists M, (~ E l cur -> M = B l) /\ (E l cur -> move_into cur (children_sorted (c_graph c) cur) (B cur) (B l) = Some M) /\
      (~ E cur l -> B' l = M) /\ (E cur l -> exists ps, (forall q, q ∈ ps <-> E q cur) /\ map_phis (update_phi cur ps) M = Some (B' l)) }.
  Lemma removed_holds : removed.
  Proof.
    unfold prune_bblock in Hprune. destruct (N.eqb_spec cur (c_entry c)) as [|Hne]; [done|].
    set (ps := parents_sorted (c_graph c) cur) in *. set (cs := children_sorted (c_graph c) cur) in *.
    assert (Hps : forall p, p ∈ ps <-> E p cur). { intros p. unfold ps, parents_sorted. rewrite elem_of_sorted. symmetry. apply (proj1 Hwf). }
    assert (Hcs : forall n, n ∈ cs <-> E cur n). { intros n. unfold cs, children_sorted. by rewrite elem_of_sorted. }
    destruct (c_blocks c !! cur) as [is|] eqn:Eis; [|done]. case_bool_decide as Hl; [done|].
    destruct (can_prune_bblock _ _ _ _) eqn:Hcan; [|done]. destruct (bypass _ _ _ _) as [g1|] eqn:E1; [|done]. destruct (detach g1 cur ps) as [g2|] eqn:E2; [|done].
    destruct (cfg_pop _ cur) as [[c2 insts]|] eqn:E3; [|done]. destruct (move_all _ _ _ _ _) as [b1|] eqn:E4; [|done]. destruct (update_children _ _ _ b1) as [b2|] eqn:E5; [|done].
    injection Hprune as Hc' _. assert (Hbc : B cur = is) by (unfold block_of; by rewrite Eis).
    unfold cfg_pop in E3. cbn in E3. rewrite Eis in E3.
    assert (P : insts = is /\ c_entry c2 = c_entry c /\ c_blocks c2 = delete cur (c_blocks c) /\ forall a, a <> cur -> children (c_graph c2) a = children g2 a).
    { case_bool_decide.
      - destruct (pop g2 cur) as [g3|] eqn:Ep; [|done]. injection E3 as <- <-. apply pop_inv in Ep as (_ & _ & _ & ->). repeat split. intros a Ha. cbn. rewrite children_delete. by rewrite decide_False.
      - by injection E3 as <- <-. }
    destruct P as (-> & P1 & P2 & P3).
    assert (Hcp : cur ∉ ps) by (rewrite Hps, <- Hcs; done).
    split; rewrite <- ?Hc'; cbn [c_entry c_graph c_blocks].
    - done.
    - done.
    - by rewrite <- Hcs.
    - unfold can_prune_bblock in Hcan. rewrite Hbc. assert (Ho : forallb (fun p => Nat.eqb (length (children_sorted (c_graph c) p)) 1) ps = true -> forall p a b, E p cur -> E p a -> E p b -> a = b).
      { intros Hf p a b Hp Ha Hb. rewrite forallb_forall in Hf. specialize (Hf p). rewrite <- elem_of_list_In, Hps in Hf. specialize (Hf Hp). apply Nat.eqb_eq in Hf.
        unfold edge in Ha, Hb. rewrite <- elem_of_sorted in Ha, Hb. unfold children_sorted in Hf. destruct (sorted _) as [|y []]; try done. apply elem_of_list_singleton in Ha, Hb. congruence. }
      apply orb_prop in Hcan as [[[H1 H2]%andb_prop|[H1 H2]%andb_prop]%orb_prop|[H1 H2]%andb_prop]; [left; exact (Ho H2)| |left; exact (Ho H2)].
      right. apply bool_decide_eq_true in H2. split; [done|]. apply Nat.eqb_eq in H1. clear -H1. unfold cs in *. destruct (children_sorted _ _) as [|ch []]; try done. by exists ch.
    - intros a b Ha. unfold edge at 1. rewrite P3 by done. fold (edge g2 a b). rewrite (detach_edge _ _ _ _ E2), (bypass_edge _ _ _ Hcp _ _ E1 a b Ha). rewrite Hps, Hcs.
      assert (b = cur -> ~ E cur b) by (intros ->; by rewrite <- Hcs). assert (b = cur -> E a b -> E a cur) by (by intros ->). destruct (decide (b = cur)); naive_solver.
    - intros l Hlc. exists (block_of b1 l). destruct (move_all_spec _ _ _ _ (NoDup_sorted _) _ _ E4 l) as [M1 M2]. destruct (update_children_spec _ _ _ (NoDup_sorted _) _ _ E5 l) as [U1 U2].
      fold (parents_sorted (c_graph c) cur) in M1, M2. fold ps in M1, M2. fold (children_sorted (c_graph c) cur) in U1, U2. fold cs in U1, U2. rewrite P2 in M1, M2.
      assert (Q : block_of (delete cur (c_blocks c)) l = B l) by (unfold block_of; by rewrite lookup_delete_ne by done). rewrite Q in M1, M2. rewrite Hps in M1, M2. rewrite Hcs in U1, U2.
      rewrite Hbc. split; [done|]. split; [done|]. split; [done|]. intros Hcl. exists ps. auto.
  Qed.

  Definition re (x ch : N) : N := if N.eqb x cur then ch else x.
  Lemma move_into_cases cs X is M : move_into cur cs X is = Some M -> block_ok is ->
    (ends_cond is = false /\ M = is ++ X) \/
    exists R j ch a t f, is = R ++ [j] /\ is_cond_goto j = true /\ i_args j = [a] /\ i_labels j = [t; f] /\ cs = [ch] /\
      M = R ++ X ++ if N.eqb (re t ch) (re f ch) then [] else [set_labels j [re t ch; re f ch]].
  Proof.
    unfold move_into, ends_cond. intros H (O1 & O2 & O3). destruct (last is) as [j|] eqn:L; [|left; split; [done|congruence]].
    destruct (is_cond_goto j) eqn:Ej; [|left; split; [done|congruence]]. right. apply last_Some in L as [R ->]. rewrite removelast_last in H.
    assert (Oj : inst_ok j) by (apply O1; set_solver). assert (Hj := Ej). unfold is_cond_goto in Hj. apply bool_decide_eq_true in Hj. unfold inst_ok in Oj. rewrite Hj in Oj. destruct Oj as (_ & La & Ll).
    destruct (i_args j) as [|a []] eqn:Ea; try done. destruct (i_labels j) as [|t [|f []]] eqn:El; try done. destruct cs as [|ch []]; try done. cbn [map] in H.
    exists R, j, ch, a, t, f. injection H as <-. done.
  Qed.

  Context (RM : removed).
  Definition came (l : N) (q q' : option N) : Prop :=
    q = None /\ q' = None \/ exists a b, q = Some a /\ q' = Some b /\ E a l /\ (a = cur /\ E b cur \/ a <> cur /\ a = b).

  (** The phis of a block give the same in both programs. *)
  Lemma phis_same l M V W (m : machine V W) q q' e : l <> cur -> phis_of M = phis_of (B l) ->
    (~ E cur l -> B' l = M) -> (E cur l -> exists ps, (forall q, q ∈ ps <-> E q cur) /\ map_phis (update_phi cur ps) M = Some (B' l)) -> (forall i, i ∈ rest_of M -> is_phi i = false) ->
    came l q q' -> rest_of (B' l) = rest_of M /\ forall e1, exec_phis m q e (phis_of (B l)) e1 = exec_phis m q' e (phis_of (B' l)) e1.
  Proof.
    intros Hl HM U1 U2 HR Hc. destruct (decide (l ∈ children (c_graph c) cur)) as [Hcl|Hcl].
    - destruct (U2 Hcl) as (ps & Hps & Em). apply map_phis_rest in Em as (js & Ejs & EB). apply mapM_Forall2 in Ejs. rewrite HM in Ejs.
      assert (Hup : Forall2 (fun i i' => i_tgts i' = i_tgts i /\ is_phi i' = true /\ phi_value m q e i = phi_value m q' e i') (phis_of (B l)) js).
      { apply Forall2_same_length_lookup_2; [by eapply Forall2_length|]. intros k0 i i' Hk0 Hk0'. pose proof (Forall2_lookup_lr _ _ _ k0 i i' Ejs Hk0 Hk0') as Hi. cbn in Hi.
        assert (Hi0 : i ∈ phis_of (B l)) by (by eapply elem_of_list_lookup_2). assert (Hi1 : i ∈ B l) by (rewrite (phis_rest (B l)); set_solver). apply elem_of_list_lookup in Hi1 as [k Hk].
        assert (Hpi : is_phi i = true) by by eapply phis_of_phi. destruct (proj2 Hphis l k i Hk Hpi) as [Nd Hlab].
        destruct (update_phi_spec cur ps i i' (Hlab _ Hcl) Hi) as (J1 & J2 & J3 & J4). split; [done|]. split; [congruence|].
        destruct Hc as [[-> ->]|(a & b & -> & -> & Hal & Hab)]; [done|]. unfold phi_value. fold (ent a i) (ent b i').
        assert (Hent : ent b i' = ent a i); [|by rewrite Hent]. destruct Hab as [[-> Hb]|[Hac <-]]; [apply J3; by apply Hps|]. apply J4; [|done]. intros Hap%Hps.
        destruct Hrem as [_ H2]. rewrite (H2 a l Hap Hcl Hal) in Hi0. by apply elem_of_nil in Hi0. }
      assert (Hphi : forall i, i ∈ js -> is_phi i = true). { intros i Hi. apply elem_of_list_lookup in Hi as [k Hk]. destruct (Forall2_lookup_r _ _ _ _ _ Hup Hk) as (? & _ & _ & ? & _). done. }
      destruct (phis_of_app js (rest_of M) Hphi HR) as [P1 P2]. rewrite EB, P1, P2. split; [done|]. intros e1. apply exec_phis_same. eapply Forall2_impl; [exact Hup|]. intros ? ? (? & ? & ?). done.
    - rewrite U1 by done. split; [done|]. rewrite HM. intros e1. destruct Hc as [[-> ->]|(a & b & -> & -> & Hal & [[-> _]|[_ <-]])]; done.
  Qed.

  Context {V W : Type} (m : machine V W).
  Definition together (s s' : @state V W) : Prop :=
    match s, s' with
    | Running l q e w, Running l' q' e' w' => l = l' /\ l <> cur /\ came l q q' /\ w = w' /\ forall x, e x = e' x
    | Stopped e w, Stopped e' w' => w = w' /\ forall x, e x = e' x
    | _, _ => False
    end.
  Lemma rest_plain l i : i ∈ rest_of (B l) -> is_phi i = false.
  Proof. apply (proj1 Hok l). Qed.
  Lemma cur_rest : rest_of (B cur) = B cur.
  Proof. apply no_phis_rest, Hrem. Qed.
  Lemma exec_cur q st : exec_block m q (B cur) st = exec_insts m (B cur) st.
  Proof. unfold exec_block. rewrite cur_rest. destruct Hrem as [-> _]. cbn. by destruct st. Qed.
  Lemma children_same l : l <> cur -> ~ E l cur -> children_sorted (c_graph c') l = children_sorted (c_graph c) l.
  Proof.
    intros Hl Hc. unfold children_sorted. f_equal. apply set_eq. intros b. fold (E' l b) (E l b). rewrite (rm_edge RM l b Hl). split; [intros [[? _]|[? _]]; done|].
    intros Hb. left. split; [done|]. intros Heq. by rewrite Heq in Hb.
  Qed.
  Lemma children_cur l : l <> cur -> E l cur -> (forall b, E l b -> b = cur) -> children_sorted (c_graph c') l = children_sorted (c_graph c) cur.
  Proof.
    intros Hl Hc Ho. unfold children_sorted. f_equal. apply set_eq. intros b. fold (E' l b) (E cur b). rewrite (rm_edge RM l b Hl). split; [|auto]. intros [[? ?]|[? ?]]; [|done]. by rewrite (Ho b) in *.
  Qed.
  (** Where both programs go after they did the same. *)
  Lemma together_to o q q' e e' w : (forall n, o = Some n -> n <> cur /\ came n (Some q) (Some q')) -> (forall x, e x = e' x) ->
    together (match o with Some n => Running n (Some q) e w | None => Stopped e w end) (match o with Some n => Running n (Some q') e' w | None => Stopped e' w end).
  Proof. intros Ho He. destruct o as [n|]; cbn; [|done]. destruct (Ho n eq_refl). done. Qed.

  Lemma sim s s' : together s s' -> exists k, (1 <= k <= 2)%nat /\ together (run m c k s) (step m c' s').
  Proof.
    destruct s as [l q e w|e w], s' as [l' q' e' w'|e' w']; cbn [together]; try done; [|intros H; exists 1%nat; split; [lia|exact H]].
    intros (<- & Hl & Hc & <- & He). destruct (rm_block RM l Hl) as (M & M1 & M2 & U1 & U2).
    assert (Part : phis_of M = phis_of (B l) -> (forall i, i ∈ rest_of M -> is_phi i = false) -> rest_of (B' l) = rest_of M /\
      exists X X', (forall x, X x = X' x) /\ exec_block m q (B l) (e, w) = exec_insts m (rest_of (B l)) (X, w) /\ exec_block m q' (B' l) (e', w) = exec_insts m (rest_of M) (X', w)).
    { intros HM HR. destruct (phis_same l M V W m q q' e Hl HM U1 U2 HR Hc) as [P1 P2]. split; [done|].
      exists (exec_phis m q e (phis_of (B l)) e), (exec_phis m q' e' (phis_of (B' l)) e'). split; [|split; [done|unfold exec_block; by rewrite P1]].
      intros x. rewrite P2. by apply exec_phis_ext. }
    destruct (decide (cur ∈ children (c_graph c) l)) as [Hlc|Hlc].
    2: { (* the block does not lead to the removed one *)
      rewrite (M1 Hlc) in Part. destruct (Part eq_refl (rest_plain l)) as (PB & X & X' & HX & E1 & E2). exists 1%nat. split; [lia|]. cbn [run step]. rewrite E1, E2.
      destruct (exec_insts_ext m (rest_of (B l)) (X, w) (X', w) HX eq_refl) as [Y1 Y2].
      rewrite (next_nxt m c' l), PB, (children_same l Hl Hlc), <- Y2.
      assert (N1 : nxt m (rest_of (B l)) (children_sorted (c_graph c) l) (exec_insts m (rest_of (B l)) (X', w)).1 = next m c l (exec_insts m (rest_of (B l)) (X, w)).1).
      { rewrite <- next_nxt. apply next_ext. intros x. by rewrite Y1. }
      rewrite N1. apply together_to; [|done]. intros n Hn. apply next_edge in Hn; [|apply Hok]. split; [intros Heq; by rewrite Heq in Hn|]. right. exists l, l. exact (conj eq_refl (conj eq_refl (conj Hn (or_intror (conj Hl eq_refl))))). }
    destruct (move_into_cases _ _ _ _ (M2 Hlc) (proj1 Hok l)) as [[Hend ->]|(R & j & ch & a & t & f & EB & Hj & Ea & El & Ecs & EM)].
    - (* it leads only there *)
      assert (Ho : forall b, E l b -> b = cur).
      { intros b Hb. specialize (Hforks l). unfold ends_cond in Hend. destruct (last (B l)) as [i|]; [rewrite Hend in Hforks|]; by apply (Hforks b cur). }
      assert (Hpl : forall i, i ∈ B cur -> is_phi i = false). { intros i Hi. apply (rest_plain cur). by rewrite cur_rest. }
      destruct (parts_app (B l) (B cur) (rest_plain l) Hpl) as [A1 A2].
      assert (HRM : forall i, i ∈ rest_of (B l ++ B cur) -> is_phi i = false). { rewrite A2. intros i [H|H]%elem_of_app; [by apply (rest_plain l)|auto]. }
      destruct (Part A1 HRM) as (PB & X & X' & HX & E1 & E2). exists 2%nat. split; [lia|]. cbn [run step]. rewrite E1, E2, A2, exec_insts_app.
      assert (Ech : children_sorted (c_graph c) l = [cur]). { apply children_one. intros x. split; [apply Ho|intros Heq; by rewrite Heq]. }
      rewrite ends_rest in Hend. rewrite (next_nxt m c l), (nxt_plain m _ _ _ Hend), Ech. cbn [step]. rewrite <- surjective_pairing, exec_cur.
      rewrite (next_nxt m c' l), PB, A2, (nxt_app m _ _ _ _ Hend), (children_cur l Hl Hlc Ho).
      destruct (exec_insts_ext m (rest_of (B l)) (X, w) (X', w) HX eq_refl) as [Y1 Y2]. destruct (exec_insts_ext m (B cur) _ _ Y1 Y2) as [Z1 Z2].
      assert (N1 : forall e1, nxt m (B cur) (children_sorted (c_graph c) cur) e1 = next m c cur e1) by (intros e1; by rewrite next_nxt, cur_rest).
      rewrite N1, <- Z2, <- (next_ext m c cur _ _ Z1). apply together_to; [|done]. intros n Hn. apply next_edge in Hn; [|apply Hok]. split; [intros Heq; rewrite Heq in Hn; by apply (rm_loop RM)|]. right. exists cur, l. exact (conj eq_refl (conj eq_refl (conj Hn (or_introl (conj eq_refl Hlc))))).
    - (* it leads there by a conditional jump *)
      assert (Hjp : is_phi j = false) by by apply cond_not_phi.
      assert (Oj : inst_ok j). { apply (proj1 Hok l). rewrite EB. set_solver. }
      assert (Lj : last (B l) = Some j) by by rewrite EB, last_snoc.
      assert (Htf : t <> f). { specialize (Hforks l). rewrite Lj, Hj, El in Hforks. apply NoDup_cons in Hforks as [Hn _]. set_solver. }
      assert (Hfl : forall n, E l n <-> n = t \/ n = f). { intros n. pose proof (proj2 Hok l) as F. unfold flow_ok in F. rewrite Lj in F. rewrite <- (F Hj n), El. set_solver. }
      assert (Hcur : B cur = [] /\ children_sorted (c_graph c) cur = [ch]).
      { destruct (rm_can RM) as [H|[H1 _]]; [destruct Htf; apply (H l); try done; apply Hfl; auto|]. done. }
      destruct Hcur as [Hb0 Hcs]. assert (Hcc : forall n, E cur n <-> n = ch). { intros n. unfold edge. rewrite <- elem_of_sorted. unfold children_sorted in Hcs. rewrite Hcs. set_solver. }
      assert (Hch : ch <> cur). { intros Heq. apply (rm_loop RM). apply Hcc. done. }
      destruct (parts_snoc R j Hjp) as [A1 A2].
      assert (HR : forall i, i ∈ rest_of R -> is_phi i = false). { intros i Hi. apply (rest_plain l). rewrite EB, A2. set_solver. }
      assert (Hend : ends_cond (rest_of R) = false).
      { rewrite <- ends_rest. unfold ends_cond. destruct (last R) as [i|] eqn:Li; [|done]. destruct (is_cond_goto i) eqn:Ei; [|done]. apply last_Some in Li as [R0 ->].
        destruct (proj1 Hok l) as (_ & _ & O3). specialize (O3 R0 i [j]). rewrite EB, <- app_assoc in O3. by specialize (O3 eq_refl Ei). }
      rewrite Hb0 in EM. cbn [app] in EM. set (T := if N.eqb (re t ch) (re f ch) then [] else [set_labels j [re t ch; re f ch]]) in *.
      assert (HT : forall i, i ∈ T -> is_phi i = false). { unfold T. intros i. destruct (N.eqb _ _); [by intros ?%elem_of_nil|]. intros ->%elem_of_list_singleton. done. }
      destruct (parts_app R T HR HT) as [A3 A4]. rewrite <- EM in A3, A4.
      assert (HM : phis_of M = phis_of (B l)) by (by rewrite A3, EB, A1).
      assert (HRM : forall i, i ∈ rest_of M -> is_phi i = false). { rewrite A4. intros i [H|H]%elem_of_app; auto. }
      destruct (Part HM HRM) as (PB & X & X' & HX & E1 & E2). rewrite EB, A2, exec_insts_app in E1. rewrite A4, exec_insts_app in E2.
      destruct (exec_insts_ext m (rest_of R) (X, w) (X', w) HX eq_refl) as [Y1 Y2].
      set (st := exec_insts m (rest_of R) (X, w)) in *. set (st' := exec_insts m (rest_of R) (X', w)) in *. cbn [exec_insts] in E1.
      assert (Z1 : (forall x, (exec_block m q (B l) (e, w)).1 x = st'.1 x) /\ (exec_block m q (B l) (e, w)).2 = st'.2).
      { rewrite EB, E1. split; [intros x; by rewrite (exec_cond_goto m j st Hj Oj), Y1|by rewrite (cond_world m j st Hj), Y2]. }
      assert (Z2 : (forall x, (exec_block m q' (B' l) (e', w)).1 x = st'.1 x) /\ (exec_block m q' (B' l) (e', w)).2 = st'.2).
      { rewrite E2. unfold T. destruct (N.eqb _ _); [done|]. cbn [exec_insts]. assert (Oj' : inst_ok (set_labels j [re t ch; re f ch])).
        { unfold is_cond_goto in Hj. apply bool_decide_eq_true in Hj. unfold inst_ok in Oj |- *. cbn. rewrite Hj in Oj |- *. destruct Oj as (? & ? & ?). done. }
        split; [intros x; by rewrite exec_cond_goto|by rewrite cond_world]. }
      destruct Z1 as [Z1 Z1w], Z2 as [Z2 Z2w]. set (r := exec_block m q (B l) (e, w)) in *. set (r' := exec_block m q' (B' l) (e', w)) in *.
      set (x := if m_truthy m (eval m st'.1 a) then t else f).
      assert (Nx : next m c l r.1 = Some x). { rewrite (next_ext m c l r.1 st'.1 Z1). unfold next. by rewrite Lj, Hj, Ea, El. }
      assert (Hx : E l x) by (apply Hfl; unfold x; destruct (m_truthy _ _); auto).
      assert (Nx' : next m c' l r'.1 = Some (re x ch)).
      { rewrite (next_ext m c' l r'.1 st'.1 Z2), next_nxt, PB, A4. unfold T. destruct (N.eqb_spec (re t ch) (re f ch)) as [Heq|Hneq].
        - rewrite app_nil_r, nxt_plain by done. assert (Hre : re t ch = ch /\ re f ch = ch).
          { apply Hfl in Hlc. destruct Hlc as [Hlc|Hlc]; [assert (Q : re t ch = ch)|assert (Q : re f ch = ch)]; try (unfold re; rewrite <- Hlc, N.eqb_refl; done); split; congruence. }
          assert (Hrx : re x ch = ch) by (unfold x; destruct (m_truthy _ _); apply Hre). rewrite Hrx, (children_one _ _ ch); [done|].
          intros b. fold (E' l b). rewrite (rm_edge RM l b Hl), Hcc. split; [|auto]. intros [[Hb Hbc]|[_ ?]]; [|done].
          assert (Q : re b ch = b) by (unfold re; by rewrite (proj2 (N.eqb_neq b cur) Hbc)). apply Hfl in Hb. destruct Hre. destruct Hb as [Hb|Hb]; rewrite <- Q, Hb; done.
        - unfold nxt. rewrite last_snoc. cbn. unfold is_cond_goto in *. cbn. rewrite Hj, Ea. unfold x. by destruct (m_truthy _ _). }
      destruct (decide (x = cur)) as [Hxc|Hxc].
      + exists 2%nat. split; [lia|]. cbn [run step]. fold r r'. rewrite Nx, Nx'. cbn [step]. rewrite Hxc, <- surjective_pairing, exec_cur, Hb0. cbn [exec_insts].
        rewrite (next_nxt m c cur), cur_rest, Hb0, nxt_plain, Hcs by done. unfold re. rewrite N.eqb_refl. cbn [together]. split; [done|]. split; [done|]. split; [|split; [congruence|intros y; by rewrite Z1, Z2]].
        right. exists cur, l. exact (conj eq_refl (conj eq_refl (conj (proj2 (Hcc ch) eq_refl) (or_introl (conj eq_refl Hlc))))).
      + exists 1%nat. split; [lia|]. cbn [run step]. fold r r'. rewrite Nx, Nx'. unfold re. rewrite (proj2 (N.eqb_neq x cur) Hxc). cbn [together]. split; [done|]. split; [done|].
        split; [|split; [congruence|intros y; by rewrite Z1, Z2]]. right. exists l, l. exact (conj eq_refl (conj eq_refl (conj Hx (or_intror (conj Hl eq_refl))))).
  Qed.
  Lemma sim_run n : forall s s', together s s' -> exists k, (n <= k <= 2 * n)%nat /\ together (run m c k s) (run m c' n s').
  Proof.
    induction n as [|n IH]; intros s s' H; [by exists O|]. destruct (sim s s' H) as (k & Hk & H1). destruct (IH _ _ H1) as (k2 & Hk2 & H2). exists (k + k2)%nat. split; [lia|].
    cbn [run]. assert (Q : forall a b s0, run m c (a + b) s0 = run m c b (run m c a s0)); [|by rewrite Q]. clear. induction a as [|a IH]; intros b s0; cbn; [done|apply IH].
  Qed.
  Lemma sim_back n : forall s s', together s s' -> exists n' k, (n <= n' <= n + 1)%nat /\ (k <= n')%nat /\ together (run m c n' s) (run m c' k s').
  Proof.
    induction n as [n IH] using lt_wf_ind. intros s s' H. destruct (decide (n = 0)%nat) as [->|Hn]; [exists O, O; split; [lia|]; split; [lia|done]|]. destruct (sim s s' H) as (j & Hj & H1).
    destruct (decide (n <= j)%nat) as [Hle|Hle]; [exists j, 1%nat; split; [lia|]; split; [lia|done]|].
    destruct (IH (n - j)%nat ltac:(lia) _ _ H1) as (n' & k & Hn' & Hk & H2). exists (j + n')%nat, (S k). split; [lia|]. split; [lia|]. cbn [run].
    assert (Q : forall a b s0, run m c (a + b) s0 = run m c b (run m c a s0)); [|by rewrite Q]. clear. induction a as [|a IH]; intros b s0; cbn; [done|apply IH].
  Qed.
End step.
Lemma together_point c cur V W (s s' : @state V W) : together c cur s s' -> same_point s s'.
Proof. destruct s, s'; cbn; try done. intros (-> & _ & _ & -> & H). done. Qed.

(** ** Checking the hypotheses *)
Definition forks_check (c : cfg) : bool :=
  forallb (fun l => match last (block_of (c_blocks c) l) with
                    | Some i => if is_cond_goto i then bool_decide (NoDup (i_labels i)) else Nat.leb (length (children_sorted (c_graph c) l)) 1
                    | None => Nat.leb (length (children_sorted (c_graph c) l)) 1
                    end) (c_entry c :: labels_sorted (c_graph c)).
Lemma few_children g l : Nat.leb (length (children_sorted g l)) 1 = true -> forall a b, edge g l a -> edge g l b -> a = b.
Proof.
  unfold children_sorted, edge. intros H a b. rewrite <- !elem_of_sorted. destruct (sorted _) as [|x [|]]; [by intros ?%elem_of_nil| |done]. intros ->%elem_of_list_singleton ->%elem_of_list_singleton. done.
Qed.
Lemma forks_check_spec c : wf (c_graph c) -> blocks_match c -> forks_check c = true -> forks_ok c.
Proof.
  intros Hwf [_ M2] H l. unfold forks_check in H. rewrite forallb_forall in H.
  assert (Hd : l ∈ c_entry c :: labels_sorted (c_graph c) \/ block_of (c_blocks c) l = [] /\ forall a, ~ edge (c_graph c) l a).
  { destruct (decide (l ∈ c_entry c :: labels_sorted (c_graph c))) as [Hl|Hl]; [by left|]. right. apply not_elem_of_cons in Hl as [Hl1 Hl2]. unfold labels_sorted in Hl2. rewrite elem_of_sorted in Hl2. split.
    - unfold block_of. destruct (c_blocks c !! l) as [x|] eqn:E; [|done]. destruct (M2 l (mk_is_Some _ _ E)); done.
    - intros a Ha. by destruct (proj2 Hwf _ _ Ha). }
  destruct Hd as [Hl|[Hb He]]; [|rewrite Hb; cbn; intros a b Ha; by destruct (He a)].
  specialize (H l). rewrite <- elem_of_list_In in H. specialize (H Hl). destruct (last _) as [i|]; [destruct (is_cond_goto i)|]; [by apply bool_decide_eq_true in H|by apply few_children..].
Qed.
Definition removable_check (c : cfg) (x : N) : bool :=
  bool_decide (phis_of (block_of (c_blocks c) x) = []) &&
  forallb (fun p => forallb (fun n => negb (bool_decide (n ∈ children_sorted (c_graph c) p)) || bool_decide (phis_of (block_of (c_blocks c) n) = [])) (children_sorted (c_graph c) x)) (parents_sorted (c_graph c) x).
Lemma removable_check_spec c x : wf (c_graph c) -> removable_check c x = true -> removable c x.
Proof.
  intros Hwf [H1 H2]%andb_prop. split; [by apply bool_decide_eq_true in H1|]. intros p n Hp Hn Hpn. rewrite forallb_forall in H2. specialize (H2 p). rewrite <- elem_of_list_In in H2.
  unfold parents_sorted, children_sorted in H2. rewrite elem_of_sorted in H2. specialize (H2 (proj1 (proj1 Hwf _ _) Hp)). rewrite forallb_forall in H2. specialize (H2 n). rewrite <- elem_of_list_In, elem_of_sorted in H2.
  specialize (H2 Hn). apply orb_prop in H2 as [H2|H2]; [|by apply bool_decide_eq_true in H2]. apply negb_true_iff, bool_decide_eq_false in H2. rewrite elem_of_sorted in H2. done.
Qed.
