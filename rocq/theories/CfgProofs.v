From stdpp Require Import base decidable list numbers gmap relations sets sorting.
From Coq Require Import NArith Lia.
From Verif Require Import VmBase RustStr RustStrProofs ILModel CfgSpec.

Local Open Scope N_scope.

Definition wf (g : graph) : Prop :=
  (forall a b, b ∈ children g a <-> a ∈ parents g b) /\
  (forall a b, b ∈ children g a -> a ∈ labels g /\ b ∈ labels g).

Lemma children_insert g n x a : children (<[n := x]> g) a = if decide (a = n) then g_children x else children g a.
Proof. unfold children. destruct (decide (a = n)) as [->|?]; [by rewrite lookup_insert|by rewrite lookup_insert_ne]. Qed.
Lemma parents_insert g n x a : parents (<[n := x]> g) a = if decide (a = n) then g_parents x else parents g a.
Proof. unfold parents. destruct (decide (a = n)) as [->|?]; [by rewrite lookup_insert|by rewrite lookup_insert_ne]. Qed.
Lemma children_delete g n a : children (delete n g) a = if decide (a = n) then ∅ else children g a.
Proof. unfold children. destruct (decide (a = n)) as [->|?]; [by rewrite lookup_delete|by rewrite lookup_delete_ne]. Qed.
Lemma parents_delete g n a : parents (delete n g) a = if decide (a = n) then ∅ else parents g a.
Proof. unfold parents. destruct (decide (a = n)) as [->|?]; [by rewrite lookup_delete|by rewrite lookup_delete_ne]. Qed.
Lemma children_Some (g : graph) n x : g !! n = Some x -> children g n = g_children x.
Proof. unfold children. by intros ->. Qed.
Lemma parents_Some (g : graph) n x : g !! n = Some x -> parents g n = g_parents x.
Proof. unfold parents. by intros ->. Qed.
Lemma default_children g n : g_children (entry_or_default g n) = children g n.
Proof. unfold entry_or_default, children. by destruct (g !! n). Qed.
Lemma default_parents g n : g_parents (entry_or_default g n) = parents g n.
Proof. unfold entry_or_default, parents. by destruct (g !! n). Qed.
Lemma in_labels (g : graph) n : n ∈ labels g <-> is_Some (g !! n).
Proof. apply elem_of_dom. Qed.

(** ** connect *)
Lemma connect_children g p c a : children (connect g p c) a = if decide (a = p) then {[c]} ∪ children g a else children g a.
Proof.
  unfold connect. rewrite children_insert. cbn [g_children add_parent]. rewrite default_children, !children_insert. cbn [g_children add_child].
  rewrite default_children. repeat case_decide; subst; try done.
Qed.
Lemma connect_parents g p c a : parents (connect g p c) a = if decide (a = c) then {[p]} ∪ parents g a else parents g a.
Proof.
  unfold connect. rewrite parents_insert. cbn [g_parents add_parent]. rewrite default_parents, !parents_insert. cbn [g_parents add_child].
  rewrite default_parents. repeat case_decide; subst; try done.
Qed.
Lemma connect_labels g p c : labels (connect g p c) = {[p; c]} ∪ labels g.
Proof. unfold labels, connect. rewrite !dom_insert_L. set_solver. Qed.
Lemma connect_edge g p c a b : edge (connect g p c) a b <-> edge g a b \/ (a = p /\ b = c).
Proof. unfold edge. rewrite connect_children. case_decide; set_solver. Qed.
Lemma connect_wf g p c : wf g -> wf (connect g p c).
Proof.
  intros [H1 H2]. split.
  - intros a b. rewrite connect_children, connect_parents. specialize (H1 a b). repeat case_decide; set_solver.
  - intros a b. rewrite connect_children, connect_labels. specialize (H2 a b). case_decide; set_solver.
Qed.

(** ** disconnect *)
Lemma get_mut_Some g n f g' : get_mut g n f = Some g' <-> exists x, g !! n = Some x /\ g' = <[n := f x]> g.
Proof. unfold get_mut. destruct (g !! n); split; [intros [= <-]; eauto|intros (y & [= <-] & ->); done|done|intros (y & ? & _); done]. Qed.
Lemma disconnect_spec g p c : p ∈ labels g -> c ∈ labels g -> exists g', disconnect g p c = Some g' /\
  labels g' = labels g /\
  (forall a, children g' a = if decide (a = p) then children g a ∖ {[c]} else children g a) /\
  (forall a, parents g' a = if decide (a = c) then parents g a ∖ {[p]} else parents g a).
Proof.
  intros [x Hx]%in_labels [y Hy]%in_labels. unfold disconnect, get_mut. rewrite Hx.
  destruct (<[p := del_child c x]> g !! c) as [z|] eqn:E.
  - eexists. split; [done|]. split; [|split].
    + unfold labels. rewrite !dom_insert_L. apply elem_of_dom_2 in Hx, Hy. set_solver.
    + intros a. rewrite !children_insert. cbn. destruct (decide (c = p)) as [->|?].
      * rewrite lookup_insert in E. injection E as <-. cbn. case_decide; subst; [|done]. by rewrite (children_Some _ _ _ Hx).
      * rewrite lookup_insert_ne in E by done. repeat case_decide; subst; try done; [by rewrite (children_Some _ _ _ E)|by rewrite (children_Some _ _ _ Hx)].
    + intros a. rewrite !parents_insert. cbn. destruct (decide (c = p)) as [->|?].
      * rewrite lookup_insert in E. injection E as <-. cbn. case_decide; subst; [|done]. by rewrite (parents_Some _ _ _ Hx).
      * rewrite lookup_insert_ne in E by done. repeat case_decide; subst; try done; [by rewrite (parents_Some _ _ _ E)|by rewrite (parents_Some _ _ _ Hx)].
  - destruct (decide (c = p)) as [->|?]; [by rewrite lookup_insert in E|rewrite lookup_insert_ne in E by done; congruence].
Qed.
Lemma disconnect_None g p c : p ∉ labels g \/ c ∉ labels g -> disconnect g p c = None.
Proof.
  intros H. unfold disconnect, get_mut. destruct (g !! p) eqn:E; [|done].
  destruct H as [H|H]; [destruct H; apply in_labels; eauto|].
  destruct (decide (c = p)) as [->|?]; [destruct H; apply in_labels; eauto|]. rewrite lookup_insert_ne by done.
  destruct (g !! c) eqn:E2; [|done]. destruct H. apply in_labels. eauto.
Qed.
Lemma disconnect_inv g p c g' : disconnect g p c = Some g' -> p ∈ labels g /\ c ∈ labels g.
Proof.
  intros H. destruct (decide (p ∈ labels g)), (decide (c ∈ labels g)); try done;
    rewrite disconnect_None in H; try done; auto.
Qed.
Lemma disconnect_wf g p c g' : disconnect g p c = Some g' -> wf g -> wf g'.
Proof.
  intros E [H1 H2]. destruct (disconnect_inv _ _ _ _ E) as [Hp Hc]. destruct (disconnect_spec g p c Hp Hc) as (h & E' & L & C & P).
  rewrite E in E'. injection E' as <-. split.
  - intros a b. rewrite C, P. specialize (H1 a b). repeat case_decide; subst; set_solver.
  - intros a b. rewrite C, L. specialize (H2 a b). case_decide; set_solver.
Qed.

(** ** pop *)
Lemma pop_inv g n g' : pop g n = Some g' -> n ∈ labels g /\ parents g n = ∅ /\ children g n = ∅ /\ g' = delete n g.
Proof.
  unfold pop. destruct (g !! n) as [x|] eqn:E; [|done].
  destruct (bool_decide (g_parents x = ∅)) eqn:E1; cbn; [|done].
  destruct (bool_decide (g_children x = ∅)) eqn:E2; [|done]. intros [= <-].
  apply bool_decide_eq_true_1 in E1, E2. rewrite (parents_Some _ _ _ E), (children_Some _ _ _ E).
  split; [apply in_labels; eauto|done].
Qed.
Lemma pop_total g n : n ∈ labels g -> parents g n = ∅ -> children g n = ∅ -> pop g n = Some (delete n g).
Proof.
  intros [x E]%in_labels. unfold parents, children, pop. rewrite E. intros -> ->. by rewrite !bool_decide_eq_true_2.
Qed.
Lemma pop_wf g n g' : pop g n = Some g' -> wf g -> wf g'.
Proof.
  intros (Hn & Hp & Hc & ->)%pop_inv [H1 H2]. split.
  - intros a b. rewrite children_delete, parents_delete. specialize (H1 a b). repeat case_decide; subst; set_solver.
  - intros a b. rewrite children_delete. unfold labels. rewrite dom_delete_L. specialize (H1 a b). specialize (H2 a b). case_decide; [set_solver|].
    intros Hb. destruct (H2 Hb). split; [set_solver|]. destruct (decide (b = n)) as [->|?]; [set_solver|set_solver].
Qed.

(** ** contract *)
Lemma get_mut_all_spec ns f : forall g, NoDup ns -> (forall n, n ∈ ns -> n ∈ labels g) ->
  exists g', get_mut_all g ns f = Some g' /\
    forall a, g' !! a = if decide (a ∈ ns) then f <$> g !! a else g !! a.
Proof.
  induction ns as [|n ns IH]; intros g Hnd Hin; cbn.
  - eexists. split; [done|]. intros a. case_decide; [set_solver|done].
  - apply NoDup_cons in Hnd as [Hn Hnd]. assert (Hx : n ∈ labels g) by (apply Hin; set_solver). apply in_labels in Hx as [x Hx]. unfold get_mut. rewrite Hx.
    destruct (IH (<[n := f x]> g) Hnd) as (g' & E & Hg').
    { intros m Hm. apply in_labels. destruct (decide (m = n)) as [->|?]; [rewrite lookup_insert; eauto|rewrite lookup_insert_ne by done].
      apply in_labels, Hin. set_solver. }
    exists g'. split; [done|]. intros a. rewrite Hg'. destruct (decide (a = n)) as [->|?].
    + rewrite !decide_False by done. rewrite lookup_insert, decide_True by set_solver. by rewrite Hx.
    + rewrite lookup_insert_ne by done. do 2 case_decide; set_solver.
Qed.

Lemma contract_spec g n : wf g -> n ∈ labels g -> exists g', contract g n = Some g' /\
  labels g' = labels g ∖ {[n]} /\
  (forall a, children g' a = if decide (a = n) then ∅ else
     if decide (a ∈ parents g n) then (children g a ∪ children g n) ∖ {[n]} else children g a) /\
  (forall a, parents g' a = if decide (a = n) then ∅ else
     if decide (a ∈ children g n) then (parents g a ∪ parents g n) ∖ {[n]} else parents g a).
Proof.
  intros [H1 H2] Hn. unfold contract. destruct (proj1 (in_labels _ _) Hn) as [x Hx]. rewrite Hx.
  rewrite (children_Some _ _ _ Hx), (parents_Some _ _ _ Hx).
  set (cs := g_children x ∖ {[n]}). set (ps := g_parents x ∖ {[n]}).
  assert (Hcs : forall c, c ∈ cs -> c ∈ labels (delete n g)).
  { intros c Hc. unfold labels. rewrite dom_delete_L. assert (Hb : c ∈ children g n) by (rewrite (children_Some _ _ _ Hx); set_solver). apply H2 in Hb as [_ Hb]. set_solver. }
  assert (Hps : forall c, c ∈ ps -> c ∈ labels (delete n g)).
  { intros c Hc. unfold labels. rewrite dom_delete_L. assert (Hb : c ∈ parents g n) by (rewrite (parents_Some _ _ _ Hx); set_solver). apply H1, H2 in Hb as [Hb _]. set_solver. }
  edestruct (get_mut_all_spec (elements ps)) as (g1 & E1 & L1); [apply NoDup_elements|intros ? ?%elem_of_elements; by apply Hps|]. rewrite E1.
  assert (D1 : forall a, a ∈ labels g1 <-> a ∈ labels (delete n g)).
  { intros a. rewrite !in_labels, L1. case_decide; [by rewrite fmap_is_Some|done]. }
  edestruct (get_mut_all_spec (elements cs)) as (g2 & E2 & L2); [apply NoDup_elements|intros ? ?%elem_of_elements; by apply D1, Hcs|]. rewrite E2.
  assert (D2 : forall a, a ∈ labels g2 <-> a ∈ labels (delete n g)).
  { intros a. rewrite <- D1, !in_labels, L2. case_decide; [by rewrite fmap_is_Some|done]. }
  edestruct (get_mut_all_spec (elements ps)) as (g3 & E3 & L3); [apply NoDup_elements|intros ? ?%elem_of_elements; by apply D2, Hps|]. rewrite E3.
  assert (D3 : forall a, a ∈ labels g3 <-> a ∈ labels (delete n g)).
  { intros a. rewrite <- D2, !in_labels, L3. case_decide; [by rewrite fmap_is_Some|done]. }
  edestruct (get_mut_all_spec (elements cs)) as (g4 & E4 & L4); [apply NoDup_elements|intros ? ?%elem_of_elements; by apply D3, Hcs|]. rewrite E4.
  assert (D4 : forall a, a ∈ labels g4 <-> a ∈ labels (delete n g)).
  { intros a. rewrite <- D3, !in_labels, L4. case_decide; [by rewrite fmap_is_Some|done]. }
  assert (Hel : forall (s : gset N) a, a ∈ elements s <-> a ∈ s) by (intros; apply elem_of_elements).
  exists g4. split; [done|]. split; [|split].
  - apply set_eq. intros a. rewrite D4. unfold labels. by rewrite dom_delete_L.
  - intros a. unfold children at 1. rewrite L4, L3, L2, L1.
    destruct (decide (a = n)) as [->|Hne].
    + rewrite lookup_delete. by repeat case_decide.
    + rewrite lookup_delete_ne by done. unfold children. destruct (g !! a) as [y|] eqn:Ey.
      * repeat (case_decide || cbn); rewrite ?Hel in *; try done; unfold cs, ps in *; try set_solver; subst; cbn;
          assert (n ∉ g_children y) by (rewrite <- (children_Some _ _ _ Ey), H1, (parents_Some _ _ _ Hx); set_solver); set_solver.
      * assert (a ∉ labels g) by (rewrite in_labels, Ey; by intros []).
        repeat (case_decide || cbn); rewrite ?Hel in *; try done;
        (assert (Hb : a ∈ parents g n) by (rewrite (parents_Some _ _ _ Hx); set_solver); apply H1, H2 in Hb as []; done).
  - intros a. unfold parents at 1. rewrite L4, L3, L2, L1.
    destruct (decide (a = n)) as [->|Hne].
    + rewrite lookup_delete. by repeat case_decide.
    + rewrite lookup_delete_ne by done. unfold parents. destruct (g !! a) as [y|] eqn:Ey.
      * repeat (case_decide || cbn); rewrite ?Hel in *; try done; unfold cs, ps in *; try set_solver; subst; cbn;
          assert (n ∉ g_parents y) by (rewrite <- (parents_Some _ _ _ Ey), <- H1, (children_Some _ _ _ Hx); set_solver); set_solver.
      * assert (a ∉ labels g) by (rewrite in_labels, Ey; by intros []).
        repeat (case_decide || cbn); rewrite ?Hel in *; try done;
        (assert (Hb : a ∈ children g n) by (rewrite (children_Some _ _ _ Hx); set_solver); apply H2 in Hb as []; done).
Qed.
Lemma contract_inv g n g' : contract g n = Some g' -> n ∈ labels g.
Proof. unfold contract. destruct (g !! n) eqn:E; [|done]. intros _. apply in_labels. eauto. Qed.
Lemma contract_wf g n g' : contract g n = Some g' -> wf g -> wf g'.
Proof.
  intros E Hg. destruct (contract_spec g n Hg (contract_inv _ _ _ E)) as (h & E' & L & C & P).
  rewrite E in E'. injection E' as <-. destruct Hg as [H1 H2]. split.
  - intros a b. rewrite C, P. pose proof (H1 a b). pose proof (H1 a n). pose proof (H1 n b). repeat case_decide; subst; set_solver.
  - intros a b. rewrite C, L. pose proof (H1 a b). pose proof (H1 a n). pose proof (H1 n b). pose proof (H2 a b). pose proof (H2 n b). repeat case_decide; subst; try set_solver.
Qed.
Lemma contract_edge g n g' a b : wf g -> contract g n = Some g' ->
  (edge g' a b <-> a <> n /\ b <> n /\ (edge g a b \/ (edge g a n /\ edge g n b))).
Proof.
  intros Hg E. destruct (contract_spec g n Hg (contract_inv _ _ _ E)) as (h & E' & L & C & P).
  rewrite E in E'. injection E' as <-. destruct Hg as [H1 H2]. unfold edge. rewrite C, (H1 a n).
  pose proof (H1 a n). repeat case_decide; subst; [set_solver|set_solver|].
  destruct (decide (b = n)) as [->|?]; set_solver.
Qed.

Lemma built_wf g : built g -> wf g.
Proof.
  intros [os E]. assert (W : wf ∅).
  { split; [|unfold children; intros a b; rewrite lookup_empty; set_solver]. intros a b. unfold children, parents. rewrite !lookup_empty. set_solver. }
  revert W E. generalize (∅ : graph). induction os as [|o os IH]; intros h W E; cbn in E; [by injection E as <-|].
  destruct (graph_step h o) as [h'|] eqn:Eo; [|done]. eapply IH; [|done]. destruct o; cbn in Eo.
  - injection Eo as <-. by apply connect_wf.
  - by eapply disconnect_wf.
  - by eapply pop_wf.
  - by eapply contract_wf.
Qed.

(** ** sorted label lists *)
Lemma elem_of_sorted (s : gset N) n : n ∈ sorted s <-> n ∈ s.
Proof. unfold sorted. rewrite sort_by_perm. apply elem_of_elements. Qed.
Lemma NoDup_sorted (s : gset N) : NoDup (sorted s).
Proof. unfold sorted. rewrite sort_by_perm. apply NoDup_elements. Qed.

Lemma sorted_sorted (s : gset N) : StronglySorted N.le (sorted s).
Proof.
  assert (Hq : StronglySorted (cle N.compare) (sorted s)).
  { apply sort_by_sorted; unfold cle; intros; rewrite !N.compare_gt_iff in *; lia. }
  induction Hq as [|a l Hl IH Ha]; constructor; [done|]. rewrite Forall_forall in *. intros b Hb. specialize (Ha b Hb).
  unfold cle in Ha. rewrite N.compare_gt_iff in Ha. lia.
Qed.

(** ** find_unreachable *)
Lemma visit_children_spec cs : forall seen q seen' q', visit_children seen q cs = (seen', q') ->
  (forall n, n ∈ seen' <-> n ∈ seen \/ n ∈ cs) /\
  exists new, q' = q ++ new /\ NoDup new /\ (forall n, n ∈ new <-> n ∈ cs /\ n ∉ seen).
Proof.
  induction cs as [|c cs IH]; intros seen q seen' q' E; cbn in E.
  - injection E as <- <-. split; [set_solver|]. exists []. rewrite app_nil_r. repeat split; try constructor; set_solver.
  - unfold visit_children in IH. destruct (bool_decide (c ∈ seen)) eqn:Ec.
    + apply bool_decide_eq_true_1 in Ec. apply IH in E as (Hs & new & -> & Hnd & Hnew). split; [set_solver|].
      exists new. repeat split; try done; set_solver.
    + apply bool_decide_eq_false_1 in Ec. apply IH in E as (Hs & new & -> & Hnd & Hnew). split; [set_solver|].
      exists (c :: new). rewrite <- app_assoc. split; [done|]. split; [constructor; set_solver|].
      intros n. destruct (decide (n = c)) as [->|?]; set_solver.
Qed.


Lemma bfs_spec g e fuel : forall seen q,
  (forall a b, edge g a b -> b ∈ labels g) ->
  e ∈ seen ->
  (forall n, n ∈ q -> n ∈ seen) ->
  (forall n, n ∈ seen -> reaches g e n) ->
  (forall n m, n ∈ seen -> edge g n m -> n ∈ q \/ m ∈ seen) ->
  (length q + size (labels g ∖ seen) <= fuel)%nat ->
  exists s, bfs fuel g seen q = Some s /\ forall n, n ∈ s <-> reaches g e n.
Proof.
  intros seen q Hlab. revert seen q. induction fuel as [|fuel IH]; intros seen q He Hq Hr Hc Hf.
  all: destruct q as [|n q].
  1,3: exists seen; split; [done|]; intros n; split; [auto|]; intros H; revert He; clear -H Hc;
    induction H as [a|a b k Hab _ IHr]; intros Ha; [done|]; apply IHr; destruct (Hc a b Ha Hab) as [?%elem_of_nil|?]; done.
  - cbn in Hf. lia.
  - cbn [bfs]. destruct (visit_children seen q (children_sorted g n)) as [seen' q'] eqn:E.
    apply visit_children_spec in E as (Hs & new & -> & Hnd & Hnew).
    assert (Hch : forall m, m ∈ children_sorted g n <-> edge g n m) by (intros; apply elem_of_sorted).
    apply IH.
    + apply Hs. auto.
    + intros m [Hm|Hm]%elem_of_app; apply Hs; [left; apply Hq; set_solver|right; by apply Hnew].
    + intros m [Hm|Hm]%Hs; [by apply Hr|]. apply Hch in Hm. eapply rtc_r; [|done]. apply Hr, Hq. set_solver.
    + intros a b Ha Hab. apply Hs in Ha as [Ha|Ha].
      * destruct (Hc a b Ha Hab) as [[->|?]%elem_of_cons|?]; [right; apply Hs; right; by apply Hch|left; set_solver|right; apply Hs; auto].
      * destruct (decide (a ∈ seen)) as [Hin|Hin].
        { destruct (Hc a b Hin Hab) as [[->|?]%elem_of_cons|?]; [right; apply Hs; right; by apply Hch|left; set_solver|right; apply Hs; auto]. }
        left. apply elem_of_app. right. apply Hnew. done.
    + cbn in Hf. rewrite app_length.
      assert (Hnl : (list_to_set new : gset N) ⊆ labels g ∖ seen).
      { intros m Hm%elem_of_list_to_set. apply Hnew in Hm as [Hm1 Hm2]. apply Hch, Hlab in Hm1. set_solver. }
      assert (Heq : labels g ∖ seen' = (labels g ∖ seen) ∖ list_to_set new).
      { apply set_eq. intros m. rewrite !elem_of_difference, elem_of_list_to_set, Hs, Hnew. destruct (decide (m ∈ children_sorted g n)); destruct (decide (m ∈ seen)); intuition. }
      rewrite Heq, size_difference by done. apply subseteq_size in Hnl as Hle.
      assert (Hsz : size (list_to_set new : gset N) = length new) by (by apply size_list_to_set).
      rewrite Hsz in *. lia.
Qed.

Lemma find_unreachable_spec g e : wf g -> exists l, find_unreachable g e = Some l /\ NoDup l /\
  StronglySorted N.le l /\ forall n, n ∈ l <-> n ∈ labels g /\ ~ reaches g e n.
Proof.
  intros [H1 H2]. unfold find_unreachable.
  destruct (bfs_spec g e (S (size (labels g))) {[e]} [e]) as (s & -> & Hs).
  - intros a b Hab. by apply (H2 a b).
  - set_solver.
  - set_solver.
  - intros n ->%elem_of_singleton. constructor.
  - set_solver.
  - cbn. assert (size (labels g ∖ {[e]}) <= size (labels g))%nat by (apply subseteq_size; set_solver). lia.
  - eexists. split; [done|]. split; [apply NoDup_filter, NoDup_sorted|]. split.
    + pose proof (sorted_sorted (labels g)) as Hst. fold (labels_sorted g) in Hst.
      clear -Hst. induction Hst as [|a l Hl IH Ha]; [constructor|]. rewrite filter_cons. case_decide; [|done]. constructor; [done|].
      apply Forall_forall. intros b [_ Hb]%elem_of_list_filter. by eapply Forall_forall in Ha.
    + intros n. rewrite elem_of_list_filter, Hs. unfold labels_sorted. rewrite elem_of_sorted. tauto.
Qed.

(** ** removing unreachable nodes *)
Lemma delete_many_spec ns : forall g (R : N -> Prop), wf g -> NoDup ns -> (forall n, n ∈ ns -> n ∈ labels g) ->
  (forall n, n ∈ ns -> ~ R n) -> (forall a b, R a -> edge g a b -> R b) ->
  exists g', delete_many g ns = Some g' /\ wf g' /\ (forall n, n ∈ labels g' <-> n ∈ labels g /\ n ∉ ns) /\
    (forall a b, R a -> edge g' a b <-> edge g a b).
Proof.
  induction ns as [|n ns IH]; intros g R Hg Hnd Hin HR Hcl; cbn [delete_many].
  - exists g. split; [done|]. split; [done|]. split; [|done]. intros n. rewrite elem_of_nil. tauto.
  - apply NoDup_cons in Hnd as [Hn Hnd]. destruct (contract_spec g n Hg) as (g1 & E & L & _); [apply Hin; set_solver|]. rewrite E.
    assert (Hed : forall a b, R a -> edge g1 a b <-> edge g a b).
    { intros a b Ha. rewrite (contract_edge _ _ _ _ _ Hg E). assert (a <> n) by (intros ->; apply (HR n); [set_solver|done]).
      assert (~ edge g a n) by (intros Hx; apply (HR n); [set_solver|by eapply Hcl]).
      split; [intros (_ & _ & [?|[? _]]); done|]. intros Hab. split; [done|]. split; [intros ->; done|auto]. }
    destruct (IH g1 R) as (g' & E' & W' & L' & Hed').
    + by eapply contract_wf.
    + done.
    + intros m Hm. rewrite L. assert (m <> n) by (intros ->; done). assert (m ∈ labels g) by (apply Hin; set_solver). set_solver.
    + intros m Hm. apply HR. set_solver.
    + intros a b Ha Hab%Hed; [|done]. by eapply Hcl.
    + exists g'. split; [done|]. split; [done|]. split.
      * intros m. rewrite L', L. set_solver.
      * intros a b Ha. by rewrite Hed', Hed.
Qed.
Lemma remove_many_spec ns : forall b : gmap N block, NoDup ns -> (forall n, n ∈ ns -> n ∈ dom b) ->
  exists b', remove_many b ns = Some b' /\ forall n, b' !! n = if decide (n ∈ ns) then None else b !! n.
Proof.
  induction ns as [|n ns IH]; intros b Hnd Hin; cbn [remove_many].
  - eexists. split; [done|]. intros m. case_decide; [set_solver|done].
  - apply NoDup_cons in Hnd as [Hn Hnd]. assert (Hx : n ∈ dom b) by (apply Hin; set_solver). apply elem_of_dom in Hx as [x ->].
    destruct (IH (delete n b)) as (b' & E & Hb'); [done|intros m Hm; rewrite dom_delete_L; assert (m ∈ dom b) by (apply Hin; set_solver); set_solver|].
    exists b'. split; [done|]. intros m. rewrite Hb'. destruct (decide (m = n)) as [->|?].
    + rewrite lookup_delete, (decide_True (P := n ∈ n :: ns)) by set_solver. by case_decide.
    + rewrite lookup_delete_ne by done. do 2 case_decide; set_solver.
Qed.

Lemma pop_unreachable_spec c : wf (c_graph c) -> (forall n, n ∈ labels (c_graph c) -> n ∈ dom (c_blocks c)) ->
  exists c' dead, find_and_pop_unreachable c = Some (c', dead) /\ c_entry c' = c_entry c /\ wf (c_graph c') /\
    (forall n, n ∈ dead <-> n ∈ labels (c_graph c) /\ ~ reaches (c_graph c) (c_entry c) n) /\
    (forall n, n ∈ labels (c_graph c') <-> n ∈ labels (c_graph c) /\ reaches (c_graph c) (c_entry c) n) /\
    (forall a b, edge (c_graph c') a b <-> edge (c_graph c) a b /\ reaches (c_graph c) (c_entry c) a) /\
    (forall n, c_blocks c' !! n = if decide (n ∈ dead) then None else c_blocks c !! n).
Proof.
  intros Hg Hb. unfold find_and_pop_unreachable. destruct (find_unreachable_spec (c_graph c) (c_entry c) Hg) as (dead & -> & Hnd & _ & Hdead).
  destruct (delete_many_spec dead (c_graph c) (reaches (c_graph c) (c_entry c))) as (g' & -> & W & L & E); try done.
  { intros n Hn. by apply Hdead. }
  { intros n Hn. by apply Hdead. }
  { intros a b Ha Hab. by eapply rtc_r. }
  destruct (remove_many_spec dead (c_blocks c) Hnd) as (b' & -> & B).
  { intros n Hn. apply Hb. by apply Hdead. }
  exists (Cfg g' b' (c_entry c)), dead. cbn.
  assert (HL : forall n, n ∈ labels g' <-> n ∈ labels (c_graph c) /\ reaches (c_graph c) (c_entry c) n).
  { intros n. rewrite L, Hdead. split; [|tauto]. intros [Hn Hx]. split; [done|].
    unfold find_and_pop_unreachable, find_unreachable in *.
    destruct (bfs_spec (c_graph c) (c_entry c) (S (size (labels (c_graph c)))) {[c_entry c]} [c_entry c]) as (s & _ & Hs).
    - intros a b Hab. by apply (proj2 Hg a b).
    - set_solver.
    - set_solver.
    - intros m ->%elem_of_singleton. constructor.
    - set_solver.
    - cbn. assert (size (labels (c_graph c) ∖ {[c_entry c]}) <= size (labels (c_graph c)))%nat by (apply subseteq_size; set_solver). lia.
    - destruct (decide (n ∈ s)) as [?|Hns]; [by apply Hs|]. destruct Hx. split; [done|]. by rewrite <- Hs. }
  split; [done|]. split; [done|]. split; [done|]. split; [done|]. split; [done|]. split; [|done].
  intros a b. split.
  - intros Hab. assert (Ha : reaches (c_graph c) (c_entry c) a) by (apply HL; by apply (proj2 W a b)). split; [by apply E|done].
  - intros [Hab Ha]. by apply E.
Qed.

(** ** graphs made by the optimizer are histories of the four operations *)
Lemma graph_run_app os os' : forall g, graph_run g (os ++ os') = match graph_run g os with Some g => graph_run g os' | None => None end.
Proof. induction os as [|o os IH]; intros g; cbn; [done|]. destruct (graph_step g o); [apply IH|done]. Qed.
Lemma built_step g o g' : built g -> graph_step g o = Some g' -> built g'.
Proof. intros [os E] S. exists (os ++ [o]). rewrite graph_run_app, E. cbn. by rewrite S. Qed.
Lemma built_delete_many ns : forall g g', built g -> delete_many g ns = Some g' -> built g'.
Proof.
  induction ns as [|n ns IH]; intros g g' B E; cbn in E; [by injection E as <-|].
  destruct (contract g n) as [h|] eqn:Eh; [|done]. eapply IH; [|done]. by apply (built_step g (GContract n)).
Qed.
Lemma built_empty : built ∅.
Proof. by exists []. Qed.
Lemma built_connect g p c : built g -> built (connect g p c).
Proof. intros B. by apply (built_step g (GConnect p c)). Qed.
Lemma built_connect_all p cs : forall g, built g -> built (connect_all g p cs).
Proof. unfold connect_all. induction cs as [|c cs IH]; intros g B; cbn; [done|]. by apply IH, built_connect. Qed.
Lemma link_block_built g b order i fin g' b' : built g -> link_block g b order i fin = Some (g', b') -> built g'.
Proof.
  intros B E. unfold link_block in E.
  repeat match type of E with context [match ?x with _ => _ end] => destruct x eqn:?; try discriminate end;
    injection E as <- <-; auto using built_connect, built_connect_all.
Qed.
Lemma link_blocks_built n : forall i g b order g' b', built g -> link_blocks n i g b order = Some (g', b') -> built g'.
Proof.
  induction n as [|n IH]; intros i g b order g' b' B E; cbn [link_blocks] in E; [by injection E as <- <-|].
  destruct (link_block g b order i _) as [[h c]|] eqn:El; [|done]. eapply IH; [|done]. by eapply link_block_built.
Qed.
Lemma from_bblocks_built b order c : from_bblocks b order = Some c -> built (c_graph c).
Proof.
  unfold from_bblocks. destruct (link_blocks _ _ _ _ _) as [[g b']|] eqn:E; [|done]. intros [= <-]. cbn.
  eapply link_blocks_built; [|done]. apply built_empty.
Qed.
Lemma pop_unreachable_built c c' d : built (c_graph c) -> find_and_pop_unreachable c = Some (c', d) -> built (c_graph c').
Proof.
  unfold find_and_pop_unreachable. intros B E. destruct (find_unreachable _ _) as [l|]; [|done].
  destruct (delete_many _ _) as [g|] eqn:Eg; [|done]. destruct (remove_many _ _); [|done]. injection E as <- <-. cbn. by eapply built_delete_many.
Qed.
