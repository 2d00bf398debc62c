From stdpp Require Import base decidable list numbers gmap relations sets.
From Coq Require Import NArith Lia.
From Verif Require Import RustStr ILModel CfgSpec CfgProofs DomModel DomSpec DomProofs LoopFindModel LoopFindSpec.

Section walk.
Context (R : N -> N -> Prop) (e : N) (preds : N -> list N) (HP : forall n p, p ∈ preds n <-> R p n).
Context (h : N) (dm : N -> bool) (HD : forall x, dm x = true <-> dominates R e h x).
Context (U : gset N) (HU : forall p n, R p n -> p ∈ U).

Definition sound (l : gset N) : Prop := forall x, x ∈ l -> x <> h -> dominates R e h x /\ exists t, back_edge R e t h /\ avoiding R h x t.
Definition closed_but (l : gset N) (q : list N) : Prop := forall n p, n ∈ l -> n <> h -> n ∉ q -> R p n -> dominates R e h p -> p ∈ l.

Lemma parents_fold n ps : forall l q, (forall p, p ∈ ps -> R p n) -> h ∈ l -> n ∈ l -> sound l ->
  exists l' new, fold_left (loop_parent dm) ps (l, q) = (l', q ++ new) /\ l ⊆ l' /\ sound l' /\ (forall x, x ∈ l' -> x ∈ l \/ x ∈ new) /\ (forall x, x ∈ new -> x ∈ l')
    /\ (forall p, p ∈ ps -> dominates R e h p -> p ∈ l') /\ (length new + size (U ∖ l') <= size (U ∖ l))%nat.
Proof.
  induction ps as [|p ps IH]; intros l q Hps Hh Hn HS; cbn.
  { exists l, []. rewrite app_nil_r. split_and!; try done; [by left|set_solver|set_solver]. }
  assert (Hp : R p n) by (apply Hps; set_solver). unfold loop_parent at 2. cbn.
  destruct (dm p) eqn:Ed; cbn.
  2:{ destruct (IH l q) as (l' & new & E & A1 & A2 & A3 & A4 & A5 & A6); [set_solver|done..|]. exists l', new. split_and!; try done.
      intros p' [->|?]%elem_of_cons Hd; [apply HD in Hd; congruence|by apply A5]. }
  case_bool_decide as Hin.
  { destruct (IH l q) as (l' & new & E & A1 & A2 & A3 & A4 & A5 & A6); [set_solver|done..|]. exists l', new. split_and!; try done.
    intros p' [->|?]%elem_of_cons Hd; [by apply A1|by apply A5]. }
  apply HD in Ed. assert (Hph : p <> h) by (intros ->; done).
  destruct (IH ({[p]} ∪ l) (q ++ [p])) as (l' & new & E & A1 & A2 & A3 & A4 & A5 & A6); [set_solver|set_solver|set_solver| |].
  { intros x [->%elem_of_singleton|Hx]%elem_of_union Hxh; [|by apply HS]. split; [done|].
    destruct (decide (n = h)) as [->|Hnh].
    - exists p. split; [done|]. by constructor.
    - destruct (HS n Hn Hnh) as (_ & t & Ht & Ha). exists t. split; [done|]. by econstructor. }
  exists l', (p :: new). rewrite E, <- app_assoc. split_and!; try done.
  - set_solver.
  - intros x Hx. apply A3 in Hx. set_solver.
  - intros x [->|Hx]%elem_of_cons; [apply A1; set_solver|by apply A4].
  - intros p' [->|?]%elem_of_cons Hd; [apply A1; set_solver|by apply A5].
  - cbn. assert (HpU : p ∈ U) by (by eapply HU).
    assert (size (U ∖ ({[p]} ∪ l)) < size (U ∖ l))%nat by (apply (subset_size (C := gset N)); split; [set_solver|]; intros F; specialize (F p); set_solver). lia.
Qed.

Lemma loop_walk_spec fuel : forall l q, (length q + size (U ∖ l) < fuel)%nat -> h ∈ l -> (forall x, x ∈ q -> x ∈ l) -> sound l -> closed_but l q ->
  exists l', loop_walk fuel preds dm l q = Some l' /\ l ⊆ l' /\ sound l' /\ closed_but l' [].
Proof.
  induction fuel as [|fuel IH]; intros l q Hf Hh Hq HS HC; [lia|]. cbn. destruct q as [|n q]; [by exists l|].
  destruct (parents_fold n (preds n) l q) as (l' & new & E & A1 & A2 & A3 & A4 & A5 & A6); [intros p; apply HP|done|apply Hq; set_solver|done|].
  rewrite E. cbn. destruct (IH l' (q ++ new)) as (l2 & E2 & B1 & B2 & B3).
  - rewrite app_length. cbn in Hf. lia.
  - by apply A1.
  - intros x [?|?]%elem_of_app; [apply A1, Hq; set_solver|by apply A4].
  - done.
  - intros n' p Hn' Hnh Hnq Hp Hd. rewrite elem_of_app in Hnq. destruct (decide (n' = n)) as [->|Hne].
    + apply A5; [by apply HP|done].
    + apply A3 in Hn' as [Hn'|?]; [|tauto]. apply A1. eapply HC; eauto. set_solver.
  - exists l2. split_and!; try done. set_solver.
Qed.
End walk.

Section all.
Context (g : graph) (e : N) (B : built g) (m : gmap N (gset N)) (Hm : forall a b, graph_has m a b = true <-> dominates (edge g) e a b).
Notation R := (edge g).
Lemma preds_edge n p : p ∈ parents_sorted g n <-> R p n.
Proof. unfold parents_sorted. rewrite elem_of_sorted. destruct (built_wf _ B) as [W1 _]. symmetry. apply W1. Qed.
Lemma edge_label p n : R p n -> p ∈ labels g.
Proof. destruct (built_wf _ B) as [_ W2]. intros H. by apply W2 in H as [? _]. Qed.

(** What holds of the table after the edges in [es]. *)
Definition loops_inv (loops : gmap N (gset N)) (es : list (N * N)) : Prop := forall h,
  match loops !! h with
  | None => forall t, (t, h) ∈ es -> ~ dominates R e h t
  | Some l => (exists t, back_edge R e t h) /\ h ∈ l /\ (forall t, (t, h) ∈ es -> dominates R e h t -> t ∈ l) /\ sound R e h l /\ closed_but R e h l []
  end.

Lemma loop_edge_inv loops es t h : R t h -> loops_inv loops es -> exists loops', loop_edge g m t (Some loops) h = Some loops' /\ loops_inv loops' (es ++ [(t, h)]).
Proof.
  intros HR HI. unfold loop_edge. destruct (graph_has m h t) eqn:Ed; cbn [negb]; cbv zeta.
  2:{ exists loops. split; [done|]. intros h'. specialize (HI h').
      assert (Hn : ~ dominates R e h t) by (rewrite <- Hm; congruence).
      destruct (loops !! h') as [l|].
      - destruct HI as (A1 & A2 & A3 & A4 & A5). split_and!; try done. intros t' [?|Ht]%elem_of_app; [by apply A3|].
        apply elem_of_list_singleton in Ht as [= -> ->]. done.
      - intros t' [?|Ht]%elem_of_app; [by apply HI|]. apply elem_of_list_singleton in Ht as [= -> ->]. done. }
  apply Hm in Ed. assert (Hb : back_edge R e t h) by done.
  set (old := default ∅ (loops !! h)). set (l := {[t]} ∪ ({[h]} ∪ old)).
  assert (Ho : sound R e h old /\ closed_but R e h old [] /\ forall t', (t', h) ∈ es -> dominates R e h t' -> t' ∈ old).
  { subst old. specialize (HI h). destruct (loops !! h) as [l0|]; cbn.
    - destruct HI as (_ & _ & ? & ? & ?). done.
    - split_and!; [intros x; set_solver|intros x; set_solver|]. intros t' Ht Hd. by destruct (HI t' Ht). }
  destruct Ho as (O1 & O2 & O3).
  assert (Hl : forall x, x ∈ l <-> x = t \/ x = h \/ x ∈ old) by (intros x; subst l; rewrite !elem_of_union, !elem_of_singleton; tauto).
  destruct (loop_walk_spec R e (parents_sorted g) preds_edge h (graph_has m h) (Hm h) (labels g) edge_label (S (S (size (labels g)))) l [t]) as (l' & E & A1 & A2 & A3).
  - cbn. assert (size (labels g ∖ l) <= size (labels g))%nat by (apply (subseteq_size (C := gset N)); clear; set_solver). lia.
  - apply Hl. tauto.
  - intros x ->%elem_of_list_singleton. apply Hl. tauto.
  - intros x Hx Hxh. apply Hl in Hx as [->|[?|Hx]]; [|done|by apply O1]. split; [done|]. exists t. split; [done|]. by constructor.
  - intros n p Hn Hnh Hnt Hp Hd. rewrite elem_of_list_singleton in Hnt. apply Hl in Hn as [?|[?|Hn]]; [done..|].
    apply Hl. right. right. eapply O2; eauto. apply not_elem_of_nil.
  - rewrite E. eexists. split; [done|]. intros h'. destruct (decide (h' = h)) as [->|Hne].
    + rewrite lookup_insert. split_and!; try done.
      * by exists t.
      * apply A1, Hl. tauto.
      * intros t' [Ht|Ht]%elem_of_app Hd; apply A1, Hl; [right; right; by apply O3|]. apply elem_of_list_singleton in Ht as [= ->]. by left.
    + rewrite lookup_insert_ne by done. specialize (HI h'). destruct (loops !! h') as [l0|].
      * destruct HI as (B1 & B2 & B3 & B4 & B5). split_and!; try done. intros t' [?|Ht]%elem_of_app; [by apply B3|].
        apply elem_of_list_singleton in Ht as [= -> ->]. done.
      * intros t' [?|Ht]%elem_of_app; [by apply HI|]. apply elem_of_list_singleton in Ht as [= -> ->]. done.
Qed.

Lemma tail_inv t hs : forall loops es, (forall h, h ∈ hs -> R t h) -> loops_inv loops es ->
  exists loops', fold_left (loop_edge g m t) hs (Some loops) = Some loops' /\ loops_inv loops' (es ++ map (fun h => (t, h)) hs).
Proof.
  induction hs as [|h hs IH]; intros loops es Hh HI; cbn [fold_left map].
  - exists loops. by rewrite app_nil_r.
  - destruct (loop_edge_inv loops es t h) as (l1 & E1 & H1); [apply Hh; left|done|]. rewrite E1.
    destruct (IH l1 (es ++ [(t, h)])) as (l2 & E2 & H2); [intros; apply Hh; by right|done|]. exists l2. split; [done|]. by rewrite <- app_assoc in H2.
Qed.
Lemma all_inv ts : forall loops es, loops_inv loops es ->
  exists loops', fold_left (fun o t => fold_left (loop_edge g m t) (children_sorted g t) o) ts (Some loops) = Some loops' /\
    loops_inv loops' (es ++ flat_map (fun t => map (fun h => (t, h)) (children_sorted g t)) ts).
Proof.
  induction ts as [|t ts IH]; intros loops es HI; cbn [fold_left flat_map].
  - exists loops. by rewrite app_nil_r.
  - destruct (tail_inv t (children_sorted g t) loops es) as (l1 & E1 & H1); [|done|].
    { intros h Hh. unfold children_sorted in Hh. by apply elem_of_sorted in Hh. }
    rewrite E1. destruct (IH l1 _ H1) as (l2 & E2 & H2). exists l2. split; [done|]. by rewrite <- app_assoc in H2.
Qed.

Lemma avoiding_start h x t : avoiding R h x t -> x <> h.
Proof. by destruct 1. Qed.
Lemma avoiding_dominated h x t : avoiding R h x t -> dominates R e h t -> reach R e x -> dominates R e h x.
Proof.
  induction 1 as [|x y z Hx Hxy Ha IH]; intros Hd Hr; [done|].
  assert (Hy : reach R e y) by (destruct Hr as [w Hw]; eexists; by econstructor).
  eapply sdom_parent; [split; [by apply IH|]|done|done]. intros <-. by apply avoiding_start in Ha.
Qed.

Lemma find_all : exists loops, fold_left (fun o t => fold_left (loop_edge g m t) (children_sorted g t) o) (labels_sorted g) (Some ∅) = Some loops /\
  (forall h, is_Some (loops !! h) <-> exists t, back_edge R e t h) /\
  forall h l x, loops !! h = Some l -> x ∈ l <-> in_loop R e h x.
Proof.
  destruct (all_inv (labels_sorted g) ∅ []) as (loops & E & H). { intros h. rewrite lookup_empty. intros t Ht. by apply not_elem_of_nil in Ht. }
  assert (HE : forall t h, R t h -> (t, h) ∈ [] ++ flat_map (fun t => map (fun h => (t, h)) (children_sorted g t)) (labels_sorted g)).
  { intros t h Hth. cbn. apply elem_of_list_In, in_flat_map. exists t. split.
    - apply elem_of_list_In. unfold labels_sorted. apply elem_of_sorted. by eapply edge_label.
    - apply in_map_iff. exists h. split; [done|]. apply elem_of_list_In. unfold children_sorted. by apply elem_of_sorted. }
  exists loops. split; [done|]. split.
  - intros h. specialize (H h). destruct (loops !! h) as [l|].
    + split; [intros _; apply H|done].
    + split; [by intros [? ?]|]. intros (t & Ht & Hd). destruct (H t); [by apply HE|done].
  - intros h l x El. specialize (H h). rewrite El in H. destruct H as ([t0 Ht0] & Hh & HT & HS & HC). split.
    + intros Hx. destruct (decide (x = h)) as [->|Hxh]; [exists t0; split; [done|by left]|].
      destruct (HS x Hx Hxh) as ([? _] & t & Ht & Ha). exists t. split; [done|]. by right.
    + intros (t & [Ht Hd] & [->|[Hr Ha]]); [done|]. assert (HtL : t ∈ l) by (apply HT; [by apply HE|done]).
      clear Ht. revert Hr HtL Hd. induction Ha as [|x y z Hx Hxy Ha IH]; intros Hr HtL Hd; [done|].
      assert (Hy : reach R e y) by (destruct Hr as [w Hw]; eexists; by econstructor).
      eapply (HC y x); [by apply IH|by apply avoiding_start in Ha|apply not_elem_of_nil|done|].
      eapply avoiding_dominated; [by econstructor|done|done].
Qed.
End all.
