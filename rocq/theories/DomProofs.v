From stdpp Require Import base decidable list numbers gmap relations sets sorting.
From Coq Require Import NArith Lia.
From Verif Require Import RustStr ILModel CfgSpec CfgProofs DomModel DomSpec.

(** ** depth-first postorder *)
Section dfs.
Context (succ : N -> list N) (U : gset N) (HU : forall x y, x ∈ U -> y ∈ succ x -> y ∈ U).

(** [x] occurs in [l] before one of its predecessors. *)
Definition later (l : list N) (x : N) : Prop := exists l1 l2 u, l = l1 ++ x :: l2 /\ u ∈ l2 /\ x ∈ succ u.
Lemma later_app_l l l' x : later l x -> later (l ++ l') x.
Proof. intros (l1 & l2 & u & -> & ? & ?). exists l1, (l2 ++ l'), u. rewrite <- app_assoc. cbn. set_solver. Qed.
Lemma later_app_r l l' x : later l' x -> later (l ++ l') x.
Proof. intros (l1 & l2 & u & -> & ? & ?). exists (l ++ l1), l2, u. rewrite app_assoc. done. Qed.
Lemma later_last l x n : x ∈ l -> x ∈ succ n -> later (l ++ [n]) x.
Proof. intros (l1 & l2 & ->)%elem_of_list_split ?. exists l1, (l2 ++ [n]), n. rewrite <- app_assoc. cbn. set_solver. Qed.

Notation R := (fun a b => b ∈ succ a).
Definition visited (seen seen' : gset N) (new : list N) : Prop :=
  (forall x, x ∈ seen' <-> x ∈ seen \/ x ∈ new) /\ NoDup new /\ (forall x, x ∈ new -> x ∉ seen /\ x ∈ U) /\
  (forall x y, x ∈ new -> y ∈ succ x -> y ∈ seen').

Lemma visited_nil seen : visited seen seen [].
Proof. split; [set_solver|]. split; [constructor|]. split; [set_solver|]. set_solver. Qed.
Lemma visited_app s1 s2 s3 n1 n2 : visited s1 s2 n1 -> visited s2 s3 n2 -> visited s1 s3 (n1 ++ n2).
Proof.
  intros (A1 & A2 & A3 & A4) (B1 & B2 & B3 & B4). split; [intros x; rewrite B1, A1, elem_of_app; tauto|].
  split; [apply NoDup_app; split; [done|]; split; [|done]; intros x Hx Hx'; apply B3 in Hx' as [Hx' _]; apply Hx', A1; by right|].
  split.
  - intros x [Hx|Hx]%elem_of_app; [by apply A3|]. apply B3 in Hx as [Hx ?]. split; [|done]. intros ?. apply Hx, A1. by left.
  - intros x y [Hx|Hx]%elem_of_app Hy; [|by eapply B4]. apply B1. left. by eapply A4.
Qed.

Lemma visit_spec fuel : forall n seen order, n ∈ U -> (size (U ∖ seen) <= fuel)%nat ->
  exists seen' new, visit fuel succ n (seen, order) = Some (seen', order ++ new) /\ visited seen seen' new /\ n ∈ seen' /\
    (new = [] \/ exists l, new = l ++ [n]) /\ (forall x, x ∈ new -> x = n \/ later new x) /\ (forall x, x ∈ new -> rtc R n x).
Proof.
  induction fuel as [|fuel IH]; intros n seen order Hn Hf; cbn [visit fst snd].
  - case_bool_decide as Hs.
    + exists seen, []. rewrite app_nil_r. split; [done|]. split; [apply visited_nil|]. split; [done|]. split; [by left|]. split; set_solver.
    + exfalso. assert (Hz : size (U ∖ seen) = 0%nat) by lia. apply size_empty_inv in Hz. set_solver.
  - case_bool_decide as Hs.
    { exists seen, []. rewrite app_nil_r. split; [done|]. split; [apply visited_nil|]. split; [done|]. split; [by left|]. split; set_solver. }
    assert (L : forall cs seen order, (forall c, c ∈ cs -> c ∈ U) -> (size (U ∖ seen) <= fuel)%nat ->
      exists seen' new, fold_left (fun o c => match o with Some st => visit fuel succ c st | None => None end) cs (Some (seen, order)) = Some (seen', order ++ new) /\
        visited seen seen' new /\ (forall c, c ∈ cs -> c ∈ seen') /\ (forall x, x ∈ new -> x ∈ cs \/ later new x) /\
        (forall x, x ∈ new -> exists c, c ∈ cs /\ rtc R c x)).
    { clear n seen order Hn Hf Hs. induction cs as [|c cs IHcs]; intros seen order Hc Hf; cbn [fold_left].
      - exists seen, []. rewrite app_nil_r. split; [done|]. split; [apply visited_nil|]. split; [set_solver|]. split; set_solver.
      - destruct (IH c seen order) as (s1 & n1 & E1 & V1 & C1 & _ & L1 & R1); [apply Hc; set_solver|done|]. rewrite E1.
        destruct (IHcs s1 (order ++ n1)) as (s2 & n2 & E2 & V2 & C2 & L2 & R2).
        + intros; apply Hc; set_solver.
        + etransitivity; [|exact Hf]. apply subseteq_size. destruct V1 as (V1 & _). intros x. rewrite !elem_of_difference, V1. tauto.
        + exists s2, (n1 ++ n2). rewrite E2, app_assoc. split; [done|]. split; [by eapply visited_app|]. split.
          * intros x [->|Hx]%elem_of_cons; [|auto]. apply V2. by left.
          * split.
            -- intros x [Hx|Hx]%elem_of_app.
               ++ destruct (L1 x Hx) as [->|?]; [left; set_solver|right; by apply later_app_l].
               ++ destruct (L2 x Hx) as [?|?]; [left; set_solver|right; by apply later_app_r].
            -- intros x [Hx|Hx]%elem_of_app; [exists c; split; [set_solver|auto]|]. destruct (R2 x Hx) as (c' & ? & ?). exists c'. split; [set_solver|done]. }
    destruct (L (succ n) ({[n]} ∪ seen) order) as (s1 & new & E & V & C & L1 & R1).
    + intros c Hc. by eapply HU.
    + assert (size (U ∖ ({[n]} ∪ seen)) < size (U ∖ seen))%nat; [|lia]. apply subset_size. split; [set_solver|]. intros Hx. specialize (Hx n). set_solver.
    + rewrite E. exists s1, (new ++ [n]). cbn [fst snd]. rewrite app_assoc. split; [done|].
      destruct V as (V1 & V2 & V3 & V4). assert (Hns : n ∈ s1) by (apply V1; set_solver).
      split.
      { split; [intros x; rewrite V1, elem_of_app; set_solver|]. split.
        { apply NoDup_app. split; [done|]. split; [|apply NoDup_singleton]. intros x Hx Hxn. apply elem_of_list_singleton in Hxn as ->. apply V3 in Hx. set_solver. }
        split.
        - intros x [Hx|Hx]%elem_of_app; [apply V3 in Hx; set_solver|]. apply elem_of_list_singleton in Hx as ->. done.
        - intros x y [Hx|Hx]%elem_of_app Hy; [by eapply V4|]. apply elem_of_list_singleton in Hx as ->. auto. }
      split; [done|]. split; [right; by exists new|]. split.
      * intros x [Hx|Hx]%elem_of_app; [|left; by apply elem_of_list_singleton in Hx]. right.
        destruct (L1 x Hx) as [?|?]; [by apply later_last|by apply later_app_l].
      * intros x [Hx|Hx]%elem_of_app; [|apply elem_of_list_singleton in Hx as ->; done].
        destruct (R1 x Hx) as (c & ? & ?). eapply rtc_l; done.
Qed.
End dfs.

Lemma walk_rtc R e v : reach R e v <-> rtc R e v.
Proof.
  split.
  - intros [l W]. induction W; [done|]. by eapply rtc_r.
  - intros H. apply rtc_ind_r with (P := fun v => reach R e v) in H; [done|exists [e]; constructor|].
    intros y z _ Hyz [l W]. exists (z :: l). by econstructor.
Qed.

(** What the dominator computation needs of a postorder. *)
Record postorder_ok (R : N -> N -> Prop) (e : N) (order : list N) : Prop := {
  po_nodup : NoDup order;
  po_reach : forall v, v ∈ order <-> reach R e v;
  po_last : exists l, order = l ++ [e];
  po_later : forall v, v ∈ order -> v <> e -> exists l1 l2 u, order = l1 ++ v :: l2 /\ u ∈ l2 /\ R u v }.

Lemma calculate_postorder_ok bound succ e (U : gset N) : (forall x y, x ∈ U -> y ∈ succ x -> y ∈ U) -> e ∈ U -> (size U <= S bound)%nat ->
  exists order, calculate_postorder bound succ e = Some order /\ postorder_ok (fun a b => b ∈ succ a) e order.
Proof.
  intros HU He Hb. destruct (visit_spec succ U HU (S bound) e ∅ []) as (seen & new & E & (V1 & V2 & V3 & V4) & Hs & F & L & Rt); [done| |].
  { etransitivity; [|exact Hb]. apply subseteq_size. set_solver. }
  unfold calculate_postorder. rewrite E. cbn. exists new. split; [done|].
  assert (Hen : e ∈ new) by (apply V1 in Hs; set_solver).
  split.
  - done.
  - intros v. rewrite walk_rtc. split; [apply Rt|]. intros H. apply rtc_ind_r with (P := fun v => v ∈ new) in H; [done..|].
    intros y z _ Hyz Hy. specialize (V4 y z Hy Hyz). apply V1 in V4. set_solver.
  - destruct F as [->|F]; [set_solver|done].
  - intros v Hv Hne. destruct (L v Hv) as [?|(l1 & l2 & u & ? & ? & ?)]; [done|]. exists l1, l2, u. done.
Qed.

(** ** the dominator loop *)
Lemma walk_inv R e v l : walk R e v l -> exists t, l = v :: t /\ ((v = e /\ t = []) \/ exists u, walk R e u t /\ R u v).
Proof. intros [|u w t W H]; eauto 10. Qed.
Lemma walk_head R e v l : walk R e v l -> v ∈ l.
Proof. intros (t & -> & _)%walk_inv. set_solver. Qed.
Lemma walk_has_entry R e v l : walk R e v l -> e ∈ l.
Proof. induction 1; set_solver. Qed.
Lemma walk_reach R e v l x : walk R e v l -> x ∈ l -> reach R e x.
Proof. induction 1 as [|u v l W IH H]; intros Hx; [apply elem_of_list_singleton in Hx as ->; exists [e]; constructor|]. apply elem_of_cons in Hx as [->|?]; [|auto]. exists (v :: l). by econstructor. Qed.
(** The part of a walk up to one of its nodes. *)
Lemma walk_prefix R e v l b : walk R e v l -> b ∈ l -> exists pre l', l = pre ++ l' /\ walk R e b l'.
Proof.
  intros W. induction W as [|u v l W IH H]; intros Hb.
  - apply elem_of_list_singleton in Hb as ->. exists [], [e]. split; [done|constructor].
  - destruct (decide (b = v)) as [->|Hn]; [exists [], (v :: l); split; [done|by econstructor]|].
    destruct IH as (pre & l' & -> & W'); [set_solver|]. by exists (v :: pre), l'.
Qed.
Lemma walk_prefix_ne R e v l b : walk R e v l -> b ∈ l -> b <> v -> exists l', walk R e b l' /\ l' ⊆ l /\ length l' < length l.
Proof.
  intros W Hb Hn. destruct (walk_prefix _ _ _ _ _ W Hb) as (pre & l' & -> & W'). exists l'. split; [done|]. split; [set_solver|].
  rewrite app_length. destruct pre as [|x pre]; [|cbn; lia]. cbn in W. apply walk_inv in W as (t & E & _). apply walk_inv in W' as (t' & E' & _). congruence.
Qed.
Lemma walk_nodup R e v l : walk R e v l -> exists l', walk R e v l' /\ l' ⊆ l /\ NoDup l'.
Proof.
  induction 1 as [|u v l W (l' & W' & S & D) H]; [exists [e]; split; [constructor|]; split; [done|apply NoDup_singleton]|].
  destruct (decide (v ∈ l')) as [Hv|Hv].
  - destruct (walk_prefix _ _ _ _ _ W' Hv) as (pre & l2 & -> & W2). exists l2. split; [done|]. split; [set_solver|]. by apply NoDup_app in D as (_ & _ & D).
  - exists (v :: l'). split; [by econstructor|]. split; [set_solver|]. by constructor.
Qed.
Lemma dominates_refl R e v : reach R e v -> dominates R e v v.
Proof. intros H. split; [done|]. intros l. apply walk_head. Qed.
Lemma dominates_trans R e a b c : dominates R e a b -> dominates R e b c -> dominates R e a c.
Proof. intros [_ A] [Hc B]. split; [done|]. intros l W. destruct (walk_prefix _ _ _ _ _ W (B l W)) as (pre & l' & -> & W'). apply A in W'. set_solver. Qed.
Lemma dominates_reach R e a b : dominates R e a b -> reach R e a.
Proof. intros [[l W] A]. eapply walk_reach; [exact W|auto]. Qed.
Lemma dominates_entry R e a : dominates R e a e -> a = e.
Proof. intros [_ A]. specialize (A [e] (walk_entry _ _)). set_solver. Qed.
Lemma entry_dominates R e v : reach R e v -> dominates R e e v.
Proof. intros H. split; [done|]. intros l. apply walk_has_entry. Qed.
Lemma sdom_parent R e a u b : strictly_dominates R e a b -> R u b -> reach R e u -> dominates R e a u.
Proof. intros [[_ A] Hn] H Hu. split; [done|]. intros l W. specialize (A (b :: l)). assert (a ∈ b :: l) by (apply A; by econstructor). set_solver. Qed.

Lemma po_number_Some order n i : NoDup order -> po_number order n = Some i <-> order !! i = Some n.
Proof.
  intros D. revert i. induction D as [|x order Hx D IH]; intros i; cbn [po_number]; [done|]. destruct (N.eqb_spec x n) as [->|Hn].
  - destruct i; cbn; [done|]. split; [done|]. intros E. destruct Hx. by eapply elem_of_list_lookup_2.
  - destruct i; cbn.
    + destruct (po_number order n); split; congruence.
    + rewrite <- IH. destruct (po_number order n); split; congruence.
Qed.

Section loop.
Context (R : N -> N -> Prop) (e : N) (order : list N) (Hok : postorder_ok R e order).

Definition po (n : N) : nat := match po_number order n with Some i => i | None => 0%nat end.
Lemma po_lookup v : v ∈ order -> order !! po v = Some v.
Proof.
  intros [i E]%elem_of_list_lookup. unfold po. apply (po_number_Some _ _ _ (po_nodup _ _ _ Hok)) in E as E'. by rewrite E'.
Qed.
Lemma po_number_po v : v ∈ order -> po_number order v = Some (po v).
Proof. intros H. apply po_number_Some; [apply Hok|by apply po_lookup]. Qed.
Lemma po_inj u v : u ∈ order -> v ∈ order -> po u = po v -> u = v.
Proof. intros Hu Hv E. apply po_lookup in Hu, Hv. congruence. Qed.
Lemma po_lt v : v ∈ order -> po v < length order.
Proof. intros H. apply po_lookup in H. by eapply lookup_lt_Some. Qed.
Lemma e_in : e ∈ order.
Proof. apply Hok. exists [e]. constructor. Qed.
Lemma po_e v : v ∈ order -> v <> e -> po v < po e.
Proof.
  intros Hv Hn. destruct (po_last _ _ _ Hok) as [l E]. pose proof (po_lt v Hv) as L. assert (po e = length l).
  { assert (X : po_number order e = Some (length l)); [|unfold po; by rewrite X]. apply po_number_Some; [apply Hok|]. rewrite E. by rewrite lookup_app_r, Nat.sub_diag by lia. }
  rewrite E in L. rewrite app_length in L. cbn in L. assert (po v <> length l); [|lia]. intros X. apply Hn, po_inj; [done|apply e_in|lia].
Qed.
Lemma po_split l1 v l2 u : order = l1 ++ v :: l2 -> u ∈ l2 -> po v < po u.
Proof.
  intros E [j Ej]%elem_of_list_lookup.
  assert (Hv : po v = length l1). { assert (X : po_number order v = Some (length l1)); [|unfold po; by rewrite X]. apply po_number_Some; [apply Hok|]. rewrite E. by rewrite lookup_app_r, Nat.sub_diag by lia. }
  assert (Hu : po u = length l1 + S j). { assert (X : po_number order u = Some (length l1 + S j)); [|unfold po; by rewrite X]. apply po_number_Some; [apply Hok|]. rewrite E. rewrite lookup_app_r by lia. by replace (length l1 + S j - length l1) with (S j) by lia. }
  lia.
Qed.
Lemma po_parent v : v ∈ order -> v <> e -> exists u, R u v /\ u ∈ order /\ po v < po u.
Proof.
  intros Hv Hn. destruct (po_later _ _ _ Hok v Hv Hn) as (l1 & l2 & u & E & Hu & H). exists u. split; [done|]. split; [rewrite E; set_solver|]. by eapply po_split.
Qed.
(** Following such parents gives a walk on which numbers only grow. *)
Lemma po_walk v : v ∈ order -> exists l, walk R e v l /\ forall x, x ∈ l -> x ∈ order /\ po v <= po x.
Proof.
  intros Hv. remember (length order - po v) as k eqn:Ek. revert v Hv Ek. induction k as [k IH] using lt_wf_ind. intros v Hv Ek.
  destruct (decide (v = e)) as [->|Hn]; [exists [e]; split; [constructor|]; intros x Hx; apply elem_of_list_singleton in Hx as ->; done|].
  destruct (po_parent v Hv Hn) as (u & H & Hu & L). pose proof (po_lt u Hu). destruct (IH (length order - po u)) with (v := u) as (l & W & A); [lia|done|done|].
  exists (v :: l). split; [by econstructor|]. intros x [->|Hx]%elem_of_cons; [done|]. apply A in Hx as [? ?]. split; [done|lia].
Qed.
Lemma dominates_po a v : dominates R e a v -> a ∈ order /\ po v <= po a.
Proof. intros [Hr A]. destruct (po_walk v) as (l & W & P); [by apply Hok|]. apply P, A, W. Qed.

(** *** trees given by [idom_by] while the loop runs *)
Definition anc (T : gmap N N) (a v : N) : Prop := rtc (fun x y => T !! x = Some y) v a.
Record tree (T : gmap N N) : Prop := {
  t_e : T !! e = Some e;
  t_in : forall b d, T !! b = Some d -> b ∈ order /\ is_Some (T !! d);
  t_up : forall b d, T !! b = Some d -> b <> e -> po b < po d;
  t_dom : forall b d a, T !! b = Some d -> b <> e -> strictly_dominates R e a b -> dominates R e a d }.
Lemma anc_po T a v : tree T -> is_Some (T !! v) -> anc T a v -> is_Some (T !! a) /\ po v <= po a.
Proof.
  intros HT Hv H. induction H as [v|v w a Hvw H IH]; [done|]. destruct (t_in T HT v w Hvw) as [_ Hw]. destruct (IH Hw) as [? ?]. split; [done|].
  destruct (decide (v = e)) as [->|Hn]; [rewrite (t_e T HT) in Hvw; injection Hvw as <-; done|]. pose proof (t_up T HT v w Hvw Hn). lia.
Qed.
Lemma anc_inv T a v d : T !! v = Some d -> anc T a v -> a = v \/ anc T a d.
Proof. intros E H. inversion H as [|x y z Hxy Hyz]; subst; [by left|]. right. assert (y = d) as -> by congruence. done. Qed.
Lemma anc_e T a : tree T -> anc T a e -> a = e.
Proof. intros HT H. remember e as v eqn:Ev in H. induction H as [v|v w a Hvw H IH]; [done|]. subst v. rewrite (t_e T HT) in Hvw. injection Hvw as <-. by apply IH. Qed.

Definition meet (T : gmap N N) (r : N) (a b : N) : Prop :=
  is_Some (T !! r) /\ anc T r a /\ anc T r b /\ (forall x, dominates R e x a -> dominates R e x b -> dominates R e x r).
Lemma fingers_spec T : tree T -> forall fuel a b, is_Some (T !! a) -> is_Some (T !! b) ->
  (length order + length order < fuel + po a + po b) -> exists r, fingers fuel order T (po a) (po b) = Some (po r) /\ meet T r a b.
Proof.
  intros HT. induction fuel as [|fuel IH]; intros a b Ha Hb Hf.
  - destruct Ha as [da Ha], Hb as [db Hb]. apply (t_in T HT) in Ha as [Ha _], Hb as [Hb _]. apply po_lt in Ha, Hb. lia.
  - destruct Ha as [da Ea], Hb as [db Eb]. destruct (t_in T HT a da Ea) as [Ha Hda]. destruct (t_in T HT b db Eb) as [Hb Hdb]. cbn [fingers].
    assert (Up : forall x dx, x ∈ order -> T !! x = Some dx -> is_Some (T !! dx) -> finger_up order T (po x) = Some (po dx)).
    { intros x dx Hx Ex [ddx Hdx]. unfold finger_up. rewrite po_lookup by done. rewrite Ex. apply po_number_po. by destruct (t_in T HT dx ddx Hdx). }
    destruct (Nat.compare_spec (po a) (po b)) as [E|E|E].
    + apply po_inj in E as ->; [|done..]. exists b. split; [done|]. split; [eauto|]. split; [apply rtc_refl|]. split; [apply rtc_refl|]. auto.
    + assert (Hae : a <> e). { intros ->. destruct (decide (b = e)) as [->|Hbe]; [lia|]. pose proof (po_e b Hb Hbe). lia. }
      rewrite (Up a da) by done. pose proof (t_up T HT a da Ea Hae). destruct (IH da b) as (r & E1 & M1 & M2 & M3 & M4); [done|eauto|lia|].
      exists r. split; [done|]. split; [done|]. split; [eapply rtc_l; done|]. split; [done|]. intros x Hxa Hxb. apply M4; [|done].
      apply (t_dom T HT a da x Ea Hae). split; [done|]. intros ->. apply dominates_po in Hxb. lia.
    + assert (Hbe : b <> e). { intros ->. destruct (decide (a = e)) as [->|Hae]; [lia|]. pose proof (po_e a Ha Hae). lia. }
      rewrite (Up b db) by done. pose proof (t_up T HT b db Eb Hbe). destruct (IH a db) as (r & E1 & M1 & M2 & M3 & M4); [eauto|done|lia|].
      exists r. split; [done|]. split; [done|]. split; [done|]. split; [eapply rtc_l; done|]. intros x Hxa Hxb. apply M4; [done|].
      apply (t_dom T HT b db x Eb Hbe). split; [done|]. intros ->. apply dominates_po in Hxa. lia.
Qed.
Lemma intersect_spec T a b : tree T -> is_Some (T !! a) -> is_Some (T !! b) -> exists r, intersect order T a b = Some r /\ meet T r a b.
Proof.
  intros HT Ha Hb. destruct (fingers_spec T HT (S (length order + length order)) a b) as (r & E & M); [done..|lia|].
  assert (Hin : forall x, is_Some (T !! x) -> x ∈ order) by (intros x [d Hx]; by destruct (t_in T HT x d Hx)).
  exists r. split; [|done]. unfold intersect. rewrite !po_number_po by auto. rewrite E. apply po_lookup, Hin, M.
Qed.

Lemma has_spec (T : gmap N N) n : has T n = true <-> is_Some (T !! n).
Proof. unfold has. destruct (T !! n); split; eauto; try done. intros [? ?]. done. Qed.
Lemma new_idom_spec T ps : tree T -> (exists p, p ∈ ps /\ is_Some (T !! p)) -> exists d, new_idom order ps T = Some (Some d) /\ is_Some (T !! d) /\
  (forall p, p ∈ ps -> is_Some (T !! p) -> anc T d p) /\
  (forall x, (forall p, p ∈ ps -> is_Some (T !! p) -> dominates R e x p) -> dominates R e x d).
Proof.
  intros HT (p0 & Hp0 & Hs0). unfold new_idom. destruct (List.find (has T) ps) as [first|] eqn:F.
  2: { eapply List.find_none in F; [|by apply elem_of_list_In]. apply has_spec in Hs0. congruence. }
  apply List.find_some in F as [Hf Hfs]. apply elem_of_list_In in Hf. apply has_spec in Hfs.
  assert (Fold : forall l d0, is_Some (T !! d0) -> exists d, fold_left (fun o p => match o with Some d => if has T p then intersect order T p d else Some d | None => None end) l (Some d0) = Some d /\
     is_Some (T !! d) /\ anc T d d0 /\ (forall p, p ∈ l -> is_Some (T !! p) -> anc T d p) /\
     (forall x, dominates R e x d0 -> (forall p, p ∈ l -> is_Some (T !! p) -> dominates R e x p) -> dominates R e x d)).
  { induction l as [|p l IH]; intros d0 Hd0; cbn [fold_left].
    - exists d0. split; [done|]. split; [done|]. split; [apply rtc_refl|]. split; [set_solver|auto].
    - destruct (has T p) eqn:Hp.
      + apply has_spec in Hp. destruct (intersect_spec T p d0 HT Hp Hd0) as (r & -> & M1 & M2 & M3 & M4). destruct (IH r M1) as (d & E & A1 & A2 & A3 & A4).
        exists d. split; [done|]. split; [done|]. split; [by eapply rtc_transitive|]. split.
        * intros q [->|Hq]%elem_of_cons Hs; [by eapply rtc_transitive|auto].
        * intros x Hx Hx'. apply A4; [apply M4; [apply Hx'; [set_solver|done]|done]|]. intros q Hq. apply Hx'. set_solver.
      + destruct (IH d0 Hd0) as (d & E & A1 & A2 & A3 & A4). exists d. split; [done|]. split; [done|]. split; [done|]. split.
        * intros q [->|Hq]%elem_of_cons Hs; [|auto]. apply has_spec in Hs. congruence.
        * intros x Hx Hx'. apply A4; [done|]. intros q Hq. apply Hx'. set_solver. }
  destruct (Fold (List.filter (fun p => negb (N.eqb p first)) ps) first Hfs) as (d & -> & A1 & A2 & A3 & A4). exists d. split; [done|]. split; [done|].
  assert (Hfil : forall p, p ∈ List.filter (fun p => negb (N.eqb p first)) ps <-> p ∈ ps /\ p <> first).
  { intros p. rewrite !elem_of_list_In, List.filter_In. destruct (N.eqb_spec p first); cbn; naive_solver. }
  split.
  - intros p Hp Hs. destruct (decide (p = first)) as [->|Hn]; [done|]. apply A3; [by apply Hfil|done].
  - intros x Hx. apply A4; [by apply Hx|]. intros p Hp. apply Hfil in Hp as [Hp _]. by apply Hx.
Qed.

(** Two trees that differ only at [b]. *)
Lemma anc_change T T' b x v : (forall y, y <> b -> T !! y = T' !! y) -> anc T x v -> anc T' x v \/ (anc T b v /\ anc T' b v /\ anc T x b).
Proof.
  intros A H. induction H as [v|v w x Hvw H IH]; [left; apply rtc_refl|].
  destruct (decide (v = b)) as [->|Hn]; [right; split; [apply rtc_refl|]; split; [apply rtc_refl|]; eapply rtc_l; done|].
  assert (Hvw' : T' !! v = Some w) by (rewrite <- A; done).
  destruct IH as [IH|(I1 & I2 & I3)]; [left; eapply rtc_l; done|]. right. split; [eapply rtc_l; done|]. split; [eapply rtc_l; done|done].
Qed.

(** Ancestors of [v] lie on every walk to [v] with at most [k] edges. *)
Definition level (k : nat) (T : gmap N N) (v : N) : Prop :=
  forall x l, walk R e v l -> length l <= S k -> anc T x v -> x ∈ l.
Lemma level_le k k' T v : k <= k' -> level k' T v -> level k T v.
Proof. intros L H x l W Hl. apply H; [done|lia]. Qed.
Lemma level_e k T : tree T -> level k T e.
Proof. intros HT x l W _ H. apply anc_e in H as ->; [|done]. by eapply walk_head. Qed.

(** With enough levels, the tree is the dominator tree. *)
Lemma level_dominates k T x v : is_Some (T !! v) -> tree T -> length order <= S k -> level k T v -> anc T x v -> dominates R e x v.
Proof.
  intros [d Hv] HT Hk HL H. destruct (t_in T HT v d Hv) as [Hvo _]. split; [by apply Hok|]. intros l W.
  destruct (walk_nodup _ _ _ _ W) as (l' & W' & S & D). apply S, HL; [done| |done]. etransitivity; [|exact Hk].
  apply submseteq_length, NoDup_submseteq; [exact D|]. intros y Hy. apply Hok. by eapply walk_reach.
Qed.
Lemma level_idom k T b d : tree T -> length order <= S k -> level k T b -> T !! b = Some d -> b <> e -> immediately_dominates R e d b.
Proof.
  intros HT Hk HL E Hn. split.
  - split; [eapply level_dominates; eauto; eapply rtc_once; done|]. intros ->. pose proof (t_up T HT b b E Hn). lia.
  - intros c Hc. by eapply (t_dom T HT).
Qed.
Lemma idom_unique a a' b : immediately_dominates R e a b -> immediately_dominates R e a' b -> a = a'.
Proof.
  intros [S1 C1] [S2 C2]. apply C1 in S2 as A. apply C2 in S1 as B. apply dominates_po in A as [? ?], B as [? ?]. apply po_inj; [done..|lia].
Qed.

(** *** one step, one round, the loop *)
Context (pred : N -> list N) (Hpred : forall v u, u ∈ pred v <-> R u v).
Record inv (k : nat) (T : gmap N N) (done : list N) : Prop := {
  v_tree : tree T;
  v_level : forall v, is_Some (T !! v) -> level k T v;
  v_done : forall v, v ∈ done -> is_Some (T !! v) /\ level (S k) T v }.

Lemma step_inv k T dn b ch : inv k T dn -> b ∈ order -> b <> e ->
  (exists u, R u b /\ is_Some (T !! u) /\ po b < po u) ->
  (k = 0 \/ forall v, v ∈ order -> is_Some (T !! v)) ->
  exists T' ch', dom_step order pred (T, ch) b = Some (T', ch') /\ inv k T' (b :: dn) /\
    (forall v, is_Some (T' !! v) <-> is_Some (T !! v) \/ v = b) /\
    ((T' = T /\ ch' = ch) \/ ch' = true) /\
    (length order <= S k -> is_Some (T !! b) -> T' = T /\ ch' = ch).
Proof.
  intros HI Hbo Hbe (u0 & Hu0 & Hs0 & Hpo) Hk. destruct HI as [HT HL HD].
  unfold dom_step. cbn [fst snd].
  destruct (new_idom_spec T (pred b) HT) as (d & E & Hd & Anc & Dom); [exists u0; split; [by apply Hpred|done]|]. rewrite E.
  assert (Hup : po b < po d). { assert (Ha : anc T d u0) by (apply Anc; [by apply Hpred|done]). apply anc_po in Ha as [_ Ha]; [lia|done..]. }
  assert (Hdo : d ∈ order) by (destruct Hd as [dd Hd]; by destruct (t_in T HT d dd Hd)).
  assert (Hdom : forall a, strictly_dominates R e a b -> dominates R e a d).
  { intros a Ha. apply Dom. intros p Hp [dp Hs]. eapply sdom_parent; [exact Ha|by apply Hpred|]. apply Hok. by destruct (t_in T HT p dp Hs). }
  (* the walk's last step comes from a processed parent *)
  assert (Pen : forall l, walk R e b l -> length l <= S (S k) -> exists p l', l = b :: l' /\ walk R e p l' /\ is_Some (T !! p) /\ anc T d p).
  { intros l W Hl. apply walk_inv in W as (t & -> & [[-> _]|(p & W & Hp)]); [done|]. exists p, t. split; [done|]. split; [done|].
    assert (Hs : is_Some (T !! p)). { destruct Hk as [->|Hk]; [|apply Hk, Hok; by exists t]. cbn in Hl. apply walk_inv in W as (t' & -> & [[-> _]|(q & W & _)]).
      - rewrite (t_e T HT). eauto.
      - cbn in Hl. apply walk_inv in W as (t2 & -> & _). cbn in Hl. lia. }
    split; [done|]. apply Anc; [by apply Hpred|done]. }
  case_bool_decide as Hsame.
  - exists T, ch. split; [done|]. split; [|split; [|split; [by left|done]]].
    + split; [done|done|]. intros v [->|Hv]%elem_of_cons; [|auto]. split; [eauto|]. intros x l W Hl Hx.
      destruct (Pen l W Hl) as (p & l' & -> & W' & Hs & Ha). destruct (anc_inv T x b d Hsame Hx) as [->|Hx']; [set_solver|].
      apply elem_of_cons. right. eapply (HL p Hs x l'); [done|cbn in Hl; lia|]. by eapply rtc_transitive.
    + intros v. split; [by left|]. intros [?| ->]; [done|eauto].
  - set (T' := <[b := d]> T).
    assert (Hag : forall y, y <> b -> T !! y = T' !! y) by (intros y Hy; unfold T'; by rewrite lookup_insert_ne).
    assert (Hsome : forall v, is_Some (T' !! v) <-> is_Some (T !! v) \/ v = b).
    { intros v. unfold T'. destruct (decide (v = b)) as [->|Hv]; [rewrite lookup_insert; split; eauto|]. rewrite lookup_insert_ne by done. split; [by left|]. by intros [?|?]. }
    assert (HT' : tree T').
    { split.
      - unfold T'. rewrite lookup_insert_ne by done. apply HT.
      - intros c dc Hc. unfold T' in Hc. destruct (decide (c = b)) as [->|Hcb].
        + rewrite lookup_insert in Hc. injection Hc as <-. split; [done|]. apply Hsome. by left.
        + rewrite lookup_insert_ne in Hc by done. destruct (t_in T HT c dc Hc). split; [done|]. apply Hsome. by left.
      - intros c dc Hc Hce. unfold T' in Hc. destruct (decide (c = b)) as [->|Hcb].
        + rewrite lookup_insert in Hc. by injection Hc as <-.
        + rewrite lookup_insert_ne in Hc by done. by apply (t_up T HT).
      - intros c dc a Hc Hce. unfold T' in Hc. destruct (decide (c = b)) as [->|Hcb].
        + rewrite lookup_insert in Hc. injection Hc as <-. apply Hdom.
        + rewrite lookup_insert_ne in Hc by done. by apply (t_dom T HT). }
    assert (HTb : T' !! b = Some d) by (unfold T'; by rewrite lookup_insert).
    (* the chain above d does not contain b *)
    assert (Habove : forall x, anc T' x d -> anc T x d).
    { intros x Hx. destruct (anc_change T' T b x d) as [?|(Hbd & _)]; [intros; by rewrite Hag|done|done|].
      apply anc_po in Hbd as [_ ?]; [lia|done|]. apply Hsome. by left. }
    assert (Hlb : level (S k) T' b).
    { intros x l W Hl Hx. destruct (Pen l W Hl) as (p & l' & -> & W' & Hs & Ha). destruct (anc_inv T' x b d HTb Hx) as [->|Hx']; [set_solver|].
      apply elem_of_cons. right. eapply (HL p Hs x l'); [done|cbn in Hl; lia|]. eapply rtc_transitive; [done|]. by apply Habove. }
    assert (Hlv : forall j v, j <= S k -> is_Some (T !! v) -> v <> b -> level j T v -> level j T' v).
    { intros j v Hj Hv Hvb HLv x l W Hl Hx. destruct (anc_change T' T b x v) as [?|(_ & Hbv & Hxb)]; [intros; by rewrite Hag|done|by eapply HLv|].
      assert (Hbl : b ∈ l) by (by eapply HLv). destruct (walk_prefix_ne _ _ _ _ _ W Hbl) as (l' & W' & S & L); [done|]. apply S, Hlb; [done|lia|done]. }
    assert (HI' : inv k T' (b :: dn)).
    { split; [done| |].
      - intros v Hv. destruct (decide (v = b)) as [->|Hvb]; [eapply level_le; [|exact Hlb]; lia|]. apply Hsome in Hv as [Hv|?]; [|done]. apply Hlv; [lia|done|done|auto].
      - intros v Hv. destruct (decide (v = b)) as [->|Hvb]; [split; [eauto|done]|]. apply elem_of_cons in Hv as [?|Hv]; [done|]. apply HD in Hv as [Hv HLv].
        split; [apply Hsome; by left|]. by apply Hlv. }
    exists T', true. split; [done|]. split; [done|]. split; [done|]. split; [by right|]. intros Hlen [ob Hob]. exfalso. apply Hsame. rewrite Hob. f_equal.
    eapply idom_unique.
    + apply (level_idom k T b ob); eauto.
    + apply (level_idom k T' b d); [done|done| |done|done]. eapply level_le; [|exact Hlb]. lia.
Qed.

Lemma pass_inv k T : inv k T [] -> (k = 0 \/ forall v, v ∈ order -> is_Some (T !! v)) ->
  exists T' ch, dom_pass order pred e T = Some (T', ch) /\ inv (S k) T' [] /\ (forall v, v ∈ order -> is_Some (T' !! v)) /\
    (ch = false -> T' = T) /\ (length order <= S k -> (forall v, v ∈ order -> is_Some (T !! v)) -> ch = false).
Proof.
  intros HI Hk. destruct (po_last _ _ _ Hok) as [l El]. unfold dom_pass.
  assert (Efil : List.filter (fun b => negb (N.eqb b e)) (List.rev order) = List.rev l).
  { pose proof (po_nodup _ _ _ Hok) as D. rewrite El in D |- *. apply NoDup_app in D as (D & D' & _). rewrite rev_app_distr. cbn. rewrite N.eqb_refl. cbn.
    assert (Hall : forall x, x ∈ List.rev l -> x <> e). { intros x Hx ->. apply elem_of_list_In, in_rev, elem_of_list_In in Hx. apply (D' e Hx). set_solver. }
    revert Hall. generalize (List.rev l) as m. induction m as [|x m IH]; intros Hall; cbn; [done|]. destruct (N.eqb_spec x e) as [->|_]; [destruct (Hall e); set_solver|]. cbn. rewrite IH; [done|set_solver]. }
  rewrite Efil.
  assert (Fold : forall rest dn T1 ch1, l = List.rev rest ++ dn -> inv k T1 (dn ++ [e]) -> (k = 0 \/ forall v, v ∈ order -> is_Some (T1 !! v)) ->
    exists T' ch, fold_left (fun o b => match o with Some st => dom_step order pred st b | None => None end) rest (Some (T1, ch1)) = Some (T', ch) /\
      inv k T' order /\ (ch = false -> T' = T1 /\ ch1 = false) /\ (length order <= S k -> (forall v, v ∈ order -> is_Some (T1 !! v)) -> ch = ch1)).
  { induction rest as [|b rest IH]; intros dn T1 ch1 E HI1 Hk1; cbn [fold_left].
    - cbn in E. subst dn. exists T1, ch1. rewrite El. split; [done|]. split; [done|]. split; [done|done].
    - cbn in E. rewrite <- app_assoc in E. cbn in E.
      assert (Hb : b ∈ order) by (rewrite El, E; set_solver).
      assert (Hbe : b <> e). { intros ->. pose proof (po_nodup _ _ _ Hok) as D. rewrite El in D. apply NoDup_app in D as (_ & D & _). apply (D e); [rewrite E; set_solver|set_solver]. }
      destruct (step_inv k T1 (dn ++ [e]) b ch1 HI1 Hb Hbe) as (T2 & ch2 & E2 & HI2 & S2 & C2 & N2); [|done|].
      { destruct (po_later _ _ _ Hok b Hb Hbe) as (l1 & l2 & u & Eo & Hu & Ru). exists u. split; [done|]. split; [|by eapply po_split].
        assert (l2 = dn ++ [e]) as ->; [|by apply (v_done _ _ _ HI1)].
        assert (Eo2 : order = List.rev rest ++ b :: (dn ++ [e])) by (rewrite El, E, <- app_assoc; done).
        pose proof (po_nodup _ _ _ Hok) as D. assert (Hlen : length l1 = length (List.rev rest)).
        { assert (X1 : order !! length l1 = Some b) by (rewrite Eo, lookup_app_r, Nat.sub_diag by lia; done).
          assert (X2 : order !! length (List.rev rest) = Some b) by (rewrite Eo2, lookup_app_r, Nat.sub_diag by lia; done).
          eapply NoDup_lookup; [exact D|exact X1|exact X2]. }
        rewrite Eo in Eo2. apply app_inj_1 in Eo2 as [_ Eo2]; [|done]. by injection Eo2. }
      rewrite E2. destruct (IH (b :: dn) T2 ch2) as (T' & ch & E3 & HI3 & C3 & N3); [done|done| |].
      { destruct Hk1 as [?|Hk1]; [by left|right]. intros v Hv. apply S2. left. auto. }
      exists T', ch. split; [done|]. split; [done|]. split.
      + intros Hch. apply C3 in Hch as [-> ->]. destruct C2 as [[-> ->]|?]; done.
      + intros Hlen Hall. destruct (N2 Hlen (Hall b Hb)) as [-> ->]. by apply N3. }
  destruct (Fold (List.rev l) [] T false) as (T' & ch & E & HI' & C & Nn); [by rewrite rev_involutive, app_nil_r| |done|].
  { destruct HI as [HT HL HD]. split; [done|done|]. cbn. intros v Hv. apply elem_of_list_singleton in Hv as ->. split; [rewrite (t_e T HT); eauto|by apply level_e]. }
  destruct HI' as [HT HL HD]. exists T', ch. split; [done|]. split; [|split; [|split]].
  - split; [done| |set_solver]. intros v [d Hv]. apply HD. by destruct (t_in T' HT v d Hv).
  - intros v Hv. by apply HD.
  - intros Hc. by apply C.
  - done.
Qed.

Lemma loop_inv fuel : forall k T, inv k T [] -> (forall v, v ∈ order -> is_Some (T !! v)) -> (length order <= k + fuel) -> 0 < fuel ->
  exists T', dom_loop fuel order pred e T = Some T' /\ (forall j, inv j T' []) /\ (forall v, v ∈ order -> is_Some (T' !! v)).
Proof.
  induction fuel as [|fuel IH]; intros k T HI Hall Hf H0; [lia|]. cbn [dom_loop].
  destruct (pass_inv k T HI) as (T' & ch & E & HI' & Hall' & C & Nn); [by right|]. rewrite E. destruct ch.
  - destruct fuel as [|fuel']; [|apply (IH (S k)); [done|done|lia|lia]].
    exfalso. assert (true = false); [|done]. apply Nn; [lia|done].
  - exists T'. split; [done|]. split; [|done]. specialize (C eq_refl). subst T'.
    (* a round that changes nothing keeps raising the level *)
    assert (Hup : forall j, inv (k + j) T []).
    { induction j as [|j IHj]; [by rewrite Nat.add_0_r|]. destruct (pass_inv (k + j) T IHj) as (T2 & ch2 & E2 & HI2 & _); [by right|].
      rewrite E in E2. injection E2 as <- <-. by replace (k + S j) with (S (k + j)) by lia. }
    intros j. specialize (Hup j). destruct Hup as [A B D]. split; [done| |set_solver]. intros v Hv. eapply level_le; [|by apply B]. lia.
Qed.

Lemma init_inv : inv 0 {[e := e]} [].
Proof.
  assert (HT : tree {[e := e]}).
  { split.
    - apply lookup_singleton.
    - intros b d [<- <-]%lookup_singleton_Some. split; [apply e_in|]. rewrite lookup_singleton. eauto.
    - intros b d [<- <-]%lookup_singleton_Some. done.
    - intros b d a [<- <-]%lookup_singleton_Some. done. }
  split; [done| |set_solver]. intros v [d [<- <-]%lookup_singleton_Some]. by apply level_e.
Qed.
Lemma calculate_loop : exists T, dom_loop (S (length order * S (length order))) order pred e {[e := e]} = Some T /\
  (forall j, inv j T []) /\ (forall v, v ∈ order -> is_Some (T !! v)).
Proof.
  destruct (pass_inv 0 {[e := e]} init_inv) as (T & ch & E & HI & Hall & C & _); [by left|]. cbn [dom_loop]. rewrite E. destruct ch.
  - pose proof (po_lt e e_in). apply (loop_inv _ 1); [done|done|lia|lia].
  - specialize (C eq_refl). subst T. destruct (loop_inv (S (length order)) 0 {[e := e]} init_inv Hall) as (T' & E' & H1 & H2); [lia|lia|].
    cbn [dom_loop] in E'. rewrite E in E'. injection E' as <-. eauto.
Qed.
End loop.

(** ** the finished tree *)
Record dom_ok (R : N -> N -> Prop) (d : domi) : Prop := {
  k_order : postorder_ok R (d_entry d) (d_order d);
  k_idom : forall b a, d_idom d !! b = Some a <-> immediately_dominates R (d_entry d) a b;
  k_all : forall b, reach R (d_entry d) b -> b <> d_entry d -> is_Some (d_idom d !! b) }.

Lemma postorder_ok_ext R R' e order : (forall a b, R a b <-> R' a b) -> postorder_ok R e order -> postorder_ok R' e order.
Proof.
  intros H [A B C D]. split; [done| |done|].
  - intros v. rewrite B, !walk_rtc. split; apply rtc_subrel; intros x y; apply H.
  - intros v Hv Hn. destruct (D v Hv Hn) as (l1 & l2 & u & ? & ? & ?). exists l1, l2, u. by rewrite <- H.
Qed.
Lemma dom_calculate_ok R bound succ pred e (U : gset N) : (forall x y, x ∈ U -> y ∈ succ x -> y ∈ U) -> e ∈ U -> (size U <= S bound)%nat ->
  (forall u v, v ∈ succ u <-> R u v) -> (forall u v, u ∈ pred v <-> R u v) ->
  exists d, dom_calculate bound succ pred e = Some d /\ d_entry d = e /\ dom_ok R d.
Proof.
  intros HU He Hb Hs Hp. destruct (calculate_postorder_ok bound succ e U HU He Hb) as (order & E & Hok). unfold dom_calculate. rewrite E.
  apply (postorder_ok_ext _ R) in Hok; [|done].
  destruct (calculate_loop R e order Hok pred) as (T & -> & HI & Hall); [intros; apply Hp|].
  exists (Dom order (delete e T) e). split; [done|]. split; [done|]. cbn.
  destruct (HI (length order)) as [HT HL _].
  assert (Hid : forall b a, b <> e -> T !! b = Some a -> immediately_dominates R e a b).
  { intros b a Hn Hb'. eapply level_idom; [done|done| |apply HL; eauto|done|done]. lia. }
  split; cbn; [done| |].
  - intros b a. destruct (decide (b = e)) as [->|Hn].
    + rewrite lookup_delete. split; [done|]. intros [[H1 H2] _]. by apply dominates_entry in H1.
    + rewrite lookup_delete_ne by done. split; [by apply Hid|]. intros Ha.
      destruct (Hall b) as [a' Ha']; [apply Hok, Ha|]. rewrite Ha'. f_equal. eapply (idom_unique R e order Hok); [by apply Hid|done].
  - intros b Hr Hn. rewrite lookup_delete_ne by done. apply Hall. by apply Hok.
Qed.

Section tree.
Context (R : N -> N -> Prop) (d : domi) (Hd : dom_ok R d).
Notation e := (d_entry d).
Notation n := (length (d_order d)).
Let Hok := k_order R d Hd.
Notation po := (po (d_order d)).

Lemma idom_up b a : d_idom d !! b = Some a -> po b < po a /\ b ∈ d_order d /\ a ∈ d_order d /\ b <> e.
Proof.
  intros [[D Hn] C]%(k_idom R d Hd). pose proof D as D2. destruct (dominates_po R e _ Hok a b D) as [Ha L].
  assert (Hb : b ∈ d_order d) by (apply Hok, D). split; [|split; [done|split; [done|]]].
  - assert (po b <> po a); [|lia]. intros E. apply Hn. symmetry. by eapply (po_inj R e).
  - intros ->. by apply dominates_entry in D2.
Qed.
Lemma order_po_lt v : v ∈ d_order d -> po v < n.
Proof. intros H. by eapply (po_lt R e). Qed.

(** Dominators are what one meets going up. *)
Lemma dominates_cases a b : reach R e b -> dominates R e a b <-> a = b \/ exists c, d_idom d !! b = Some c /\ dominates R e a c.
Proof.
  intros Hb. split.
  - intros H. destruct (decide (a = b)) as [?|Hn]; [by left|right]. destruct (decide (b = e)) as [->|He]; [by apply dominates_entry in H|].
    destruct (k_all R d Hd b Hb He) as [c Hc]. exists c. split; [done|]. apply (k_idom R d Hd) in Hc as [_ C]. by apply C.
  - intros [->|(c & Hc & Ha)]; [by apply dominates_refl|]. apply (k_idom R d Hd) in Hc as [[Hc _] _]. by eapply dominates_trans.
Qed.
Lemma dom_chain_spec fuel : forall b, reach R e b -> n <= fuel + po b -> exists l, dom_chain fuel d b = Some l /\ forall a, a ∈ l <-> dominates R e a b.
Proof.
  induction fuel as [|fuel IH]; intros b Hb Hf.
  - assert (b ∈ d_order d) as Hbo by (by apply Hok). apply order_po_lt in Hbo. lia.
  - cbn [dom_chain]. destruct (N.eqb_spec b e) as [->|Hn].
    + exists [e]. split; [done|]. intros a. rewrite elem_of_list_singleton. split; [intros ->; by apply dominates_refl|apply dominates_entry].
    + destruct (k_all R d Hd b Hb Hn) as [c Hc]. rewrite Hc. destruct (idom_up b c Hc) as (L & _ & Hco & _).
      destruct (IH c) as (l & -> & Hl); [by apply Hok|lia|]. exists (b :: l). split; [done|]. intros a.
      rewrite elem_of_cons, Hl, (dominates_cases a b Hb). split; [intros [?|?]; [by left|right; eauto]|].
      intros [?|(c' & Hc' & ?)]; [by left|right]. by assert (c' = c) as -> by congruence.
Qed.

Lemma fold_insert_chain ks : forall m, (forall k, k ∈ ks -> reach R e k) -> exists m', fold_left (insert_chain d) ks (Some m) = Some m' /\
  forall b a, graph_has m' b a = true <-> graph_has m b a = true \/ (b ∈ ks /\ dominates R e a b).
Proof.
  induction ks as [|k ks IH]; intros m Hk; cbn [fold_left].
  - exists m. split; [done|]. intros b a. split; [by left|]. intros [?|[? _]]; [done|set_solver].
  - destruct (dom_chain_spec (S n) k) as (l & E & Hl); [apply Hk; set_solver|lia|].
    unfold insert_chain at 2. rewrite E. destruct (IH (<[k:=list_to_set l ∪ match m !! k with Some s => s | None => ∅ end]> m)) as (m' & E' & H); [set_solver|].
    exists m'. split; [done|]. intros b a. rewrite H. unfold graph_has at 1. destruct (decide (b = k)) as [->|Hbk].
    + rewrite lookup_insert, bool_decide_eq_true, elem_of_union, elem_of_list_to_set, Hl. unfold graph_has.
      destruct (m !! k) as [s|]; rewrite ?bool_decide_eq_true; set_solver.
    + rewrite lookup_insert_ne by done. fold (graph_has m b a). set_solver.
Qed.
Lemma dominated_by_spec : exists m, dominated_by_graph d = Some m /\ forall b a, graph_has m b a = true <-> dominates R e a b.
Proof.
  unfold dominated_by_graph. destruct (fold_insert_chain (elements (dom (d_idom d))) {[e := {[e]}]}) as (m & E & H).
  { intros k [a Ha]%elem_of_elements%elem_of_dom. apply (k_idom R d Hd) in Ha as [[[? _] _] _]. done. }
  exists m. split; [done|]. intros b a. rewrite H. split.
  - intros [Ha|[_ ?]]; [|done]. unfold graph_has in Ha. destruct (decide (b = e)) as [->|Hn]; [|by rewrite lookup_singleton_ne in Ha].
    rewrite lookup_singleton in Ha. apply bool_decide_eq_true, elem_of_singleton in Ha as ->. apply dominates_refl. exists [e]. constructor.
  - intros Ha. destruct (decide (b = e)) as [->|Hn].
    + apply dominates_entry in Ha as ->. left. unfold graph_has. rewrite lookup_singleton. apply bool_decide_eq_true. set_solver.
    + right. split; [|done]. apply elem_of_elements, elem_of_dom. apply (k_all R d Hd); [apply Ha|done].
Qed.

Lemma graph_has_add k v m b a : graph_has (add_to k v m) b a = true <-> graph_has m b a = true \/ (b = k /\ a = v).
Proof.
  unfold graph_has, add_to. destruct (decide (b = k)) as [->|Hn].
  - rewrite lookup_insert. destruct (m !! k); rewrite ?bool_decide_eq_true; set_solver.
  - rewrite lookup_insert_ne by done. naive_solver.
Qed.
Lemma fold_add_parents child ps : forall m b a, graph_has (fold_left (fun acc parent => add_to parent child acc) ps m) b a = true <->
  graph_has m b a = true \/ (b ∈ ps /\ a = child).
Proof.
  induction ps as [|p ps IH]; intros m b a; cbn [fold_left]; [split; [by left|intros [?|[? _]]; [done|set_solver]]|].
  rewrite IH, graph_has_add. set_solver.
Qed.
Lemma dominates_graph_spec : exists m, dominates_graph d = Some m /\ forall a b, graph_has m a b = true <-> dominates R e a b.
Proof.
  unfold dominates_graph. destruct dominated_by_spec as (m & -> & H). eexists. split; [done|]. intros a b.
  assert (F : forall l acc, graph_has (fold_left (fun acc '(child, s) => fold_left (fun acc parent => add_to parent child acc) (elements s) acc) l acc) a b = true <->
     graph_has acc a b = true \/ exists s : gset N, (b, s) ∈ l /\ a ∈ s).
  { induction l as [|[c s] l IH]; intros acc; cbn [fold_left]; [split; [by left|intros [?|(s & ? & _)]; [done|set_solver]]|].
    rewrite IH, fold_add_parents, elem_of_elements. split.
    - intros [[?|[? ->]]|(s' & ? & ?)]; [by left|right; exists s; set_solver|right; exists s'; set_solver].
    - intros [?|(s' & Hs & ?)]; [by left; left|]. apply elem_of_cons in Hs as [[= -> ->]|Hs]; [left; right; done|right; eauto]. }
  rewrite F, <- H. unfold graph_has at 1. rewrite lookup_empty. split.
  - intros [?|(s & Hs%elem_of_map_to_list & ?)]; [done|]. unfold graph_has. rewrite Hs. by apply bool_decide_eq_true.
  - unfold graph_has. destruct (m !! b) as [s|] eqn:E; [|done]. rewrite bool_decide_eq_true. intros ?. right. exists s. by rewrite elem_of_map_to_list.
Qed.

(** *** frontiers *)
Lemma runner_spec stop b fuel : forall p m, reach R e p -> dominates R e stop p -> n <= fuel + po p ->
  exists m', runner fuel d stop b p m = Some m' /\
  forall x y, graph_has m' x y = true <-> graph_has m x y = true \/ (y = b /\ dominates R e x p /\ ~ dominates R e x stop).
Proof.
  induction fuel as [|fuel IH]; intros p m Hp Hs Hf.
  - assert (p ∈ d_order d) as Hpo by (by apply Hok). apply order_po_lt in Hpo. lia.
  - cbn [runner]. destruct (N.eqb_spec p stop) as [->|Hn].
    + exists m. split; [done|]. intros x y. split; [by left|]. intros [?|(_ & ? & ?)]; done.
    + assert (Hpe : p <> e) by (intros ->; apply dominates_entry in Hs; done).
      destruct (k_all R d Hd p Hp Hpe) as [c Hc]. rewrite Hc. destruct (idom_up p c Hc) as (L & _ & Hco & _).
      assert (Hsc : dominates R e stop c). { apply dominates_cases in Hs as [?|(c' & Hc' & ?)]; [done| |done]. by assert (c = c') as -> by congruence. }
      destruct (IH c (add_to p b m)) as (m' & -> & Hm); [by apply Hok|done|lia|]. exists m'. split; [done|]. intros x y.
      rewrite Hm, graph_has_add, (dominates_cases x p Hp). split.
      * intros [[?|[-> ->]]|(-> & ? & ?)]; [by left| |right; split; [done|]; split; [right; eauto|done]]. right. split; [done|]. split; [by left|].
        intros Hps. destruct (dominates_po R e _ Hok _ _ Hps). destruct (dominates_po R e _ Hok _ _ Hsc). lia.
      * intros [?|(-> & [->|(c' & Hc' & ?)] & ?)]; [by left; left|left; right; done|]. right. assert (c = c') as -> by congruence. done.
Qed.
(** [stop] dominates every reachable parent. *)
Lemma idom_dominates_parent b stop p : d_idom d !! b = Some stop -> R p b -> reach R e p -> dominates R e stop p.
Proof. intros [H _]%(k_idom R d Hd) Hp Hr. by eapply sdom_parent. Qed.
Lemma sdom_idom x b stop : d_idom d !! b = Some stop -> strictly_dominates R e x b <-> dominates R e x stop.
Proof.
  intros H. pose proof (idom_up _ _ H) as (L & Hb & Hs & Hbe). apply (k_idom R d Hd) in H as [[H1 H2] H3]. split; [apply H3|]. intros Hx. split; [by eapply dominates_trans|].
  intros ->. destruct (dominates_po R e _ Hok _ _ Hx). lia.
Qed.

Definition front (preds : N -> list N) (b x : N) : Prop := b <> e /\ reach R e b /\ 2 <= length (preds b) /\ exists p, p ∈ preds b /\ dominates R e x p /\ ~ strictly_dominates R e x b.
Lemma frontier_step_spec preds b m : b ∈ d_order d -> (forall p, p ∈ preds b -> R p b /\ reach R e p) ->
  exists m', frontier_step d preds (Some m) b = Some m' /\ forall x y, graph_has m' x y = true <-> graph_has m x y = true \/ (y = b /\ front preds b x).
Proof.
  intros Hb Hp. unfold frontier_step. destruct (d_idom d !! b) as [stop|] eqn:E.
  - destruct (idom_up b stop E) as (L & _ & Hs & Hbe).
    destruct (Nat.ltb_spec (length (preds b)) 2) as [Hl|Hl].
    + exists m. split; [done|]. intros x y. split; [by left|]. intros [?|(_ & _ & _ & ? & _)]; [done|lia].
    + assert (F : forall ps m, (forall p, p ∈ ps -> R p b /\ reach R e p) -> exists m', fold_left (fun o p => match o with Some m => runner (S n) d stop b p m | None => None end) ps (Some m) = Some m' /\
        forall x y, graph_has m' x y = true <-> graph_has m x y = true \/ (y = b /\ exists p, p ∈ ps /\ dominates R e x p /\ ~ dominates R e x stop)).
      { clear m Hp. induction ps as [|p ps IH]; intros m Hp; cbn [fold_left].
        - exists m. split; [done|]. intros x y. split; [by left|]. intros [?|(_ & p & ? & _)]; [done|set_solver].
        - destruct (Hp p) as [Hpb Hpr]; [set_solver|]. destruct (runner_spec stop b (S n) p m) as (m1 & -> & H1); [done|by eapply idom_dominates_parent|lia|].
          destruct (IH m1) as (m2 & E2 & H2); [intros; apply Hp; set_solver|]. exists m2. split; [done|]. intros x y. rewrite H2, H1. split.
          + intros [[?|(-> & ? & ?)]|(-> & q & ? & ? & ?)]; [by left| |]; right; (split; [done|]); [exists p|exists q]; set_solver.
          + intros [?|(-> & q & Hq & ? & ?)]; [by left; left|]. apply elem_of_cons in Hq as [->|Hq]; [left; right; done|right; split; [done|eauto]]. }
      destruct (F (preds b) m Hp) as (m' & -> & H). exists m'. split; [done|]. intros x y. rewrite H. unfold front. split.
      * intros [?|(-> & p & ? & ? & Hn)]; [by left|right]. split; [done|]. split; [done|]. split; [by apply Hok|]. split; [done|]. exists p. split; [done|]. split; [done|]. by rewrite (sdom_idom x b stop E).
      * intros [?|(-> & _ & _ & _ & p & ? & ? & Hn)]; [by left|right]. split; [done|]. exists p. rewrite (sdom_idom x b stop E) in Hn. done.
  - exists m. split; [done|]. intros x y. split; [by left|]. intros [?|(_ & Hbe & Hr & _)]; [done|]. destruct (k_all R d Hd b Hr Hbe) as [? ?]. congruence.
Qed.
Lemma frontiers_fold preds bs : forall m, (forall b, b ∈ bs -> b ∈ d_order d) -> (forall b p, b ∈ bs -> p ∈ preds b -> R p b /\ reach R e p) ->
  exists m', fold_left (frontier_step d preds) bs (Some m) = Some m' /\ forall x y, graph_has m' x y = true <-> graph_has m x y = true \/ (y ∈ bs /\ front preds y x).
Proof.
  induction bs as [|b bs IH]; intros m Hb Hp; cbn [fold_left].
  - exists m. split; [done|]. intros x y. split; [by left|]. intros [?|[? _]]; [done|set_solver].
  - destruct (frontier_step_spec preds b m) as (m1 & -> & H1); [apply Hb; set_solver|intros; apply Hp; set_solver|].
    destruct (IH m1) as (m2 & E & H2); [set_solver|set_solver|]. exists m2. split; [done|]. intros x y. rewrite H2, H1. set_solver.
Qed.
Lemma dominance_frontiers_spec preds : (forall v u, u ∈ preds v <-> R u v) -> (forall v, NoDup (preds v)) -> (forall p b, R p b -> reach R e b -> reach R e p) ->
  exists m, dominance_frontiers d preds = Some m /\ forall x y, graph_has m x y = true <-> y <> e /\ in_frontier R e x y.
Proof.
  intros HP HN HR. unfold dominance_frontiers. destruct (frontiers_fold preds (List.rev (d_order d)) ∅) as (m & E & H).
  - intros b Hb. by apply elem_of_list_In, in_rev, elem_of_list_In in Hb.
  - intros b p Hb Hp. apply elem_of_list_In, in_rev, elem_of_list_In in Hb. apply HP in Hp. split; [done|]. eapply HR; [done|]. by apply Hok.
  - exists m. split; [done|]. intros x y. rewrite H. unfold graph_has. rewrite lookup_empty. unfold front, in_frontier. split.
    + intros [?|(_ & Hy & Hr & _ & p & Hp & Hx & Hs)]; [done|]. apply HP in Hp. split; [done|]. split; [eauto|done].
    + intros (Hy & (p & Hp & Hx) & Hs). right. assert (Hr : reach R e y). { destruct Hx as [[l W] _]. exists (y :: l). by econstructor. }
      split; [apply elem_of_list_In, in_rev; rewrite rev_involutive; apply elem_of_list_In; by apply Hok|]. split; [done|]. split; [done|]. split; [|exists p; split; [by apply HP|done]].
      (* a single parent's dominators strictly dominate *)
      destruct (le_lt_dec 2 (length (preds y))) as [?|Hl]; [done|]. exfalso. apply Hs. apply HP in Hp as Hp'.
      destruct (preds y) as [|q [|q' l]] eqn:Eq; [set_solver| |cbn in Hl; lia]. apply elem_of_list_singleton in Hp' as ->.
      assert (Hall : dominates R e x y).
      { split; [done|]. intros l W. apply walk_inv in W as (t & -> & [[? _]|(u & W & Hu)]); [done|]. apply HP in Hu. rewrite Eq in Hu. apply elem_of_list_singleton in Hu as ->. apply elem_of_cons. right. by apply Hx. }
      split; [done|]. intros ->. (* y dominates its only parent: impossible *)
      destruct (po_parent R e _ Hok y) as (u & Hu & Huo & L); [by apply Hok|done|]. apply HP in Hu. rewrite Eq in Hu. apply elem_of_list_singleton in Hu as ->.
      destruct (dominates_po R e _ Hok _ _ Hx). lia.
Qed.

(** *** children in the tree, common dominators *)
Lemma immediately_dominated_by_spec p b : b ∈ immediately_dominated_by d p <-> immediately_dominates R e p b.
Proof.
  unfold immediately_dominated_by. rewrite elem_of_sorted, elem_of_dom. rewrite <- (k_idom R d Hd). split.
  - intros [x Hx]. apply map_filter_lookup_Some in Hx as [Hx Hxp]. cbn in Hxp. by subst x.
  - intros H. exists p. by apply map_filter_lookup_Some.
Qed.
Lemma lca_up_spec a s fuel : (forall x, x ∈ s <-> dominates R e x a) -> reach R e a -> forall b, reach R e b -> n <= fuel + po b ->
  exists c, lca_up fuel d s b = Some c /\ closest_common R e c a b.
Proof.
  intros Hs Ha. induction fuel as [|fuel IH]; intros b Hb Hf.
  - assert (b ∈ d_order d) as Hbo by (by apply Hok). apply order_po_lt in Hbo. lia.
  - cbn [lca_up]. case_bool_decide as Hx.
    + exists b. split; [done|]. apply Hs in Hx. split; [done|]. split; [by apply dominates_refl|auto].
    + assert (Hn : b <> e) by (intros ->; apply Hx, Hs; by apply entry_dominates).
      destruct (N.eqb_spec b e) as [?|_]; [done|]. destruct (k_all R d Hd b Hb Hn) as [c Hc]. rewrite Hc. destruct (idom_up b c Hc) as (L & _ & Hco & _).
      destruct (IH c) as (r & E & C1 & C2 & C3); [by apply Hok|lia|]. exists r. split; [done|]. split; [done|].
      split; [eapply dominates_trans; [done|]; by apply (k_idom R d Hd) in Hc as [[? _] _]|].
      intros x Hxa Hxb. apply C3; [done|]. apply dominates_cases in Hxb as [->|(c' & Hc' & ?)]; [|by assert (c = c') as -> by congruence|done].
      destruct Hx. by apply Hs.
Qed.
Lemma lca_spec a b : reach R e a -> reach R e b -> exists c, lca d a b = Some c /\ closest_common R e c a b.
Proof.
  intros Ha Hb. unfold lca. destruct (N.eqb_spec a b) as [->|Hn].
  - exists b. split; [done|]. split; [by apply dominates_refl|]. split; [by apply dominates_refl|auto].
  - destruct (dom_chain_spec (S n) a Ha) as (l & -> & Hl); [lia|]. apply lca_up_spec; [|done|done|lia]. intros x. by rewrite elem_of_list_to_set.
Qed.
Lemma lca_all_spec ns : ns <> [] -> (forall x, x ∈ ns -> reach R e x) -> exists c, lca_all d ns = Some c /\
  (forall x, x ∈ ns -> dominates R e c x) /\ (forall y, (forall x, x ∈ ns -> dominates R e y x) -> dominates R e y c).
Proof.
  destruct ns as [|n0 ns]; [done|]. intros _ Hr. cbn [lca_all].
  assert (F : forall ns a, reach R e a -> (forall x, x ∈ ns -> reach R e x) -> exists c, fold_left (fun o n => match o with Some a => lca d a n | None => None end) ns (Some a) = Some c /\
    dominates R e c a /\ (forall x, x ∈ ns -> dominates R e c x) /\ (forall y, dominates R e y a -> (forall x, x ∈ ns -> dominates R e y x) -> dominates R e y c)).
  { clear n0 ns Hr. induction ns as [|m ns IH]; intros a Ha Hr; cbn [fold_left].
    - exists a. split; [done|]. split; [by apply dominates_refl|]. split; [set_solver|auto].
    - destruct (lca_spec a m Ha) as (c & -> & C1 & C2 & C3); [apply Hr; set_solver|].
      destruct (IH c) as (r & E & D1 & D2 & D3); [by eapply dominates_reach|set_solver|]. exists r. split; [done|]. split; [by eapply dominates_trans|]. split.
      + intros x [->|Hx]%elem_of_cons; [by eapply dominates_trans|auto].
      + intros y Hy Hy'. apply D3; [apply C3; [done|apply Hy'; set_solver]|]. intros x Hx. apply Hy'. set_solver. }
  destruct (F ns n0) as (c & E & D1 & D2 & D3); [apply Hr; set_solver|set_solver|]. exists c. split; [done|]. split.
  - intros x [->|Hx]%elem_of_cons; auto.
  - intros y Hy. apply D3; [apply Hy; set_solver|]. intros x Hx. apply Hy. set_solver.
Qed.
End tree.

(** ** on control flow graphs *)
Lemma dom_of_ok c : built (c_graph c) -> exists d, dom_of c = Some d /\ d_entry d = c_entry c /\ dom_ok (edge (c_graph c)) d.
Proof.
  intros [W1 W2]%built_wf. unfold dom_of. apply (dom_calculate_ok _ _ _ _ _ ({[c_entry c]} ∪ labels (c_graph c))).
  - intros x y _ Hy. unfold children_sorted in Hy. apply elem_of_sorted in Hy. apply W2 in Hy. set_solver.
  - set_solver.
  - rewrite size_union_alt, size_singleton. assert (size (labels (c_graph c) ∖ {[c_entry c]}) <= size (labels (c_graph c)))%nat; [|lia]. apply subseteq_size. set_solver.
  - intros u v. unfold children_sorted. by rewrite elem_of_sorted.
  - intros u v. unfold parents_sorted. rewrite elem_of_sorted. symmetry. apply W1.
Qed.
Lemma postdom_of_ok g exit : built g -> exit ∈ labels g -> exists d, postdom_of g exit = Some d /\ d_entry d = exit /\ dom_ok (fun a b => edge g b a) d.
Proof.
  intros [W1 W2]%built_wf He. unfold postdom_of. apply (dom_calculate_ok _ _ _ _ _ (labels g)).
  - intros x y _ Hy. unfold parents_sorted in Hy. apply elem_of_sorted, W1, W2 in Hy. tauto.
  - done.
  - lia.
  - intros u v. unfold parents_sorted. rewrite elem_of_sorted. symmetry. apply W1.
  - intros u v. unfold children_sorted. by rewrite elem_of_sorted.
Qed.
