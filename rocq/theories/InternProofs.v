(** Proofs about InternModel.v. *)
From Coq Require Import NArith Lia.
From stdpp Require Import base decidable numbers gmap fin_maps sorting list.
From Verif Require Import RustStr RustStrProofs InternModel.
Local Open Scope N_scope.

Section proofs.
Context {V : Type} `{EqDecision V} (make_id : V -> N -> N).

(** The candidates of [v] below [s] are all held by other values. *)
Definition blocked (m : gmap N V) (v : V) (s : N) : Prop :=
  forall k, k < s -> exists w, m !! make_id v k = Some w /\ w <> v.
Definition entries_ok (m : gmap N V) : Prop :=
  forall id v, m !! id = Some v -> exists s, id = make_id v s /\ blocked m v s.
Definition call_ok (m : gmap N V) (c : call (V:=V)) : Prop :=
  match c with Running v s => blocked m v s | Returned v id => m !! id = Some v end.
Definition table_ok (t : table (V:=V)) : Prop :=
  entries_ok (entries t) /\ Forall (call_ok (entries t)) (calls t).

Lemma entries_unique m v a b : entries_ok m -> m !! a = Some v -> m !! b = Some v -> a = b.
Proof.
  intros K A B. destruct (K _ _ A) as (s & -> & Bs), (K _ _ B) as (t & -> & Bt).
  destruct (N.lt_trichotomy s t) as [L|[->|L]]; [|done|].
  - destruct (Bt s L) as (w & E & ?). congruence.
  - destruct (Bs t L) as (w & E & ?). congruence.
Qed.

Lemma blocked_mono m m' v s : m ⊆ m' -> blocked m v s -> blocked m' v s.
Proof.
  intros Sub B k Hk. destruct (B k Hk) as (w & E & ?). exists w. split; [|done].
  by eapply lookup_weaken.
Qed.
Lemma call_ok_mono m m' c : m ⊆ m' -> call_ok m c -> call_ok m' c.
Proof.
  intros Sub. destruct c; cbn; [by apply blocked_mono|]. intros E. by eapply lookup_weaken.
Qed.

Lemma blocked_next m v s : blocked m v s -> (exists w, m !! make_id v s = Some w /\ w <> v) ->
  blocked m v (next_salt s).
Proof.
  intros B W k Hk. unfold next_salt in Hk.
  assert (k < s + 1) as Hk' by (eapply N.lt_le_trans; [exact Hk|apply N.mod_le; done]).
  destruct (N.eq_dec k s) as [->|]; [done|]. apply B. lia.
Qed.

Lemma insert_turn_ok m v s :
  entries_ok m -> blocked m v s ->
  let '(r, m') := insert_turn make_id m v s in
  m ⊆ m' /\ entries_ok m' /\
  match r with TReturn id => m' !! id = Some v | TRetry s' => m' = m /\ blocked m v s' end.
Proof.
  intros K B. unfold insert_turn. destruct (m !! make_id v s) as [w|] eqn:E.
  - destruct (decide (w = v)) as [->|D]; [done|]. split; [done|]. split; [done|]. split; [done|].
    apply blocked_next; eauto.
  - assert (m ⊆ <[make_id v s := v]> m) as Sub by (by apply insert_subseteq).
    split; [done|]. split; [|apply lookup_insert].
    intros id w. destruct (decide (id = make_id v s)) as [->|D].
    + rewrite lookup_insert. intros [= <-]. exists s. split; [done|]. by eapply blocked_mono.
    + rewrite lookup_insert_ne by done. intros X. destruct (K _ _ X) as (s' & -> & B').
      exists s'. split; [done|]. by eapply blocked_mono.
Qed.

Lemma table_step_ok t e :
  table_ok t -> table_ok (table_step make_id t e) /\ entries t ⊆ entries (table_step make_id t e).
Proof.
  intros [K F]. destruct e as [v|i]; cbn [table_step].
  - split; [|done]. split; [done|]. apply Forall_app. split; [done|]. apply Forall_singleton.
    cbn. intros k Hk. lia.
  - destruct (calls t !! i) as [[v s|v id]|] eqn:E; try done.
    pose proof (Forall_lookup_1 _ _ _ _ F E) as B. cbn in B.
    pose proof (insert_turn_ok (entries t) v s K B) as P.
    destruct (insert_turn make_id (entries t) v s) as [[id|s'] m']; destruct P as (Sub & K' & R); cbn.
    + split; [|done]. split; [done|]. apply Forall_insert; [|done].
      eapply Forall_impl; [exact F|]. intros c. by apply call_ok_mono.
    + split; [|done]. split; [done|]. destruct R as [-> R]. apply Forall_insert; done.
Qed.

Lemma table_run_ok es : forall t,
  table_ok t -> table_ok (table_run make_id t es) /\ entries t ⊆ entries (table_run make_id t es).
Proof.
  induction es as [|e es IH]; intros t K; [done|]. cbn.
  destruct (table_step_ok t e K) as [K' S']. destruct (IH _ K') as [K2 S2].
  split; [done|]. by etrans.
Qed.

(** Returned calls stay returned. *)
Lemma returned_stays es : forall t i v id,
  calls t !! i = Some (Returned v id) -> calls (table_run make_id t es) !! i = Some (Returned v id).
Proof.
  induction es as [|e es IH]; intros t i v id E; [done|]. cbn. apply IH.
  destruct e as [w|j]; cbn [table_step].
  - cbn. by apply lookup_app_l_Some.
  - destruct (calls t !! j) as [[w s|w k]|] eqn:Ej; try done.
    assert (i <> j) by congruence.
    destruct (insert_turn make_id (entries t) w s) as [[a|a] m']; cbn; by rewrite list_lookup_insert_ne.
Qed.

Lemma insert_alone_returns turns : forall m v salt,
  (exists k, k < N.of_nat turns /\ salt + k < 2 ^ 64 /\
     (m !! make_id v (salt + k) = None \/ m !! make_id v (salt + k) = Some v)) ->
  exists id m', insert_with_collision make_id turns m v salt = Some (id, m') /\ m' !! id = Some v.
Proof.
  induction turns as [|turns IH]; intros m v salt (k & Hk & Hs & Hm); [lia|].
  cbn [insert_with_collision]. unfold insert_turn.
  destruct (m !! make_id v salt) as [w|] eqn:E.
  - destruct (decide (w = v)) as [->|D]; [eauto|].
    destruct (N.eq_dec k 0) as [->|Hk0].
    + rewrite N.add_0_r, E in Hm. destruct Hm; congruence.
    + apply IH. exists (k - 1). split; [lia|].
      assert (next_salt salt = salt + 1) as -> by (unfold next_salt; apply N.mod_small; lia).
      replace (salt + 1 + (k - 1)) with (salt + k) by lia. done.
  - eexists _, _. split; [done|]. apply lookup_insert.
Qed.

(** A run alone is one schedule of the interleaved system. *)
Lemma insert_alone_ok turns : forall m v salt id m',
  entries_ok m -> blocked m v salt -> insert_with_collision make_id turns m v salt = Some (id, m') ->
  entries_ok m' /\ m ⊆ m' /\ m' !! id = Some v.
Proof.
  induction turns as [|turns IH]; intros m v salt id m' K B E; [done|]. cbn in E.
  pose proof (insert_turn_ok m v salt K B) as P.
  destruct (insert_turn make_id m v salt) as [[a|s'] m1]; destruct P as (Sub & K1 & R).
  - injection E as <- <-. done.
  - destruct R as [-> R]. by apply (IH m v s').
Qed.

End proofs.

Section snapshots.
Context {V : Type} `{EqDecision V}.

Lemma restore_spec (l : list (N * V)) : forall m m',
  restore l m = Some m' -> forall id v, m' !! id = Some v <-> m !! id = Some v \/ (id, v) ∈ l.
Proof.
  induction l as [|[id v] l IH]; intros m m' E.
  - cbn in E. injection E as <-. intros. split; [auto|]. intros [?|H]; [done|]. by apply elem_of_nil in H.
  - cbn in E. unfold insert_with_expected_id in E.
    destruct (m !! id) as [w|] eqn:Em.
    + destruct (decide (w = v)) as [->|]; [|done]. cbn in E. intros id' v'. rewrite (IH _ _ E).
      rewrite elem_of_cons. split; [tauto|]. intros [?|[[= -> ->]|?]]; auto.
    + cbn in E. intros id' v'. rewrite (IH _ _ E), elem_of_cons.
      destruct (decide (id' = id)) as [->|D].
      * rewrite lookup_insert, Em. split; [intros [[= <-]|?]; auto|].
        intros [?|[[= ->]|?]]; auto. done.
      * rewrite lookup_insert_ne by done. split; [tauto|]. intros [?|[[= ? ?]|?]]; auto. done.
Qed.

Lemma restore_total (l : list (N * V)) : forall m,
  (forall id v w, (id, v) ∈ l -> m !! id = Some w -> w = v) ->
  (forall id v w, (id, v) ∈ l -> (id, w) ∈ l -> w = v) -> exists m', restore l m = Some m'.
Proof.
  induction l as [|[id v] l IH]; intros m A B; [eauto|]. cbn. unfold insert_with_expected_id.
  destruct (m !! id) as [w|] eqn:Em.
  - rewrite decide_True by (eapply A; [left|done]). cbn. apply IH.
    + intros. eapply A; [by right|done].
    + intros. eapply B; by right.
  - cbn. apply IH.
    + intros id' v' w H. destruct (decide (id' = id)) as [->|D].
      * rewrite lookup_insert. intros [= <-]. eapply B; [by right|left].
      * rewrite lookup_insert_ne by done. intros. eapply A; [by right|done].
    + intros. eapply B; by right.
Qed.

Lemma snapshot_elements (m : gmap N V) p : p ∈ snapshot m <-> m !! p.1 = Some p.2.
Proof.
  unfold snapshot.
  pose proof (sort_by_perm (fun a b : N * V => N.compare a.1 b.1) (map_to_list m)) as P.
  rewrite P. destruct p as [id v]. by rewrite elem_of_map_to_list.
Qed.

Lemma restore_snapshot_ok (m : gmap N V) : restore (snapshot m) ∅ = Some m.
Proof.
  destruct (restore_total (snapshot m) ∅) as [m' E].
  - intros id v w _ H. by rewrite lookup_empty in H.
  - intros id v w A B. rewrite snapshot_elements in A, B. cbn in *. congruence.
  - rewrite E. f_equal. apply map_eq. intros id. apply option_eq. intros v.
    rewrite (restore_spec _ _ _ E), lookup_empty, snapshot_elements. cbn. split; [by intros [?|?]|auto].
Qed.
End snapshots.

(** The name table. *)
Section names_proofs.
Context (hash_name : list N -> N -> N).

Definition names_ok (ns : names) : Prop :=
  forall name id, by_name ns !! name = Some id <-> by_id ns !! id = Some name.

Lemma names_unique ns n a b : names_ok ns -> by_id ns !! a = Some n -> by_id ns !! b = Some n -> a = b.
Proof. intros K A B. apply K in A, B. congruence. Qed.

Lemma intern_loop_ok turns : forall ns name salt id ns',
  names_ok ns -> by_name ns !! name = None ->
  intern_name_loop hash_name turns ns name salt = Some (id, ns') ->
  names_ok ns' /\ by_id ns ⊆ by_id ns' /\ by_id ns' !! id = Some name.
Proof.
  induction turns as [|turns IH]; intros ns name salt id ns' K F E; [done|]. cbn in E.
  destruct (by_id ns !! hash_name name salt) as [w|] eqn:Eid.
  - destruct (decide (w = name)) as [->|D].
    + apply K in Eid. congruence.
    + by apply (IH ns name (next_salt salt)).
  - injection E as <- <-. cbn. split; [|split; [by apply insert_subseteq|apply lookup_insert]].
    intros n i. cbn. destruct (decide (n = name)) as [->|Dn], (decide (i = hash_name name salt)) as [->|Di].
    + by rewrite !lookup_insert.
    + rewrite lookup_insert, lookup_insert_ne by done. rewrite <- (K name i), F. split; [|done]. congruence.
    + rewrite lookup_insert, lookup_insert_ne by done. rewrite (K n), Eid. split; [done|]. congruence.
    + rewrite !lookup_insert_ne by done. apply K.
Qed.

Lemma intern_name_ok turns ns name id ns' :
  names_ok ns -> intern_name hash_name turns ns name = Some (id, ns') ->
  names_ok ns' /\ by_id ns ⊆ by_id ns' /\ by_id ns' !! id = Some name.
Proof.
  intros K E. unfold intern_name in E. destruct (by_name ns !! name) as [i|] eqn:F.
  - injection E as <- <-. split; [done|]. split; [done|]. by apply K.
  - by eapply intern_loop_ok.
Qed.

Lemma intern_names_ok l : forall ns ids ns',
  names_ok ns -> intern_names hash_name ns l = Some (ids, ns') ->
  names_ok ns' /\ by_id ns ⊆ by_id ns' /\
  Forall2 (fun p id => by_id ns' !! id = Some p.2) l ids.
Proof.
  induction l as [|[turns name] l IH]; intros ns ids ns' K E; cbn [intern_names] in E.
  - injection E as <- <-. auto.
  - apply bind_Some in E as ([id ns1] & E1 & E). apply bind_Some in E as ([ids2 ns2] & E2 & E).
    injection E as <- <-.
    destruct (intern_name_ok _ _ _ _ _ K E1) as (K1 & S1 & L1).
    destruct (IH _ _ _ K1 E2) as (K2 & S2 & F2).
    split; [done|]. split; [by etrans|]. constructor; [|done]. cbn. by eapply lookup_weaken.
Qed.
End names_proofs.
