(** Proofs about the span index. *)
From stdpp Require Import base decidable list numbers sorting sets.
From Coq Require Import NArith Lia ZifyBool.
From Verif Require Import RustStr RustStrProofs RustOrd SpanModel SpanSpec.

Local Open Scope N_scope.

(** ** The order *)
Lemma span_lawful : lawful span_cmp.
Proof. repeat apply lawful_then; apply lawful_on; apply lawful_N || apply lawful_lex. Qed.
Lemma span_cmp_eq x y : span_cmp x y = Eq -> x = y.
Proof.
  intros H. unfold span_cmp in H. apply cmp_then_eq in H as [A H]. apply cmp_then_eq in H as [B H]. apply cmp_then_eq in H as [C D].
  unfold cmp_on in *. apply N.compare_eq_iff in A, B, D. apply lex_cmp_eq in C. destruct x, y; cbn in *. congruence.
Qed.
Lemma precedes_spec x y : precedes x y <-> span_cmp x y <> Gt.
Proof.
  unfold span_cmp, cmp_then, cmp_on, precedes. fold (sp_len x) (sp_len y).
  destruct (N.compare_spec (sp_len x) (sp_len y)) as [A|A|A]; [|split; [done|lia]|split; [lia|done]].
  destruct (N.compare_spec (sp_start x) (sp_start y)) as [B|B|B]; [|split; [done|lia]|split; [lia|done]].
  destruct (lex_cmp (sp_id x) (sp_id y)) eqn:C.
  - apply lex_cmp_eq in C. destruct (N.compare_spec (sp_end x) (sp_end y)) as [D|D|D]; split; try done; intros; try lia.
    + right. split; [done|]. right. split; [done|]. right. split; [done|lia].
    + right. split; [done|]. right. split; [done|]. right. split; [done|lia].
    + destruct H as [?|[_ [?|[_ [?|[_ ?]]]]]]; lia || congruence.
  - split; [done|]. intros _. right. split; [done|]. right. split; [done|]. by left.
  - split; [|done]. intros [?|[_ [?|[_ [?|[E ?]]]]]]; try lia; try congruence. rewrite E in C. rewrite (proj2 (lex_cmp_eq _ _) eq_refl) in C. done.
Qed.
Lemma precedes_refl x : precedes x x.
Proof. apply precedes_spec. by rewrite (lawful_refl _ span_lawful). Qed.
Lemma precedes_trans x y z : precedes x y -> precedes y z -> precedes x z.
Proof. rewrite !precedes_spec. apply span_lawful. Qed.
Lemma precedes_total x y : precedes x y \/ precedes y x.
Proof. rewrite !precedes_spec. apply (lawful_total _ span_lawful). Qed.
Lemma precedes_anti x y : precedes x y -> precedes y x -> x = y.
Proof. rewrite !precedes_spec. intros A B. apply span_cmp_eq. destruct span_lawful as [O _]. rewrite (O x y) in B. by destruct (span_cmp x y). Qed.
Lemma span_min_spec x y : (span_min x y = x \/ span_min x y = y) /\ precedes (span_min x y) x /\ precedes (span_min x y) y.
Proof.
  unfold span_min. destruct (span_cmp x y) eqn:E.
  - split; [auto|]. split; [apply precedes_refl|]. apply precedes_spec. congruence.
  - split; [auto|]. split; [apply precedes_refl|]. apply precedes_spec. congruence.
  - split; [auto|]. split; [|apply precedes_refl]. apply precedes_spec. destruct span_lawful as [O _]. rewrite (O x y), E. done.
Qed.
Lemma span_lt_false x y : span_lt x y = false -> precedes y x.
Proof.
  unfold span_lt. intros H. apply precedes_spec. destruct span_lawful as [O _]. rewrite (O x y). by destruct (span_cmp x y).
Qed.
Lemma span_lt_true x y : span_lt x y = true -> precedes x y.
Proof. unfold span_lt. intros H. apply precedes_spec. by destruct (span_cmp x y). Qed.
Lemma first_with_unique P all r r' : first_with P all r -> first_with P all r' -> r = r'.
Proof.
  destruct r as [s|], r' as [s'|]; cbn; try done.
  - intros (A&B&C) (A'&B'&C'). f_equal. apply precedes_anti; auto.
  - intros (A&B&_) H. by destruct (H _ A).
  - intros H (A&B&_). by destruct (H _ A).
Qed.
Lemma first_with_ext P Q all all' r : (forall s, s ∈ all /\ P s <-> s ∈ all' /\ Q s) -> first_with P all r -> first_with Q all' r.
Proof.
  intros E. destruct r as [s|]; cbn.
  - intros (A&B&C). destruct (proj1 (E s) (conj A B)). split; [done|]. split; [done|]. intros t X Y. destruct (proj2 (E t) (conj X Y)). auto.
  - intros H t X Y. destruct (proj2 (E t) (conj X Y)) as [X' Y']. by destruct (H t).
Qed.
(** Keeping the least while scanning. *)
Lemma fold_min_spec l s : let m := fold_left span_min l s in m ∈ s :: l /\ forall t, t ∈ s :: l -> precedes m t.
Proof.
  cbn. revert s. induction l as [|x l IH]; intros s; cbn.
  - split; [constructor|]. intros t ->%elem_of_list_singleton. apply precedes_refl.
  - destruct (IH (span_min s x)) as [A B]. destruct (span_min_spec s x) as (E&P1&P2). split.
    + apply elem_of_cons in A as [A|A]; [|set_solver]. rewrite A. destruct E as [->| ->]; set_solver.
    + intros t. rewrite !elem_of_cons. intros [->|[->|H]].
      * eapply precedes_trans; [apply B; constructor|done].
      * eapply precedes_trans; [apply B; constructor|done].
      * apply B. by constructor.
Qed.
Lemma set_first_spec active : first_with (fun _ => True) active (set_first active).
Proof.
  destruct active as [|s l]; cbn; [set_solver|]. destruct (fold_min_spec l s) as [A B]. auto.
Qed.

(** ** The sweep *)
Section sweep.
Context (spans : list span) (nonempty : forall s, s ∈ spans -> sp_start s < sp_end s).
Definition holds (o : N) (s : span) : Prop := sp_start s <= o < sp_end s.
Lemma event_in e : e ∈ flat_map events_of spans <-> exists s, s ∈ spans /\ (e = Event (sp_start s) true s \/ e = Event (sp_end s) false s).
Proof.
  rewrite elem_of_list_In, in_flat_map. setoid_rewrite <- elem_of_list_In. split.
  - intros (s&A&B). exists s. split; [done|]. unfold events_of in B. specialize (nonempty s A). unfold sp_empty in B. destruct (N.leb_spec (sp_end s) (sp_start s)); [lia|]. set_solver.
  - intros (s&A&B). exists s. split; [done|]. unfold events_of. specialize (nonempty s A). unfold sp_empty. destruct (N.leb_spec (sp_end s) (sp_start s)); [lia|]. set_solver.
Qed.
(** Segments tell the first span at every offset below [p]. *)
Inductive seg_ok : N -> list segment -> Prop :=
  | so_nil p : (forall o s, o < p -> s ∈ spans -> ~ holds o s) -> seg_ok p []
  | so_snoc p q segs seg : seg_ok p segs -> p <= seg_start seg -> seg_start seg < seg_end seg -> seg_end seg <= q ->
      (forall o s, (p <= o < seg_start seg \/ seg_end seg <= o < q) -> s ∈ spans -> ~ holds o s) ->
      (forall o, seg_start seg <= o < seg_end seg -> first_with (holds o) spans (Some (seg_best seg))) ->
      seg_ok q (segs ++ [seg]).
Lemma seg_ok_extend p q segs : seg_ok p segs -> p <= q -> (forall o s, p <= o < q -> s ∈ spans -> ~ holds o s) -> seg_ok q segs.
Proof.
  intros H L N. destruct H as [p' A|p' q' segs seg S A B C D E].
  - constructor. intros o s X Y. destruct (N.lt_ge_cases o p'); [by apply A|apply N; [lia|done]].
  - apply (so_snoc p'); try done; [lia|]. intros o s X Y. destruct X as [X|X]; [apply D; auto|].
    destruct (N.lt_ge_cases o q'); [apply D; [right; lia|done]|apply N; [lia|done]].
Qed.
Lemma push_ok p q segs b : seg_ok p segs -> p < q -> (forall o, p <= o < q -> first_with (holds o) spans (Some b)) -> seg_ok q (push_segment segs p q b).
Proof.
  intros H L F. unfold push_segment.
  assert (seg_ok q (segs ++ [Segment p q b])) as X.
  { apply (so_snoc p); cbn; try done; try lia. }
  destruct (last segs) as [s|] eqn:E; [|done]. destruct (bool_decide (seg_best s = b) && (seg_end s =? p)) eqn:C; [|done].
  apply andb_prop in C as [C1 C2]. apply bool_decide_eq_true_1 in C1. apply N.eqb_eq in C2.
  destruct H as [p' A|p' q' segs seg S A B C D G]; [done|]. rewrite last_snoc in E. injection E as ->. rewrite removelast_last.
  apply (so_snoc p'); cbn; try done; try lia.
  - intros o t [Y|Y] Z; [apply D; auto|]. lia.
  - intros o Y. destruct (N.lt_ge_cases o (seg_end s)) as [Z|Z]; [apply G; lia|]. rewrite C1. apply F. lia.
Qed.
Lemma take_pos_spec pos evs g rest : take_pos pos evs = (g, rest) -> evs = g ++ rest /\ (forall e, e ∈ g -> ev_pos e = pos) /\ (forall e r, rest = e :: r -> ev_pos e <> pos).
Proof.
  revert g rest. induction evs as [|e evs IH]; intros g rest; cbn.
  - intros [= <- <-]. set_solver.
  - destruct (N.eqb_spec (ev_pos e) pos) as [E|E].
    + destruct (take_pos pos evs) as [g' r']. intros [= <- <-]. destruct (IH _ _ eq_refl) as (->&B&C). split; [done|]. split; [|done]. set_solver.
    + intros [= <- <-]. split; [done|]. split; [set_solver|]. congruence.
Qed.
Lemma run_ends_in g active s : s ∈ run_ends g active <-> s ∈ active /\ forall e, e ∈ g -> ev_starts e = false -> ev_span e <> s.
Proof.
  unfold run_ends. revert active. induction g as [|e g IH]; intros active; cbn.
  - split; [intros; split; [done|set_solver]|by intros [? _]].
  - rewrite IH. destruct (ev_starts e) eqn:E.
    + split; intros [A B]; (split; [done|]); intros e' H; [apply elem_of_cons in H as [->|H]; [congruence|by apply B]|apply B; by constructor].
    + unfold set_remove. rewrite elem_of_list_filter. split.
      * intros [[A1 A2] B]. split; [done|]. intros e' H. apply elem_of_cons in H as [->|H]; [intros _ X; by symmetry in X|by apply B].
      * intros [A B]. split; [split; [|done]|]. { intros X. symmetry in X. revert X. by apply (B e); [constructor|]. } intros e' H. apply B. by constructor.
Qed.
Lemma run_starts_in g active s : s ∈ run_starts g active <-> s ∈ active \/ exists e, e ∈ g /\ ev_starts e = true /\ ev_span e = s.
Proof.
  unfold run_starts. revert active. induction g as [|e g IH]; intros active; cbn.
  - split; [auto|]. intros [?|(?&?&_)]; [done|set_solver].
  - rewrite IH. destruct (ev_starts e) eqn:E.
    + unfold set_insert. split.
      * intros [A|(e'&A&B)]; [|right; exists e'; split; [by constructor|done]]. case_bool_decide; [auto|].
        apply elem_of_cons in A as [->|A]; [right; exists e; split; [constructor|done]|auto].
      * intros [A|(e'&A&B&C)]; [left; case_bool_decide; [done|by constructor]|]. apply elem_of_cons in A as [->|A].
        { left. rewrite C. case_bool_decide; [done|constructor]. } right. eauto.
    + split; (intros [A|(e'&A&B&C)]; [auto|]).
      * right. exists e'. split; [by constructor|done].
      * apply elem_of_cons in A as [->|A]; [congruence|]. right. eauto.
Qed.
Definition ev_le (x y : event) : Prop := ev_pos x <= ev_pos y.
(** Events up to [p] are done, the others are to come. *)
Lemma sweep_ok fuel evs p active segs : (length evs <= fuel)%nat -> StronglySorted ev_le evs ->
  (forall e, e ∈ evs <-> e ∈ flat_map events_of spans /\ p < ev_pos e) ->
  (forall s, s ∈ active <-> s ∈ spans /\ holds p s) -> seg_ok p segs ->
  exists q, seg_ok q (sweep fuel evs (Some p) active segs) /\ forall o s, q <= o -> s ∈ spans -> ~ holds o s.
Proof.
  revert evs p active segs. induction fuel as [|fuel IH]; intros evs p active segs L S R A K.
  - destruct evs; [|cbn in L; lia]. cbn. exists p. split; [done|]. intros o s X Y [Z1 Z2].
    assert (Event (sp_end s) false s ∈ []) as W by (apply R; split; [apply event_in; eauto|cbn; lia]). set_solver.
  - destruct evs as [|e evs].
    { cbn. exists p. split; [done|]. intros o s X Y [Z1 Z2].
      assert (Event (sp_end s) false s ∈ []) as W by (apply R; split; [apply event_in; eauto|cbn; lia]). set_solver. }
    cbn [sweep]. destruct (take_pos (ev_pos e) (e :: evs)) as [g rest] eqn:T. destruct (take_pos_spec _ _ _ _ T) as (E&G&H).
    set (pos := ev_pos e) in *.
    assert (p < pos) as Lp by (apply (R e); constructor).
    assert (forall e', e' ∈ e :: evs -> pos <= ev_pos e') as LE.
    { intros e' X. inversion S as [|? ? S' F]; subst. apply elem_of_cons in X as [->|X]; [done|]. rewrite Forall_forall in F. by apply F. }
    assert (forall o s, p <= o < pos -> s ∈ spans -> holds o s <-> holds p s) as HH.
    { intros o s X Y. unfold holds. split; intros [Z1 Z2].
      - split; [|lia]. destruct (N.le_gt_cases (sp_start s) p); [done|].
        assert (pos <= sp_start s); [|lia]. apply (LE (Event (sp_start s) true s)). apply R. split; [apply event_in; eauto|done].
      - split; [lia|]. assert (pos <= sp_end s); [|lia]. apply (LE (Event (sp_end s) false s)). apply R. split; [apply event_in; eauto|cbn; lia]. }
    destruct (N.ltb_spec p pos); [|lia].
    assert (StronglySorted ev_le rest /\ forall x y, x ∈ g -> y ∈ rest -> ev_le x y) as [Sr Sg].
    { rewrite E in S. clear -S. induction g as [|x g IHg]; cbn in *; [split; [done|set_solver]|]. inversion S as [|? ? S' F]; subst.
      destruct (IHg S') as [X Y]. split; [done|]. intros a b Ha Hb. apply elem_of_cons in Ha as [->|Ha]; [|auto]. rewrite Forall_forall in F. apply F. set_solver. }
    assert (e ∈ g) as eg.
    { destruct g as [|x g]; [|cbn in E; injection E as <- _; constructor]. cbn in E. by destruct (H e evs ltac:(by rewrite E)). }
    apply IH.
    + cbn in L. assert (length (e :: evs) = length (g ++ rest)) as W by (by rewrite E). rewrite app_length in W. cbn in W. destruct g; [set_solver|cbn in W; lia].
    + done.
    + intros e'. split.
      * intros X. assert (e' ∈ e :: evs) as Y by (rewrite E; set_solver). apply R in Y as [Y1 Y2]. split; [done|].
        specialize (Sg e e' eg X). unfold ev_le in Sg. fold pos in Sg. destruct (decide (ev_pos e' = pos)) as [Z|Z]; [|lia].
        destruct rest as [|r rest]; [set_solver|]. specialize (H r rest eq_refl). pose proof (Sg) as _. 
        assert (pos <= ev_pos r) by (apply LE; rewrite E; set_solver).
        inversion Sr as [|? ? S' F]; subst. apply elem_of_cons in X as [->|X]; [done|]. rewrite Forall_forall in F. specialize (F _ X). unfold ev_le in F. lia.
      * intros [X Y]. assert (e' ∈ e :: evs) as Z by (apply R; split; [done|lia]). rewrite E in Z. apply elem_of_app in Z as [Z|Z]; [|done]. apply G in Z. lia.
    + intros s. rewrite run_starts_in, run_ends_in, A. unfold holds. split.
      * intros [[[X [Y1 Y2]] Z]|(e'&X&Y&<-)].
        -- split; [done|]. split; [lia|]. assert (pos <= sp_end s) as W.
           { apply (LE (Event (sp_end s) false s)). apply R. split; [apply event_in; eauto|done]. }
           destruct (decide (sp_end s = pos)) as [V|V]; [|lia]. exfalso.
           assert (Event (sp_end s) false s ∈ e :: evs) as U by (apply R; split; [apply event_in; eauto|cbn; lia]). rewrite E in U.
           apply elem_of_app in U as [U|U]; [by apply (Z _ U)|].
           destruct rest as [|r rest]; [set_solver|]. specialize (H r rest eq_refl). assert (pos <= ev_pos r) by (apply LE; rewrite E; set_solver).
           inversion Sr as [|? ? S' F]; subst. apply elem_of_cons in U as [U|U]; [subst r; cbn in *; lia|]. rewrite Forall_forall in F. specialize (F _ U). unfold ev_le in F. cbn in F. lia.
        -- assert (e' ∈ e :: evs) as U by (rewrite E; set_solver). apply R in U as [U _]. apply event_in in U as (s&U1&[->| ->]); [|done]. cbn in *.
           split; [done|]. apply G in X. cbn in X. specialize (nonempty s U1). lia.
      * intros [X [Y1 Y2]]. destruct (N.le_gt_cases (sp_start s) p) as [Z|Z].
        -- left. split; [split; [done|lia]|]. intros e' U V W. assert (e' ∈ e :: evs) as U' by (rewrite E; set_solver). apply R in U' as [U' _].
           apply event_in in U' as (s'&_&[->| ->]); [done|]. cbn in W. subst s'. apply G in U. cbn in U. lia.
        -- right. exists (Event (sp_start s) true s). split; [|done]. assert (Event (sp_start s) true s ∈ e :: evs) as U by (apply R; split; [apply event_in; eauto|done]).
           assert (sp_start s = pos) as V by (specialize (LE _ U); cbn in LE; lia).
           rewrite E in U. apply elem_of_app in U as [U|U]; [done|]. exfalso.
           destruct rest as [|r rest]; [set_solver|]. specialize (H r rest eq_refl). assert (pos <= ev_pos r) by (apply LE; rewrite E; set_solver).
           inversion Sr as [|? ? S' F]; subst. apply elem_of_cons in U as [U|U]; [subst r; cbn in *; lia|]. rewrite Forall_forall in F. specialize (F _ U). unfold ev_le in F. cbn in F. lia.
    + pose proof (set_first_spec active) as FF. destruct (set_first active) as [b|].
      * apply push_ok; [done|done|]. intros o X. eapply first_with_ext; [|exact FF]. intros s. rewrite A. split.
        -- intros [[Y Z] _]. split; [done|]. by apply HH.
        -- intros [Y Z]. split; [|done]. split; [done|]. by apply (HH o s).
      * eapply seg_ok_extend; [done|lia|]. intros o s X Y Z. apply (FF s); [|done]. apply A. split; [done|]. by apply (HH o s).
Qed.
Lemma build_ok : exists q, seg_ok q (build_segments spans) /\ forall o s, q <= o -> s ∈ spans -> ~ holds o s.
Proof.
  unfold build_segments. set (evs := sort_by event_cmp (flat_map events_of spans)).
  assert (lawful event_cmp) as LW.
  { apply lawful_then; [apply lawful_on, lawful_N|]. apply lawful_then; [apply lawful_on, lawful_bool|]. apply lawful_on, span_lawful. }
  assert (forall e, e ∈ evs <-> e ∈ flat_map events_of spans) as EV by (intros e; unfold evs; by rewrite sort_by_perm).
  assert (StronglySorted ev_le evs) as S.
  { assert (StronglySorted (cle event_cmp) evs) as S by (apply sort_by_sorted; [by apply lawful_total|by apply lawful_trans]).
    clear -S. induction S as [|x l _ IH F]; constructor; [done|]. eapply Forall_impl; [exact F|]. intros y. unfold cle, event_cmp, cmp_then, cmp_on, ev_le.
    destruct (N.compare_spec (ev_pos x) (ev_pos y)); intros; [lia|lia|done]. }
  clearbody evs. destruct evs as [|e evs].
  { cbn. exists 0. split; [constructor; lia|]. intros o s _ H _. assert (Event (sp_start s) true s ∈ []) by (apply EV, event_in; eauto). set_solver. }
  (* the first round, written as a round that starts just before *)
  assert (forall e', e' ∈ e :: evs -> ev_pos e <= ev_pos e') as LE.
  { intros e' X. inversion S as [|? ? S' F]; subst. apply elem_of_cons in X as [->|X]; [done|]. rewrite Forall_forall in F. by apply F. }
  cbn [length sweep]. destruct (take_pos (ev_pos e) (e :: evs)) as [g rest] eqn:T. destruct (take_pos_spec _ _ _ _ T) as (E&G&H). set (pos := ev_pos e) in *.
  assert (StronglySorted ev_le rest /\ forall x y, x ∈ g -> y ∈ rest -> ev_le x y) as [Sr Sg].
  { rewrite E in S. clear -S. induction g as [|x g IHg]; cbn in *; [split; [done|set_solver]|]. inversion S as [|? ? S' F]; subst.
    destruct (IHg S') as [X Y]. split; [done|]. intros a b Ha Hb. apply elem_of_cons in Ha as [->|Ha]; [|auto]. rewrite Forall_forall in F. apply F. set_solver. }
  assert (forall e', e' ∈ rest -> pos < ev_pos e') as LR.
  { intros e' X. destruct rest as [|r rest]; [set_solver|]. specialize (H r rest eq_refl). assert (pos <= ev_pos r) by (apply LE; rewrite E; set_solver).
    inversion Sr as [|? ? S' F]; subst. apply elem_of_cons in X as [->|X]; [lia|]. rewrite Forall_forall in F. specialize (F _ X). unfold ev_le in F. lia. }
  assert (e ∈ g) as eg.
  { destruct g as [|x g]; [|cbn in E; injection E as <- _; constructor]. cbn in E. by destruct (H e evs ltac:(by rewrite E)). }
  apply sweep_ok.
  - assert (length (e :: evs) = length (g ++ rest)) as W by (by rewrite E). rewrite app_length in W. cbn in W. destruct g; [set_solver|cbn in W; lia].
  - done.
  - intros e'. rewrite <- EV, E, elem_of_app. split; [intros X; split; [by right|by apply LR]|]. intros [[X|X] Y]; [apply G in X; lia|done].
  - intros s. rewrite run_starts_in, run_ends_in. unfold holds. split.
    + intros [[X _]|(e'&X&Y&<-)]; [set_solver|]. assert (e' ∈ e :: evs) as U by (rewrite E; set_solver). apply EV in U. apply event_in in U as (s&U1&[->| ->]); [|done]. cbn in *.
      split; [done|]. apply G in X. cbn in X. specialize (nonempty s U1). lia.
    + intros [X [Y1 Y2]]. right. exists (Event (sp_start s) true s). split; [|done].
      assert (Event (sp_start s) true s ∈ e :: evs) as U by (apply EV, event_in; eauto).
      pose proof (LE _ U) as V. cbn in V. rewrite E in U. apply elem_of_app in U as [U|U]; [done|]. apply LR in U. cbn in U. lia.
  - constructor. intros o s X Y [Z1 Z2]. assert (Event (sp_start s) true s ∈ e :: evs) as U by (apply EV, event_in; eauto). apply LE in U. cbn in U. lia.
Qed.
(** ** Looking up a segment *)
Lemma seg_ok_ends p segs seg : seg_ok p segs -> seg ∈ segs -> seg_end seg <= p.
Proof.
  induction 1 as [p A|p q segs s S IH A B C D E]; [set_solver|]. rewrite elem_of_app, elem_of_list_singleton. intros [X| ->]; [|done].
  specialize (IH X). lia.
Qed.
Lemma seg_lookup p segs o : seg_ok p segs -> o < p ->
  first_with (holds o) spans (match segs !! partition_point (fun seg => seg_end seg <=? o) segs with
     | Some seg => if seg_start seg <=? o then Some (seg_best seg) else None | None => None end).
Proof.
  intros K L. set (f := fun seg => seg_end seg <=? o).
  assert (forall (segs : list segment) tl, (forall s, s ∈ segs -> seg_end s <= o) -> partition_point f (segs ++ tl) = (length segs + partition_point f tl)%nat) as PA.
  { induction segs0 as [|s l IH]; intros tl F; cbn; [done|]. unfold f at 1. destruct (N.leb_spec (seg_end s) o) as [X|X]; [|specialize (F s ltac:(constructor)); lia]. rewrite IH; [done|]. intros; apply F; by constructor. }
  assert (forall (segs : list segment) tl s, s ∈ segs -> o < seg_end s -> (partition_point f (segs ++ tl) < length segs)%nat /\
     partition_point f (segs ++ tl) = partition_point f segs) as PB.
  { induction segs0 as [|s l IH]; intros tl t F X; cbn; [set_solver|]. unfold f at 1 3 5. destruct (N.leb_spec (seg_end s) o) as [Y|Y]; [|split; [lia|done]].
    apply elem_of_cons in F as [->|F]; [lia|]. destruct (IH tl t F X) as [U V]. split; [lia|by rewrite V]. }
  induction K as [p A|p q segs seg S IH A B C D E].
  - cbn. intros t H. by apply A.
  - destruct (decide (Exists (fun s => o < seg_end s) segs)) as [(s&Hs&Ho)%Exists_exists|N].
    + destruct (PB segs [seg] s Hs Ho) as [U V]. rewrite V. rewrite V in U. rewrite lookup_app_l by done. apply IH. pose proof (seg_ok_ends _ _ _ S Hs). lia.
    + rewrite PA; [|intros s Hs; destruct (N.le_gt_cases (seg_end s) o); [done|destruct N; apply Exists_exists; eauto]]. cbn. unfold f at 1.
      destruct (N.leb_spec (seg_end seg) o) as [X|X].
      * rewrite lookup_ge_None_2 by (rewrite app_length; cbn; lia). cbn. intros t Ht. apply D; [lia|done].
      * rewrite Nat.add_0_r, list_lookup_middle by done. destruct (N.leb_spec (seg_start seg) o) as [Y|Y]; [apply E; lia|].
        destruct (N.lt_ge_cases o p) as [Z|Z]; [|cbn; intros t Ht; apply D; [lia|done]].
        specialize (IH Z). revert IH. destruct (partition_point _ segs) eqn:PP.
        all: assert (partition_point f (segs ++ []) = length segs) as W by (rewrite PA; [cbn; lia|intros s Hs; destruct (N.le_gt_cases (seg_end s) o); [done|destruct N; apply Exists_exists; eauto]]).
        all: rewrite app_nil_r in W; rewrite PP in W; rewrite W, lookup_ge_None_2 by lia; done.
Qed.
End sweep.

(** ** Queries *)
Lemma best_empty_spec o l b : StronglySorted (fun x y => sp_start x <= sp_start y) l -> (forall s, s ∈ l -> o <= sp_start s) ->
  match best_empty o l b with
  | Some m => ((Some m = b \/ (m ∈ l /\ sp_start m = o)) /\ (forall t, (Some t = b \/ (t ∈ l /\ sp_start t = o)) -> precedes m t))
  | None => b = None /\ forall t, t ∈ l -> sp_start t <> o
  end.
Proof.
  intros S. revert b. induction S as [|s l S IH F]; intros b G; cbn.
  - destruct b as [b|]; [|set_solver]. split; [auto|]. intros t [X|[X _]]; [injection X as ->; apply precedes_refl|set_solver].
  - destruct (N.eqb_spec (sp_start s) o) as [E|E].
    + set (b' := match b with Some c => if span_lt s c then Some s else b | None => Some s end).
      specialize (IH b' ltac:(intros; apply G; by constructor)).
      assert (exists c, b' = Some c /\ (c = s \/ b = Some c) /\ precedes c s /\ (forall d, b = Some d -> precedes c d)) as (c&Ec&C1&C2&C3).
      { unfold b'. destruct b as [c|]; [|exists s; split; [done|split; [auto|split; [apply precedes_refl|done]]]]. destruct (span_lt s c) eqn:X.
        - exists s. split; [done|]. split; [auto|]. split; [apply precedes_refl|]. intros d [= <-]. by apply span_lt_true.
        - exists c. split; [done|]. split; [auto|]. split; [by apply span_lt_false|]. intros d [= <-]. apply precedes_refl. }
      rewrite Ec in *. destruct (best_empty o l (Some c)) as [m|]; [|by destruct IH]. destruct IH as [A B]. split.
      * destruct A as [[= ->]|[A1 A2]]; [|right; split; [by constructor|done]]. destruct C1 as [->|C1]; [right; split; [constructor|done]|auto].
      * intros t [X|[X Y]].
        -- eapply precedes_trans; [apply B; auto|]. by apply C3.
        -- apply elem_of_cons in X as [->|X]; [|apply B; auto]. eapply precedes_trans; [apply B; auto|done].
    + assert (forall t, t ∈ s :: l -> sp_start t <> o) as N.
      { intros t X. pose proof (G s ltac:(constructor)). apply elem_of_cons in X as [->|X]; [done|]. rewrite Forall_forall in F. specialize (F _ X). cbn in F. lia. }
      destruct b as [b|]; [|done]. split; [auto|]. intros t [[= ->]|[X Y]]; [apply precedes_refl|by destruct (N t)].
Qed.
Lemma empties_sorted all : StronglySorted (fun x y => sp_start x <= sp_start y) (sort_by span_cmp (filter (fun s => sp_empty s = true) all)).
Proof.
  assert (StronglySorted (cle span_cmp) (sort_by span_cmp (filter (fun s => sp_empty s = true) all))) as S.
  { apply sort_by_sorted; [apply lawful_total, span_lawful|apply lawful_trans, span_lawful]. }
  assert (Forall (fun s => sp_empty s = true) (sort_by span_cmp (filter (fun s => sp_empty s = true) all))) as F.
  { apply Forall_forall. intros s. rewrite sort_by_perm, elem_of_list_filter. by intros [? _]. }
  revert F. induction S as [|x l _ IH G]; [constructor|]. intros F. apply list.Forall_cons in F as [Fx F]. constructor; [auto|].
  rewrite Forall_forall in F, G |- *. intros y Hy. specialize (F y Hy). specialize (G y Hy). unfold cle, span_cmp, cmp_then, cmp_on, sp_len, sp_empty in *.
  replace (sp_end x - sp_start x) with 0 in G by lia. replace (sp_end y - sp_start y) with 0 in G by lia. cbn in G.
  destruct (N.compare_spec (sp_start x) (sp_start y)); [lia|lia|done].
Qed.
Lemma drop_partition o l : StronglySorted (fun x y => sp_start x <= sp_start y) l ->
  let r := drop (partition_point (fun s => sp_start s <? o) l) l in
  StronglySorted (fun x y => sp_start x <= sp_start y) r /\ (forall s, s ∈ r <-> s ∈ l /\ o <= sp_start s).
Proof.
  cbn. induction 1 as [|x l S IH F]; cbn; [split; [constructor|set_solver]|]. destruct (N.ltb_spec (sp_start x) o) as [L|L].
  - cbn. destruct IH as [A B]. split; [done|]. intros s. rewrite B, elem_of_cons. split; [intros [? ?]; auto|]. intros [[->|?] ?]; [lia|done].
  - cbn. split; [by constructor|]. intros s. split; [|by intros [? _]]. intros X. split; [done|]. apply elem_of_cons in X as [->|X]; [done|].
    rewrite Forall_forall in F. specialize (F s X). cbn in F. lia.
Qed.
Lemma query_span_ok all o : first_with (fun s => covers s o) all (query_span (from_spans all) o).
Proof.
  unfold query_span, from_spans. cbn.
  set (ne := sort_by entry_cmp (filter (fun s => sp_empty s = false) all)). set (em := sort_by span_cmp (filter (fun s => sp_empty s = true) all)).
  assert (forall s, s ∈ ne <-> s ∈ all /\ sp_start s < sp_end s) as NE.
  { intros s. unfold ne. rewrite sort_by_perm, elem_of_list_filter. unfold sp_empty. split; intros [? ?]; (split; [done|lia]) || (split; [lia|done]). }
  assert (forall s, s ∈ em <-> s ∈ all /\ sp_end s <= sp_start s) as EM.
  { intros s. unfold em. rewrite sort_by_perm, elem_of_list_filter. unfold sp_empty. split; intros [? ?]; (split; [done|lia]) || (split; [lia|done]). }
  assert (first_with (holds o) ne (match build_segments ne !! partition_point (fun seg => seg_end seg <=? o) (build_segments ne) with
     | Some seg => if seg_start seg <=? o then Some (seg_best seg) else None | None => None end)) as A.
  { assert (forall s, s ∈ ne -> sp_start s < sp_end s) as P by (intros s ?%NE; tauto). destruct (build_ok ne P) as (q&K&R).
    destruct (N.lt_ge_cases o q) as [L|L].
    - eapply seg_lookup; eassumption.
    - eapply (seg_lookup ne) with (p := o + 1); try lia; try done. eapply seg_ok_extend; [exact K|lia|]. intros o' s X. apply R. lia. }
  destruct (drop_partition o em (empties_sorted all)) as [S D]. pose proof (best_empty_spec o _ None S ltac:(intros s ?%D; tauto)) as B.
  revert A B. generalize (match build_segments ne !! partition_point (fun seg => seg_end seg <=? o) (build_segments ne) with
     | Some seg => if seg_start seg <=? o then Some (seg_best seg) else None | None => None end) as a.
  generalize (best_empty o (drop (partition_point (fun s => sp_start s <? o) em) em) None) as b. intros b a A B.
  assert (first_with (fun s => sp_start s = o) em b) as B'.
  { destruct b as [m|]; cbn.
    - destruct B as [[?|[X Y]] Z]; [done|]. apply D in X as [X _]. split; [done|]. split; [done|]. intros t U V. apply Z. right. split; [apply D; split; [done|lia]|done].
    - destruct B as [_ B]. intros t U V. apply (B t); [|done]. apply D. split; [done|lia]. }
  clear B D S. unfold covers.
  destruct a as [x|], b as [y|]; cbn in A, B' |- *.
  - destruct A as (A1&A2&A3), B' as (B1&B2&B3). apply NE in A1 as [A1 A4]. apply EM in B1 as [B1 B4].
    destruct (span_min_spec x y) as (E&P1&P2). split; [destruct E as [->| ->]; done|]. split.
    + destruct E as [->| ->]; [left; split; [done|apply A2]|right; done].
    + intros t X [[Y1 Y2]|[Y1 Y2]].
      * eapply precedes_trans; [exact P1|]. apply A3; [by apply NE|done].
      * eapply precedes_trans; [exact P2|]. apply B3; [by apply EM|done].
  - destruct A as (A1&A2&A3). apply NE in A1 as [A1 A4]. split; [done|]. split; [left; split; [done|apply A2]|].
    intros t X [[Y1 Y2]|[Y1 Y2]]; [apply A3; [by apply NE|done]|]. destruct (B' t); [by apply EM|done].
  - destruct B' as (B1&B2&B3). apply EM in B1 as [B1 B4]. split; [done|]. split; [by right|].
    intros t X [[Y1 Y2]|[Y1 Y2]]; [|apply B3; [by apply EM|done]]. destruct (A t); [by apply NE|done].
  - intros t X [[Y1 Y2]|[Y1 Y2]]; [destruct (A t); [by apply NE|done]|destruct (B' t); [by apply EM|done]].
Qed.
Lemma by_id_spec id all b : (forall c, b = Some c -> sp_id c = id) ->
  match by_id id all b with
  | Some m => (Some m = b \/ (m ∈ all /\ sp_id m = id)) /\ (forall t, (Some t = b \/ (t ∈ all /\ sp_id t = id)) -> precedes m t)
  | None => b = None /\ forall t, t ∈ all -> sp_id t <> id
  end.
Proof.
  revert b. induction all as [|s l IH]; intros b G; cbn.
  - destruct b as [b|]; [|set_solver]. split; [auto|]. intros t [X|[X _]]; [injection X as ->; apply precedes_refl|set_solver].
  - case_bool_decide as E.
    + set (b' := match b with Some c => if span_lt s c then Some s else b | None => Some s end).
      assert (exists c, b' = Some c /\ (c = s \/ b = Some c) /\ precedes c s /\ (forall d, b = Some d -> precedes c d)) as (c&Ec&C1&C2&C3).
      { unfold b'. destruct b as [c|]; [|exists s; split; [done|split; [auto|split; [apply precedes_refl|done]]]]. destruct (span_lt s c) eqn:X.
        - exists s. split; [done|]. split; [auto|]. split; [apply precedes_refl|]. intros d [= <-]. by apply span_lt_true.
        - exists c. split; [done|]. split; [auto|]. split; [by apply span_lt_false|]. intros d [= <-]. apply precedes_refl. }
      specialize (IH b'). rewrite Ec in *. specialize (IH ltac:(intros d [= <-]; destruct C1 as [->|C1]; auto)).
      destruct (by_id id l (Some c)) as [m|]; [|by destruct IH]. destruct IH as [A B]. split.
      * destruct A as [[= ->]|[A1 A2]]; [|right; split; [by constructor|done]]. destruct C1 as [->|C1]; [right; split; [constructor|done]|auto].
      * intros t [X|[X Y]].
        -- eapply precedes_trans; [apply B; auto|]. by apply C3.
        -- apply elem_of_cons in X as [->|X]; [|apply B; auto]. eapply precedes_trans; [apply B; auto|done].
    + specialize (IH b G). destruct (by_id id l b) as [m|].
      * destruct IH as [A B]. split; [destruct A as [A|[A1 A2]]; [auto|right; split; [by constructor|done]]|].
        intros t [X|[X Y]]; [apply B; auto|]. apply elem_of_cons in X as [->|X]; [done|apply B; auto].
      * destruct IH as [A B]. split; [done|]. intros t X. apply elem_of_cons in X as [->|X]; [done|auto].
Qed.
(** Both slices that are searched are partitioned by the predicate. *)
Lemma segments_partitioned all o k k' s s' : ix_segments (from_spans all) !! k = Some s -> ix_segments (from_spans all) !! k' = Some s' -> (k <= k')%nat -> seg_end s' <= o -> seg_end s <= o.
Proof.
  cbn. set (ne := sort_by entry_cmp (filter (fun s => sp_empty s = false) all)).
  assert (forall s, s ∈ ne -> sp_start s < sp_end s) as P.
  { intros t. unfold ne. rewrite sort_by_perm, elem_of_list_filter. unfold sp_empty. intros [? _]. lia. }
  destruct (build_ok ne P) as (q&K&_). intros H H' L E.
  enough (seg_end s <= seg_end s') by lia. clear E. revert k k' s s' H H' L. induction K as [p A|p q segs seg S IH A B C D E]; intros k k' s s' H H' L; [done|].
  apply lookup_app_Some in H, H'. destruct H as [H|[L1 H]], H' as [H'|H'].
  - eauto.
  - destruct H' as [_ [_ <-]%list_lookup_singleton_Some]. apply elem_of_list_lookup_2 in H. assert (seg_end s <= p) by (eapply seg_ok_ends; eauto). lia.
  - apply lookup_lt_Some in H'. lia.
  - destruct H' as [_ [_ <-]%list_lookup_singleton_Some]. apply list_lookup_singleton_Some in H as [_ <-]. lia.
Qed.
