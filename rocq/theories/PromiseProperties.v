(** C18, C19, C58: promises. *)
From stdpp Require Import base decidable list numbers.
From Coq Require Import NArith Lia.
From Verif Require Import VmBase HeapModel HeapObjModel HeapSpec HeapInvProofs HeapObjProofs HeapHistory HeapHistoryProofs
  HeapFrameProofs HeapApiProofs JobsModel JobsProofs PromiseModel PromiseSpec PromiseProofs.

Open Scope N_scope.

(** ** C18: settled once, every reaction delivered once, in order. *)

(** In every history of fulfil, reject and then calls on a fresh promise, with any other
    heap calls (including collections) in between: no reaction is scheduled while the
    promise is pending; once it is settled, the jobs scheduled are those of the registered
    reactions of the right kind, in registration order, each once, with the settlement
    value. (If some call failed, typically for lack of memory, jobs can be missing but none
    is duplicated or out of order.) The bound on collections is that of C04. *)
Theorem reactions_delivered_once_in_order : forall h c p q cs h' es ok,
  reachable_state h -> live_as h p (HPromise q) -> fresh_promise q ->
  prun c p cs h = (h', es, ok) -> Forall (leaves_alone p) cs ->
  live h' p -> h_gc_runs h' < h_gc_runs h + two32 ->
  exists q', live_as h' p (HPromise q') /\
    match pr_state q' with
    | Pending => jobs es = []
    | st => exists v, pr_result q' = Some v /\ sublist (jobs es) (owed st v (registered es)) /\
              (ok = true -> jobs es = owed st v (registered es))
    end.
Proof.
  intros h c p q cs h' es ok Hr L (F1 & F2 & F3 & F4) E Ha L' R. apply reachable_state_ok in Hr.
  destruct (prun_invariant c p (fun _ es b q => delivered b q (registered es) (jobs es))) with
    (cs := cs) (cs0 := @nil pcall) (es0 := @nil effect) (b0 := true) (h := h) (h' := h') (es := es) (b := ok) (q := q) as (q' & A & B); auto.
  - intros cs1 es1 b1 q1 call x es2 q2 I S. rewrite registered_app, jobs_app. eapply delivered_step; eauto.
  - unfold delivered. rewrite F1. cbn. split; [done|]. by exists [], [].
  - exists q'. split; [done|]. cbn in B. unfold delivered in B. destruct (pr_state q'); [tauto| |].
    + destruct B as (v & B1 & B2). exists v. split; [done|]. split; [eapply rel_sub, B2|]. by intros ->.
    + destruct B as (v & B1 & B2). exists v. split; [done|]. split; [eapply rel_sub, B2|]. by intros ->.
Qed.
Print Assumptions reactions_delivered_once_in_order.

(** Once settled, a promise keeps its state and result in every further history of such calls. *)
Theorem settled_forever : forall h c p q cs h' es ok,
  reachable_state h -> live_as h p (HPromise q) -> pr_state q <> Pending ->
  prun c p cs h = (h', es, ok) -> Forall (leaves_alone p) cs ->
  live h' p -> h_gc_runs h' < h_gc_runs h + two32 ->
  exists q', live_as h' p (HPromise q') /\ pr_state q' = pr_state q /\ pr_result q' = pr_result q.
Proof.
  intros h c p q cs h' es ok Hr L Hs E Ha L' R. apply reachable_state_ok in Hr.
  destruct (prun_invariant c p (fun _ _ _ q' => pr_state q' = pr_state q /\ pr_result q' = pr_result q)) with
    (cs := cs) (cs0 := @nil pcall) (es0 := @nil effect) (b0 := true) (h := h) (h' := h') (es := es) (b := ok) (q := q) as (q' & A & B & C); auto.
  - intros cs1 es1 b1 q1 call x es2 q2 [I1 I2] (S & _)%step_settled. rewrite I1, I2 in S. auto.
  - by exists q'.
Qed.
Print Assumptions settled_forever.

(** The first settlement is the one that counts: a pending promise takes the state and
    value of the first fulfil or reject call, and the later ones change nothing. *)
Theorem first_settlement_wins : forall h c p q cs1 call cs2 h' es ok,
  reachable_state h -> live_as h p (HPromise q) -> pr_state q = Pending ->
  (match call with CallFulfill _ | CallReject _ => True | _ => False end) ->
  Forall (fun x => match x with CallFulfill _ | CallReject _ => False | _ => True end) cs1 ->
  prun c p (cs1 ++ call :: cs2) h = (h', es, ok) -> Forall (leaves_alone p) (cs1 ++ call :: cs2) ->
  live h' p -> h_gc_runs h' < h_gc_runs h + two32 ->
  exists q', live_as h' p (HPromise q') /\
    match call with
    | CallFulfill v => pr_state q' = Fulfilled /\ pr_result q' = Some v
    | CallReject v => pr_state q' = Rejected /\ pr_result q' = Some v
    | _ => False
    end.
Proof.
  intros h c p q cs1 call cs2 h' es ok Hr L Hs Hc H1 E Ha L' R. apply reachable_state_ok in Hr.
  set (settle := fun x : pcall => match x with CallFulfill _ | CallReject _ => true | _ => false end).
  set (I := fun (cs : list pcall) (_ : list effect) (_ : bool) (q' : js_promise) =>
    match list_find (fun x => settle x = true) cs with
    | None => pr_state q' = Pending
    | Some (_, CallFulfill v) => pr_state q' = Fulfilled /\ pr_result q' = Some v
    | Some (_, CallReject v) => pr_state q' = Rejected /\ pr_result q' = Some v
    | _ => False
    end).
  destruct (prun_invariant c p I) with
    (cs := cs1 ++ call :: cs2) (cs0 := @nil pcall) (es0 := @nil effect) (b0 := true) (h := h) (h' := h') (es := es) (b := ok) (q := q) as (q' & A & B); auto.
  - intros csx es1 b1 q1 cl x es2 q2 I1 S. subst I. cbn beta in *.
    destruct (list_find (fun x => settle x = true) csx) as [[i y]|] eqn:El.
    + erewrite list_find_app_l by exact El. destruct (step_settled _ _ _ _ _ _ S) as (Q & _).
      destruct y as [v|v|f r|o]; try done; destruct I1 as [I1 I2]; rewrite I1, I2 in Q; apply Q; done.
    + rewrite list_find_app_r by done. cbn [list_find].
      destruct cl as [v|v|f r|o]; cbn [step_post] in S; rewrite ?I1 in S; cbn in S |- *.
      * rewrite decide_True by done. cbn. destruct S as [-> _]. done.
      * rewrite decide_True by done. cbn. destruct S as [-> _]. done.
      * rewrite decide_False by done. cbn. destruct (step_settled p q1 (CallThen f r) x es2 q2 S) as (_ & _ & _ & Q). auto.
      * rewrite decide_False by done. cbn. destruct S as [-> _]. done.
  - exists q'. split; [done|]. subst I. cbn beta in B. cbn [app] in B.
    rewrite list_find_app_r in B.
    + cbn [list_find] in B. destruct call as [v|v|f r|o]; try done; rewrite decide_True in B by done; exact B.
    + apply list_find_None. rewrite Forall_forall in H1 |- *. intros y Hy. specialize (H1 y Hy). by destruct y.
Qed.
Print Assumptions first_settlement_wins.

(** The rejection tracker hears of the promise exactly when it is rejected with no [then]
    before, and then once more exactly when [then] is called afterwards. *)
Theorem rejection_tracked_once : forall h c p q cs1 v cs2 h' es ok,
  reachable_state h -> live_as h p (HPromise q) -> pr_state q = Pending -> pr_handled q = false ->
  Forall (fun x => match x with CallFulfill _ | CallReject _ => False | _ => True end) cs1 ->
  prun c p (cs1 ++ CallReject v :: cs2) h = (h', es, ok) -> Forall (leaves_alone p) (cs1 ++ CallReject v :: cs2) ->
  live h' p -> h_gc_runs h' < h_gc_runs h + two32 ->
  tracked es = if existsb is_then cs1 then [] else (p, false) :: (if existsb is_then cs2 then [(p, true)] else []).
Proof.
  intros h c p q cs1 v cs2 h' es ok Hr L Hs Hh H1 E Ha L' R. apply reachable_state_ok in Hr.
  set (spec := fun (a b : list pcall) => if existsb is_then a then [] else (p, false) :: (if existsb is_then b then [(p, true)] else [])).
  set (I := fun (cs : list pcall) (es : list effect) (_ : bool) (q' : js_promise) =>
    (Forall (fun x => match x with CallFulfill _ | CallReject _ => False | _ => True end) cs ->
       pr_state q' = Pending /\ pr_handled q' = existsb is_then cs /\ tracked es = []) /\
    (forall a w b, cs = a ++ CallReject w :: b -> Forall (fun x => match x with CallFulfill _ | CallReject _ => False | _ => True end) a ->
       pr_state q' = Rejected /\ pr_handled q' = existsb is_then a || existsb is_then b /\ tracked es = spec a b)).
  destruct (prun_invariant c p I) with
    (cs := cs1 ++ CallReject v :: cs2) (cs0 := @nil pcall) (es0 := @nil effect) (b0 := true) (h := h) (h' := h') (es := es) (b := ok) (q := q) as (q' & A & B & B2); auto.
  - intros csx es1 b1 q1 cl x es2 q2 [I1 I2] S. destruct (step_settled _ _ _ _ _ _ S) as (S1 & S2 & S3 & S4).
    subst I. cbn beta. rewrite tracked_app. split.
    + intros F. apply Forall_app in F as [F1 F2]. destruct (I1 F1) as (J1 & J2 & J3). specialize (S4 J1).
      rewrite J3, S3, S2, J1, J2, existsb_app. rewrite Forall_singleton in F2. destruct cl; try done; cbn [existsb]; rewrite ?orb_false_r; auto.
    + intros a w b Eq F. destruct b as [|z b _] using rev_ind.
      * apply app_inj_tail in Eq as [-> ->]. destruct (I1 F) as (J1 & J2 & J3). rewrite (S4 J1), S2, S3, J1, J2, J3. unfold spec.
        split; [done|]. split; [cbn; by rewrite !orb_false_r|]. cbn. by destruct (existsb is_then a).
      * rewrite app_comm_cons, app_assoc in Eq. apply app_inj_tail in Eq as [-> ->]. destruct (I2 a w b eq_refl F) as (J1 & J2 & J3).
        destruct S1 as [S1 _]; [by rewrite J1|]. rewrite S1, S2, S3, J1, J2, J3, existsb_app. cbn [existsb]. rewrite orb_false_r, orb_assoc.
        split; [done|]. split; [done|]. unfold spec. rewrite existsb_app. cbn [existsb]. rewrite orb_false_r.
        destruct z; cbn; destruct (existsb is_then a), (existsb is_then b); done.
  - split; [intros _; by cbn|]. intros a w b Eq. by destruct a.
  - cbn [app] in B2. destruct (B2 _ _ _ eq_refl H1) as (_ & _ & T). exact T.
Qed.
Print Assumptions rejection_tracked_once.

(** The engine's internal promise record (used by [await]): the same guarantees. *)
Theorem record_reactions_once_in_order : forall c handle cs h p' h' es ok,
  rrun c cs (record_pending handle) h = (p', h', es, ok) ->
  match rp_state p' with
  | RPending => rjobs es = []
  | st => sublist (rjobs es) (rowed st (rregistered es)) /\ (ok = true -> rjobs es = rowed st (rregistered es))
  end.
Proof.
  intros c handle cs h p' h' es ok E.
  assert (D : rdelivered true (record_pending handle) [] []) by done.
  pose proof (rrun_delivered _ _ _ _ _ _ _ _ _ _ _ E D) as K. cbn in K. unfold rdelivered in K. destruct (rp_state p'); [tauto| |].
  - split; [eapply rel_sub, K|]. by intros ->.
  - split; [eapply rel_sub, K|]. by intros ->.
Qed.
Print Assumptions record_reactions_once_in_order.

Theorem record_fulfilled_reactions : forall c v cs h p' h' es ok,
  rrun c cs (record_fulfilled v) h = (p', h', es, ok) ->
  rp_state p' = RFulfilled v /\ rtracked es = [] /\
  sublist (rjobs es) (rowed (RFulfilled v) (rregistered es)) /\ (ok = true -> rjobs es = rowed (RFulfilled v) (rregistered es)).
Proof.
  intros c v cs h p' h' es ok E.
  assert (D : rdelivered true (record_fulfilled v) [] []) by done.
  pose proof (rrun_delivered _ _ _ _ _ _ _ _ _ _ _ E D) as K. cbn in K. unfold rdelivered in K.
  assert (S : forall cs p h p' h' es ok, rrun c cs p h = (p', h', es, ok) -> rp_state p = RFulfilled v -> rp_handled p = true ->
    rp_state p' = RFulfilled v /\ rtracked es = []).
  { clear. induction cs as [|call cs IH]; intros p h p' h' es ok E Hs Hh; cbn [rrun] in E; [by injection E as <- <- <- <-|].
    destruct (rexec c call p h) as [[[p1 h1] es1] x1] eqn:E1. destruct (rrun c cs p1 h1) as [[[p2 h2] es2] ok2] eqn:E2. injection E as <- <- <- <-.
    destruct (rexec_state _ _ _ _ _ _ _ _ E1) as (_ & A & _ & B & _ & _ & T). destruct (IH _ _ _ _ _ _ E2) as [C1 C2]; [rewrite A; by rewrite Hs|auto|].
    split; [done|]. rewrite rtracked_app, C2, T, Hs. by destruct call. }
  destruct (S _ _ _ _ _ _ _ E eq_refl eq_refl) as [S1 S2]. rewrite S1 in K. split; [done|]. split; [done|].
  split; [eapply rel_sub, K|]. by intros ->.
Qed.
Print Assumptions record_fulfilled_reactions.

Theorem record_settled_forever : forall c cs p h p' h' es ok,
  rrun c cs p h = (p', h', es, ok) -> rp_state p <> RPending -> rp_state p' = rp_state p.
Proof.
  intros c cs. induction cs as [|call cs IH]; intros p h p' h' es ok E Hs; cbn [rrun] in E; [by injection E as <- <- <- <-|].
  destruct (rexec c call p h) as [[[p1 h1] es1] x1] eqn:E1. destruct (rrun c cs p1 h1) as [[[p2 h2] es2] ok2] eqn:E2. injection E as <- <- <- <-.
  destruct (rexec_state _ _ _ _ _ _ _ _ E1) as (_ & A & _). specialize (A Hs). rewrite <- A. eapply IH; eauto. by rewrite A.
Qed.
Print Assumptions record_settled_forever.

(** With a handle to report about, the record's rejection is reported exactly if no reject
    handler was registered before, and reported handled exactly if one is registered later. *)
Theorem record_rejection_tracked_once : forall c y cs1 v cs2 h p1 h1 es1 ok1 p2 h2 es2 ok2,
  Forall (fun x => match x with RcReject _ => False | _ => True end) cs1 ->
  rrun c cs1 (record_pending (Some y)) h = (p1, h1, es1, ok1) ->
  rrun c (RcReject v :: cs2) p1 h1 = (p2, h2, es2, ok2) ->
  rtracked es1 = [] /\
  (reject_handler_registered es1 -> rtracked es2 = []) /\
  (~ reject_handler_registered es1 -> reject_handler_registered es2 -> rtracked es2 = [(y, false); (y, true)]) /\
  (~ reject_handler_registered es1 -> ~ reject_handler_registered es2 -> rtracked es2 = [(y, false)]).
Proof.
  assert (split_reg : forall a b, reject_handler_registered (a ++ b) <-> reject_handler_registered a \/ reject_handler_registered b).
  { intros a b. unfold reject_handler_registered. rewrite rregistered_app. split.
    - intros (f & r & [X|X]%elem_of_app & Y); [left|right]; by exists f, r.
    - intros [(f & r & X & Y)|(f & r & X & Y)]; exists f, r; rewrite elem_of_app; auto. }
  assert (step : forall c call p h p' h' es x, rexec c call p h = (p', h', es, x) -> (rp_handled p' = true <-> rp_handled p = true \/ reject_handler_registered es)).
  { intros c call p h p' h' es x E. destruct (rexec_state _ _ _ _ _ _ _ _ E) as (_ & _ & _ & A & B & C & _). split.
    - intros X. destruct (B X) as [?|(g & r & Y & Z)]; [by left|]. right. exists g, r. rewrite Y. split; [apply elem_of_list_singleton|]; done.
    - intros [X|(g & r & X & Y)]; [auto|]. by eapply C. }
  assert (before : forall c y cs p h p1 h1 es1 ok1, Forall (fun x => match x with RcReject _ => False | _ => True end) cs ->
    rrun c cs p h = (p1, h1, es1, ok1) -> rp_state p = RPending -> rp_handle p = Some y ->
    rp_state p1 = RPending /\ rp_handle p1 = Some y /\ rtracked es1 = [] /\ (rp_handled p1 = true <-> rp_handled p = true \/ reject_handler_registered es1)).
  { intros c y cs. induction cs as [|call cs IH]; intros p h p1 h1 es1 ok1 F E Hs Hy; cbn [rrun] in E.
    { injection E as <- <- <- <-. split; [done|]. split; [done|]. split; [done|]. split; [auto|]. intros [?|(f & r & X & _)]; [done|]. by apply elem_of_nil in X. }
    destruct (rexec c call p h) as [[[p2 h2] es2] x2] eqn:E1. destruct (rrun c cs p2 h2) as [[[p3 h3] es3] ok3] eqn:E2. injection E as <- <- <- <-.
    apply list.Forall_cons in F as [F1 F2].
    destruct (rexec_state _ _ _ _ _ _ _ _ E1) as (A1 & _ & A2 & _ & _ & _ & A3). pose proof (step _ _ _ _ _ _ _ _ E1) as A4. specialize (A2 Hs).
    destruct (IH _ _ _ _ _ _ F2 E2) as (B1 & B2 & B3 & B4); [by destruct call|congruence|].
    split; [done|]. split; [done|]. rewrite rtracked_app, B3, A3, Hs. split; [by destruct call|].
    rewrite B4, A4, split_reg. tauto. }
  assert (after : forall c y cs p h p1 h1 es1 ok1,
    rrun c cs p h = (p1, h1, es1, ok1) -> (exists v, rp_state p = RRejected v) -> rp_handle p = Some y ->
    (rp_handled p = true -> rtracked es1 = []) /\
    (rp_handled p = false -> reject_handler_registered es1 -> rtracked es1 = [(y, true)]) /\
    (rp_handled p = false -> ~ reject_handler_registered es1 -> rtracked es1 = [])).
  { intros c y cs. induction cs as [|call cs IH]; intros p h p1 h1 es1 ok1 E [v Hs] Hy; cbn [rrun] in E.
    { injection E as <- <- <- <-. split; [done|]. split; [|done]. intros _ (f & r & X & _). by apply elem_of_nil in X. }
    destruct (rexec c call p h) as [[[p2 h2] es2] x2] eqn:E1. destruct (rrun c cs p2 h2) as [[[p3 h3] es3] ok3] eqn:E2. injection E as <- <- <- <-.
    destruct (rexec_state _ _ _ _ _ _ _ _ E1) as (A1 & A2 & _ & _ & _ & _ & A3). pose proof (step _ _ _ _ _ _ _ _ E1) as A4.
    rewrite Hs, Hy in A3. specialize (A2 ltac:(by rewrite Hs)).
    destruct (IH _ _ _ _ _ _ E2) as (B1 & B2 & B3); [exists v; congruence|congruence|].
    rewrite rtracked_app, !split_reg. destruct (rp_handled p) eqn:Hp.
    - split; [|split; done]. intros _. rewrite B1 by tauto. rewrite A3. by destruct call.
    - split; [done|]. destruct (rp_handled p2) eqn:Hp2.
      + assert (reject_handler_registered es2) by (destruct (proj1 A4 eq_refl); done). rewrite (B1 eq_refl), A3. split; [|tauto]. intros _ _.
        destruct call as [w|f r|o]; try done; cbn [rexec] in E1.
        * exfalso. unfold record_reject in E1. rewrite Hs in E1. injection E1 as <- <- <- <-. congruence.
        * exfalso. destruct (exec o h). injection E1 as <- <- <- <-. congruence.
      + assert (N : ~ reject_handler_registered es2) by (intros X; destruct A4 as [_ A4]; discriminate A4; by right).
        assert (T : rtracked es2 = []) by (rewrite A3; by destruct call). rewrite T. cbn [app]. split; [|tauto].
        intros _ [X|X]; [tauto|]. auto. }
  intros c y cs1 v cs2 h p1 h1 es1 ok1 p2 h2 es2 ok2 F E1 E2.
  destruct (before _ _ _ _ _ _ _ _ _ F E1 eq_refl eq_refl) as (A1 & A2 & A3 & A4). split; [done|]. cbn [rp_handled record_pending] in A4.
  cbn [rrun] in E2. destruct (rexec c (RcReject v) p1 h1) as [[[p3 h3] es3] x3] eqn:E3. destruct (rrun c cs2 p3 h3) as [[[p4 h4] es4] ok4] eqn:E4. injection E2 as <- <- <- <-.
  destruct (rexec_state _ _ _ _ _ _ _ _ E3) as (B1 & _ & B2 & _ & _ & _ & B3). rewrite A1, A2 in B3. specialize (B2 A1).
  destruct (after _ y _ _ _ _ _ _ _ E4) as (C1 & C2 & C3); [by eexists|congruence|].
  assert (N3 : ~ reject_handler_registered es3).
  { cbn [rexec] in E3. unfold record_reject in E3. rewrite A1 in E3. destruct (record_enqueue_all _ v h1) as [[h5 es5] x5] eqn:E5.
    injection E3 as <- <- <- <-. destruct (record_enqueue_all_spec _ _ _ _ _ _ E5) as (R1 & _). intros (f & r & X & _).
    rewrite rregistered_app, R1 in X. destruct (rp_handled p1), (rp_handle p1); cbn in X; by apply elem_of_nil in X. }
  pose proof (step _ _ _ _ _ _ _ _ E3) as B4.
  rewrite rtracked_app, !split_reg, B3. destruct (rp_handled p1) eqn:Hp.
  - assert (K : reject_handler_registered es1) by (destruct (proj1 A4 eq_refl); done).
    split; [|tauto]. intros _. rewrite C1; [done|]. apply B4. by left.
  - assert (K : ~ reject_handler_registered es1) by (intros X; destruct A4 as [_ A4]; discriminate A4; by right).
    assert (Hp3 : rp_handled p3 = false).
    { destruct (rp_handled p3) eqn:Y; [|done]. destruct (proj1 B4 eq_refl) as [?|?]; [congruence|tauto]. }
    split; [tauto|]. split; [intros _ [X|X]; [tauto|]; by rewrite C2|]. intros _ X. rewrite C3; [done|done|tauto].
Qed.
Print Assumptions record_rejection_tracked_once.

(** A history: [then], a collection, reject, fulfil, [then] again. *)
Definition pdemo_env : vm_env := VmEnv (HId 2 0) (HId 2 0) 7 None (fun _ => None).
Definition pdemo_p : heap_id := HId 0 0.
Definition pdemo_ops : list op := [OpAllocPromise None; OpAddRoot (VObject pdemo_p); OpAllocString [102]; OpAllocObject; OpAddRoot (VObject (HId 2 0));
  OpAllocUser 0 (HId 1 0) 0; OpAddRoot (VObject (HId 3 0))].
Definition pdemo : heap := run pdemo_ops demo_heap.
Definition pdemo_calls : list pcall :=
  [CallThen (VObject (HId 3 0)) VUndefined; CallHeap OpCollect; CallReject (VBool true); CallFulfill VNull; CallThen VUndefined (VObject (HId 3 0))].
Example promise_history_case :
  reachable_state pdemo /\
  (match resolve pdemo pdemo_p with Some (HPromise q) => fresh_promise q | _ => False end) /\
  Forall (leaves_alone pdemo_p) pdemo_calls /\
  let '(h', es, ok) := prun pdemo_env pdemo_p pdemo_calls pdemo in
  ok = true /\ liveb h' pdemo_p = true /\ h_gc_runs h' <? h_gc_runs pdemo + two32 = true /\
  (match resolve h' pdemo_p with Some (HPromise q) => pr_state q = Rejected /\ pr_result q = Some (VBool true) | _ => False end) /\
  map snd (jobs es) = [VBool true; VBool true] /\ length (registered es) = 2%nat /\ tracked es = [].
Proof.
  split; [exists demo_layout, 1000000, 1000000, pdemo_ops; split; [apply demo_limits|done]|]. split; [vm_compute; repeat split|].
  split; [repeat constructor; intros X; by inversion X|]. vm_compute. repeat split.
Qed.
Definition pdemo_calls2 : list pcall := [CallReject (VBool true); CallThen VUndefined VUndefined; CallThen VUndefined VUndefined].
Example promise_tracked_case : let '(_, es, _) := prun pdemo_env pdemo_p pdemo_calls2 pdemo in tracked es = [(pdemo_p, false); (pdemo_p, true)].
Proof. vm_compute. reflexivity. Qed.
Example record_case :
  let '(p', _, es, ok) := rrun pdemo_env [RcThen VUndefined VUndefined; RcReject VNull; RcThen VUndefined (VObject (HId 3 0))] (record_pending (Some pdemo_p)) pdemo in
  rp_state p' = RRejected VNull /\ ok = true /\ map snd (rjobs es) = [VNull; VNull] /\ rtracked es = [(pdemo_p, false); (pdemo_p, true)].
Proof. vm_compute. repeat split. Qed.

(** ** C19: false of the code. [Heap::promise_reject] on a fulfilled promise makes it
    rejected with the new value. *)
Definition settled_ops : list op := [OpAllocPromise None; OpPromiseFulfill (HId 0 0) VNull].
Definition settled_heap : heap := run settled_ops demo_heap.
Definition resettled_heap : heap := fst (exec (OpPromiseReject (HId 0 0) (VBool true)) settled_heap).
Theorem settling_settled_promise_noop_refuted : exists h p q v,
  reachable_state h /\ live_as h p (HPromise q) /\ pr_state q = Fulfilled /\
  snd (exec (OpPromiseReject p v) h) = Ok tt /\
  exists h' q', h' = fst (exec (OpPromiseReject p v) h) /\ live_as h' p (HPromise q') /\
    pr_state q' = Rejected /\ pr_result q' <> pr_result q.
Proof.
  assert (K : match resolve settled_heap (HId 0 0), resolve resettled_heap (HId 0 0) with
    | Some (HPromise q), Some (HPromise q') => bool_decide (pr_state q = Fulfilled) && bool_decide (pr_state q' = Rejected) &&
        match pr_result q, pr_result q' with Some VNull, Some (VBool true) => true | _, _ => false end
    | _, _ => false end = true) by (vm_compute; reflexivity).
  destruct (resolve settled_heap (HId 0 0)) as [[| | | | |q]|] eqn:E, (resolve resettled_heap (HId 0 0)) as [[| | | | |q']|] eqn:E'; try discriminate K.
  apply andb_true_iff in K as [[K1%bool_decide_eq_true K2%bool_decide_eq_true]%andb_true_iff K3].
  exists settled_heap, (HId 0 0), q, (VBool true).
  split; [exists demo_layout, 1000000, 1000000, settled_ops; split; [apply demo_limits|done]|].
  split; [by apply resolve_live|]. split; [done|]. split; [vm_compute; reflexivity|]. exists resettled_heap, q'. split; [unfold resettled_heap; reflexivity|]. split; [apply resolve_live; exact E'|].
  split; [done|]. destruct (pr_result q) as [[]|], (pr_result q') as [[]|]; done.
Qed.
Print Assumptions settling_settled_promise_noop_refuted.

(** ** C58: false of the code. The pair of resolving functions made for a promise can
    contain a handle that is already dead: the first function is not rooted while the
    second one is allocated, and a collection may run there. *)
Definition gc_each : heap := run [OpAllocPromise None; OpAddRoot (VObject (HId 0 0)); OpAllocObject; OpAddRoot (VObject (HId 1 0))] (heap_new demo_layout 1000000 0).
Definition gc_each_env : vm_env := VmEnv (HId 1 0) (HId 1 0) 7 None (fun _ => None).
Theorem resolving_functions_live_refuted : exists h c p h' a b,
  disciplined_state h /\ live h p /\ live h (ve_function_prototype c) /\
  create_promise_resolving_functions c p h = (h', Ok (VObject a, VObject b)) /\ ~ live h' a.
Proof.
  exists gc_each, gc_each_env, (HId 0 0).
  assert (K : match create_promise_resolving_functions gc_each_env (HId 0 0) gc_each with (h', Ok (VObject a, VObject b)) => liveb h' a = false | _ => False end) by (vm_compute; done).
  destruct (create_promise_resolving_functions gc_each_env (HId 0 0) gc_each) as [h' [[[| | | | | | |a] [| | | | | | |b]]| |]] eqn:E;
    try exact (False_ind _ K). exists h', a, b.
  split; [|split; [|split; [|split]]].
  - eexists demo_layout, 1000000, 0, _. split; [apply demo_limits|]. split; [|reflexivity]. apply disc_b_ok. vm_compute. reflexivity.
  - apply liveb_live. vm_compute. reflexivity.
  - apply liveb_live. vm_compute. reflexivity.
  - reflexivity.
  - intros L. apply liveb_live in L. congruence.
Qed.
Print Assumptions resolving_functions_live_refuted.

(** ** C17 for reaction jobs: handing over a reaction registers a root for its argument, its
    handler and each part of its capability, and nothing else. *)
Definition reaction_values (r : promise_reaction) (arg : value) : list value :=
  [arg] ++ (match re_handler r with Some j => [VObject (jc_callback j)] | None => [] end)
  ++ (match re_capability r with Some c => [cap_promise c; cap_resolve c; cap_reject c] | None => [] end).
Theorem queued_reaction_roots_values : forall r arg h h' es x, reachable_state h ->
  enqueue_promise_reaction_job r arg h = (h', es, x) ->
  match x with
  | Ok _ => exists roots, es = [EfJob r arg roots] /\ NoDup roots /\ (forall i, i ∈ roots -> get_root h i = None) /\
      Forall2 (fun i v => get_root h' i = Some v) roots (reaction_values r arg) /\
      (forall i, i ∉ roots -> get_root h' i = get_root h i)
  | Err _ => es = [] /\ forall i, get_root h' i = get_root h i
  | Panic => False
  end.
Proof.
  intros r arg h h' es x H%reachable_state_ok E. unfold enqueue_promise_reaction_job, pbind, plift in E.
  destruct (job_roots (reaction_job_values r arg) h) as [h1 y] eqn:Ej. pose proof (job_roots_spec _ _ _ _ H Ej) as K.
  destruct y as [rs|e|]; cbn in E; injection E as <- <- <-; [|auto|auto].
  destruct K as (K1 & K2 & K3 & K4). exists rs. split; [done|]. split; [done|]. split; [done|]. split; [|done].
  assert (Ev : reaction_job_values r arg = reaction_values r arg) by (unfold reaction_job_values, reaction_values; destruct r as [[c|] b [j|]]; reflexivity).
  by rewrite Ev in K3.
Qed.
Print Assumptions queued_reaction_roots_values.
Example queued_reaction_roots_case : reachable_state demo /\
  match enqueue_promise_reaction_job (PReaction None false None) (VBool true) demo with (_, [EfJob _ _ [_]], Ok _) => True | _ => False end.
Proof. split; [apply demo_reachable|vm_compute; exact I]. Qed.
