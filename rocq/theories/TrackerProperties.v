(** C20: tracking unhandled rejections. *)
From stdpp Require Import base decidable list numbers.
From Verif Require Import VmBase HeapModel HeapObjModel HeapSpec HeapInvProofs HeapHistory HeapHistoryProofs HeapApiProofs
  JobsModel TrackerModel TrackerSpec TrackerProofs.

(** A drain reports exactly the promises rejected since the previous one that have not been
    handled since, in rejection order. (A promise is rejected at most once; every rejection
    was recorded, that is, did not run out of memory.) *)
Theorem drain_reports_unhandled : forall s es s' os, tk_about (ts_tracker s) = [] -> no_drain es -> NoDup (rejects es) ->
  trun (es ++ [TDrain]) s = (s', os) -> OutReject false ∉ os ->
  tk_about (ts_tracker s') = [] /\
  exists os1 ps, os = os1 ++ [OutBatch ps] /\ sublist ps (rejects es) /\ (forall p, p ∈ ps <-> unhandled p es).
Proof.
  intros s es s' os H0 Hd Hn E Hr. rewrite trun_app in E. destruct (trun es s) as [s1 o1] eqn:E1. cbn in E. injection E as <- <-.
  rewrite elem_of_app in Hr. destruct (about_exact es s s1 o1) as [A B]; auto.
  split; [done|]. exists o1. eexists. split; [done|]. auto.
Qed.
Print Assumptions drain_reports_unhandled.

(** A promise that was reported is announced as handled at most once per report... *)
Theorem handled_announced_at_most_once : forall h es s' os p,
  trun es (TState tracker_new h []) = (s', os) -> (queued p os <= reported p es)%nat.
Proof. intros h es s' os p E. eapply queued_reported; eauto. cbn. apply not_elem_of_nil. Qed.
Print Assumptions handled_announced_at_most_once.

(** ... and the first time it is handled after the report is announced, later ones are not. *)
Theorem handled_after_report_announced : forall s p es1 es2, p ∉ map fst (tk_about (ts_tracker s)) ->
  TReject p ∉ es1 ++ es2 -> THandle p ∉ es1 -> TDispatch p false ∉ es2 ->
  exists o1 o2 a, snd (trun (TDispatch p false :: es1 ++ THandle p :: es2 ++ [THandle p]) s) =
    OutNone :: o1 ++ OutHandle (ActQueue p) :: o2 ++ [OutHandle a] /\ length o1 = length es1 /\ length o2 = length es2 /\ a <> ActQueue p.
Proof.
  intros s p es1 es2 H0 N1 N2 N3. rewrite not_elem_of_app in N1. destruct N1 as [N1 N1'].
  assert (len : forall es s, length (snd (trun es s)) = length es).
  { clear. induction es as [|e es IH]; intros s; [done|]. cbn. destruct (tstep e s) as [s1 o]. specialize (IH s1). destruct (trun es s1). cbn in *. by f_equal. }
  set (s1 := fst (tstep (TDispatch p false) s)).
  assert (O1 : p ∈ tk_outstanding (ts_tracker s1)) by (apply (tstep_outstanding (TDispatch p false) s p); by right).
  assert (A1 : p ∉ map fst (tk_about (ts_tracker s1))) by done.
  destruct (stays_outstanding es1 s1 p N1 N2 O1 A1) as [O2 A2].
  pose proof (handle_outstanding _ _ O2 A2) as Q. pose proof (len es1 s1) as L1.
  change (trun (TDispatch p false :: es1 ++ THandle p :: es2 ++ [THandle p]) s) with
    (let '(s', os) := trun (es1 ++ THandle p :: es2 ++ [THandle p]) s1 in (s', OutNone :: os)).
  rewrite trun_app. destruct (trun es1 s1) as [s2 o1]. cbn [fst snd] in *.
  assert (O3 : p ∉ tk_outstanding (ts_tracker (fst (tstep (THandle p) s2)))) by (rewrite tstep_outstanding; intros [[_ X]|X]; done).
  assert (A3 : p ∉ map fst (tk_about (ts_tracker (fst (tstep (THandle p) s2))))) by (intros X; destruct (tstep_about_in _ _ _ X); done).
  destruct (stays_quiet es2 _ p N1' N3 O3 A3) as [O4 A4].
  change (trun (THandle p :: es2 ++ [THandle p]) s2) with
    (let '(s3, o) := tstep (THandle p) s2 in let '(s', os) := trun (es2 ++ [THandle p]) s3 in (s', o :: os)).
  destruct (tstep (THandle p) s2) as [s3 o]. cbn [fst snd] in *. subst o. rewrite trun_app. pose proof (len es2 s3) as L2.
  destruct (trun es2 s3) as [s4 o2]. cbn [fst snd] in *. pose proof (tstep_queue (THandle p) s4 p) as Q2.
  cbn [trun]. assert (T : exists a, snd (tstep (THandle p) s4) = OutHandle a) by (cbn; destruct (on_handle p _ _) as [[? ?] a]; by exists a).
  destruct T as [a T]. destruct (tstep (THandle p) s4) as [s5 o]. cbn [fst snd] in *. subst o. cbn [snd].
  exists o1, o2, a. split; [done|]. split; [done|]. split; [done|]. intros ->. by destruct (Q2 eq_refl).
Qed.
Print Assumptions handled_after_report_announced.

(** Every promise waiting to be reported, or in a batch not yet torn down, is kept alive by
    a root of its own, whatever heap calls run in between. *)
Theorem waiting_promises_rooted : forall h es s' os, reachable_state h ->
  respects es (TState tracker_new h []) -> trun es (TState tracker_new h []) = (s', os) ->
  NoDup (map snd (held s')) /\ forall p i, (p, i) ∈ held s' -> get_root (ts_heap s') i = Some (VObject p).
Proof.
  intros h es s' os Hr Hs E. apply reachable_state_ok in Hr.
  assert (K : tk_ok (TState tracker_new h [])).
  { split; [done|]. split; [constructor|]. split; [intros p i X; by apply elem_of_nil in X|constructor]. }
  pose proof (trun_roots es _ K Hs) as (_ & A & B & _). rewrite E in A, B. auto.
Qed.
Print Assumptions waiting_promises_rooted.

(** The tracker's roots are all released: a root not held at the end is as it was at the
    start, so once nothing waits and all batches are torn down the root table is restored. *)
Theorem tracker_releases_roots : forall h es s' os, reachable_state h -> no_heap es ->
  trun es (TState tracker_new h []) = (s', os) ->
  (forall i, i ∉ map snd (held s') -> get_root (ts_heap s') i = get_root h i) /\
  (tk_about (ts_tracker s') = [] -> ts_batches s' = [] -> forall i, get_root (ts_heap s') i = get_root h i).
Proof.
  intros h es s' os Hr Hn E. apply reachable_state_ok in Hr.
  assert (K : tk_ok (TState tracker_new h [])).
  { split; [done|]. split; [constructor|]. split; [intros p i X; by apply elem_of_nil in X|constructor]. }
  destruct (trun_restores es _ h K Hn) as [A _]; [done|intros i X; by apply elem_of_nil in X|]. rewrite E in A. cbn [fst] in A.
  split; [done|]. intros E1 E2 i. apply A. unfold held. rewrite E1, E2. apply not_elem_of_nil.
Qed.
Print Assumptions tracker_releases_roots.

(** Three rejections, one handled in time, one handled after the report. *)
Definition tdemo_events : list tevent :=
  [TReject demo_obj; TReject demo_key; TReject demo_peer; THandle demo_key; TDrain; TDispatch demo_obj false; TDispatch demo_peer false;
   TTeardown 0; THandle demo_peer; THandle demo_peer].
Example tracker_case :
  let '(s', os) := trun tdemo_events (TState tracker_new demo []) in
  os = [OutReject true; OutReject true; OutReject true; OutHandle ActNone; OutBatch [demo_obj; demo_peer]; OutNone; OutNone; OutNone;
        OutHandle (ActQueue demo_peer); OutHandle ActNone] /\ held s' = [] /\
  tk_outstanding (ts_tracker s') = [demo_obj] /\ no_heap tdemo_events /\ NoDup (rejects tdemo_events).
Proof.
  vm_compute. repeat split.
  - intros o H. repeat (apply elem_of_cons in H as [H|H]; [discriminate|]). by apply elem_of_nil in H.
  - repeat (constructor; [rewrite ?elem_of_cons, elem_of_nil; intros X; naive_solver|]). constructor.
Qed.
