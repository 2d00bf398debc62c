(** Proofs about jobs and microtask checkpoints. *)
From stdpp Require Import base decidable list numbers sets.
From Coq Require Import NArith Lia.
From RecordUpdate Require Import RecordUpdate.
From Verif Require Import VmBase HeapModel HeapObjModel HeapSpec HeapGcProofs HeapInvProofs HeapObjProofs HeapTidyProofs
  HeapHistory HeapHistoryProofs HeapApiProofs JobsModel JobsSpec.

Open Scope N_scope.

(** ** Roots *)
Lemma remove_root_lookup i h j : get_root (fst (remove_root i h)) j = if decide (j = i) then None else get_root h j.
Proof.
  unfold remove_root, get_root. destruct (h_proots h !! i) as [[w|]|] eqn:Hi; cbn.
  - destruct (decide (j = i)) as [->|N].
    + rewrite list_lookup_insert; [done|]. eapply lookup_lt_Some; eauto.
    + by rewrite list_lookup_insert_ne.
  - destruct (decide (j = i)) as [->|N]; [by rewrite Hi|done].
  - destruct (decide (j = i)) as [->|N]; [by rewrite Hi|done].
Qed.
Lemma remove_roots_lookup rs h j : get_root (remove_roots rs h) j = if decide (j ∈ rs) then None else get_root h j.
Proof.
  revert h. induction rs as [|r rs IH]; intros h; cbn [remove_roots].
  - rewrite decide_False by apply not_elem_of_nil. done.
  - rewrite IH, remove_root_lookup. destruct (decide (j ∈ rs)) as [E|E].
    + by rewrite decide_True by set_solver.
    + destruct (decide (j = r)) as [->|N]; [by rewrite decide_True by set_solver|].
      rewrite decide_False; [done|]. rewrite elem_of_cons. tauto.
Qed.
Lemma heap_ok_remove_roots rs h : heap_ok h -> heap_ok (remove_roots rs h).
Proof.
  revert h. induction rs as [|r rs IH]; intros h H; [done|]. cbn. apply IH.
  destruct (remove_root r h) as [h' x] eqn:E. cbn. assert (G : good (remove_root r)) by auto with good. by destruct (G _ _ _ H E).
Qed.
Lemma discard_all_lookup js h j :
  get_root (discard_all js h) j = if decide (Exists (fun x => j ∈ jb_roots x) js) then None else get_root h j.
Proof.
  revert h. induction js as [|x js IH]; intros h; cbn [discard_all].
  - rewrite decide_False; [done|]. intros E. by inversion E.
  - rewrite IH. unfold job_discard. rewrite remove_roots_lookup.
    destruct (decide (Exists (fun y => j ∈ jb_roots y) js)) as [E|E].
    + rewrite decide_True; [done|]. by apply Exists_cons_tl.
    + destruct (decide (j ∈ jb_roots x)) as [A|A].
      * rewrite decide_True; [done|]. by apply Exists_cons_hd.
      * rewrite decide_False; [done|]. rewrite Exists_cons. tauto.
Qed.

(** ** The queue's checkpoint *)
Definition guarded (ck : heap -> queue -> heap * queue * list event * outcome) : Prop :=
  forall h q, q_performing q = true -> ck h q = (h, q, [], CkDone []).

Section queue_level.
Context (code : N -> prog).

Lemma exec_prog_inv ck p : guarded ck -> forall h q h' q' ev r, q_performing q = true -> exec_prog ck p h q = (h', q', ev, r) ->
  q_performing q' = true /\ r <> PFuel /\ exists js, q_jobs q' = q_jobs q ++ js /\ ev = map EvEnqueue js.
Proof.
  intros Hg. induction p as [r0|o k IH|j k IH|k IH|b IHb k IH]; intros h q h' q' ev r Hq E; cbn [exec_prog] in E.
  - simplify_eq. split; [done|]. split; [done|]. exists []. by rewrite app_nil_r.
  - destruct (exec o h) as [h1 r1]. eauto.
  - destruct (exec_prog ck k h (enqueue j q)) as [[[h1 q1] ev1] r1] eqn:E1. simplify_eq.
    destruct (IH _ (enqueue j q) _ _ _ _ Hq E1) as (A & B & js & C & ->). split; [done|]. split; [done|]. exists (j :: js).
    split; [|done]. rewrite C. cbn. by rewrite <- app_assoc.
  - rewrite (Hg h q Hq) in E. destruct (exec_prog ck (k []) h q) as [[[h1 q1] ev1] r1] eqn:E1. simplify_eq. eauto.
  - destruct (exec_prog ck b h q) as [[[h1 q1] ev1] r1] eqn:E1. destruct (IHb _ _ _ _ _ _ Hq E1) as (A & B & js & C & ->).
    destruct r1 as [[u|e|]|]; [| | |done].
    + destruct (exec_prog ck (k (Ok u)) h1 q1) as [[[h2 q2] ev2] r2] eqn:E2. simplify_eq.
      destruct (IH _ _ _ _ _ _ _ A E2) as (A' & B' & js' & C' & ->). split; [done|]. split; [done|].
      exists (js ++ js'). rewrite C', C, map_app, app_assoc. done.
    + destruct (exec_prog ck (k (Err e)) h1 q1) as [[[h2 q2] ev2] r2] eqn:E2. simplify_eq.
      destruct (IH _ _ _ _ _ _ _ A E2) as (A' & B' & js' & C' & ->). split; [done|]. split; [done|].
      exists (js ++ js'). rewrite C', C, map_app, app_assoc. done.
    + simplify_eq. eauto.
Qed.
Lemma job_run_inv ck j h q h' q' ev r : guarded ck -> q_performing q = true -> job_run code ck j h q = (h', q', ev, r) ->
  q_performing q' = true /\ exists x, r = PEnd x /\ exists js, q_jobs q' = q_jobs q ++ js /\ ev = map EvEnqueue js.
Proof.
  intros Hg Hq E. unfold job_run in E. destruct (exec_prog ck (code (jb_code j)) h q) as [[[h1 q1] ev1] r1] eqn:E1.
  destruct (exec_prog_inv ck _ Hg _ _ _ _ _ _ Hq E1) as (A & B & C). destruct r1 as [x|]; [|done]. simplify_eq. eauto.
Qed.

Definition dck (fuel : nat) (h : heap) (q : queue) : heap * queue * list event * outcome :=
  if q_performing q then (h, q, [], CkDone []) else drain code fuel h (q <| q_performing := true |>) [].
Lemma dck_guarded fuel : guarded (dck fuel).
Proof. intros h q Hq. unfold dck. by rewrite Hq. Qed.

Lemma started_enq js : started (map EvEnqueue js) = [].
Proof. induction js; done. Qed.
Lemma enqueued_enq js : enqueued (map EvEnqueue js) = js.
Proof. induction js as [|j js IH]; [done|]. cbn. by f_equal. Qed.
Lemma started_app a b : started (a ++ b) = started a ++ started b.
Proof. apply omap_app. Qed.
Lemma enqueued_app a b : enqueued (a ++ b) = enqueued a ++ enqueued b.
Proof. apply omap_app. Qed.

(** The trace of a drain: complete runs, and what is left when it stops early. *)
Lemma drain_inv fuel : forall h q errs h' q' ev o, q_performing q = true -> drain code fuel h q errs = (h', q', ev, o) ->
  exists runs, q_jobs q ++ concat (map jr_enqueued runs) = map jr_job runs ++ q_jobs q' /\
    ev = concat (map run_events runs) /\
    (q_performing q' = match o with CkDone _ => false | _ => true end) /\
    match o with
    | CkDone es => q_jobs q' = [] /\ es = errs ++ omap run_error runs /\ Forall (fun r => jr_result r <> Panic) runs
    | CkPanic => exists rs r, runs = rs ++ [r] /\ jr_result r = Panic /\ Forall (fun r => jr_result r <> Panic) rs
    | CkFuel => length runs = fuel
    end.
Proof.
  induction fuel as [|fuel IH]; intros h q errs h' q' ev o Hq E; cbn [drain] in E.
  { simplify_eq. exists []. cbn. rewrite app_nil_r. done. }
  destruct (q_jobs q) as [|j rest] eqn:Hj.
  { simplify_eq. exists []. cbn. rewrite app_nil_r. repeat split; auto. }
  fold (dck fuel) in E.
  destruct (job_run code (dck fuel) j h (q <| q_jobs := rest |>)) as [[[h1 q1] ev1] r1] eqn:E1.
  assert (Hq0 : q_performing (q <| q_jobs := rest |>) = true) by exact Hq.
  destruct (job_run_inv _ _ _ _ _ _ _ _ (dck_guarded fuel) Hq0 E1)
    as (A & x & -> & js & C & ->). cbn in C.
  assert (K : forall e2 errs1, drain code fuel h1 q1 errs1 = e2 -> x <> Panic ->
            errs1 = errs ++ match x with Err e => [e] | _ => [] end ->
            (h', q', ev, o) = (let '(h, q, ev', o) := e2 in (h, q, EvRun j :: (map EvEnqueue js ++ [EvEnd j x]) ++ ev', o)) ->
            exists runs, (j :: rest) ++ concat (map jr_enqueued runs) = map jr_job runs ++ q_jobs q' /\
    ev = concat (map run_events runs) /\
    (q_performing q' = match o with CkDone _ => false | _ => true end) /\
    match o with
    | CkDone es => q_jobs q' = [] /\ es = errs ++ omap run_error runs /\ Forall (fun r => jr_result r <> Panic) runs
    | CkPanic => exists rs r, runs = rs ++ [r] /\ jr_result r = Panic /\ Forall (fun r => jr_result r <> Panic) rs
    | CkFuel => length runs = S fuel
    end).
  { intros [[[h2 q2] ev2] o2] errs1 E2 Hx He Ee. simplify_eq.
    destruct (IH _ _ _ _ _ _ _ A E2) as (runs & R1 & -> & R3 & R4). exists (JobRun j js x :: runs).
    split; [|split; [done|split; [done|]]].
    - cbn. f_equal. rewrite <- R1, C, <- app_assoc. done.
    - destruct o2 as [es| |].
      + destruct R4 as (S1 & -> & S3). split; [done|]. split; [|by constructor].
        rewrite <- app_assoc. f_equal. cbn. unfold run_error at 2. cbn. destruct x; done.
      + destruct R4 as (rs & r & -> & S2 & S3). exists (JobRun j js x :: rs), r. split; [done|]. split; [done|by constructor].
      + cbn. by rewrite R4. }
  destruct x as [u|e|].
  - eapply (K _ errs); [reflexivity|done|by rewrite app_nil_r|]. by destruct (drain code fuel h1 q1 errs) as [[[]]].
  - eapply (K _ (errs ++ [e])); [reflexivity|done|done|]. by destruct (drain code fuel h1 q1 (errs ++ [e])) as [[[]]].
  - simplify_eq. exists [JobRun j js Panic]. cbn. rewrite !app_nil_r, C. split; [done|]. split; [done|]. split; [done|].
    exists [], (JobRun j js Panic). repeat split; auto.
Qed.

Lemma exec_prog_ck ck ck' p h q : guarded ck -> guarded ck' -> q_performing q = true -> exec_prog ck p h q = exec_prog ck' p h q.
Proof.
  intros Hg Hg'. revert h q. induction p as [r0|o k IH|j k IH|k IH|b IHb k IH]; intros h q Hq; cbn [exec_prog].
  - done.
  - destruct (exec o h). auto.
  - by rewrite IH.
  - rewrite (Hg h q Hq), (Hg' h q Hq). by rewrite IH.
  - rewrite <- (IHb h q Hq). destruct (exec_prog ck b h q) as [[[h1 q1] ev1] r1] eqn:E1.
    destruct (exec_prog_inv _ _ Hg _ _ _ _ _ _ Hq E1) as (A & _). destruct r1 as [[u|e|]|]; try done; by rewrite IH.
Qed.
Lemma job_run_ck ck ck' j h q : guarded ck -> guarded ck' -> q_performing q = true -> job_run code ck j h q = job_run code ck' j h q.
Proof. intros. unfold job_run. by rewrite (exec_prog_ck ck ck'). Qed.

(** The step bound does not matter once it suffices. *)
Lemma drain_fuel fuel : forall h q errs h' q' ev o, q_performing q = true -> drain code fuel h q errs = (h', q', ev, o) -> o <> CkFuel ->
  drain code (S fuel) h q errs = (h', q', ev, o).
Proof.
  induction fuel as [|fuel IH]; intros h q errs h' q' ev o Hq E Ho.
  { cbn in E. by simplify_eq. }
  remember (S fuel) as f1 eqn:F. cbn [drain]. subst f1. cbn [drain] in E. fold (dck fuel) in E. fold (dck (S fuel)).
  destruct (q_jobs q) as [|j rest] eqn:Hj; [done|].
  rewrite (job_run_ck (dck (S fuel)) (dck fuel)) by (apply dck_guarded || done).
  destruct (job_run code (dck fuel) j h (q <| q_jobs := rest |>)) as [[[h1 q1] ev1] r1] eqn:E1.
  assert (Hq0 : q_performing (q <| q_jobs := rest |>) = true) by exact Hq.
  destruct (job_run_inv _ _ _ _ _ _ _ _ (dck_guarded fuel) Hq0 E1)
    as (A & x & -> & js & C & ->).
  destruct x as [u|e|]; [| |done].
  - destruct (drain code fuel h1 q1 errs) as [[[h2 q2] ev2] o2] eqn:E2. simplify_eq. by rewrite (IH _ _ _ _ _ _ _ A E2 Ho).
  - destruct (drain code fuel h1 q1 (errs ++ [e])) as [[[h2 q2] ev2] o2] eqn:E2. simplify_eq. by rewrite (IH _ _ _ _ _ _ _ A E2 Ho).
Qed.

(** Jobs that only enqueue jobs of smaller code run out. *)
Lemma only_enqueues_exec ck P p : guarded ck -> only_enqueues P p -> forall h q h' q' ev r, q_performing q = true -> exec_prog ck p h q = (h', q', ev, r) ->
  exists js, q_jobs q' = q_jobs q ++ js /\ Forall P js.
Proof.
  intros Hg. induction p as [r0|o k IH|j k IH|k IH|b IHb k IH]; intros Hp h q h' q' ev r Hq E; cbn [exec_prog only_enqueues] in *.
  - simplify_eq. exists []. by rewrite app_nil_r.
  - destruct (exec o h) as [h1 r1]. eauto.
  - destruct (exec_prog ck k h (enqueue j q)) as [[[h1 q1] ev1] r1] eqn:E1. simplify_eq. destruct Hp as [Hj Hp].
    destruct (IH Hp _ (enqueue j q) _ _ _ _ Hq E1) as (js & C & D). exists (j :: js). rewrite C. cbn. rewrite <- app_assoc. split; [done|by constructor].
  - rewrite (Hg h q Hq) in E. destruct (exec_prog ck (k []) h q) as [[[h1 q1] ev1] r1] eqn:E1. simplify_eq. eauto.
  - destruct Hp as [Hb Hk]. destruct (exec_prog ck b h q) as [[[h1 q1] ev1] r1] eqn:E1.
    destruct (exec_prog_inv _ _ Hg _ _ _ _ _ _ Hq E1) as (A & _). destruct (IHb Hb _ _ _ _ _ _ Hq E1) as (js & C & D).
    destruct r1 as [[u|e|]|].
    + destruct (exec_prog ck (k (Ok u)) h1 q1) as [[[h2 q2] ev2] r2] eqn:E2. simplify_eq.
      destruct (IH _ (Hk (Ok u)) _ _ _ _ _ _ A E2) as (js' & C' & D'). exists (js ++ js'). rewrite C', C, app_assoc. split; [done|]. by apply Forall_app.
    + destruct (exec_prog ck (k (Err e)) h1 q1) as [[[h2 q2] ev2] r2] eqn:E2. simplify_eq.
      destruct (IH _ (Hk (Err e)) _ _ _ _ _ _ A E2) as (js' & C' & D'). exists (js ++ js'). rewrite C', C, app_assoc. split; [done|]. by apply Forall_app.
    + simplify_eq. eauto.
    + simplify_eq. eauto.
Qed.
Lemma drain_ends (n : nat) : (forall c, only_enqueues (fun j => jb_code j < c) (code c)) ->
  forall a b h q errs, q_performing q = true -> q_jobs q = a ++ b ->
  Forall (fun j => jb_code j < N.of_nat (S n)) a -> Forall (fun j => jb_code j < N.of_nat n) b ->
  exists fuel, snd (drain code fuel h q errs) <> CkFuel.
Proof.
  intros Hc. induction n as [n IHn] using lt_wf_ind. intros a. induction a as [|j a IHa]; intros b h q errs Hq Hj Ha Hb.
  - destruct n as [|n].
    + destruct b as [|x b]; [|apply Forall_cons in Hb as [Hb _]; lia]. exists 1%nat. cbn. by rewrite Hj.
    + apply (IHn n ltac:(lia) b []); auto. by rewrite app_nil_r.
  - apply Forall_cons in Ha as [Hja Ha].
    destruct (job_run code (dck 0) j h (q <| q_jobs := a ++ b |>)) as [[[h1 q1] ev1] r1] eqn:E1.
    assert (Hq0 : q_performing (q <| q_jobs := a ++ b |>) = true) by exact Hq.
  destruct (job_run_inv _ _ _ _ _ _ _ _ (dck_guarded 0) Hq0 E1)
      as (A & x & -> & _).
    assert (exists js, q_jobs q1 = a ++ (b ++ js) /\ Forall (fun y => jb_code y < N.of_nat n) js) as (js & C & D).
    { unfold job_run in E1. destruct (exec_prog (dck 0) (code (jb_code j)) h (q <| q_jobs := a ++ b |>)) as [[[h2 q2] ev2] r2] eqn:E2.
      destruct (only_enqueues_exec _ _ _ (dck_guarded 0) (Hc (jb_code j)) _ _ _ _ _ _ Hq0 E2) as (js & C & D).
      exists js. rewrite app_assoc. cbn in C. destruct r2; simplify_eq. split; [done|]. eapply Forall_impl; [exact D|]. cbn. lia. }
    assert (K : forall errs1, exists fuel, snd (drain code fuel h1 q1 errs1) <> CkFuel).
    { intros errs1. apply (IHa (b ++ js)); auto. by apply Forall_app. }
    assert (St : forall f, drain code (S f) h q errs =
       match x with
       | Panic => (h1, q1, EvRun j :: ev1 ++ [EvEnd j Panic], CkPanic)
       | Ok u => let '(h, q, ev', o) := drain code f h1 q1 errs in (h, q, EvRun j :: (ev1 ++ [EvEnd j (Ok u)]) ++ ev', o)
       | Err e => let '(h, q, ev', o) := drain code f h1 q1 (errs ++ [e]) in (h, q, EvRun j :: (ev1 ++ [EvEnd j (Err e)]) ++ ev', o)
       end).
    { intros f. cbn [drain]. rewrite Hj. cbn [app]. fold (dck f). rewrite (job_run_ck (dck f) (dck 0)) by (apply dck_guarded || done). by rewrite E1. }
    destruct x as [u|e|].
    + destruct (K errs) as (f & F). exists (S f). rewrite St. by destruct (drain code f h1 q1 errs) as [[[]]].
    + destruct (K (errs ++ [e])) as (f & F). exists (S f). rewrite St. by destruct (drain code f h1 q1 (errs ++ [e])) as [[[]]].
    + exists 1%nat. by rewrite St.
Qed.
End queue_level.

(** ** The VM's checkpoint *)
Section vm_level.
Context (code : N -> prog).

Lemma vexec_inv ck p : guarded ck -> hosted p -> forall h vq hk h' vq' hk' ev r, q_performing vq = true ->
  vexec ck p h vq hk = (h', vq', hk', ev, r) ->
  vq' = vq /\ r <> PFuel /\ exists js, q_jobs hk' = q_jobs hk ++ js /\ ev = map EvEnqueue js.
Proof.
  intros Hg. induction p as [r0|o k IH|j k IH|k IH|b IHb k IH]; intros Hp h vq hk h' vq' hk' ev r Hq E; cbn [vexec hosted] in *.
  - simplify_eq. split; [done|]. split; [done|]. exists []. by rewrite app_nil_r.
  - destruct (exec o h) as [h1 r1]. eauto.
  - destruct (vexec ck k h vq (enqueue j hk)) as [[[[h1 q1] hk1] ev1] r1] eqn:E1. simplify_eq.
    destruct (IH Hp _ _ (enqueue j hk) _ _ _ _ _ Hq E1) as (A & B & js & C & ->). split; [done|]. split; [done|]. exists (j :: js).
    split; [|done]. rewrite C. cbn. by rewrite <- app_assoc.
  - rewrite (Hg h vq Hq) in E. destruct (vexec ck (k []) h vq hk) as [[[[h1 q1] hk1] ev1] r1] eqn:E1. simplify_eq. eauto.
  - done.
Qed.
Definition vck (fuel : nat) (h : heap) (q : queue) : heap * queue * list event * outcome :=
  if q_performing q then (h, q, [], CkDone []) else vdrain code fuel h (q <| q_performing := true |>) [].
Lemma vck_guarded fuel : guarded (vck fuel).
Proof. intros h q Hq. unfold vck. by rewrite Hq. Qed.
Lemma vjob_run_inv ck j h vq hk h' vq' hk' ev r : guarded ck -> hosted (code (jb_code j)) -> q_performing vq = true ->
  vjob_run code ck j h vq hk = (h', vq', hk', ev, r) ->
  vq' = vq /\ exists x, r = PEnd x /\ exists js, q_jobs hk' = q_jobs hk ++ js /\ ev = map EvEnqueue js.
Proof.
  intros Hg Hh Hq E. unfold vjob_run in E. destruct (vexec ck (code (jb_code j)) h vq hk) as [[[[h1 q1] hk1] ev1] r1] eqn:E1.
  destruct (vexec_inv ck _ Hg Hh _ _ _ _ _ _ _ _ Hq E1) as (A & B & C). destruct r1 as [x|]; [|done]. simplify_eq. eauto.
Qed.
Lemma vdrain_inv fuel : (forall c, hosted (code c)) -> forall h q first h' q' ev o, (length first <= 1)%nat -> q_performing q = true ->
  vdrain code fuel h q first = (h', q', ev, o) -> o <> CkPanic ->
  exists runs, q_jobs q ++ concat (map jr_enqueued runs) = map jr_job runs ++ q_jobs q' /\
    ev = concat (map run_events runs) /\ Forall (fun r => jr_result r <> Panic) runs /\
    match o with
    | CkDone es => q_jobs q' = [] /\ q_performing q' = false /\ es = take 1 (first ++ omap run_error runs)
    | _ => length runs = fuel
    end.
Proof.
  intros Hh. induction fuel as [|fuel IH]; intros h q first h' q' ev o Hf Hq E Ho; cbn [vdrain] in E.
  { simplify_eq. exists []. cbn. rewrite app_nil_r. done. }
  destruct (q_jobs q) as [|j rest] eqn:Hj.
  { simplify_eq. exists []. cbn. rewrite !app_nil_r. split; [done|]. split; [done|]. split; [done|]. split; [done|]. split; [done|].
    by rewrite take_ge. }
  fold (vck fuel) in E.
  destruct (vjob_run code (vck fuel) j h (q <| q_jobs := rest |>) queue_new) as [[[[h1 q1] hk1] ev1] r1] eqn:E1.
  assert (Hq0 : q_performing (q <| q_jobs := rest |>) = true) by exact Hq.
  destruct (vjob_run_inv _ _ _ _ _ _ _ _ _ _ (vck_guarded fuel) (Hh _) Hq0 E1) as (A & x & -> & js & C & ->). cbn in C.
  assert (K : forall e2 first1, vdrain code fuel h1 (q1 <| q_jobs ::= fun l => l ++ q_jobs hk1 |>) first1 = e2 -> x <> Panic ->
            (length first1 <= 1)%nat -> (forall l, take 1 (first1 ++ l) = take 1 (first ++ match x with Err e => [e] | _ => [] end ++ l)) ->
            (h', q', ev, o) = (let '(h, q, ev', o) := e2 in (h, q, EvRun j :: (map EvEnqueue js ++ [EvEnd j x]) ++ ev', o)) ->
            exists runs, (j :: rest) ++ concat (map jr_enqueued runs) = map jr_job runs ++ q_jobs q' /\
    ev = concat (map run_events runs) /\ Forall (fun r => jr_result r <> Panic) runs /\
    match o with
    | CkDone es => q_jobs q' = [] /\ q_performing q' = false /\ es = take 1 (first ++ omap run_error runs)
    | _ => length runs = S fuel
    end).
  { intros [[[h2 q2] ev2] o2] first1 E2 Hx Hl He Ee. injection Ee as X1 X2 X3 X4. subst h' q' ev o q1.
    assert (Hq1 : q_performing (q <| q_jobs := rest |> <| q_jobs ::= fun l => l ++ q_jobs hk1 |>) = true) by exact Hq.
    destruct (IH _ _ _ _ _ _ _ Hl Hq1 E2 Ho) as (runs & R1 & -> & R3 & R4). exists (JobRun j js x :: runs).
    split; [|split; [done|split; [by constructor|]]].
    - cbn. f_equal. rewrite <- R1. cbn. by rewrite C, <- app_assoc.
    - destruct o2 as [es| |]; [|done|cbn; by rewrite R4].
      destruct R4 as (S1 & S2 & ->). split; [done|]. split; [done|]. rewrite He. f_equal. f_equal. cbn. unfold run_error at 2. cbn. destruct x; done. }
  destruct x as [u|e|].
  - eapply (K _ first); [reflexivity|done|done|done|]. by destruct (vdrain code fuel h1 _ first) as [[[]]].
  - eapply (K _ (match first with [] => [e] | _ => first end)); [reflexivity|done|by destruct first as [|?[|]]| |].
    + intros l. destruct first as [|? [|]]; done.
    + by destruct (vdrain code fuel h1 _ _) as [[[]]].
  - by simplify_eq.
Qed.
End vm_level.

(** ** Making jobs *)
Lemma add_root_fail v h h' e : heap_ok h -> add_root v h = (h', Err e) -> forall j, get_root h' j = get_root h j.
Proof.
  intros H E j. destruct (add_root_spec v h H) as (h1 & H1 & G & [E1|(h2 & i & E1 & _)]); rewrite E1 in E; simplify_eq.
  unfold get_root. by rewrite (gs_proots _ _ _ G).
Qed.
Lemma add_roots_spec vs : forall acc h h' r, heap_ok h -> add_roots vs acc h = (h', r) ->
  heap_ok h' /\
  match r with
  | Ok rs => exists new, rs = acc ++ new /\ NoDup new /\ (forall i, i ∈ new -> get_root h i = None) /\
      Forall2 (fun i v => get_root h' i = Some v) new vs /\ forall j, j ∉ new -> get_root h' j = get_root h j
  | Err _ => forall j, get_root h' j = if decide (j ∈ acc) then None else get_root h j
  | Panic => False
  end.
Proof.
  induction vs as [|v vs IH]; intros acc h h' r H E; cbn [add_roots] in E.
  - unfold mret in E. simplify_eq. split; [done|]. exists []. rewrite app_nil_r. repeat split; auto; [constructor|].
    intros i Hi. by apply elem_of_nil in Hi.
  - destruct (add_root v h) as [h1 [i|e|]] eqn:E1.
    + destruct (add_root_fresh _ _ _ _ H E1) as (F1 & F2 & F3).
      assert (G : good (add_root v)) by auto with good. destruct (G _ _ _ H E1) as (H1 & _).
      destruct (IH _ _ _ _ H1 E) as (H2 & K). split; [done|]. destruct r as [rs|e|].
      * destruct K as (new & -> & N1 & N2 & N3 & N4). exists (i :: new). rewrite <- app_assoc. split; [done|].
        assert (Hi : i ∉ new) by (intros Hi; rewrite (N2 i Hi) in F2; done).
        split; [by constructor|]. split; [|split].
        -- intros k [->|Hk]%elem_of_cons; [done|]. rewrite <- F3; [by apply N2|]. intros ->. done.
        -- constructor; [by rewrite N4|done].
        -- intros j Hj. rewrite elem_of_cons in Hj. rewrite N4 by tauto. apply F3. tauto.
      * intros j. rewrite K. destruct (decide (j ∈ acc ++ [i])) as [D|D].
        -- destruct (decide (j ∈ acc)) as [D'|D']; [done|]. apply elem_of_app in D as [D|D]; [done|]. apply elem_of_list_singleton in D. by subst.
        -- rewrite elem_of_app, elem_of_list_singleton in D. rewrite decide_False by tauto. apply F3. tauto.
      * done.
    + assert (G : good (add_root v)) by auto with good. destruct (G _ _ _ H E1) as (H1 & _). simplify_eq.
      split; [by apply heap_ok_remove_roots|]. intros j. rewrite remove_roots_lookup. by rewrite (add_root_fail _ _ _ _ H E1).
    + assert (G : good (add_root v)) by auto with good. by destruct (G _ _ _ H E1) as (_ & ? & _).
Qed.
Lemma job_roots_spec vs h h' r : heap_ok h -> job_roots vs h = (h', r) ->
  match r with
  | Ok rs => NoDup rs /\ (forall i, i ∈ rs -> get_root h i = None) /\
      Forall2 (fun i v => get_root h' i = Some v) rs vs /\ forall j, j ∉ rs -> get_root h' j = get_root h j
  | Err _ => forall j, get_root h' j = get_root h j
  | Panic => False
  end.
Proof.
  intros H E. unfold job_roots, with_scope in E.
  destruct ((push_roots vs ;;; add_roots vs []) h) as [h1 r1] eqn:E1. injection E as <- <-.
  unfold mbind in E1. destruct (push_roots vs h) as [h2 r2] eqn:E2.
  assert (P : forall j, get_root h2 j = get_root h j).
  { intros j. assert (T : tidy (push_roots vs)) by auto with tidy. destruct (T _ _ _ E2) as [_ (P & _)]. unfold get_root. by rewrite P. }
  assert (G : good (push_roots vs)) by auto with good. destruct (G _ _ _ H E2) as (H2 & Np & _).
  destruct r2 as [u|e|]; [|by simplify_eq|by simplify_eq].
  destruct (add_roots_spec _ _ _ _ _ H2 E1) as (_ & K). destruct r1 as [rs|e|].
  - destruct K as (new & -> & K1 & K2 & K3 & K4). cbn [app]. split; [done|]. split; [intros i Hi; rewrite <- P; auto|].
    split; [done|]. intros j Hj. rewrite <- P. by apply K4.
  - intros j. unfold get_root at 1. cbn. fold (get_root h1 j). rewrite K. destruct (decide (j ∈ [])) as [D|D]; [by apply elem_of_nil in D|]. by rewrite P.
  - done.
Qed.
