(** Proofs about the rejection tracker. *)
From stdpp Require Import base decidable list numbers sets.
From Coq Require Import NArith Lia.
From RecordUpdate Require Import RecordUpdate.
From Verif Require Import VmBase HeapModel HeapObjModel HeapSpec HeapGcProofs HeapInvProofs HeapObjProofs HeapTidyProofs
  HeapHistory HeapHistoryProofs HeapApiProofs JobsModel JobsSpec JobsProofs TrackerModel TrackerSpec.

Lemma take_entry_Some p l i l' : take_entry p l = Some (i, l') ->
  exists l1 l2, l = l1 ++ (p, i) :: l2 /\ l' = l1 ++ l2 /\ p ∉ map fst l1.
Proof.
  revert i l'. induction l as [|[q j] l IH]; intros i l' E; cbn in E; [done|].
  case_bool_decide as D; cbn in *.
  - injection E as <- <-. subst q. exists [], l. split; [done|]. split; [done|]. apply not_elem_of_nil.
  - destruct (take_entry p l) as [[k l0]|] eqn:E1; [|done]. simplify_eq.
    destruct (IH _ _ eq_refl) as (l1 & l2 & -> & -> & N). exists ((q, j) :: l1), l2.
    split; [done|]. split; [done|]. cbn. rewrite not_elem_of_cons. auto.
Qed.
Lemma take_entry_None p l : take_entry p l = None -> p ∉ map fst l.
Proof.
  induction l as [|[q j] l IH]; cbn; [intros _; apply not_elem_of_nil|].
  case_bool_decide as D; [done|]. destruct (take_entry p l) as [[k l0]|] eqn:E1; [done|]. cbn in *.
  intros _. rewrite not_elem_of_cons. auto.
Qed.

Lemma trun_app es1 es2 s : trun (es1 ++ es2) s =
  let '(s1, o1) := trun es1 s in let '(s2, o2) := trun es2 s1 in (s2, o1 ++ o2).
Proof.
  revert s. induction es1 as [|e es1 IH]; intros s; cbn; [by destruct (trun es2 s)|].
  destruct (tstep e s) as [s1 o]. rewrite IH. destruct (trun es1 s1) as [s2 o1]. by destruct (trun es2 s2).
Qed.

(** ** What a drain reports *)
Lemma unhandled_reject p x es : unhandled p (es ++ [TReject x]) <-> unhandled p es \/ p = x.
Proof.
  split.
  - intros (e1 & e2 & E & N). destruct e2 as [|a e2 _] using rev_ind.
    + apply app_inj_tail in E as [_ ?]. simplify_eq. by right.
    + rewrite app_comm_cons, app_assoc in E. apply app_inj_tail in E as [-> <-]. left. exists e1, e2. split; [done|].
      contradict N. apply elem_of_app. by left.
  - intros [(e1 & e2 & -> & N)| ->].
    + exists e1, (e2 ++ [TReject x]). split; [by rewrite <- app_assoc|]. rewrite elem_of_app, elem_of_list_singleton. by intros [?|?].
    + exists es, []. split; [done|]. apply not_elem_of_nil.
Qed.
Lemma unhandled_handle p x es : unhandled p (es ++ [THandle x]) <-> unhandled p es /\ p <> x.
Proof.
  split.
  - intros (e1 & e2 & E & N). destruct e2 as [|a e2 _] using rev_ind.
    + apply app_inj_tail in E as [_ ?]. by simplify_eq.
    + rewrite app_comm_cons, app_assoc in E. apply app_inj_tail in E as [-> <-]. rewrite elem_of_app, elem_of_list_singleton in N.
      split; [exists e1, e2; split; [done|]; tauto|]. intros ->. tauto.
  - intros [(e1 & e2 & -> & N) D].
    exists e1, (e2 ++ [THandle x]). split; [by rewrite <- app_assoc|]. rewrite elem_of_app, elem_of_list_singleton.
    intros [?|?]; [done|]. simplify_eq.
Qed.
Lemma unhandled_other p e es : (forall x, e <> TReject x) -> (forall x, e <> THandle x) ->
  unhandled p (es ++ [e]) <-> unhandled p es.
Proof.
  intros N1 N2. split.
  - intros (e1 & e2 & E & N). destruct e2 as [|a e2 _] using rev_ind.
    + apply app_inj_tail in E as [_ ?]. by destruct (N1 p).
    + rewrite app_comm_cons, app_assoc in E. apply app_inj_tail in E as [-> <-]. exists e1, e2. split; [done|].
      contradict N. apply elem_of_app. by left.
  - intros (e1 & e2 & -> & N).
    exists e1, (e2 ++ [e]). split; [by rewrite <- app_assoc|]. rewrite elem_of_app, elem_of_list_singleton. intros [?|<-]; [done|].
    by apply (N2 p).
Qed.
Lemma rejects_app es1 es2 : rejects (es1 ++ es2) = rejects es1 ++ rejects es2.
Proof. apply omap_app. Qed.

Lemma sublist_NoDup {A} (l k : list A) : sublist l k -> NoDup k -> NoDup l.
Proof.
  induction 1 as [|x l k S IH|x l k S IH]; intros N; [done| |].
  - apply NoDup_cons in N as [N1 N2]. constructor; [|auto]. contradict N1. by eapply elem_of_submseteq; [|apply sublist_submseteq].
  - apply NoDup_cons in N as [_ N]. auto.
Qed.
Lemma about_exact es s s' os : tk_about (ts_tracker s) = [] -> no_drain es -> NoDup (rejects es) ->
  OutReject false ∉ os -> trun es s = (s', os) ->
  sublist (map fst (tk_about (ts_tracker s'))) (rejects es) /\
  forall p, p ∈ map fst (tk_about (ts_tracker s')) <-> unhandled p es.
Proof.
  intros H0. revert s' os. induction es as [|e es IH] using rev_ind; intros s' os Hd Hn Hr E.
  - cbn in E. injection E as <- <-. rewrite H0. cbn. split; [done|]. intros p. split; [intros X; by apply elem_of_nil in X|].
    intros (e1 & e2 & X & _). by destruct e1.
  - rewrite trun_app in E. destruct (trun es s) as [s1 o1] eqn:E1. destruct (trun [e] s1) as [s2 o2] eqn:E2.
    injection E as <- <-. rewrite rejects_app in Hn |- *. apply NoDup_app in Hn as (Hn1 & Hn2 & Hn3).
    unfold no_drain in Hd. rewrite elem_of_app in Hd. rewrite elem_of_app in Hr.
    destruct (IH s1 o1) as [Hs Hi]; [unfold no_drain; tauto|done|tauto|done|].
    cbn [trun] in E2. destruct (tstep e s1) as [s3 o] eqn:E3. injection E2 as -> <-.
    rewrite !elem_of_list_singleton in Hd. rewrite !elem_of_list_singleton in Hr.
    destruct e as [x|x| |x b|n|oh]; cbn [tstep rejects omap list_omap] in *.
    + unfold on_reject in E3. destruct (add_root (VObject x) (ts_heap s1)) as [h1 [i|?|]]; injection E3 as <- <-;
        [|tauto|tauto]. cbn. rewrite map_app. cbn.
      split; [apply sublist_app; [done|reflexivity]|]. intros p. rewrite elem_of_app, elem_of_list_singleton, Hi.
      by rewrite unhandled_reject.
    + rewrite (right_id_L [] app).
      assert (Hnd : NoDup (map fst (tk_about (ts_tracker s1)))) by (by eapply sublist_NoDup).
      unfold on_handle in E3. destruct (take_entry x _) as [[i l]|] eqn:E4.
      * injection E3 as <- <-. cbn. apply take_entry_Some in E4 as (l1 & l2 & E4 & -> & N).
        rewrite E4, map_app in Hs, Hi, Hnd. rewrite map_app. cbn in Hs, Hi, Hnd. split.
        -- etransitivity; [|exact Hs]. apply sublist_app; [done|]. by apply sublist_cons.
        -- intros p. rewrite unhandled_handle, <- Hi, !elem_of_app, elem_of_cons.
           apply NoDup_app in Hnd as (_ & _ & Hnd). apply NoDup_cons in Hnd as [Hnd _].
           split; [|naive_solver]. intros [X|X]; (split; [tauto|]); intros ->; tauto.
      * apply take_entry_None in E4.
        assert (Es : tk_about (ts_tracker s2) = tk_about (ts_tracker s1)) by (case_bool_decide; by injection E3 as <- <-).
        rewrite Es. split; [done|]. intros p. rewrite unhandled_handle, <- Hi. split; [|tauto]. intros X. split; [done|]. by intros ->.
    + tauto.
    + injection E3 as <- <-. rewrite (right_id_L [] app). unfold after_dispatch. destruct b; cbn.
      all: split; [done|]; intros p; by rewrite unhandled_other, Hi.
    + rewrite (right_id_L [] app).
      assert (Es : tk_about (ts_tracker s2) = tk_about (ts_tracker s1)) by (destruct (ts_batches s1 !! n); by injection E3 as <- <-).
      rewrite Es. split; [done|]; intros p; by rewrite unhandled_other, Hi.
    + injection E3 as <- <-. rewrite (right_id_L [] app). cbn. split; [done|]; intros p; by rewrite unhandled_other, Hi.
Qed.

(** ** Roots *)
Definition tk_ok (s : tstate) : Prop :=
  heap_ok (ts_heap s) /\ NoDup (map snd (held s)) /\
  (forall p i, (p, i) ∈ held s -> get_root (ts_heap s) i = Some (VObject p)) /\
  Forall (fun b => length (bt_promises b) = length (bt_roots b)) (ts_batches s).

Lemma zip_maps {A B} (l : list (A * B)) : zip (map fst l) (map snd l) = l.
Proof. induction l as [|[a b] l IH]; cbn; [done|]. by f_equal. Qed.
Lemma snd_zip' {A B} (l : list A) (k : list B) : length l = length k -> map snd (zip l k) = k.
Proof. revert k. induction l as [|a l IH]; intros [|b k] E; cbn in *; try done. f_equal. apply IH. lia. Qed.
Lemma held_teardown s n b : ts_batches s !! n = Some b ->
  held s ≡ₚ zip (bt_promises b) (bt_roots b) ++ held (TState (ts_tracker s) (batch_teardown b (ts_heap s)) (delete n (ts_batches s))).
Proof.
  intros E. unfold held. cbn [ts_tracker ts_batches].
  pose proof (delete_Permutation _ _ _ E) as P.
  rewrite (Permutation_app_comm (zip _ _)), <- app_assoc. apply Permutation_app_head.
  rewrite Permutation_app_comm. rewrite P at 1. done.
Qed.
Lemma in_held_snd s i : i ∈ map snd (held s) <-> exists p, (p, i) ∈ held s.
Proof.
  rewrite elem_of_list_fmap. split.
  - intros ([p j] & -> & X). by exists p.
  - intros [p X]. by exists (p, i).
Qed.

(** One step: the roots held and released. *)
Lemma tstep_roots e s : tk_ok s ->
  (match e with THeap o => forall x, x ∈ held s -> touches_root (snd x) o = false | _ => True end) ->
  tk_ok (fst (tstep e s)) /\
  ((forall o, e <> THeap o) ->
   (forall i, i ∈ map snd (held (fst (tstep e s))) -> i ∈ map snd (held s) \/ get_root (ts_heap s) i = None) /\
   (forall i, i ∉ map snd (held (fst (tstep e s))) ->
      get_root (ts_heap (fst (tstep e s))) i = if decide (i ∈ map snd (held s)) then None else get_root (ts_heap s) i)).
Proof.
  intros (H & Hn & Hg & Hl) Hh. destruct e as [p|p| |p b|n|o]; cbn [tstep].
  - unfold on_reject. destruct (add_root (VObject p) (ts_heap s)) as [h1 [i|e|]] eqn:E; cbn [fst].
    + destruct (add_root_fresh _ _ _ _ H E) as (F1 & F2 & F3).
      destruct (good_add_root (VObject p) _ _ _ H E) as (H1 & _ & _).
      assert (P : held (TState (ts_tracker s <| tk_about ::= (fun l => l ++ [(p, i)]) |>) h1 (ts_batches s)) ≡ₚ (p, i) :: held s).
      { unfold held. cbn. rewrite <- app_assoc. cbn. by rewrite Permutation_middle. }
      assert (Ni : i ∉ map snd (held s)).
      { rewrite in_held_snd. intros [q X]. rewrite (Hg _ _ X) in F1. done. }
      split.
      * split; [done|]. split; [rewrite P; cbn; by constructor|]. split; [|done].
        intros q j. rewrite P, elem_of_cons. intros [[= -> ->]|X]; [done|]. cbn. rewrite F3; [by apply Hg|].
        intros ->. apply Ni, in_held_snd. by exists q.
      * intros _. split; intros j; rewrite P; cbn; rewrite elem_of_cons; [intros [->|X]; auto|].
        intros X. rewrite F3 by tauto. rewrite decide_False by tauto. done.
    + pose proof (add_root_fail _ _ _ _ H E) as F. destruct (good_add_root (VObject p) _ _ _ H E) as (H1 & _ & _). split.
      * split; [done|]. split; [done|]. split; [|done]. intros q j X. cbn. rewrite F. by apply Hg.
      * intros _. split; [auto|]. intros j X. cbn. rewrite F, decide_False; [done|]. exact X.
    + by destruct (good_add_root (VObject p) _ _ _ H E) as (_ & [] & _).
  - unfold on_handle. destruct (take_entry p (tk_about (ts_tracker s))) as [[i l]|] eqn:E; cbn [fst].
    + apply take_entry_Some in E as (l1 & l2 & E & -> & _).
      set (s' := TState _ _ _).
      assert (P : held s ≡ₚ (p, i) :: held s').
      { unfold held, s'. cbn. rewrite E, <- !app_assoc. cbn. symmetry. apply Permutation_middle. }
      assert (Ni : i ∉ map snd (held s')). { rewrite P in Hn. cbn in Hn. by apply NoDup_cons in Hn as [? _]. }
      split.
      * split; [cbn; apply (heap_ok_remove_roots [i]); done|]. split; [rewrite P in Hn; cbn in Hn; by apply NoDup_cons in Hn as [_ ?]|].
        split; [|done]. intros q j X. cbn. rewrite remove_root_lookup, decide_False; [apply Hg; rewrite P; set_solver|].
        intros ->. apply Ni, in_held_snd. by exists q.
      * intros _. split; intros j X; [left; rewrite P; cbn; set_solver|].
        cbn. rewrite remove_root_lookup. destruct (decide (j = i)) as [->|N].
        -- rewrite decide_True; [done|]. rewrite P. cbn. set_solver.
        -- rewrite decide_False; [done|]. rewrite P. cbn. rewrite elem_of_cons. tauto.
    + assert (Q : forall t, tk_about t = tk_about (ts_tracker s) -> let s' := TState t (ts_heap s) (ts_batches s) in
        tk_ok s' /\ ((forall o, THandle p <> THeap o) ->
         (forall i, i ∈ map snd (held s') -> i ∈ map snd (held s) \/ get_root (ts_heap s) i = None) /\
         (forall i, i ∉ map snd (held s') -> get_root (ts_heap s') i = if decide (i ∈ map snd (held s)) then None else get_root (ts_heap s) i))).
      { intros t Et s'. assert (Eh : held s' = held s) by (unfold held, s'; cbn; by rewrite Et). unfold tk_ok. rewrite Eh.
        split; [done|]. intros _. split; [auto|]. intros j X. by rewrite decide_False. }
      case_bool_decide; cbn [fst]; by apply Q.
  - cbn [drain_about fst].
    set (s' := TState _ _ _).
    assert (P : held s' ≡ₚ held s).
    { unfold held, s'. cbn. rewrite map_app, concat_app. cbn. rewrite zip_maps, (right_id_L [] app). apply Permutation_app_comm. }
    split.
    + split; [done|]. split; [by rewrite P|]. split; [intros q j; rewrite P; apply Hg|].
      cbn. apply Forall_app. split; [done|]. constructor; [|done]. cbn. by rewrite !map_length.
    + intros _. split; intros j; rewrite P; [auto|]. intros X. by rewrite decide_False.
  - cbn [fst]. set (s' := TState _ _ _).
    assert (P : held s' = held s) by (unfold held, s', after_dispatch; by destruct b). unfold tk_ok. rewrite P.
    split; [done|]. intros _. split; [auto|]. intros j X. by rewrite decide_False.
  - destruct (ts_batches s !! n) as [b|] eqn:E; cbn [fst].
    + pose proof (held_teardown s n b E) as P. set (s' := TState _ _ _) in *.
      assert (Lb : length (bt_promises b) = length (bt_roots b)) by (by eapply Forall_lookup_1 in Hl).
      assert (P2 : map snd (held s) ≡ₚ bt_roots b ++ map snd (held s')).
      { rewrite P, map_app. by rewrite snd_zip'. }
      rewrite P2 in Hn. apply NoDup_app in Hn as (Hn1 & Hn2 & Hn3). split.
      * split; [cbn; by apply heap_ok_remove_roots|]. split; [done|]. split.
        -- intros q j X. cbn. unfold batch_teardown. rewrite remove_roots_lookup, decide_False; [apply Hg; rewrite P; set_solver|].
           intros Y. apply (Hn2 j Y), in_held_snd. by exists q.
        -- cbn. by apply Forall_delete.
      * intros _. split; intros j X; [left; rewrite P2; set_solver|]. cbn. unfold batch_teardown. rewrite remove_roots_lookup.
        destruct (decide (j ∈ bt_roots b)) as [Y|Y].
        -- rewrite decide_True; [done|]. rewrite P2. set_solver.
        -- rewrite decide_False; [done|]. rewrite P2, elem_of_app. tauto.
    + split; [done|]. intros _. split; [auto|]. intros j X. by rewrite decide_False.
  - cbn [fst]. split.
    + split; [cbn; by apply exec_step|]. split; [done|]. split; [|done]. intros q j X. cbn.
      apply (keep_root j (VObject q) o); auto. by apply (Hh (q, j)).
    + intros N. by destruct (N o).
Qed.

Lemma trun_roots es s : tk_ok s -> respects es s -> tk_ok (fst (trun es s)).
Proof.
  revert s. induction es as [|e es IH]; intros s H R; [done|]. cbn in *. destruct R as [R1 R2].
  destruct (tstep_roots e s H R1) as [H1 _]. destruct (tstep e s) as [s1 o]. cbn in *. specialize (IH _ H1 R2).
  by destruct (trun es s1).
Qed.
Lemma trun_restores es s h0 : tk_ok s -> no_heap es ->
  (forall i, i ∉ map snd (held s) -> get_root (ts_heap s) i = get_root h0 i) ->
  (forall i, i ∈ map snd (held s) -> get_root h0 i = None) ->
  let s' := fst (trun es s) in
  (forall i, i ∉ map snd (held s') -> get_root (ts_heap s') i = get_root h0 i) /\
  (forall i, i ∈ map snd (held s') -> get_root h0 i = None).
Proof.
  revert s. induction es as [|e es IH]; intros s H N I1 I2; [done|].
  assert (Ne : forall o, e <> THeap o) by (intros o ->; apply (N o); constructor).
  destruct (tstep_roots e s H) as [H1 F]; [destruct e; try done; by destruct (Ne o)|]. destruct (F Ne) as [F1 F2].
  assert (N' : no_heap es) by (intros o X; apply (N o); by constructor).
  specialize (IH (fst (tstep e s)) H1 N').
  cbn [trun]. destruct (tstep e s) as [s1 o]. cbn [fst] in *. destruct (trun es s1) as [s2 os]. cbn [fst] in *. apply IH.
  - intros i X. rewrite (F2 i X). case_decide as D; [symmetry; by apply I2|by apply I1].
  - intros i X. destruct (F1 i X) as [Y|Y]; [by apply I2|].
    destruct (decide (i ∈ map snd (held s))) as [D|D]; [by apply I2|]. by rewrite <- I1.
Qed.

(** ** rejectionhandled *)
Local Open Scope nat_scope.
Lemma tstep_outstanding e s p :
  p ∈ tk_outstanding (ts_tracker (fst (tstep e s))) <->
    (p ∈ tk_outstanding (ts_tracker s) /\ snd (tstep e s) <> OutHandle (ActQueue p)) \/ e = TDispatch p false.
Proof.
  destruct e as [x|x| |x b|n|o]; cbn [tstep].
  - unfold on_reject. destruct (add_root (VObject x) (ts_heap s)) as [h1 [i|e|]]; cbn; naive_solver.
  - unfold on_handle. destruct (take_entry x _) as [[i l]|]; cbn; [naive_solver|].
    case_bool_decide as D; cbn; [|naive_solver]. rewrite elem_of_list_filter. naive_solver.
  - cbn. naive_solver.
  - cbn. unfold after_dispatch. destruct b; cbn; [naive_solver|]. case_bool_decide as D; [naive_solver|]. set_solver.
  - destruct (ts_batches s !! n); cbn; naive_solver.
  - cbn. naive_solver.
Qed.
Lemma tstep_queue e s p : snd (tstep e s) = OutHandle (ActQueue p) ->
  e = THandle p /\ p ∈ tk_outstanding (ts_tracker s).
Proof.
  destruct e as [x|x| |x b|n|o]; cbn [tstep].
  - unfold on_reject. by destruct (add_root (VObject x) (ts_heap s)) as [h1 [i|e|]].
  - unfold on_handle. destruct (take_entry x _) as [[i l]|]; cbn; [done|]. case_bool_decide as D; cbn; [|done]. naive_solver.
  - done.
  - done.
  - by destruct (ts_batches s !! n).
  - done.
Qed.
Lemma queued_reported es s s' os p : trun es s = (s', os) -> p ∉ tk_outstanding (ts_tracker s) ->
  queued p os <= reported p es.
Proof.
  intros E H.
  assert (G : forall s s' os, trun es s = (s', os) ->
    queued p os <= reported p es + (if decide (p ∈ tk_outstanding (ts_tracker s)) then 1 else 0)).
  { clear. induction es as [|e es IH]; intros s s' os E; cbn in E; [injection E as <- <-; cbn; lia|].
    destruct (tstep e s) as [s1 o] eqn:E1. destruct (trun es s1) as [s2 os1] eqn:E2. injection E as <- <-.
    specialize (IH _ _ _ E2). unfold queued, reported in *. rewrite filter_cons. cbn [omap list_omap].
    pose proof (tstep_outstanding e s p) as Ho. pose proof (tstep_queue e s p) as Hq. rewrite E1 in Ho, Hq. cbn [fst snd] in Ho, Hq.
    destruct (decide (o = OutHandle (ActQueue p))) as [Do|Do].
    - destruct (Hq Do) as [-> Hp]. rewrite (decide_True _ _ Hp). rewrite decide_False in IH by naive_solver. cbn. unfold queued in *. lia.
    - destruct (decide (p ∈ tk_outstanding (ts_tracker s1))) as [D1|D1]; [|case_decide; destruct e as [| | |x []| |]; try case_bool_decide; cbn; lia].
      apply Ho in D1 as [[D1 _]| ->]; [rewrite (decide_True _ _ D1); destruct e as [| | |x []| |]; try case_bool_decide; cbn; lia|].
      rewrite bool_decide_true by done. cbn. case_decide; lia. }
  specialize (G _ _ _ E). rewrite decide_False in G by done. lia.
Qed.

Lemma tstep_about_in e s p : p ∈ map fst (tk_about (ts_tracker (fst (tstep e s)))) ->
  p ∈ map fst (tk_about (ts_tracker s)) \/ e = TReject p.
Proof.
  destruct e as [x|x| |x b|n|o]; cbn [tstep].
  - unfold on_reject. destruct (add_root (VObject x) (ts_heap s)) as [h1 [i|e|]]; cbn; auto. rewrite map_app. cbn. set_solver.
  - unfold on_handle. destruct (take_entry x _) as [[i l]|] eqn:E; cbn.
    + apply take_entry_Some in E as (l1 & l2 & -> & -> & _). rewrite !map_app. cbn. set_solver.
    + case_bool_decide; cbn; auto.
  - cbn. set_solver.
  - cbn. unfold after_dispatch. destruct b; auto.
  - destruct (ts_batches s !! n); cbn; auto.
  - auto.
Qed.
(** Between a report and the next [handle], [p] stays outstanding and is not waiting. *)
Lemma stays_outstanding es s p : TReject p ∉ es -> THandle p ∉ es ->
  p ∈ tk_outstanding (ts_tracker s) -> p ∉ map fst (tk_about (ts_tracker s)) ->
  p ∈ tk_outstanding (ts_tracker (fst (trun es s))) /\ p ∉ map fst (tk_about (ts_tracker (fst (trun es s)))).
Proof.
  revert s. induction es as [|e es IH]; intros s N1 N2 H1 H2; [done|].
  rewrite not_elem_of_cons in N1, N2. destruct N1 as [N1 N1'], N2 as [N2 N2'].
  cbn [trun]. pose proof (tstep_outstanding e s p) as Ho. pose proof (tstep_queue e s p) as Hq. pose proof (tstep_about_in e s p) as Ha.
  specialize (IH (fst (tstep e s)) N1' N2'). destruct (tstep e s) as [s1 o]. cbn [fst snd] in *.
  destruct (trun es s1) as [s2 os]. cbn [fst] in *. apply IH; [|naive_solver].
  apply Ho. left. split; [done|]. naive_solver.
Qed.
Lemma stays_quiet es s p : TReject p ∉ es -> TDispatch p false ∉ es ->
  p ∉ tk_outstanding (ts_tracker s) -> p ∉ map fst (tk_about (ts_tracker s)) ->
  p ∉ tk_outstanding (ts_tracker (fst (trun es s))) /\ p ∉ map fst (tk_about (ts_tracker (fst (trun es s)))).
Proof.
  revert s. induction es as [|e es IH]; intros s N1 N2 H1 H2; [done|].
  rewrite not_elem_of_cons in N1, N2. destruct N1 as [N1 N1'], N2 as [N2 N2'].
  cbn [trun]. pose proof (tstep_outstanding e s p) as Ho. pose proof (tstep_about_in e s p) as Ha.
  specialize (IH (fst (tstep e s)) N1' N2'). destruct (tstep e s) as [s1 o]. cbn [fst snd] in *.
  destruct (trun es s1) as [s2 os]. cbn [fst] in *. apply IH; naive_solver.
Qed.
Lemma handle_outstanding s p : p ∈ tk_outstanding (ts_tracker s) -> p ∉ map fst (tk_about (ts_tracker s)) ->
  snd (tstep (THandle p) s) = OutHandle (ActQueue p).
Proof.
  intros H N. cbn [tstep]. unfold on_handle. destruct (take_entry p _) as [[i l]|] eqn:E.
  - apply take_entry_Some in E as (l1 & l2 & E & _). rewrite E, map_app in N. cbn in N. set_solver.
  - by rewrite bool_decide_true.
Qed.
