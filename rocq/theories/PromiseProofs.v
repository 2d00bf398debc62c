(** Proofs about promise histories. *)
From stdpp Require Import base decidable list numbers sets.
From Coq Require Import NArith Lia.
From RecordUpdate Require Import RecordUpdate.
From Verif Require Import VmBase HeapModel HeapObjModel HeapSpec HeapInvProofs HeapObjProofs ObjectOpsModel HeapHistory
  HeapFrameProofs JobsModel JobsProofs PromiseModel PromiseSpec.

Open Scope N_scope.

(** ** Liveness between two states *)
Lemma keeps_mid (T1 T2 : heap_id -> Prop) h0 h1 h2 id : heap_ok h0 -> keeps T1 h0 h1 -> keeps T2 h1 h2 ->
  h_gc_runs h2 < h_gc_runs h0 + two32 -> live h0 id -> live h2 id ->
  live h1 id.
Proof.
  intros H0 K1 K2 Hr L0 L2.
  destruct (live_slot _ _ L0) as (s0 & o0 & A1 & A2 & A3). destruct (live_slot _ _ L2) as (s2 & o2 & B1 & B2 & B3).
  destruct (kp_slots _ _ _ K1 _ _ A1) as (s1 & k1 & C1 & C2 & C3 & C4).
  destruct (kp_slots _ _ _ K2 _ _ C1) as (s2' & k2 & D1 & D2 & D3 & D4). assert (s2' = s2) by congruence. subst s2'.
  pose proof (so_gen _ _ (hk_slots h0 H0 _ _ A1)) as Hg. pose proof (kp_runs _ _ _ K1). pose proof (kp_runs _ _ _ K2).
  rewrite D3, C3, N.add_mod_idemp_l in B2 by done.
  assert (k1 + k2 = 0) as Hz.
  { rewrite <- A2 in B2. destruct (decide (sl_gen s0 + k1 + k2 < two32)); [rewrite N.mod_small in B2 by done; lia|].
    replace (sl_gen s0 + k1 + k2) with (sl_gen s0 + k1 + k2 - two32 + 1 * two32) in B2 by lia. rewrite N.mod_add in B2 by done.
    rewrite N.mod_small in B2 by lia. lia. }
  assert (k1 = 0) as -> by lia. destruct (C4 eq_refl o0 A3) as (o1 & E1 & _).
  exists o1. eapply slot_live; eauto. rewrite C3, <- (gen_small _ _ _ H0 A1). done.
Qed.

(** ** Triples on one promise *)
Definition pt {A} (p : heap_id) (q : js_promise) (m : PM A) (P : res A -> list effect -> js_promise -> Prop) : Prop :=
  forall h h' es r, heap_ok h -> m h = (h', es, r) ->
    heap_ok h' /\ keeps (fun x => x = p) h h' /\
    (live_as h p (HPromise q) -> live h' p -> h_gc_runs h' < h_gc_runs h + two32 ->
      exists q', live_as h' p (HPromise q') /\ P r es q').

(** The frame half on its own. *)
Definition pf {A} (p : heap_id) (m : PM A) : Prop :=
  forall h h' es r, heap_ok h -> m h = (h', es, r) -> heap_ok h' /\ keeps (fun x => x = p) h h'.
Lemma pt_pf {A} p q (m : PM A) P : pt p q m P -> pf p m.
Proof. intros Hm h h' es r H E. destruct (Hm _ _ _ _ H E) as (?&?&_). done. Qed.
Lemma pf_bind {A B} p (m : PM A) (k : A -> PM B) : pf p m -> (forall a, pf p (k a)) -> pf p (pbind m k).
Proof.
  intros Hm Hk h h' es r H E. unfold pbind in E. destruct (m h) as [[h1 es1] r1] eqn:E1. destruct (Hm _ _ _ _ H E1) as (H1 & K1).
  destruct r1 as [a|e|]; simplify_eq; auto. destruct (k a h1) as [[h2 es2] r2] eqn:E2. simplify_eq.
  destruct (Hk _ _ _ _ _ H1 E2) as (H2 & K2). split; auto. eapply keeps_trans; eauto.
Qed.
Lemma pf_lift {A} p (m : M A) : fr (fun x => x = p) m -> pf p (plift m).
Proof. intros Hm h h' es r H E. unfold plift in E. destruct (m h) as [h1 r1] eqn:E1. simplify_eq. eapply Hm; eauto. Qed.
Lemma pf_ret {A} p (a : A) : pf p (pret a).
Proof. intros h h' es r H E. unfold pret in E. simplify_eq. split; auto. by apply keeps_refl. Qed.
Lemma pf_emit p e : pf p (pemit e).
Proof. intros h h' es r H E. unfold pemit in E. simplify_eq. split; auto. by apply keeps_refl. Qed.

Lemma pt_ret {A} p q (a : A) (P : res A -> list effect -> js_promise -> Prop) : P (Ok a) [] q -> pt p q (pret a) P.
Proof. intros HP h h' es r H E. unfold pret in E. simplify_eq. split; auto. split; [by apply keeps_refl|]. eauto. Qed.
Lemma pt_emit p q e (P : res unit -> list effect -> js_promise -> Prop) : P (Ok tt) [e] q -> pt p q (pemit e) P.
Proof. intros HP h h' es r H E. unfold pemit in E. simplify_eq. split; auto. split; [by apply keeps_refl|]. eauto. Qed.
Lemma pt_weaken {A} p q (m : PM A) (P P' : res A -> list effect -> js_promise -> Prop) :
  pt p q m P -> (forall r es q', P r es q' -> P' r es q') -> pt p q m P'.
Proof.
  intros Hm HP h h' es r H E. destruct (Hm _ _ _ _ H E) as (H1 & K1 & Q1). split; auto. split; auto. intros L L' R.
  destruct (Q1 L L' R) as (q' & A1 & A2). eauto.
Qed.
Lemma pt_bind {A B} p q (m : PM A) (k : A -> PM B) P1 (P : res B -> list effect -> js_promise -> Prop) :
  pt p q m P1 -> (forall a, pf p (k a)) ->
  (forall a es q1, P1 (Ok a) es q1 -> pt p q1 (k a) (fun r es' q' => P r (es ++ es') q')) ->
  (forall e es q1, P1 (Err e) es q1 -> P (Err e) es q1) ->
  (forall es q1, P1 Panic es q1 -> P Panic es q1) -> pt p q (pbind m k) P.
Proof.
  intros Hm Hf Hk He Hp h h' es r H E. unfold pbind in E. destruct (m h) as [[h1 es1] r1] eqn:E1.
  destruct (Hm _ _ _ _ H E1) as (H1 & K1 & Q1). destruct r1 as [a|e|].
  - destruct (k a h1) as [[h2 es2] r2] eqn:E2. simplify_eq. destruct (Hf a _ _ _ _ H1 E2) as (H2 & K2).
    split; [done|]. split; [eapply keeps_trans; eauto|]. intros L L' R.
    pose proof (kp_runs _ _ _ K1). pose proof (kp_runs _ _ _ K2).
    assert (L1 : live h1 p). { eapply (keeps_mid _ _ h h1 h'); eauto. by exists (HPromise q). }
    destruct (Q1 L L1 ltac:(lia)) as (q1 & A1 & A2). destruct (Hk a es1 q1 A2 _ _ _ _ H1 E2) as (_ & _ & Q2).
    apply Q2; auto. lia.
  - simplify_eq. split; auto. split; auto. intros L L' R. destruct (Q1 L L' R) as (q1 & A1 & A2). eauto.
  - simplify_eq. split; auto. split; auto. intros L L' R. destruct (Q1 L L' R) as (q1 & A1 & A2). eauto.
Qed.
(** Heap steps that do not write [p]. *)
Lemma pt_frame {A} p q (m : M A) (P : res A -> list effect -> js_promise -> Prop) : fr (fun _ => False) m -> (forall r, P r [] q) ->
  pt p q (plift m) P.
Proof.
  intros Hm HP h h' es r H E. unfold plift in E. destruct (m h) as [h1 r1] eqn:E1. simplify_eq.
  destruct (Hm _ _ _ H E1) as (H1 & K1). split; auto. split; [eapply keeps_weaken; [|exact K1]; done|].
  intros L [o L'] R. exists q. split; [|done].
  assert (o = HPromise q) as ->.
  { refine (keeps_live (fun _ => False) h h' p _ _ H K1 R _ L L'). tauto. }
  done.
Qed.
Lemma pt_write {A} p q (m : M A) (P : res A -> list effect -> js_promise -> Prop) : fr (fun x => x = p) m ->
  (forall h h' r, heap_ok h -> m h = (h', r) -> live_as h p (HPromise q) -> live h' p -> h_gc_runs h' < h_gc_runs h + two32 ->
     exists q', live_as h' p (HPromise q') /\ P r [] q') -> pt p q (plift m) P.
Proof.
  intros Hm HP h h' es r H E. unfold plift in E. destruct (m h) as [h1 r1] eqn:E1. simplify_eq.
  destruct (Hm _ _ _ H E1) as (H1 & K1). split; auto.
  split; [done|]. intros L L' R. eauto.
Qed.
Lemma fr_false_p {A} p (m : M A) : fr (fun _ => False) m -> fr (fun x => x = p) m.
Proof. intros Hm. eapply fr_weaken; [|exact Hm]. by intros ? []. Qed.

(** ** Promise fields *)
Lemma get_promise_live h p q : live_as h p (HPromise q) -> get_promise h p = Ok q.
Proof. intros L%get_heap_object_Ok. unfold get_promise. by rewrite L. Qed.
Lemma update_promise_live h p q f q1 : live_as h p (HPromise q) -> f q = Ok q1 ->
  exists h', update_promise p f h = (h', Ok tt) /\ live_as h' p (HPromise q1) /\ h_layout h' = h_layout h.
Proof.
  intros L Hf. assert (Hv : validate h p = Some (hid_index p)). { apply validate_Some. split; auto. by eexists. }
  destruct L as (hs & s & A1 & A2 & A3 & A4). unfold update_promise, update_object. rewrite Hv, A1, A3, Hf. cbn [rbind].
  eexists. split; [done|]. split; [|done]. exists hs, (s <| sl_value := Some (HPromise q1) |>). cbn.
  rewrite list_lookup_insert by (by eapply lookup_lt_Some). done.
Qed.
Lemma update_slot_bytes_live h id o n : live_as h id o ->
  exists h', update_slot_bytes (hid_index id) n h = (h', Ok tt) /\ live_as h' id o.
Proof.
  intros (hs & s & A1 & A2 & A3 & A4). unfold update_slot_bytes. rewrite A1. eexists. split; [done|].
  exists hs, (s <| sl_bytes := n |>). cbn. rewrite list_lookup_insert by (by eapply lookup_lt_Some). done.
Qed.

Lemma pt_read_promise p q (P : res js_promise -> list effect -> js_promise -> Prop) : P (Ok q) [] q ->
  pt p q (plift (mread (fun h => get_promise h p))) P.
Proof.
  intros HP. apply pt_write; [apply fr_mread|]. intros h h' r H E L _ _. unfold mread in E. simplify_eq. exists q. split; auto.
  by rewrite (get_promise_live _ _ _ L).
Qed.
Lemma pt_handled p q b (P : res unit -> list effect -> js_promise -> Prop) : P (Ok tt) [] (q <| pr_handled := b |>) ->
  pt p q (plift (promise_set_is_handled p b)) P.
Proof.
  intros HP. apply pt_write; [by apply fr_promise_handled|]. intros h h' r H E L _ _.
  destruct (update_promise_live h p q (fun p => Ok (p <| pr_handled := b |>)) _ L eq_refl) as (h1 & E1 & L1 & _).
  unfold promise_set_is_handled in E. rewrite E1 in E. simplify_eq. eauto.
Qed.
Definition settled (q : js_promise) (st : promise_state) (v : value) : js_promise :=
  q <| pr_state := st |> <| pr_result := Some v |> <| pr_fulfill := None |> <| pr_reject := None |>.
Lemma pt_settle p q st v (P : res (list promise_reaction * list promise_reaction) -> list effect -> js_promise -> Prop) : st <> Pending ->
  (if bool_decide (pr_state q = Pending) then P (Ok (default [] (pr_fulfill q), default [] (pr_reject q))) [] (settled q st v)
   else P (Ok ([], [])) [] q) ->
  pt p q (plift (promise_settle_and_take_reactions p st v)) P.
Proof.
  intros Hst HP. apply pt_write; [by apply fr_promise_settle|]. intros h h' r H E L _ _.
  unfold promise_settle_and_take_reactions in E. rewrite bool_decide_eq_false_2 in E by done.
  unfold mbind at 1, mread at 1 in E. rewrite (get_promise_live _ _ _ L) in E.
  case_bool_decide as Hs; cbn [negb] in E.
  - destruct (update_promise_live h p q _ _ L (eq_refl : (fun q => Ok (settled q st v)) q = _)) as (h1 & E1 & L1 & _).
    unfold mbind at 1 in E. unfold settled in E1 at 1. rewrite E1 in E. unfold mbind at 1, mread at 1 in E.
    rewrite (get_promise_live _ _ _ L1) in E. cbn [rbind] in E.
    destruct (update_slot_bytes_live h1 p _ (promise_size (h_layout h1) (settled q st v)) L1) as (h2 & E2 & L2).
    unfold mbind at 1 in E. rewrite E2 in E. unfold mret in E. simplify_eq. eauto.
  - unfold mret in E. simplify_eq. eauto.
Qed.
Definition appended (q : js_promise) (b : bool) (r : promise_reaction) : js_promise :=
  if b then q <| pr_fulfill ::= fmap (fun l => l ++ [r]) |> else q <| pr_reject ::= fmap (fun l => l ++ [r]) |>.
Lemma pt_lift_bind {A B} p q (m : M A) (k : A -> M B) P : pt p q (pbind (plift m) (fun a => plift (k a))) P -> pt p q (plift (mbind m k)) P.
Proof.
  intros Hm h h' es r H E. apply (Hm h h' es r H). revert E. unfold pbind, plift, mbind. destruct (m h) as [h1 r1]. destruct r1 as [a|e|]; auto.
  destruct (k a h1) as [h2 r2]. intros. by simplify_eq.
Qed.
Lemma pt_with_scope {A} p q (m : M A) P : fr (fun x => x = p) m -> pt p q (plift m) P -> pt p q (plift (with_scope m)) P.
Proof.
  intros Hf Hm. intros h h' es r H E. unfold plift in E. destruct (with_scope m h) as [h1 r1] eqn:E1. simplify_eq.
  destruct (fr_with_scope _ _ Hf _ _ _ H E1) as (H1 & K1). split; auto. split; auto. intros L L' R.
  unfold with_scope in E1. destruct (m h) as [h2 r2] eqn:E2.
  injection E1 as <- <-. destruct (Hm h h2 [] r2 H) as (_ & _ & Q); [unfold plift; by rewrite E2|].
  apply Q; auto.
Qed.
Lemma pt_append_raw p q (b : bool) (r : promise_reaction) (P : res unit -> list effect -> js_promise -> Prop) :
  (forall e : vm_error, P (Err e) [] q) -> P Panic [] q ->
  (pr_state q = Pending -> is_Some (if b then pr_fulfill q else pr_reject q) -> P (Ok tt) [] (appended q b r)) ->
  pt p q (plift (promise_append_reaction p b r)) P.
Proof.
  intros He Hp HP. apply pt_write; [by apply fr_append_reaction|]. intros h h' x H E L L' R.
  unfold promise_append_reaction in E.
  assert (Hv : validate h p = Some (hid_index p)). { apply validate_Some. split; auto. by eexists. }
  pose proof L as (hs & s & A1 & A2 & A3 & A4). rewrite Hv, A1, A3 in E.
  case_bool_decide as Hs; cbn [negb] in E; [|simplify_eq; eauto].
  match type of E with context[ensure_can_allocate ?n] => set (nn := n) in E; unfold mbind at 1 in E;
    destruct (ensure_can_allocate nn h) as [h1 r1] eqn:E1 end.
  assert (Hf : fr (fun _ => False) (ensure_can_allocate nn)) by auto with fr.
  destruct (Hf _ _ _ H E1) as [H1 K1].
  assert (Hu : h_gc_runs h1 <= h_gc_runs h').
  { destruct r1 as [u|e|]; simplify_eq; auto; try lia.
    match type of E with ?m _ = _ => assert (Hr : raw (fun _ => True) m) by (unfold update_promise; auto 10 with raw) end.
    destruct (Hr _ _ _ E) as (_ & -> & _). lia. }
  assert (L1 : live_as h1 p (HPromise q)).
  { destruct r1 as [u|e|].
    - assert (live h1 p) as [o Lo].
      { match type of E with ?m _ = _ => assert (Hr : raw (fun _ => True) m) by (unfold update_promise; auto 10 with raw) end.
        destruct (Hr _ _ _ E) as (R1 & R2 & R3).
        assert (keeps (fun _ => True) h1 h') as K2.
        { constructor; auto; try lia. intros i t Ht. destruct (R3 i t Ht) as (t' & B1 & B2 & B3). exists t', 0. split; auto. split; [lia|].
          split; [rewrite B2; eapply gen_small; eauto|]. intros _ o Ho. destruct (B3 o Ho) as (o' & C1 & C2). eauto. }
        eapply (keeps_mid _ _ h h1 h'); eauto. by eexists. }
      assert (o = HPromise q) as ->; [|done]. refine (keeps_live (fun _ => False) h h1 p _ _ H K1 _ _ L Lo); [lia|tauto].
    - injection E as <- _. destruct L' as [o Lo]. assert (o = HPromise q) as ->; [|done].
      refine (keeps_live (fun _ => False) h h1 p _ _ H K1 _ _ L Lo); [lia|tauto].
    - injection E as <- _. destruct L' as [o Lo]. assert (o = HPromise q) as ->; [|done].
      refine (keeps_live (fun _ => False) h h1 p _ _ H K1 _ _ L Lo); [lia|tauto]. }
  destruct r1 as [u|e|]; [|simplify_eq; eauto|simplify_eq; eauto].
  unfold mbind at 1 in E.
  destruct (if b then pr_fulfill q else pr_reject q) as [l|] eqn:Hl.
  - match type of E with context[update_promise p ?f h1] => 
      destruct (update_promise_live h1 p q f (appended q b r) L1) as (h2 & E2 & L2 & _) end.
    { destruct b; rewrite Hl; unfold appended; destruct q; cbn in *; subst; done. }
    rewrite E2 in E. destruct (update_slot_bytes_live h2 p _ (promise_bytes (h_layout h) (nlen (ob_properties (pr_base q)))
      (opt_len (pr_fulfill q) + (if b then 1 else 0)) (opt_len (pr_reject q) + (if b then 0 else 1))) L2) as (h3 & E3 & L3).
    rewrite E3 in E. simplify_eq. exists (appended q b r). split; auto.
  - unfold update_promise, update_object in E.
    assert (Hv1 : validate h1 p = Some (hid_index p)). { apply validate_Some. split; auto. by eexists. }
    pose proof L1 as (hs1 & s1 & B1 & B2 & B3 & B4). rewrite Hv1, B1, B3 in E.
    destruct b; rewrite Hl in E; cbn [rbind] in E; simplify_eq; eauto.
Qed.
Lemma pt_append p q (b : bool) (r : promise_reaction) (P : res unit -> list effect -> js_promise -> Prop) :
  (forall e : vm_error, P (Err e) [] q) -> P Panic [] q ->
  (pr_state q = Pending -> is_Some (if b then pr_fulfill q else pr_reject q) -> P (Ok tt) [] (appended q b r)) ->
  pt p q (plift (scope_append_reaction p b r)) P.
Proof.
  intros He Hp HP. unfold scope_append_reaction. apply pt_with_scope; [auto 10 with fr|]. apply pt_lift_bind.
  eapply pt_bind with (P1 := fun _ es q' => es = [] /\ q' = q).
  - apply pt_frame; [auto with fr|done].
  - intros _. apply pf_lift. by apply fr_append_reaction.
  - intros _ es q1 [-> ->]. by apply pt_append_raw.
  - intros e es q1 [-> ->]. done.
  - intros es q1 [-> ->]. done.
Qed.

(** ** Promise calls *)
Lemma fr_remove_roots T rs h : heap_ok h -> heap_ok (remove_roots rs h) /\ keeps T h (remove_roots rs h).
Proof.
  revert h. induction rs as [|i rs IH]; intros h H; cbn [remove_roots]; [split; auto; by apply keeps_refl|].
  destruct (remove_root i h) as [h1 r1] eqn:E1. destruct (fr_remove_root T i _ _ _ H E1) as [H1 K1]. cbn [fst].
  destruct (IH h1 H1) as [H2 K2]. split; auto. eapply keeps_trans; eauto.
Qed.
Lemma fr_add_roots T vs : forall acc, fr T (add_roots vs acc).
Proof.
  induction vs as [|v vs IH]; intros acc; cbn [add_roots]; [apply fr_ret|]. intros h h' r H E.
  destruct (add_root v h) as [h1 r1] eqn:E1. destruct (fr_add_root T v _ _ _ H E1) as [H1 K1]. destruct r1 as [i|e|].
  - destruct (IH _ _ _ _ H1 E) as [H2 K2]. split; auto. eapply keeps_trans; eauto.
  - simplify_eq. destruct (fr_remove_roots T acc h1 H1) as [H2 K2]. split; auto. eapply keeps_trans; eauto.
  - by simplify_eq.
Qed.
Lemma fr_job_roots T vs : fr T (job_roots vs).
Proof. unfold job_roots. apply fr_with_scope, fr_bind; [auto with fr|]. intros _. apply fr_add_roots. Qed.

Lemma pt_enqueue p q r arg : pt p q (enqueue_promise_reaction_job r arg) (fun x es q' => q' = q /\
  match x with Ok _ => exists roots, es = [EfJob r arg roots] | _ => es = [] end).
Proof.
  unfold enqueue_promise_reaction_job. eapply pt_bind with (P1 := fun _ es q' => es = [] /\ q' = q).
  - apply pt_frame; [apply fr_job_roots|done].
  - intros a. apply pf_emit.
  - intros a es q1 [-> ->]. apply pt_emit. eauto.
  - intros e es q1 [-> ->]. done.
  - intros es q1 [-> ->]. done.
Qed.
Definition only_jobs (rs : list promise_reaction) (arg : value) (ok : bool) (es : list effect) : Prop :=
  registered es = [] /\ tracked es = [] /\ exists rs', jobs es = map (fun r => (r, arg)) rs' /\ sublist rs' rs /\ (ok = true -> rs' = rs).
Lemma jobs_app a b : jobs (a ++ b) = jobs a ++ jobs b.
Proof. apply omap_app. Qed.
Lemma registered_app a b : registered (a ++ b) = registered a ++ registered b.
Proof. apply omap_app. Qed.
Lemma tracked_app a b : tracked (a ++ b) = tracked a ++ tracked b.
Proof. apply omap_app. Qed.
Lemma pt_trigger p q rs arg : pt p q (trigger_promise_reactions rs arg) (fun x es q' => q' = q /\ only_jobs rs arg (is_ok x) es).
Proof.
  revert q. induction rs as [|r rs IH]; intros q; cbn [trigger_promise_reactions].
  { apply pt_ret. split; auto. split; auto. split; auto. exists []. done. }
  eapply pt_bind; [apply pt_enqueue| | | |]; cbn beta.
  - intros _. apply (pt_pf p q _ _ (IH q)).
  - intros a es q1 (-> & roots & ->). eapply pt_weaken; [apply IH|]. intros x es q' (-> & A & B & rs' & C & D & F). split; auto.
    split; [by rewrite registered_app|]. split; [by rewrite tracked_app|]. exists (r :: rs'). split; [rewrite jobs_app, C; done|].
    split; [by constructor|]. intros Hx. by rewrite F.
  - intros e es q1 [-> ->]. split; auto. split; auto. split; auto. exists []. split; auto. split; [apply sublist_nil_l|done].
  - intros es q1 [-> ->]. split; auto. split; auto. split; auto. exists []. split; auto. split; [apply sublist_nil_l|done].
Qed.
Lemma pt_fulfill p q v : pt p q (fulfill_promise p v) (fun x es q' =>
  if bool_decide (pr_state q = Pending) then q' = settled q Fulfilled v /\ only_jobs (default [] (pr_fulfill q)) v (is_ok x) es
  else q' = q /\ es = []).
Proof.
  unfold fulfill_promise. eapply pt_bind; [apply pt_settle; [done|] | | | |].
  - instantiate (1 := fun x es q' => es = [] /\ if bool_decide (pr_state q = Pending) then q' = settled q Fulfilled v /\
      x = Ok (default [] (pr_fulfill q), default [] (pr_reject q)) else q' = q /\ x = Ok ([], [])). cbn beta.
    destruct (bool_decide _); done.
  - intros a. apply (pt_pf p q _ _ (pt_trigger p q _ _)).
  - intros a es q1 [-> K]. cbn [app]. destruct (bool_decide _); destruct K as [-> [= ->]]; cbn [fst].
    + eapply pt_weaken; [apply pt_trigger|]. done.
    + cbn [trigger_promise_reactions]. apply pt_ret. done.
  - intros e es q1 [-> K]. destruct (bool_decide _); by destruct K.
  - intros es q1 [-> K]. destruct (bool_decide _); by destruct K.
Qed.
Lemma pt_reject p q v : pt p q (reject_promise p v) (fun x es q' =>
  if bool_decide (pr_state q = Pending) then q' = settled q Rejected v /\ exists es', es = (if pr_handled q then [] else [EfTrack p false]) ++ es' /\
    only_jobs (default [] (pr_reject q)) v (is_ok x) es'
  else q' = q /\ es = []).
Proof.
  assert (Hf2 : forall b : bool, pf p (if b then pret tt else pemit (EfTrack p false))) by (intros []; [apply pf_ret|apply pf_emit]).
  assert (Hf1 : forall b : bool, pf p (if negb b then pret tt else
    let! rs := plift (promise_settle_and_take_reactions p Rejected v) in
    (if pr_handled q then pret tt else pemit (EfTrack p false)) ;!; trigger_promise_reactions (snd rs) v)).
  { intros []; cbn [negb]; [|apply pf_ret]. apply pf_bind; [apply pf_lift; by apply fr_promise_settle|]. intros rs.
    apply pf_bind; auto. intros _. apply (pt_pf p q _ _ (pt_trigger p q _ _)). }
  unfold reject_promise. eapply pt_bind.
  - apply (pt_read_promise p q (fun x es q' => x = Ok q /\ es = [] /\ q' = q)). done.
  - intros a. destruct (negb _); [apply pf_ret|]. apply pf_bind; [apply pf_lift; by apply fr_promise_settle|]. intros rs.
    apply pf_bind; auto. intros _. apply (pt_pf p q _ _ (pt_trigger p q _ _)).
  - intros a es q1 ([= ->] & -> & ->). cbn [app]. case_bool_decide as Hs; cbn [negb]; [|by apply pt_ret].
    eapply pt_bind; [apply pt_settle; [done|]| | | |].
    + instantiate (1 := fun x es q' => es = [] /\ q' = settled q Rejected v /\ x = Ok (default [] (pr_fulfill q), default [] (pr_reject q))).
      cbn beta. by rewrite bool_decide_eq_true_2.
    + intros rs. apply pf_bind; auto. intros _. apply (pt_pf p q _ _ (pt_trigger p q _ _)).
    + intros a es q1 (-> & -> & [= ->]). cbn [snd app]. eapply pt_bind with (P1 := fun x es q' => x = Ok tt /\
        es = (if pr_handled q then [] else [EfTrack p false]) /\ q' = settled q Rejected v).
      * destruct (pr_handled q); [by apply pt_ret|by apply pt_emit].
      * intros _. apply (pt_pf p q _ _ (pt_trigger p q _ _)).
      * intros u es q1 (_ & -> & ->). eapply pt_weaken; [apply pt_trigger|]. intros x es q' (-> & K). split; auto. eauto.
      * by intros e es q1 ([=] & _).
      * by intros es q1 ([=] & _).
    + by intros e es q1 (_ & _ & [=]).
    + by intros es q1 (_ & _ & [=]).
  - by intros e es q1 ([=] & _).
  - by intros es q1 ([=] & _).
Qed.

Lemma ft_make_resolving T N c p e b : ft T N (make_resolving_function c p e b) (fun f => [f]).
Proof.
  unfold make_resolving_function. eapply ft_bind; [apply ft_alloc_string|]. intros name.
  eapply ft_bind; [apply ft_alloc_native_function|]. intros f. cbn [app].
  eapply ft_bind. { apply (ft_of_fr _ (fun x => x = f)); [|set_solver]. unfold set_function_job_realm_to_current. destruct (ve_realm c); auto with fr. }
  intros ?; cbn [app nil_of].
  do 3 (eapply ft_bind; [apply (ft_of_fr _ (fun x => x = f)); [auto with fr|set_solver]|]; intros ?; cbn [app nil_of]).
  apply ft_ret. set_solver.
Qed.
Lemma fr_create_resolving T c p : fr T (create_promise_resolving_functions c p).
Proof.
  eapply fr_of_ft with (F := nil_of). unfold create_promise_resolving_functions. fp. eapply ft_bind; [apply ft_env_create|]. intros e. cbn [app].
  fp. do 2 (eapply ft_bind; [apply (ft_of_fr _ (fun x => x = e)); [auto with fr|set_solver]|]; intros ?; cbn [app nil_of]).
  eapply ft_bind; [apply ft_make_resolving|]. intros f. cbn [app]. eapply ft_bind; [apply ft_make_resolving|]. intros g. apply ft_ret.
  set_solver.
Qed.
Lemma fr_normalize T c v : fr T (normalize_handler c v).
Proof. unfold normalize_handler. auto with fr. Qed.
Lemma fr_alloc_promise T v : fr T (alloc_promise_with_prototype v).
Proof. eapply fr_of_ft, ft_alloc_promise. Qed.

Lemma pt_frame_bind {A B} p q (m : M A) (k : A -> PM B) (P : res B -> list effect -> js_promise -> Prop) :
  fr (fun _ => False) m -> (forall a, pf p (k a)) -> (forall a, pt p q (k a) P) ->
  (forall e : vm_error, P (Err e) [] q) -> P Panic [] q -> pt p q (pbind (plift m) k) P.
Proof.
  intros Hm Hf Hk He Hp. eapply pt_bind with (P1 := fun _ es q' => es = [] /\ q' = q); auto.
  - by apply pt_frame.
  - intros a es q1 [-> ->]. apply Hk.
  - intros e es q1 [-> ->]. done.
  - intros es q1 [-> ->]. done.
Qed.
Create HintDb pf.
Global Hint Resolve pf_ret pf_emit : pf.
Global Hint Extern 4 (pf _ (pbind _ _)) => apply pf_bind; [|intros ?] : pf.
Global Hint Extern 4 (pf _ (plift _)) => apply pf_lift : pf.
Global Hint Extern 5 (pf _ (match ?x with _ => _ end)) => destruct x : pf.
Global Hint Extern 3 (fr _ (job_roots _)) => apply fr_job_roots : pf.
Global Hint Extern 3 (fr _ (create_promise_resolving_functions _ _)) => apply fr_create_resolving : pf.
Global Hint Extern 3 (fr _ (normalize_handler _ _)) => apply fr_normalize : pf.
Global Hint Extern 3 (fr _ (alloc_promise_with_prototype _)) => apply fr_alloc_promise : pf.
Lemma pf_enqueue p r a : pf p (enqueue_promise_reaction_job r a).
Proof. unfold enqueue_promise_reaction_job. auto with pf fr. Qed.
Global Hint Resolve pf_enqueue : pf.

Definition handled (q : js_promise) : js_promise := q <| pr_handled := true |>.
Definition then_tail (p : heap_id) (f r : promise_reaction) : PM unit :=
  pemit (EfReg f r) ;!;
  let! q := plift (mread (fun h => get_promise h p)) in
  match pr_state q with
  | Pending => plift (scope_append_reaction p true f) ;!; plift (scope_append_reaction p false r)
  | Fulfilled => enqueue_promise_reaction_job f (default VUndefined (pr_result q))
  | Rejected => enqueue_promise_reaction_job r (default VUndefined (pr_result q))
  end.
Lemma pf_tail p f r : pf p (then_tail p f r).
Proof. unfold then_tail. auto 10 with pf fr. Qed.
Definition tail_post (q : js_promise) f r {A} (x : res A) (es : list effect) (q' : js_promise) : Prop :=
  registered es = [(f, r)] /\ tracked es = [] /\
  match pr_state q with
  | Pending => jobs es = [] /\ (is_ok x = false /\ (q' = q \/ q' = appended q true f) \/
      is_Some (pr_fulfill q) /\ is_Some (pr_reject q) /\ q' = appended (appended q true f) false r)
  | Fulfilled => q' = q /\ (jobs es = [(f, default VUndefined (pr_result q))] \/ is_ok x = false /\ jobs es = [])
  | Rejected => q' = q /\ (jobs es = [(r, default VUndefined (pr_result q))] \/ is_ok x = false /\ jobs es = [])
  end.
Lemma pt_tail p q f r : pt p q (then_tail p f r) (tail_post q f r).
Proof.
  unfold then_tail. eapply pt_bind.
  { apply pt_emit. instantiate (1 := fun x es q' => x = Ok tt /\ es = [EfReg f r] /\ q' = q). done. }
  { intros _. auto 10 with pf fr. }
  2:{ by intros e es q1 ([=] & _). } 2:{ by intros es q1 ([=] & _). }
  intros _ es q1 (_ & -> & ->). eapply pt_bind.
  { apply (pt_read_promise p q (fun x es q' => x = Ok q /\ es = [] /\ q' = q)). done. }
  { intros a. auto 10 with pf fr. }
  2:{ by intros e es q1 ([=] & _). } 2:{ by intros es q1 ([=] & _). }
  intros a es q1 ([= ->] & -> & ->). destruct (pr_state q) eqn:Hs.
  - eapply pt_bind with (P1 := fun x es q' => es = [] /\
      match x with Ok _ => is_Some (pr_fulfill q) /\ q' = appended q true f | _ => q' = q end).
    + apply pt_append; auto.
    + intros _. auto 10 with pf fr.
    + intros _ es q1 (-> & Hf & ->). apply pt_append; cbn [app].
      * intros e. unfold tail_post. rewrite Hs. cbn. eauto 10.
      * unfold tail_post. rewrite Hs. cbn. eauto 10.
      * intros _ Hr. unfold tail_post. rewrite Hs. cbn. split; auto 10.
    + intros e es q1 (-> & ->). unfold tail_post. rewrite Hs. cbn. eauto 10.
    + intros es q1 (-> & ->). unfold tail_post. rewrite Hs. cbn. eauto 10.
  - eapply pt_weaken; [apply pt_enqueue|]. intros x es q' (-> & K). unfold tail_post. rewrite Hs. cbn [app].
    destruct x as [u|e|]; [destruct K as [roots ->]|subst es|subst es]; cbn; eauto 10.
  - eapply pt_weaken; [apply pt_enqueue|]. intros x es q' (-> & K). unfold tail_post. rewrite Hs. cbn [app].
    destruct x as [u|e|]; [destruct K as [roots ->]|subst es|subst es]; cbn; eauto 10.
Qed.
Definition then_post (p : heap_id) (q : js_promise) {A} (x : res A) (es : list effect) (q' : js_promise) : Prop :=
  exists es1 es2, es = es1 ++ es2 /\
    es1 = (if bool_decide (pr_state q = Rejected) && negb (pr_handled q) then [EfTrack p true] else []) /\
    (is_ok x = false /\ es2 = [] /\ q' = handled q \/ exists f r, tail_post (handled q) f r x es2 q').
Lemma pbind_assoc {A B C} (m : PM A) (k : A -> PM B) (l : B -> PM C) h :
  pbind (pbind m k) l h = pbind m (fun a => pbind (k a) l) h.
Proof.
  unfold pbind. destruct (m h) as [[h1 es1] r1]. destruct r1 as [a|e|]; [|done|done].
  destruct (k a h1) as [[h2 es2] r2]. destruct r2 as [b|e|]; [|done|done]. destruct (l b h2) as [[h3 es3] r3].
  by rewrite (assoc_L app).
Qed.
Lemma pbind_ext {A B} (m : PM A) (k k' : A -> PM B) h : (forall a h, k a h = k' a h) -> pbind m k h = pbind m k' h.
Proof. intros Hk. unfold pbind. destruct (m h) as [[h1 es1] r1]. destruct r1 as [a|e|]; [|done|done]. by rewrite Hk. Qed.
Lemma then_body_split p a f r (B : PM value) :
  pbind (pemit (EfReg f r)) (fun _ => pbind (plift (mread (fun h => get_promise h p))) (fun q => pbind
    match pr_state q with
    | Pending => plift (scope_append_reaction p true f) ;!; plift (scope_append_reaction p false r)
    | Fulfilled => enqueue_promise_reaction_job f (default VUndefined (pr_result q))
    | Rejected => enqueue_promise_reaction_job r (default VUndefined (pr_result q))
    end (fun _ => B))) a = pbind (then_tail p f r) (fun _ => B) a.
Proof.
  unfold then_tail. rewrite pbind_assoc. apply pbind_ext. intros ? ?. by rewrite pbind_assoc.
Qed.
Lemma pt_ext {A} p q (m m' : PM A) P : (forall h, m h = m' h) -> pt p q m' P -> pt p q m P.
Proof. intros Hm H h h' es r H0 E. rewrite Hm in E. eapply H; eauto. Qed.
Lemma pf_ext {A} p (m m' : PM A) : (forall h, m h = m' h) -> pf p m' -> pf p m.
Proof. intros Hm H h h' es r H0 E. rewrite Hm in E. eapply H; eauto. Qed.
Lemma pt_then c p q a b : pt p q (perform_promise_then c p a b) (then_post p q).
Proof.
  assert (Hg : pt p q (plift (mget (fun h => match get_promise h p with Ok _ => true | _ => false end)))
    (fun x es q' => x = Ok true /\ es = [] /\ q' = q)).
  { apply pt_write; [apply fr_mget|]. intros h h' r H E L _ _. unfold mget in E. simplify_eq. exists q. split; auto.
    by rewrite (get_promise_live _ _ _ L). }
  unfold perform_promise_then. eapply pt_bind; [exact Hg| | | |].
  { intros x. destruct (negb x); auto 30 with pf fr. }
  2:{ by intros e es q1 ([=] & _). } 2:{ by intros es q1 ([=] & _). }
  intros x es q1 ([= ->] & -> & ->). cbn [negb app]. eapply pt_bind.
  { apply (pt_read_promise p q (fun x es q' => x = Ok q /\ es = [] /\ q' = q)). done. }
  { intros x. auto 30 with pf fr. }
  2:{ by intros e es q1 ([=] & _). } 2:{ by intros es q1 ([=] & _). }
  intros x es q1 ([= ->] & -> & ->). cbn [app]. set (tr := bool_decide (pr_state q = Rejected) && negb (pr_handled q)).
  eapply pt_bind with (P1 := fun x es q' => x = Ok tt /\ es = (if tr then [EfTrack p true] else []) /\ q' = q).
  { destruct tr; [by apply pt_emit|by apply pt_ret]. }
  { intros _. auto 30 with pf fr. }
  2:{ by intros e es q1 ([=] & _). } 2:{ by intros es q1 ([=] & _). }
  intros _ es q1 (_ & -> & ->). set (es1 := if tr then _ else _). eapply pt_bind.
  { apply pt_handled. instantiate (1 := fun x es q' => x = Ok tt /\ es = [] /\ q' = handled q). done. }
  { intros _. auto 30 with pf fr. }
  2:{ by intros e es q1 ([=] & _). } 2:{ by intros es q1 ([=] & _). }
  intros _ es q1 (_ & -> & ->). cbn [app].
  assert (Bad : forall (x : res value), is_ok x = false -> then_post p q x (es1 ++ []) (handled q)).
  { intros x Hx. exists es1, []. split; auto. }
  apply pt_frame_bind; [apply fr_normalize|intros ?; auto 30 with pf fr| |intros e; by apply Bad|by apply Bad]. intros hf.
  apply pt_frame_bind; [apply fr_normalize|intros ?; auto 30 with pf fr| |intros e; by apply Bad|by apply Bad]. intros hr.
  apply pt_frame_bind; [apply fr_alloc_promise|intros ?; auto 30 with pf fr| |intros e; by apply Bad|by apply Bad]. intros d.
  apply pt_frame_bind; [auto with fr|intros ?; auto 30 with pf fr| |intros e; by apply Bad|by apply Bad]. intros _.
  apply pt_frame_bind; [apply fr_create_resolving|intros ?; auto 30 with pf fr| |intros e; by apply Bad|by apply Bad]. intros fs.
  set (f := PReaction _ false hf). set (r := PReaction _ true hr).
  eapply pt_ext; [intros h; apply (then_body_split p h f r (pret (VObject d)))|].
  eapply pt_bind; [apply pt_tail| | | |].
  - intros _. auto with pf.
  - intros u es q1 K. apply pt_ret. rewrite (right_id_L [] app). exists es1, es. split; auto. split; auto. right. eauto.
  - intros e es q1 K. exists es1, es. split; auto. split; auto. right. eauto.
  - intros es q1 K. exists es1, es. split; auto. split; auto. right. eauto.
Qed.

(** ** Histories *)
Definition step_post (p : heap_id) (q : js_promise) (call : pcall) (x : res unit) (es : list effect) (q' : js_promise) : Prop :=
  match call with
  | CallFulfill v =>
      if bool_decide (pr_state q = Pending) then q' = settled q Fulfilled v /\ only_jobs (default [] (pr_fulfill q)) v (is_ok x) es
      else q' = q /\ es = []
  | CallReject v =>
      if bool_decide (pr_state q = Pending) then q' = settled q Rejected v /\
        exists es', es = (if pr_handled q then [] else [EfTrack p false]) ++ es' /\ only_jobs (default [] (pr_reject q)) v (is_ok x) es'
      else q' = q /\ es = []
  | CallThen _ _ => then_post p q x es q'
  | CallHeap _ => q' = q /\ es = []
  end.
Definition call_ok (call : pcall) (x : res unit) : bool := match call with CallHeap _ => true | _ => is_ok x end.
Lemma keeps_any (T : heap_id -> Prop) h h' : keeps T h h' -> keeps (fun _ => True) h h'.
Proof. apply keeps_weaken. done. Qed.
Lemma pexec_keeps c p call h h' es x : heap_ok h -> pexec c p call h = (h', es, x) -> heap_ok h' /\ keeps (fun _ => True) h h'.
Proof.
  intros H E. destruct call as [v|v|f r|o]; cbn [pexec] in E.
  - destruct (pt_fulfill p (promise_new None) v _ _ _ _ H E) as (?&?%keeps_any&_). done.
  - destruct (pt_reject p (promise_new None) v _ _ _ _ H E) as (?&?%keeps_any&_). done.
  - assert (Hf : pf p (perform_promise_then c p f r ;!; pret tt)).
    { apply pf_bind; [apply (pt_pf p (promise_new None) _ _ (pt_then c p _ f r))|intros _; apply pf_ret]. }
    destruct (Hf _ _ _ _ H E) as (?&?%keeps_any). done.
  - unfold plift in E. destruct (exec o h) as [h1 r1] eqn:E1. simplify_eq. destruct (fr_exec o _ _ _ H E1) as (?&?%keeps_any). done.
Qed.
Lemma pexec_step c p call h h' es x q : heap_ok h -> pexec c p call h = (h', es, x) -> leaves_alone p call ->
  live_as h p (HPromise q) -> live h' p -> h_gc_runs h' < h_gc_runs h + two32 ->
  exists q', live_as h' p (HPromise q') /\ step_post p q call x es q'.
Proof.
  intros H E Hl L L' R. destruct call as [v|v|f r|o]; cbn [pexec leaves_alone] in *.
  - destruct (pt_fulfill p q v _ _ _ _ H E) as (_&_&K). auto.
  - destruct (pt_reject p q v _ _ _ _ H E) as (_&_&K). auto.
  - assert (Hf : pt p q (perform_promise_then c p f r ;!; pret tt) (fun x es q' => then_post p q x es q')).
    { eapply pt_bind; [apply pt_then|intros _; apply pf_ret| | |done].
      - intros a es1 q1 K. apply pt_ret. by rewrite (right_id_L [] app).
      - intros e es1 q1 K. exact K. }
    destruct (Hf _ _ _ _ H E) as (_&_&K). auto.
  - unfold plift in E. destruct (exec o h) as [h1 r1] eqn:E1. simplify_eq. destruct (fr_exec o _ _ _ H E1) as (H1&K).
    destruct L' as [y L']. assert (y = HPromise q) as ->; [|exists q; split; [done|by split]].
    refine (keeps_live _ h h' p _ _ H K R Hl L L').
Qed.
Lemma prun_keeps c p cs : forall h h' es b, heap_ok h -> prun c p cs h = (h', es, b) -> heap_ok h' /\ keeps (fun _ => True) h h'.
Proof.
  induction cs as [|call cs IH]; intros h h' es b H E; cbn [prun] in E.
  { simplify_eq. split; auto. by apply keeps_refl. }
  destruct (pexec c p call h) as [[h1 es1] x1] eqn:E1. destruct (prun c p cs h1) as [[h2 es2] b2] eqn:E2. simplify_eq.
  destruct (pexec_keeps _ _ _ _ _ _ _ H E1) as [H1 K1]. destruct (IH _ _ _ _ H1 E2) as [H2 K2]. split; auto. eapply keeps_trans; eauto.
Qed.
Lemma prun_invariant c p (I : list pcall -> list effect -> bool -> js_promise -> Prop) :
  (forall cs es b q call x es' q', I cs es b q -> step_post p q call x es' q' -> I (cs ++ [call]) (es ++ es') (b && call_ok call x) q') ->
  forall cs cs0 es0 b0 h h' es b q, heap_ok h -> prun c p cs h = (h', es, b) -> Forall (leaves_alone p) cs ->
    live_as h p (HPromise q) -> live h' p -> h_gc_runs h' < h_gc_runs h + two32 -> I cs0 es0 b0 q ->
    exists q', live_as h' p (HPromise q') /\ I (cs0 ++ cs) (es0 ++ es) (b0 && b) q'.
Proof.
  intros HI cs. induction cs as [|call cs IH]; intros cs0 es0 b0 h h' es b q H E Ha L L' R H0; cbn [prun] in E.
  { simplify_eq. exists q. rewrite !(right_id_L [] app), andb_true_r. done. }
  destruct (pexec c p call h) as [[h1 es1] x1] eqn:E1. destruct (prun c p cs h1) as [[h2 es2] b2] eqn:E2. simplify_eq.
  apply Forall_cons in Ha as [Ha1 Ha2]. destruct (pexec_keeps _ _ _ _ _ _ _ H E1) as [H1 K1]. destruct (prun_keeps _ _ _ _ _ _ _ H1 E2) as [H2 K2].
  pose proof (kp_runs _ _ _ K1). pose proof (kp_runs _ _ _ K2).
  assert (L1 : live h1 p). { eapply (keeps_mid _ _ h h1 h'); eauto. by eexists. }
  destruct (pexec_step _ _ _ _ _ _ _ _ H E1 Ha1 L L1 ltac:(lia)) as (q1 & L1' & S1).
  destruct (IH (cs0 ++ [call]) (es0 ++ es1) (b0 && call_ok call x1) _ _ _ _ _ H1 E2 Ha2 L1' L' ltac:(lia)) as (q2 & A & B); [by eapply HI|].
  exists q2. split; [done|]. rewrite !(assoc_L app). rewrite <- (assoc_L app cs0) in B. cbn [app] in B.
  rewrite andb_assoc. change (match call with CallHeap _ => true | _ => is_ok x1 end) with (call_ok call x1). done.
Qed.

Definition rel {A} (b : bool) (l l' : list A) : Prop := if b then l = l' else sublist l l'.
Lemma rel_app {A} b (l l' m m' : list A) : rel b l l' -> rel b m m' -> rel b (l ++ m) (l' ++ m').
Proof. destruct b; cbn; [congruence|]. apply sublist_app. Qed.
Lemma rel_weak {A} b b' (l l' : list A) : rel b l l' -> rel (b && b') l l'.
Proof. destruct b, b'; cbn; auto. by intros ->. Qed.
Lemma rel_refl {A} b (l : list A) : rel b l l.
Proof. by destruct b; cbn. Qed.
Lemma rel_sub {A} b (l l' : list A) : rel b l l' -> sublist l l'.
Proof. destruct b; cbn; [by intros ->|done]. Qed.
Lemma rel_map {A B} (f : A -> B) b l l' : rel b l l' -> rel b (map f l) (map f l').
Proof. destruct b; cbn; [congruence|]. induction 1; cbn; by constructor. Qed.
Lemma rel_trans {A} b b' (l1 l2 l3 : list A) : rel b' l1 l2 -> rel b l2 l3 -> rel (b && b') l1 l3.
Proof. destruct b, b'; cbn; [congruence|by intros ? ->|by intros -> ?|]. intros. by etrans. Qed.
Definition delivered (b : bool) (q : js_promise) (R : list (promise_reaction * promise_reaction)) (J : list (promise_reaction * value)) : Prop :=
  match pr_state q with
  | Pending => J = [] /\ exists fs rs, pr_fulfill q = Some fs /\ pr_reject q = Some rs /\ rel b fs (map fst R) /\ rel b rs (map snd R)
  | st => exists v, pr_result q = Some v /\ rel b J (owed st v R)
  end.
Lemma only_jobs_rel rs arg b es : only_jobs rs arg b es -> registered es = [] /\ tracked es = [] /\ rel b (jobs es) (map (fun r => (r, arg)) rs).
Proof.
  intros (A & B & rs' & C & D & E). split; auto. split; auto. rewrite C. apply rel_map. destruct b; [by apply E|done].
Qed.
Lemma owed_app st v a b : owed st v (a ++ b) = owed st v a ++ owed st v b.
Proof. destruct st; cbn; [done|apply map_app|apply map_app]. Qed.
Lemma map_owed_f v (R : list (promise_reaction * promise_reaction)) : map (fun r => (r, v)) (map fst R) = owed Fulfilled v R.
Proof. cbn. rewrite map_map. done. Qed.
Lemma map_owed_r v (R : list (promise_reaction * promise_reaction)) : map (fun r => (r, v)) (map snd R) = owed Rejected v R.
Proof. cbn. rewrite map_map. done. Qed.
Lemma delivered_step p q call x es q' b R J : delivered b q R J -> step_post p q call x es q' ->
  delivered (b && call_ok call x) q' (R ++ registered es) (J ++ jobs es).
Proof.
  intros HD HS.
  assert (Hsame : q' = q -> es = [] -> delivered (b && call_ok call x) q' (R ++ registered es) (J ++ jobs es)).
  { intros -> ->. cbn. rewrite !(right_id_L [] app). revert HD. unfold delivered. destruct (pr_state q).
    - intros (A & fs & rs & B & C & D & E). split; auto. exists fs, rs. auto using rel_weak.
    - intros (v & A & B). eauto using rel_weak.
    - intros (v & A & B). eauto using rel_weak. }
  destruct call as [v|v|f r|o]; cbn [step_post] in HS.
  - case_bool_decide as Hs; [|destruct HS; auto]. destruct HS as (-> & (A & B & C)%only_jobs_rel). rewrite A, (right_id_L [] app).
    unfold delivered in *. rewrite Hs in HD. destruct HD as (-> & fs & rs & Hfs & _ & D & _). rewrite Hfs in C. cbn in C. cbn.
    exists v. split; auto. change (rel (b && is_ok x) (jobs es) (owed Fulfilled v R)). rewrite <- (map_owed_f v). eapply rel_trans; [exact C|]. by apply rel_map.
  - case_bool_decide as Hs; [|destruct HS; auto]. destruct HS as (-> & es' & -> & (A & B & C)%only_jobs_rel).
    rewrite registered_app, jobs_app, A. replace (registered (if pr_handled q then [] else [EfTrack p false])) with
      (@nil (promise_reaction * promise_reaction)) by (by destruct (pr_handled q)).
    replace (jobs (if pr_handled q then [] else [EfTrack p false])) with (@nil (promise_reaction * value)) by (by destruct (pr_handled q)).
    rewrite !(right_id_L [] app). unfold delivered in *. rewrite Hs in HD. destruct HD as (-> & fs & rs & _ & Hrs & _ & D). rewrite Hrs in C. cbn in C. cbn.
    exists v. split; auto. change (rel (b && is_ok x) (jobs es') (owed Rejected v R)). rewrite <- (map_owed_r v). eapply rel_trans; [exact C|]. by apply rel_map.
  - destruct HS as (es1 & es2 & -> & H1 & HS).
    assert (registered es1 = [] /\ jobs es1 = []) as [R1 J1] by (subst es1; by destruct (_ && _)).
    rewrite registered_app, jobs_app, R1, J1. cbn [app].
    destruct HS as [(Hx & -> & ->)|(fr & rr & A & B & C)].
    + cbn. rewrite !(right_id_L [] app). rewrite Hx, andb_false_r. revert HD. unfold delivered. cbn. destruct (pr_state q).
      * intros (D & fs & rs & E & F & G & H). split; auto. exists fs, rs. split; auto. split; auto.
        eauto using rel_sub.
      * intros (v & D & E). exists v. split; auto. eauto using rel_sub.
      * intros (v & D & E). exists v. split; auto. eauto using rel_sub.
    + rewrite A. change (call_ok (CallThen f r) x) with (is_ok x). change (pr_state (handled q)) with (pr_state q) in C.
      unfold delivered in HD. destruct (pr_state q) eqn:Hs.
      * destruct HD as (-> & fs & rs & E & F & G & H). destruct C as (-> & C).
        assert (Hsub : forall (l l' : list promise_reaction) x, rel b l l' -> sublist l (l' ++ [x])).
        { intros l l' y Hl. apply sublist_inserts_r. destruct b; cbn in Hl; [by subst|done]. }
        destruct C as [(Hx & [->| ->])|(_ & _ & ->)].
        -- rewrite Hx, andb_false_r. unfold delivered. cbn. rewrite Hs. split; auto. exists fs, rs. rewrite !map_app. cbn. eauto 10.
        -- rewrite Hx, andb_false_r. unfold delivered. cbn. rewrite Hs. split; auto. exists (fs ++ [fr]), rs. rewrite E, !map_app. cbn.
           split; auto. split; auto. split; [|eauto]. apply sublist_app; [|done]. destruct b; cbn in G; [by subst|done].
        -- unfold delivered. cbn. rewrite Hs. split; auto. exists (fs ++ [fr]), (rs ++ [rr]). rewrite E, F, !map_app. cbn.
           split; auto. split; auto. split; apply rel_weak; apply rel_app; auto; apply rel_refl.
      * destruct HD as (v & E & G). destruct C as (-> & C). unfold delivered. cbn. rewrite Hs. exists v. split; auto.
        change (rel (b && is_ok x) (J ++ jobs es2) (owed Fulfilled v (R ++ [(fr, rr)]))). rewrite owed_app.
        change (pr_result (handled q)) with (pr_result q) in C. rewrite E in C. cbn [default from_option id] in C. destruct C as [->|[Hx ->]].
        -- apply rel_app; [by apply rel_weak|]. apply rel_refl.
        -- rewrite Hx, andb_false_r, (right_id_L [] app). cbn [rel]. apply sublist_inserts_r. destruct b; cbn in G; [by subst|done].
      * destruct HD as (v & E & G). destruct C as (-> & C). unfold delivered. cbn. rewrite Hs. exists v. split; auto.
        change (rel (b && is_ok x) (J ++ jobs es2) (owed Rejected v (R ++ [(fr, rr)]))). rewrite owed_app.
        change (pr_result (handled q)) with (pr_result q) in C. rewrite E in C. cbn [default from_option id] in C. destruct C as [->|[Hx ->]].
        -- apply rel_app; [by apply rel_weak|]. apply rel_refl.
        -- rewrite Hx, andb_false_r, (right_id_L [] app). cbn [rel]. apply sublist_inserts_r. destruct b; cbn in G; [by subst|done].
  - destruct HS; auto.
Qed.

(** Settlement and tracking, call by call. *)
Lemma step_settled p q call x es q' : step_post p q call x es q' ->
  (pr_state q <> Pending -> pr_state q' = pr_state q /\ pr_result q' = pr_result q) /\
  pr_handled q' = pr_handled q || is_then call /\
  tracked es = match call with
    | CallReject _ => if bool_decide (pr_state q = Pending) && negb (pr_handled q) then [(p, false)] else []
    | CallThen _ _ => if bool_decide (pr_state q = Rejected) && negb (pr_handled q) then [(p, true)] else []
    | _ => []
    end /\
  (pr_state q = Pending -> pr_state q' = match call with CallFulfill _ => Fulfilled | CallReject _ => Rejected | _ => Pending end).
Proof.
  intros HS. destruct call as [v|v|f r|o]; cbn [step_post is_then] in *.
  - case_bool_decide as Hs.
    + destruct HS as (-> & A & B & _). cbn. rewrite orb_false_r. by rewrite Hs.
    + destruct HS as (-> & ->). rewrite orb_false_r. naive_solver.
  - case_bool_decide as Hs.
    + destruct HS as (-> & es' & -> & A & B & _). rewrite tracked_app, B, (right_id_L [] app). cbn. rewrite orb_false_r. split; [done|]. split; auto. split; [|done].
      by destruct (pr_handled q).
    + destruct HS as (-> & ->). rewrite orb_false_r. naive_solver.
  - destruct HS as (es1 & es2 & -> & H1 & HS). rewrite orb_true_r, tracked_app.
    assert (T1 : tracked es1 = if bool_decide (pr_state q = Rejected) && negb (pr_handled q) then [(p, true)] else []) by (subst es1; by destruct (_ && _)).
    destruct HS as [(_ & -> & ->)|(fr & rr & _ & B & C)].
    + rewrite T1. cbn. rewrite (right_id_L [] app). naive_solver.
    + rewrite T1, B, (right_id_L [] app). cbn in C. destruct (pr_state q) eqn:Hs.
      * destruct C as (_ & [(_ & [->| ->])|(_ & _ & ->)]); cbn; naive_solver.
      * destruct C as (-> & _). cbn. naive_solver.
      * destruct C as (-> & _). cbn. naive_solver.
  - destruct HS as (-> & ->). rewrite orb_false_r. naive_solver.
Qed.

(** ** The engine's record *)
Definition rdelivered (b : bool) (p : promise_record) (R : list (reaction_record * reaction_record)) (J : list (reaction_record * value)) : Prop :=
  match rp_state p with
  | RPending => J = [] /\ rp_fulfill p = map fst R /\ rp_reject p = map snd R
  | st => rel b J (rowed st R)
  end.
Lemma rjobs_app a b : rjobs (a ++ b) = rjobs a ++ rjobs b.
Proof. apply omap_app. Qed.
Lemma rregistered_app a b : rregistered (a ++ b) = rregistered a ++ rregistered b.
Proof. apply omap_app. Qed.
Lemma rtracked_app a b : rtracked (a ++ b) = rtracked a ++ rtracked b.
Proof. apply omap_app. Qed.
Lemma rregistered_cons f r es : rregistered (ReReg f r :: es) = (f, r) :: rregistered es.
Proof. done. Qed.
Lemma rjobs_cons f r es : rjobs (ReReg f r :: es) = rjobs es.
Proof. done. Qed.
Lemma rowed_app st a b : rowed st (a ++ b) = rowed st a ++ rowed st b.
Proof. destruct st; cbn; [done|apply map_app|apply map_app]. Qed.

Lemma record_enqueue_spec r arg h h' es x : record_enqueue r arg h = (h', es, x) ->
  rregistered es = [] /\ rtracked es = [] /\ rjobs es = (if is_ok x then [(r, arg)] else []).
Proof.
  unfold record_enqueue. destruct (job_roots _ h) as [h1 [roots|e|]]; intros [= <- <- <-]; done.
Qed.
Lemma record_enqueue_all_spec rs arg : forall h h' es x, record_enqueue_all rs arg h = (h', es, x) ->
  rregistered es = [] /\ rtracked es = [] /\ rel (is_ok x) (rjobs es) (map (fun r => (r, arg)) rs).
Proof.
  induction rs as [|r rs IH]; intros h h' es x E; cbn [record_enqueue_all] in E; [by injection E as <- <- <-|].
  destruct (record_enqueue r arg h) as [[h1 es1] x1] eqn:E1. destruct (record_enqueue_spec _ _ _ _ _ _ E1) as (A & B & C).
  destruct x1 as [a|e|].
  - destruct (record_enqueue_all rs arg h1) as [[h2 es2] x2] eqn:E2. injection E as <- <- <-.
    destruct (IH _ _ _ _ E2) as (A2 & B2 & C2). rewrite rregistered_app, rtracked_app, rjobs_app, A, B, C, A2, B2. cbn.
    split; [done|]. split; [done|]. apply (rel_app _ [(r, arg)] [(r, arg)]); [apply rel_refl|done].
  - injection E as <- <- <-. cbn in C. rewrite C. split; [done|]. split; [done|]. apply sublist_nil_l.
  - injection E as <- <- <-. cbn in C. rewrite C. split; [done|]. split; [done|]. apply sublist_nil_l.
Qed.
Lemma record_track_none o b : rregistered (record_track o b) = [] /\ rjobs (record_track o b) = [].
Proof. by destruct o. Qed.

Definition rcall_ok (call : rcall) (x : res unit) : bool := match call with RcHeap _ => true | _ => is_ok x end.
Lemma rdelivered_weak b b' p R J : rdelivered b p R J -> rdelivered (b && b') p R J.
Proof. unfold rdelivered. destruct (rp_state p); auto using rel_weak. Qed.
Lemma rexec_delivered c call p h p' h' es x b R J : rexec c call p h = (p', h', es, x) -> rdelivered b p R J ->
  rdelivered (b && rcall_ok call x) p' (R ++ rregistered es) (J ++ rjobs es).
Proof.
  intros E HD. destruct call as [v|f r|o]; cbn [rexec rcall_ok] in *.
  - unfold record_reject in E. destruct (rp_state p) eqn:Hs.
    + destruct (record_enqueue_all (rp_reject p) v h) as [[h1 es1] x1] eqn:E1. injection E as <- <- <- <-.
      destruct (record_enqueue_all_spec _ _ _ _ _ _ E1) as (A & B & C). unfold rdelivered in *. rewrite Hs in HD. cbn.
      destruct HD as (-> & _ & D). destruct (record_track_none (rp_handle p) false) as [T1 T2].
      rewrite rregistered_app, rjobs_app, A.
      replace (rregistered (if rp_handled p then [] else record_track (rp_handle p) false)) with (@nil (reaction_record * reaction_record)) by (by destruct (rp_handled p)).
      replace (rjobs (if rp_handled p then [] else record_track (rp_handle p) false)) with (@nil (reaction_record * value)) by (by destruct (rp_handled p)).
      rewrite !(right_id_L [] app). cbn [app]. rewrite D, map_map in C. change (rel (b && is_ok x1) (rjobs es1) (rowed (RRejected v) R)). cbn [rowed].
      destruct b; cbn [andb]; [exact C|]. eapply rel_sub, C.
    + injection E as <- <- <- <-. cbn. rewrite !(right_id_L [] app). by apply rdelivered_weak.
    + injection E as <- <- <- <-. cbn. rewrite !(right_id_L [] app). by apply rdelivered_weak.
  - unfold record_then in E. destruct (record_handler c f h) as [hf|e|]; [|injection E as <- <- <- <-; cbn; rewrite !(right_id_L [] app); by apply rdelivered_weak|injection E as <- <- <- <-; cbn; rewrite !(right_id_L [] app); by apply rdelivered_weak].
    destruct (record_handler c r h) as [hr|e|]; [|injection E as <- <- <- <-; cbn; rewrite !(right_id_L [] app); by apply rdelivered_weak|injection E as <- <- <- <-; cbn; rewrite !(right_id_L [] app); by apply rdelivered_weak].
    cbn zeta in E. set (first := match hr with Some _ => _ | None => false end) in E.
    set (es0 := if first then _ else []) in E. set (p0 := if first then _ else p) in E.
    assert (T0 : rregistered es0 = [] /\ rjobs es0 = []).
    { subst es0. destruct first; [|done]. destruct (rp_state p); try done. apply record_track_none. }
    destruct T0 as [T1 T2].
    assert (P0 : rp_state p0 = rp_state p /\ rp_fulfill p0 = rp_fulfill p /\ rp_reject p0 = rp_reject p) by (subst p0; by destruct first).
    destruct P0 as (P1 & P2 & P3). rewrite P1 in E. unfold rdelivered in *. destruct (rp_state p) as [|v|v] eqn:Hs.
    + injection E as <- <- <- <-. cbn. rewrite P1, P2, P3. rewrite rregistered_app, rjobs_app, T1, T2. cbn. destruct HD as (-> & A & B).
      rewrite A, B, !map_app. done.
    + destruct (record_enqueue (RRecord false hf) v h) as [[h1 es1] x1] eqn:E1. injection E as <- <- <- <-.
      destruct (record_enqueue_spec _ _ _ _ _ _ E1) as (A & B & C). rewrite P1. rewrite (rregistered_app es0), (rjobs_app es0), T1, T2. cbn [app].
      rewrite (rregistered_cons _ _ es1), (rjobs_cons _ _ es1), A, C.
      rewrite !rowed_app. destruct x1 as [u| |]; cbn [is_ok].
      * apply rel_app; [by apply rel_weak|]. apply rel_refl.
      * rewrite andb_false_r, (right_id_L [] app). cbn [rel]. apply sublist_inserts_r. eapply rel_sub, HD.
      * rewrite andb_false_r, (right_id_L [] app). cbn [rel]. apply sublist_inserts_r. eapply rel_sub, HD.
    + destruct (record_enqueue (RRecord true hr) v h) as [[h1 es1] x1] eqn:E1. injection E as <- <- <- <-.
      destruct (record_enqueue_spec _ _ _ _ _ _ E1) as (A & B & C). rewrite P1. rewrite (rregistered_app es0), (rjobs_app es0), T1, T2. cbn [app].
      rewrite (rregistered_cons _ _ es1), (rjobs_cons _ _ es1), A, C.
      rewrite !rowed_app. destruct x1 as [u| |]; cbn [is_ok].
      * apply rel_app; [by apply rel_weak|]. apply rel_refl.
      * rewrite andb_false_r, (right_id_L [] app). cbn [rel]. apply sublist_inserts_r. eapply rel_sub, HD.
      * rewrite andb_false_r, (right_id_L [] app). cbn [rel]. apply sublist_inserts_r. eapply rel_sub, HD.
  - destruct (exec o h) as [h1 r1]. injection E as <- <- <- <-. cbn. rewrite !(right_id_L [] app). by apply rdelivered_weak.
Qed.
Lemma rrun_delivered c cs : forall p h p' h' es ok b R J, rrun c cs p h = (p', h', es, ok) -> rdelivered b p R J ->
  rdelivered (b && ok) p' (R ++ rregistered es) (J ++ rjobs es).
Proof.
  induction cs as [|call cs IH]; intros p h p' h' es ok b R J E HD; cbn [rrun] in E.
  { injection E as <- <- <- <-. cbn. rewrite !(right_id_L [] app), andb_true_r. done. }
  destruct (rexec c call p h) as [[[p1 h1] es1] x1] eqn:E1. destruct (rrun c cs p1 h1) as [[[p2 h2] es2] ok2] eqn:E2. injection E as <- <- <- <-.
  pose proof (rexec_delivered _ _ _ _ _ _ _ _ _ _ _ E1 HD) as D1. pose proof (IH _ _ _ _ _ _ _ _ _ E2 D1) as D2.
  rewrite rregistered_app, rjobs_app, !(assoc_L app), andb_assoc. exact D2.
Qed.

(** State, handled flag and tracker calls of one call. [hs]: the call registers a callable
    reject handler. *)
Lemma rexec_state c call p h p' h' es x : rexec c call p h = (p', h', es, x) ->
  rp_handle p' = rp_handle p /\
  (rp_state p <> RPending -> rp_state p' = rp_state p) /\
  (rp_state p = RPending -> rp_state p' = match call with RcReject v => RRejected v | _ => RPending end) /\
  (rp_handled p = true -> rp_handled p' = true) /\
  (rp_handled p' = true -> rp_handled p = true \/ exists g r, rregistered es = [(g, r)] /\ is_Some (rr_handler r)) /\
  (forall g r, (g, r) ∈ rregistered es -> is_Some (rr_handler r) -> rp_handled p' = true) /\
  rtracked es = match call, rp_state p, rp_handle p with
    | RcReject _, RPending, Some y => if rp_handled p then [] else [(y, false)]
    | RcThen _ _, RRejected _, Some y => if negb (rp_handled p) && rp_handled p' then [(y, true)] else []
    | _, _, _ => []
    end.
Proof.
  intros E. destruct call as [v|f r|o]; cbn [rexec] in *.
  - unfold record_reject in E. destruct (rp_state p) eqn:Hs.
    + destruct (record_enqueue_all (rp_reject p) v h) as [[h1 es1] x1] eqn:E1. injection E as <- <- <- <-.
      destruct (record_enqueue_all_spec _ _ _ _ _ _ E1) as (A & B & C). cbn. rewrite rtracked_app, B, rregistered_app, A, !(right_id_L [] app).
      replace (rregistered (if rp_handled p then [] else record_track (rp_handle p) false)) with (@nil (reaction_record * reaction_record))
        by (destruct (rp_handled p); [done|]; by destruct (rp_handle p)).
      split; [done|]. split; [done|]. split; [done|]. split; [done|]. split; [auto|]. split; [intros ? ? X; by apply elem_of_nil in X|].
      destruct (rp_handle p), (rp_handled p); done.
    + injection E as <- <- <- <-. cbn. rewrite Hs. split; [done|]. split; [done|]. split; [done|]. split; [done|]. split; [auto|]. split; [intros ? ? X; by apply elem_of_nil in X|done].
    + injection E as <- <- <- <-. cbn. rewrite Hs. split; [done|]. split; [done|]. split; [done|]. split; [done|]. split; [auto|]. split; [intros ? ? X; by apply elem_of_nil in X|done].
  - unfold record_then in E.
    assert (Hnone : (p', h', es, x) = (p', h', es, x) -> p' = p -> es = [] ->
      rp_handle p' = rp_handle p /\ (rp_state p <> RPending -> rp_state p' = rp_state p) /\
      (rp_state p = RPending -> rp_state p' = RPending) /\ (rp_handled p = true -> rp_handled p' = true) /\
      (rp_handled p' = true -> rp_handled p = true \/ exists g r, rregistered es = [(g, r)] /\ is_Some (rr_handler r)) /\
      (forall g r, (g, r) ∈ rregistered es -> is_Some (rr_handler r) -> rp_handled p' = true) /\
      rtracked es = match rp_state p, rp_handle p with RRejected _, Some y => if negb (rp_handled p) && rp_handled p' then [(y, true)] else [] | _, _ => [] end).
    { intros _ -> ->. split; [done|]. split; [done|]. split; [done|]. split; [done|]. split; [auto|]. split; [intros ? ? X; by apply elem_of_nil in X|].
      destruct (rp_state p), (rp_handle p), (rp_handled p); done. }
    destruct (record_handler c f h) as [hf|e|]; [|injection E as <- <- <- <-; by apply Hnone|injection E as <- <- <- <-; by apply Hnone].
    destruct (record_handler c r h) as [hr|e|]; [|injection E as <- <- <- <-; by apply Hnone|injection E as <- <- <- <-; by apply Hnone].
    clear Hnone. cbn zeta in E. set (first := match hr with Some _ => _ | None => false end) in E.
    set (es0 := if first then _ else []) in E. set (p0 := if first then _ else p) in E.
    assert (T0 : rregistered es0 = []).
    { subst es0. destruct first; [|done]. destruct (rp_state p); try done. apply record_track_none. }
    assert (T1 : rtracked es0 = match rp_state p, rp_handle p with RRejected _, Some y => if first then [(y, true)] else [] | _, _ => [] end).
    { subst es0. destruct first; destruct (rp_state p), (rp_handle p); done. }
    assert (P0 : rp_state p0 = rp_state p /\ rp_handle p0 = rp_handle p /\ rp_handled p0 = rp_handled p || first).
    { subst p0. destruct first; cbn; rewrite ?orb_true_r, ?orb_false_r; done. }
    destruct P0 as (P1 & P2 & P3).
    assert (Q : forall pp ee, rp_state pp = rp_state p0 -> rp_handle pp = rp_handle p0 -> rp_handled pp = rp_handled p0 ->
       rregistered ee = [] -> rtracked ee = [] ->
       let es := es0 ++ [ReReg (RRecord false hf) (RRecord true hr)] ++ ee in
       rp_handle pp = rp_handle p /\ (rp_state p <> RPending -> rp_state pp = rp_state p) /\
       (rp_state p = RPending -> rp_state pp = RPending) /\ (rp_handled p = true -> rp_handled pp = true) /\
       (rp_handled pp = true -> rp_handled p = true \/ exists g r, rregistered es = [(g, r)] /\ is_Some (rr_handler r)) /\
       (forall g r, (g, r) ∈ rregistered es -> is_Some (rr_handler r) -> rp_handled pp = true) /\
       rtracked es = match rp_state p, rp_handle p with RRejected _, Some y => if negb (rp_handled p) && rp_handled pp then [(y, true)] else [] | _, _ => [] end).
    { intros pp ee Q1 Q2 Q3 Q4 Q5. cbn zeta. rewrite !rregistered_app, !rtracked_app, T0, T1, Q4, Q5. cbn [rregistered rtracked omap list_omap app].
      rewrite Q1, Q2, Q3, P1, P2, P3, !(right_id_L [] app). split; [done|]. split; [done|]. split; [done|]. split; [by intros ->|]. split.
      { subst first. destruct hr; cbn; [|rewrite orb_false_r; auto]. intros _. right. eauto. }
      split. { intros g y. rewrite elem_of_list_singleton. intros [= -> ->]. cbn. intros [j ->]. subst first. by destruct (rp_handled p). }
      subst first. destruct (rp_state p), (rp_handle p), (rp_handled p), hr; done. }
    rewrite P1 in E. destruct (rp_state p) as [|v|v] eqn:Hs.
    + injection E as <- <- <- <-. apply (Q _ []); cbn; done.
    + destruct (record_enqueue (RRecord false hf) v h) as [[h1 es1] x1] eqn:E1. injection E as <- <- <- <-.
      destruct (record_enqueue_spec _ _ _ _ _ _ E1) as (A & B & C). by apply Q.
    + destruct (record_enqueue (RRecord true hr) v h) as [[h1 es1] x1] eqn:E1. injection E as <- <- <- <-.
      destruct (record_enqueue_spec _ _ _ _ _ _ E1) as (A & B & C). by apply Q.
  - destruct (exec o h) as [h1 r1]. injection E as <- <- <- <-.
    split; [done|]. split; [done|]. split; [done|]. split; [done|]. split; [auto|]. split; [intros ? ? X; by apply elem_of_nil in X|].
    destruct (rp_state p), (rp_handle p); done.
Qed.
