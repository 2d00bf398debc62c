(** The heap invariant and its preservation by every operation of HeapModel.v. *)
From stdpp Require Import base decidable list numbers sets.
From Coq Require Import NArith ZArith Lia.
From RecordUpdate Require Import RecordUpdate.
From Verif Require Import VmBase HeapModel HeapSpec HeapGcProofs.

Open Scope N_scope.

(* ------------------------------------------------------------------ *)
(** * The invariant *)

Record slot_ok (l : layout) (s : slot) : Prop := {
  so_gen : sl_gen s < two32;
  so_bytes : sl_bytes s = match sl_value s with Some o => payload_bytes l o | None => 0 end;
  so_host : sl_value s = None -> sl_host s = None }.

Definition caps_cover (h : heap) : Prop :=
  let c := h_caps h in
  nlen (h_slots h) <= c_slots c /\ nlen (h_slots h) <= c_marks c /\
  nlen (h_slots h) <= c_free c /\ nlen (h_slots h) <= c_work c /\
  nlen (h_roots h) <= c_roots c /\ nlen (h_env_roots h) <= c_env_roots c /\
  nlen (h_proots h) <= c_proots c /\ nlen (h_proots h) <= c_proots_free c /\
  nlen (h_peroots h) <= c_peroots c /\ nlen (h_peroots h) <= c_peroots_free c /\
  nlen (h_registry h) <= c_registry c.

Definition free_ok {A} (free : list nat) (l : list A) (empty : A -> Prop) : Prop :=
  NoDup free /\ forall i, i ∈ free <-> exists x, l !! i = Some x /\ empty x.

Record heap_ok (h : heap) : Prop := {
  hk_lim : limits_ok (h_layout h) (h_max_bytes h);
  hk_marks_len : length (h_marks h) = length (h_slots h);
  hk_marks : forall i k, h_marks h !! i = Some k -> k = 0%nat;
  hk_free : free_ok (h_free h) (h_slots h) (fun s => sl_value s = None);
  hk_slots : forall i s, h_slots h !! i = Some s -> slot_ok (h_layout h) s;
  hk_used : h_used h = sum_bytes (h_slots h);
  hk_caps : caps_cover h;
  hk_total : total_bytes h <= h_max_bytes h;
  hk_proots : free_ok (h_proots_free h) (h_proots h) (fun r => r = None);
  hk_peroots : free_ok (h_peroots_free h) (h_peroots h) (fun r => r = None) }.

Lemma hk_slot_index h : heap_ok h -> N.of_nat (length (h_slots h)) < two32.
Proof.
  intros H. pose proof (hk_caps h H) as (Hc & _). pose proof (hk_total h H) as Ht.
  destruct (hk_lim h H) as (_ & _ & _ & _ & _ & Hs & _). unfold total_bytes in Ht. unfold nlen in Hc.
  assert (c_slots (h_caps h) * sz_slot (h_layout h) < two32 * sz_slot (h_layout h)) by lia.
  assert (c_slots (h_caps h) < two32) by nia. lia.
Qed.
Lemma hk_proot_index h : heap_ok h -> N.of_nat (length (h_proots h)) < two32.
Proof.
  intros H. pose proof (hk_caps h H) as (_&_&_&_&_&_&Hc & _). pose proof (hk_total h H) as Ht.
  destruct (hk_lim h H) as (_ & _ & _ & _ & _ & _ & Hs & _). unfold total_bytes in Ht. unfold nlen in Hc.
  assert (c_proots (h_caps h) * sz_opt_value (h_layout h) < two32 * sz_opt_value (h_layout h)) by lia.
  assert (c_proots (h_caps h) < two32) by nia. lia.
Qed.
Lemma hk_peroot_index h : heap_ok h -> N.of_nat (length (h_peroots h)) < two32.
Proof.
  intros H. pose proof (hk_caps h H) as (_&_&_&_&_&_&_&_&Hc&_). pose proof (hk_total h H) as Ht.
  destruct (hk_lim h H) as (_ & _ & _ & _ & _ & _ & _ & Hs). unfold total_bytes in Ht. unfold nlen in Hc.
  assert (c_peroots (h_caps h) * sz_opt_env (h_layout h) < two32 * sz_opt_env (h_layout h)) by lia.
  assert (c_peroots (h_caps h) < two32) by nia. lia.
Qed.

Lemma sat_add_min_l a b : sat_add (N.min a usize_max) b = N.min (a + b) usize_max.
Proof. unfold sat_add. lia. Qed.
Lemma sat_mul_exact b c : b * c <= usize_max -> sat_mul b c = b * c.
Proof. unfold sat_mul. lia. Qed.
Lemma sat_mul_over b c : usize_max < b * c -> sat_mul b c = usize_max.
Proof. unfold sat_mul. lia. Qed.
Lemma sat_add_0 a : sat_add 0 a = N.min a usize_max.
Proof. reflexivity. Qed.

Lemma estimated_total_bytes_exact h : estimated_total_bytes h = N.min (total_bytes h) usize_max.
Proof.
  unfold estimated_total_bytes, total_bytes. rewrite sat_add_0.
  rewrite !sat_add_min_l.
  repeat match goal with
  | |- context [sat_mul ?b ?c] =>
      let E := fresh in
      destruct (N.le_gt_cases (b * c) usize_max) as [E|E];
      [rewrite (sat_mul_exact b c E)
      |rewrite (sat_mul_over b c E); rewrite !N.min_r by lia; reflexivity]
  end.
  f_equal. lia.
Qed.

Lemma heap_ok_gc_ready h : heap_ok h -> gc_ready h.
Proof.
  intros H. constructor.
  - by apply hk_marks_len.
  - by apply hk_marks.
  - pose proof (hk_slot_index h H). lia.
  - rewrite (hk_used h H). lia.
Qed.

(* ------------------------------------------------------------------ *)
(** * How a heap changes over time *)

(** Strings and symbols never change; other objects keep their kind. *)
Definition same_kind (o o' : heap_object) : Prop :=
  match o, o' with
  | HString u, HString u' => u = u'
  | HSymbol n d, HSymbol n' d' => n = n' /\ d = d'
  | HObject b, HObject b' =>
      match ob_kind b, ob_kind b' with
      | KOrdinary, KOrdinary => True | KArray _, KArray _ => True | _, _ => False
      end
  | HFunction _, HFunction _ => True
  | HEnv (EnvDeclarative o _ _ _), HEnv (EnvDeclarative o' _ _ _) => o = o'
  | HEnv (EnvObject o b w), HEnv (EnvObject o' b' w') => o = o' /\ b = b' /\ w = w'
  | HPromise _, HPromise _ => True
  | _, _ => False
  end.

Lemma same_kind_refl o : same_kind o o.
Proof. destruct o as [|? ?|b|?|[]|?]; simpl; auto. destruct (ob_kind b); auto. Qed.
Lemma same_kind_trans a b c : same_kind a b -> same_kind b c -> same_kind a c.
Proof.
  destruct a as [|? ?|x|?|[]|?], b as [|? ?|y|?|[]|?]; simpl; try tauto;
  destruct c as [|? ?|z|?|[]|?]; simpl; try tauto; intros; try (intuition congruence).
  destruct (ob_kind x), (ob_kind y), (ob_kind z); tauto.
Qed.

(** The generation of a slot advances at most once per collection, and while it
    does not advance a live slot stays live. *)
Record evolves (h h' : heap) : Prop := {
  ev_layout : h_layout h' = h_layout h;
  ev_max : h_max_bytes h' = h_max_bytes h;
  ev_runs : h_gc_runs h <= h_gc_runs h';
  ev_slots : forall i s, h_slots h !! i = Some s ->
    exists s' k, h_slots h' !! i = Some s' /\ k <= h_gc_runs h' - h_gc_runs h /\
      sl_gen s' = (sl_gen s + k) mod two32 /\
      (k = 0 -> forall o, sl_value s = Some o -> exists o', sl_value s' = Some o' /\ same_kind o o') }.

Lemma evolves_refl h : heap_ok h -> evolves h h.
Proof.
  intros H. constructor; auto; try lia. intros i s Hs. exists s, 0. split; auto. split; [lia|]. split.
  - pose proof (so_gen _ _ (hk_slots h H i s Hs)). rewrite N.add_0_r, N.mod_small; auto.
  - intros _ o Ho. exists o. split; auto. apply same_kind_refl.
Qed.

Lemma evolves_trans h1 h2 h3 : evolves h1 h2 -> evolves h2 h3 -> evolves h1 h3.
Proof.
  intros [L1 M1 R1 S1] [L2 M2 R2 S2]. constructor; [congruence|congruence|lia|].
  intros i s Hs. destruct (S1 i s Hs) as (s2 & k & Hs2 & Hk & Hg & Hl).
  destruct (S2 i s2 Hs2) as (s3 & k' & Hs3 & Hk' & Hg' & Hl').
  exists s3, (k + k'). split; auto. split; [lia|]. split.
  - rewrite Hg', Hg. rewrite N.add_mod_idemp_l by done. f_equal. lia.
  - intros Hz o Ho. assert (k = 0) by lia. assert (k' = 0) by lia.
    destruct (Hl H o Ho) as (o2 & Ho2 & Hk2). destruct (Hl' H0 o2 Ho2) as (o3 & Ho3 & Hk3).
    exists o3. split; auto. eapply same_kind_trans; eauto.
Qed.

(** The slot table and GC counter did not change. *)
Lemma evolves_same_slots h h' :
  heap_ok h -> h_layout h' = h_layout h -> h_max_bytes h' = h_max_bytes h ->
  h_gc_runs h' = h_gc_runs h -> h_slots h' = h_slots h -> evolves h h'.
Proof.
  intros H HL HM HR HS. destruct (evolves_refl h H) as [_ _ _ E].
  constructor; auto; try lia. rewrite HS, HR. auto.
Qed.

(* ------------------------------------------------------------------ *)
(** * Collection as a step *)

Record gstep (extra : list heap_id) (h h' : heap) : Prop := {
  gs_layout : h_layout h' = h_layout h;
  gs_max : h_max_bytes h' = h_max_bytes h;
  gs_thr : h_gc_threshold h' = h_gc_threshold h;
  gs_symbol : h_next_symbol h' = h_next_symbol h;
  gs_roots : h_roots h' = h_roots h;
  gs_env_roots : h_env_roots h' = h_env_roots h;
  gs_proots : h_proots h' = h_proots h;
  gs_proots_free : h_proots_free h' = h_proots_free h;
  gs_peroots : h_peroots h' = h_peroots h;
  gs_peroots_free : h_peroots_free h' = h_peroots_free h;
  gs_registry : h_registry h' = h_registry h;
  gs_caps : h_caps h' = h_caps h;
  gs_len : length (h_slots h') = length (h_slots h);
  gs_runs : h_gc_runs h <= h_gc_runs h' <= h_gc_runs h + 1;
  gs_slots : forall i s, h_slots h !! i = Some s ->
     exists s', h_slots h' !! i = Some s' /\
       (s' = s \/ ((exists o, sl_value s = Some o) /\ s' = Slot (wrapping_succ32 (sl_gen s)) None None 0
                   /\ h_gc_runs h' = h_gc_runs h + 1
                   /\ ~ reachable h extra (HId i (sl_gen s))));
  gs_reach : h_slots h' = h_slots h \/ (forall id, live h' id -> reachable h extra id) }.

Lemma gstep_refl extra h : gstep extra h h.
Proof. constructor; auto; try lia. intros i s Hs. exists s. auto. Qed.

Lemma wrapping_succ32_ne g : g < two32 -> wrapping_succ32 g <> g.
Proof.
  intros Hg. unfold wrapping_succ32. destruct (decide (g + 1 = two32)) as [E|E].
  - rewrite E, N.mod_same by done. intros Hz. rewrite <- Hz in E. discriminate E.
  - rewrite N.mod_small by lia. lia.
Qed.
Lemma wrapping_succ32_lt g : wrapping_succ32 g < two32.
Proof. unfold wrapping_succ32. apply N.mod_lt. done. Qed.

Lemma collect_ok extra h : heap_ok h ->
  exists h', collect_with extra h = Some h' /\ heap_ok h' /\ gstep extra h h' /\ h_used h' <= h_used h.
Proof.
  intros H. destruct (collect_spec extra h (heap_ok_gc_ready h H))
    as (marks & h' & Hc & HL & Hh' & Hle & Hfree & Hnd & Hreach & Hunm).
  exists h'. split; auto.
  assert (Hslots : h_slots h' = zip_with swept (h_slots h) marks) by (rewrite Hh'; reflexivity).
  assert (Hmarks : h_marks h' = replicate (length (h_slots h)) 0%nat) by (rewrite Hh'; reflexivity).
  assert (Hused : h_used h' = sum_bytes (h_slots h')).
  { rewrite Hslots. rewrite Hh'. cbn [h_used set]. cbn. rewrite (hk_used h H). lia. }
  assert (Hlen : length (h_slots h') = length (h_slots h)).
  { rewrite Hslots, zip_with_length, HL. lia. }
  assert (Hlook : forall i s', h_slots h' !! i = Some s' ->
            exists s m, h_slots h !! i = Some s /\ marks !! i = Some m /\ s' = swept s m).
  { intros i s' Hs'. rewrite Hslots in Hs'. apply lookup_zip_with_Some in Hs' as (s & m & -> & ? & ?). eauto. }
  assert (Hrest : h_layout h' = h_layout h /\ h_max_bytes h' = h_max_bytes h /\
    h_gc_threshold h' = h_gc_threshold h /\ h_next_symbol h' = h_next_symbol h /\
    h_roots h' = h_roots h /\ h_env_roots h' = h_env_roots h /\ h_proots h' = h_proots h /\
    h_proots_free h' = h_proots_free h /\ h_peroots h' = h_peroots h /\
    h_peroots_free h' = h_peroots_free h /\ h_registry h' = h_registry h /\ h_caps h' = h_caps h /\
    h_gc_runs h' = h_gc_runs h + 1) by (rewrite Hh'; repeat split).
  destruct Hrest as (E1&E2&E3&E4&E5&E6&E7&E8&E9&E10&E11&E12&E13).
  assert (Hu : h_used h' <= h_used h).
  { rewrite Hused, (hk_used h H), Hslots. auto. }
  split; [|split; [|auto]].
  - destruct (hk_free h H) as [Hfn Hff]. constructor.
    + rewrite E1, E2. by apply hk_lim.
    + rewrite Hmarks, Hlen. apply replicate_length.
    + intros i k Hk. rewrite Hmarks in Hk. apply lookup_replicate in Hk. tauto.
    + split.
      * apply Hnd; auto. intros i s Hi Hs. apply Hff in Hi as (s' & Hs' & Hv). congruence.
      * intros i. rewrite Hfree. split.
        -- intros [Hi|(s & m & Hs & Hm & Hd)].
           ++ apply Hff in Hi as (s & Hs & Hv).
              assert (exists m, marks !! i = Some m) as [m Hm].
              { apply lookup_lt_is_Some. rewrite HL. eapply lookup_lt_Some; eauto. }
              exists (swept s m). split.
              ** rewrite Hslots. apply lookup_zip_with_Some. eauto.
              ** unfold swept. by rewrite Hv.
           ++ exists (swept s m). split.
              ** rewrite Hslots. apply lookup_zip_with_Some. eauto.
              ** unfold swept, is_dead in *. destruct (sl_value s); [rewrite Hd; auto|discriminate].
        -- intros (s' & Hs' & Hv). destruct (Hlook i s' Hs') as (s & m & Hs & Hm & ->).
           destruct (sl_value s) eqn:Hval.
           ++ right. exists s, m. split; auto. split; auto. unfold is_dead, swept in *. rewrite Hval in *.
              destruct (Nat.eqb m 0); auto. congruence.
           ++ left. apply Hff. eauto.
    + intros i s' Hs'. destruct (Hlook i s' Hs') as (s & m & Hs & Hm & ->).
      destruct (hk_slots h H i s Hs) as [G B P]. rewrite E1. unfold swept.
      destruct (sl_value s) eqn:Hval; [destruct (Nat.eqb m 0)|]; constructor; simpl; auto;
        try apply wrapping_succ32_lt; rewrite ?Hval; auto.
    + auto.
    + unfold caps_cover, nlen. rewrite E12, Hlen, E5, E6, E7, E9, E11. apply (hk_caps h H).
    + unfold total_bytes in *. rewrite E12, E1, E2. pose proof (hk_total h H) as Ht. unfold total_bytes in Ht. lia.
    + rewrite E7, E8. by apply hk_proots.
    + rewrite E9, E10. by apply hk_peroots.
  - constructor; auto; try lia.
    { intros i s Hs.
    assert (exists m, marks !! i = Some m) as [m Hm].
    { apply lookup_lt_is_Some. rewrite HL. eapply lookup_lt_Some; eauto. }
    exists (swept s m). split.
    + rewrite Hslots. apply lookup_zip_with_Some. eauto.
    + unfold swept. destruct (sl_value s) eqn:Hv; [destruct (Nat.eqb_spec m 0)|]; auto.
      right. split; [eauto|]. split; auto. split; auto. intros Hr. apply Hreach in Hr.
      simpl in Hr. congruence. }
    { right. intros id (o & hs & s' & Hs' & Hg & Ho & _).
      destruct (Hlook _ _ Hs') as (s & m & Hs & Hm & ->).
      unfold swept in *. destruct (sl_value s) eqn:Hv; [|congruence].
      destruct (Nat.eqb_spec m 0) as [Hz|Hz]; [discriminate Ho|].
      destruct (Hunm (hid_index id)) as (id' & Hi & Hr).
      { congruence. }
      { eapply lookup_lt_Some; eauto. }
      assert (Hid : id' = id); [|by subst].
      assert (Hl : live h id').
      { by inversion Hr; subst. }
      destruct Hl as (o' & hs' & s2 & Hs2 & Hg2 & _). rewrite Hi, Hs in Hs2. simplify_eq.
      destruct id, id'; simpl in *; congruence. }
Qed.

(** Objects reachable at a collection keep their identity and contents. *)
Lemma gstep_keep extra h h' id o hs :
  gstep extra h h' -> reachable h extra id -> live_with h id o hs -> live_with h' id o hs.
Proof.
  intros G Hr (s & Hs & Hg & Ho & Hh). destruct (gs_slots _ _ _ G _ _ Hs) as (s' & Hs' & [->|(_ & _ & _ & Hnr)]).
  - exists s. auto.
  - exfalso. apply Hnr. destruct id. simpl in *. by subst.
Qed.

Lemma gstep_back extra h h' id o hs :
  gstep extra h h' -> live_with h' id o hs -> live_with h id o hs.
Proof.
  intros G (s' & Hs' & Hg & Ho & Hh).
  assert (exists s, h_slots h !! hid_index id = Some s) as [s Hs].
  { apply lookup_lt_is_Some. rewrite <- (gs_len _ _ _ G). eapply lookup_lt_Some; eauto. }
  destruct (gs_slots _ _ _ G _ _ Hs) as (s2 & Hs2 & [->|(_ & -> & _)]).
  - rewrite Hs2 in Hs'. simplify_eq. exists s'. auto.
  - rewrite Hs2 in Hs'. simplify_eq.
Qed.

Lemma gstep_evolves extra h h' : heap_ok h -> gstep extra h h' -> evolves h h'.
Proof.
  intros H G. constructor; [apply G|apply G|apply (gs_runs _ _ _ G)|].
  intros i s Hs. destruct (gs_slots _ _ _ G _ _ Hs) as (s' & Hs' & [->|(_ & -> & Hr & _)]).
  - destruct (evolves_refl h H) as [_ _ _ E]. destruct (E i s Hs) as (s' & k & E1 & E2 & E3 & E4).
    rewrite Hs in E1. simplify_eq. exists s', k. repeat split; auto. lia.
  - exists (Slot (wrapping_succ32 (sl_gen s)) None None 0), 1. split; auto. split; [lia|]. split; auto. done.
Qed.

Lemma ensure_spec add extra h : heap_ok h ->
  exists h', heap_ok h' /\ gstep extra h h' /\ h_used h' <= h_used h /\
    ((ensure_can_allocate_with add extra h = (h', Err EOutOfMemory)
      /\ h_max_bytes h' < total_bytes h' + add h') \/
     (ensure_can_allocate_with add extra h = (h', Ok tt) /\ total_bytes h' + add h' <= h_max_bytes h')).
Proof.
  intros H. unfold ensure_can_allocate_with.
  set (cond := h_gc_threshold h <? _).
  assert (exists h', (if cond then collect_with extra h else Some h) = Some h' /\ heap_ok h' /\
            gstep extra h h' /\ h_used h' <= h_used h) as (h' & -> & Hok & Hg & Hu).
  { destruct cond.
    - apply collect_ok; auto.
    - exists h. split; auto. split; auto. split; [apply gstep_refl|lia]. }
  exists h'. split; auto. split; auto. split; auto.
  destruct (hk_lim h' Hok) as (_ & _ & _ & _ & Hm & _).
  rewrite estimated_total_bytes_exact.
  destruct (N.ltb_spec (h_max_bytes h') (sat_add (N.min (total_bytes h') usize_max) (add h'))) as [Hlt|Hge].
  - left. split; auto. unfold sat_add in Hlt. lia.
  - right. split; auto. unfold sat_add in Hge. lia.
Qed.

(* ------------------------------------------------------------------ *)
(** * Operations that keep the invariant *)

(** [good m]: [m] keeps the invariant, never panics, and only evolves the heap. *)
Definition good {A} (m : M A) : Prop :=
  forall h h' r, heap_ok h -> m h = (h', r) -> heap_ok h' /\ r <> Panic /\ evolves h h'.

Lemma good_ret {A} (a : A) : good (mret a).
Proof. intros h h' r H E. unfold mret in E. simplify_eq. split; auto. split; [done|by apply evolves_refl]. Qed.
Lemma good_fail {A} e : good (mfail (A:=A) e).
Proof. intros h h' r H E. unfold mfail in E. simplify_eq. split; auto. split; [done|by apply evolves_refl]. Qed.
Lemma good_bind {A B} (m : M A) (k : A -> M B) : good m -> (forall a, good (k a)) -> good (mbind m k).
Proof.
  intros Hm Hk h h' r H E. unfold mbind in E. destruct (m h) as [h1 [a|e|]] eqn:E1.
  - destruct (Hm _ _ _ H E1) as (H1 & _ & V1). destruct (Hk a _ _ _ H1 E) as (H2 & ? & V2).
    split; auto. split; auto. eapply evolves_trans; eauto.
  - destruct (Hm _ _ _ H E1) as (H1 & _ & V1). simplify_eq. auto.
  - destruct (Hm _ _ _ H E1) as (_ & ? & _). done.
Qed.
Lemma good_mget {A} (f : heap -> A) : good (mget f).
Proof. intros h h' r H E. unfold mget in E. simplify_eq. split; auto. split; [done|by apply evolves_refl]. Qed.
Lemma good_mread {A} (f : heap -> res A) : (forall h, heap_ok h -> f h <> Panic) -> good (mread f).
Proof.
  intros Hf h h' r H E. unfold mread in E. simplify_eq. split; auto. split; [auto|by apply evolves_refl].
Qed.

Lemma good_ensure add extra : good (ensure_can_allocate_with add extra).
Proof.
  intros h h' r H E. destruct (ensure_spec add extra h H) as (h1 & H1 & G & _ & [[E1 _]|[E1 _]]);
  rewrite E1 in E; simplify_eq; (split; auto; split; [done|eapply gstep_evolves; eauto]).
Qed.

(** [ensure_can_allocate_with add extra] followed by a continuation that may rely
    on the space being available. *)
Lemma good_ensure_bind {B} add extra (k : unit -> M B) :
  (forall h h' r, heap_ok h -> total_bytes h + add h <= h_max_bytes h -> k tt h = (h', r) ->
     heap_ok h' /\ r <> Panic /\ evolves h h') ->
  good (mbind (ensure_can_allocate_with add extra) k).
Proof.
  intros Hk h h' r H E. unfold mbind in E.
  destruct (ensure_spec add extra h H) as (h1 & H1 & G & _ & [[E1 _]|[E1 Hs]]); rewrite E1 in E.
  - simplify_eq. split; auto. split; [done|eapply gstep_evolves; eauto].
  - destruct (Hk _ _ _ H1 Hs E) as (? & ? & ?). split; auto. split; auto.
    eapply evolves_trans; eauto. eapply gstep_evolves; eauto.
Qed.

Lemma total_bytes_roots h r e :
  total_bytes (h <| h_roots := r |> <| h_env_roots := e |>) = total_bytes h.
Proof. reflexivity. Qed.

Lemma nlen_take {A} n (l : list A) : nlen (take n l) <= nlen l.
Proof. unfold nlen. rewrite take_length. lia. Qed.
Lemma nlen_app {A} (a b : list A) : nlen (a ++ b) = nlen a + nlen b.
Proof. unfold nlen. rewrite app_length. lia. Qed.
Lemma nlen_cons {A} (x : A) (b : list A) : nlen (x :: b) = 1 + nlen b.
Proof. unfold nlen. simpl. lia. Qed.

(** Changing only the stack roots, within their capacity. *)
Lemma heap_ok_set_roots h r e :
  heap_ok h -> nlen r <= c_roots (h_caps h) -> nlen e <= c_env_roots (h_caps h) ->
  heap_ok (h <| h_roots := r |> <| h_env_roots := e |>).
Proof.
  intros H Hr He. pose proof (hk_caps h H) as (?&?&?&?&?&?&?&?&?&?&?).
  constructor; cbn; try apply H. unfold caps_cover; cbn. tauto.
Qed.

Lemma good_with_scope {A} (m : M A) : good m -> good (with_scope m).
Proof.
  intros Hm h h' r H E. unfold with_scope in E. destruct (m h) as [h1 r1] eqn:E1. simplify_eq.
  destruct (Hm _ _ _ H E1) as (H1 & Hp & V1). split; [|split; auto].
  - pose proof (hk_caps h1 H1) as (?&?&?&?&?&?&?&?&?&?&?).
    apply heap_ok_set_roots; auto.
    + pose proof (nlen_take (length (h_roots h)) (h_roots h1)). lia.
    + pose proof (nlen_take (length (h_env_roots h)) (h_env_roots h1)). lia.
  - eapply evolves_trans; [exact V1|]. apply evolves_same_slots; auto.
Qed.

Lemma good_truncate n : good (truncate_stack_roots n).
Proof.
  intros h h' r H E. unfold truncate_stack_roots, mmodify in E. simplify_eq.
  split; [|split; [done|by apply evolves_same_slots]].
  pose proof (hk_caps h H) as (?&?&?&?&?&?&?&?&?&?&?).
  constructor; cbn; try apply H. unfold caps_cover; cbn.
  pose proof (nlen_take n (h_roots h)). repeat split; auto; lia.
Qed.

(* ------------------------------------------------------------------ *)
(** * Vector growth *)

Lemma double_until_ok fuel : forall cap req,
  double_until fuel cap req = usize_max \/ (req <= double_until fuel cap req /\ cap <= double_until fuel cap req).
Proof.
  induction fuel as [|fuel IH]; intros cap req; simpl; auto.
  destruct (N.leb_spec req cap); [right; lia|].
  destruct (N.ltb_spec usize_max (cap * 2)); auto.
  destruct (IH (cap * 2) req); auto. right. lia.
Qed.

Lemma grown_capacity_ok cur req :
  grown_capacity cur req = usize_max \/ (req <= grown_capacity cur req /\ cur <= grown_capacity cur req).
Proof.
  unfold grown_capacity. destruct (N.leb_spec req cur); [right; lia|].
  destruct (double_until_ok 65 (N.max cur 1) req); auto. right. lia.
Qed.

Lemma reserve_ok elem cur req B :
  0 < elem -> B < usize_max -> vec_growth_bytes elem cur req <= B ->
  exists c, reserve_cap cur req = Ok c /\ req <= c /\ cur <= c /\
            vec_growth_bytes elem cur req = (c - cur) * elem.
Proof.
  intros He HB. unfold vec_growth_bytes, reserve_cap.
  destruct (N.eqb_spec elem 0); [lia|].
  destruct (N.eqb_spec (grown_capacity cur req) usize_max) as [E|E]; [lia|]. intros Hle.
  destruct (grown_capacity_ok cur req) as [?|[H1 H2]]; [done|].
  destruct (N.leb_spec req cur) as [Hl|Hl].
  - exists cur. split; auto. split; [lia|]. split; [lia|].
    unfold grown_capacity. destruct (N.leb_spec req cur); [|lia].
    unfold sat_mul, sat_sub. rewrite N.sub_diag. reflexivity.
  - exists (grown_capacity cur req). split; auto. split; auto. split; auto.
    unfold sat_mul, sat_sub in *. lia.
Qed.

(** Growing the capacities of a heap within its byte limit. *)
Lemma heap_ok_set_caps h c :
  heap_ok h ->
  c_slots (h_caps h) <= c_slots c -> c_marks (h_caps h) <= c_marks c ->
  c_free (h_caps h) <= c_free c -> c_work (h_caps h) <= c_work c ->
  c_roots (h_caps h) <= c_roots c -> c_env_roots (h_caps h) <= c_env_roots c ->
  c_proots (h_caps h) <= c_proots c -> c_proots_free (h_caps h) <= c_proots_free c ->
  c_peroots (h_caps h) <= c_peroots c -> c_peroots_free (h_caps h) <= c_peroots_free c ->
  c_registry (h_caps h) <= c_registry c ->
  total_bytes (h <| h_caps := c |>) <= h_max_bytes h ->
  heap_ok (h <| h_caps := c |>).
Proof.
  intros H. intros. pose proof (hk_caps h H) as (?&?&?&?&?&?&?&?&?&?&?).
  constructor; cbn; try apply H; auto. unfold caps_cover; cbn. repeat split; lia.
Qed.

Lemma heap_eta_roots h : h <| h_roots := h_roots h ++ [] |> = h.
Proof. destruct h; unfold set; cbn. by rewrite app_nil_r. Qed.

(** [push_roots_with]: possibly a collection with the pushed values and the extra
    roots protected, then either an out-of-memory error or the values are pushed. *)
Lemma push_roots_spec values extra h : heap_ok h ->
  exists h1, heap_ok h1 /\ gstep (trace_values values ++ extra) h h1 /\
    (push_roots_with values extra h = (h1, Err EOutOfMemory) \/
     exists c, let h2 := h1 <| h_caps := c |> <| h_roots := h_roots h1 ++ values |> in
       push_roots_with values extra h = (h2, Ok tt) /\ heap_ok h2).
Proof.
  intros H. unfold push_roots_with.
  destruct values as [|v0 vs].
  { exists h. split; auto. split; [apply gstep_refl|]. right. exists (h_caps h). cbn zeta.
    assert (E : h <| h_caps := h_caps h |> <| h_roots := h_roots h ++ [] |> = h).
    { clear H. destruct h; unfold set; cbn. by rewrite app_nil_r. }
    rewrite E. auto. }
  set (values := v0 :: vs) in *.
  set (new_len := nlen (h_roots h) + nlen values) in *.
  set (growth := vec_growth_bytes _ _ _) in *.
  destruct (hk_lim h H) as (_ & Hsv & _ & _ & Hm & _).
  destruct (N.eqb_spec growth 0) as [Hz|Hnz].
  - exists h. split; auto. split; [apply gstep_refl|]. right. exists (h_caps h). cbn zeta.
    destruct (reserve_ok (sz_value (h_layout h)) (c_roots (h_caps h)) new_len 0)
      as (c & Hc & Hr & Hcur & Hg); auto; [done|unfold growth in Hz; lia|].
    fold growth in Hg. rewrite Hz in Hg.
    assert (c = c_roots (h_caps h)) by nia. subst c.
    split; [by destruct h|].
    pose proof (hk_caps h H) as (?&?&?&?&?&?&?&?&?&?&?).
    constructor; cbn; try apply H. unfold caps_cover; cbn. fold values. rewrite nlen_app.
    repeat split; auto.
  - destruct (ensure_spec (fun _ => growth) (trace_values values ++ extra) h H)
      as (h1 & H1 & G & _ & [[E1 _]|[E1 Hs]]); exists h1; split; auto; split; auto;
      unfold mbind; rewrite E1; auto.
    right. pose proof (gs_caps _ _ _ G) as Gc. pose proof (gs_layout _ _ _ G) as Gl.
    pose proof (gs_max _ _ _ G) as Gm. pose proof (gs_roots _ _ _ G) as Gr.
    destruct (reserve_ok (sz_value (h_layout h)) (c_roots (h_caps h)) new_len (h_max_bytes h))
      as (c & Hc & Hr & Hcur & Hg); auto; [fold growth; lia|].
    rewrite Gc, Hc. exists (set c_roots (fun _ => c) (h_caps h1)). cbn zeta. split; [done|].
    assert (Hk : heap_ok (h1 <| h_caps ::= set c_roots (fun _ => c) |>)).
    { apply heap_ok_set_caps; cbn; try lia; auto. rewrite Gc. auto.
      unfold total_bytes in *. cbn. rewrite Gc, Gl in *. fold growth in Hg. lia. }
    pose proof (hk_caps _ Hk) as (?&?&?&?&?&?&?&?&?&?&?). cbn in *.
    constructor; cbn; try apply Hk. unfold caps_cover; cbn. rewrite nlen_app, Gr.
    repeat split; auto.
Qed.

Lemma good_push_roots_with values extra : good (push_roots_with values extra).
Proof.
  intros h h' r H E. destruct (push_roots_spec values extra h H) as (h1 & H1 & G & [E1|(c & E1 & H2)]);
    rewrite E1 in E; simplify_eq; (split; [done|]); (split; [done|]).
  - eapply gstep_evolves; eauto.
  - eapply evolves_trans; [eapply gstep_evolves; eauto|]. by apply evolves_same_slots.
Qed.

Lemma good_push_root v : good (push_root v).
Proof. apply good_push_roots_with. Qed.

Lemma push_env_root_spec e h : heap_ok h ->
  exists h1, heap_ok h1 /\ gstep [e] h h1 /\
    (push_env_root e h = (h1, Err EOutOfMemory) \/
     exists c, let h2 := h1 <| h_caps := c |> <| h_env_roots := h_env_roots h1 ++ [e] |> in
       push_env_root e h = (h2, Ok tt) /\ heap_ok h2).
Proof.
  intros H. unfold push_env_root.
  set (new_len := nlen (h_env_roots h) + 1) in *.
  set (growth := vec_growth_bytes _ _ _) in *.
  destruct (hk_lim h H) as (_ & _ & Hsv & _ & Hm & _).
  destruct (N.eqb_spec growth 0) as [Hz|Hnz].
  - exists h. split; auto. split; [apply gstep_refl|]. right. exists (h_caps h). cbn zeta.
    destruct (reserve_ok (sz_env (h_layout h)) (c_env_roots (h_caps h)) new_len 0)
      as (c & Hc & Hr & Hcur & Hg); auto; [done|unfold growth in Hz; lia|].
    fold growth in Hg. rewrite Hz in Hg.
    assert (c = c_env_roots (h_caps h)) by nia. subst c.
    split; [by destruct h|].
    pose proof (hk_caps h H) as (?&?&?&?&?&?&?&?&?&?&?).
    constructor; cbn; try apply H. unfold caps_cover; cbn. rewrite nlen_app.
    repeat split; auto.
  - destruct (ensure_spec (fun _ => growth) [e] h H)
      as (h1 & H1 & G & _ & [[E1 _]|[E1 Hs]]); exists h1; split; auto; split; auto;
      unfold mbind; rewrite E1; auto.
    right. pose proof (gs_caps _ _ _ G) as Gc. pose proof (gs_layout _ _ _ G) as Gl.
    pose proof (gs_max _ _ _ G) as Gm. pose proof (gs_env_roots _ _ _ G) as Gr.
    destruct (reserve_ok (sz_env (h_layout h)) (c_env_roots (h_caps h)) new_len (h_max_bytes h))
      as (c & Hc & Hr & Hcur & Hg); auto; [fold growth; lia|].
    rewrite Gc, Hc. exists (set c_env_roots (fun _ => c) (h_caps h1)). cbn zeta. split; [done|].
    assert (Hk : heap_ok (h1 <| h_caps ::= set c_env_roots (fun _ => c) |>)).
    { apply heap_ok_set_caps; cbn; try lia; auto. rewrite Gc. auto.
      unfold total_bytes in *. cbn. rewrite Gc, Gl in *. fold growth in Hg. lia. }
    pose proof (hk_caps _ Hk) as (?&?&?&?&?&?&?&?&?&?&?). cbn in *.
    constructor; cbn; try apply Hk. unfold caps_cover; cbn. rewrite nlen_app, Gr.
    repeat split; auto.
Qed.

Lemma good_push_env_root e : good (push_env_root e).
Proof.
  intros h h' r H E. destruct (push_env_root_spec e h H) as (h1 & H1 & G & [E1|(c & E1 & H2)]);
    rewrite E1 in E; simplify_eq; (split; [done|]); (split; [done|]).
  - eapply gstep_evolves; eauto.
  - eapply evolves_trans; [eapply gstep_evolves; eauto|]. by apply evolves_same_slots.
Qed.

(* ------------------------------------------------------------------ *)
(** * Allocation *)

(** Everything but the slot table, its bookkeeping and the capacities is equal. *)
Definition same_rest (h h' : heap) : Prop :=
  h_layout h' = h_layout h /\ h_max_bytes h' = h_max_bytes h /\
  h_gc_threshold h' = h_gc_threshold h /\ h_gc_runs h' = h_gc_runs h /\
  h_next_symbol h' = h_next_symbol h /\ h_roots h' = h_roots h /\
  h_env_roots h' = h_env_roots h /\ h_proots h' = h_proots h /\
  h_proots_free h' = h_proots_free h /\ h_peroots h' = h_peroots h /\
  h_peroots_free h' = h_peroots_free h /\ h_registry h' = h_registry h.

(** What storing a new object does to the heap. *)
Record alloc_step (h h' : heap) (id : heap_id) (obj : heap_object) : Prop := {
  as_rest : same_rest h h';
  as_live : live_with h' id obj None;
  as_other : forall j, j <> hid_index id -> h_slots h' !! j = h_slots h !! j;
  as_fresh : h_slots h !! hid_index id = None \/
             exists s, h_slots h !! hid_index id = Some s /\ sl_value s = None /\ sl_gen s = hid_gen id;
  as_gen : hid_gen id < two32 }.

Definition take_slot_ok (h h' : heap) (idx : nat) : Prop :=
  same_rest h h' /\ h_used h' = h_used h /\
  h_marks h' = replicate (length (h_slots h')) 0%nat /\
  ((h_slots h' = h_slots h /\ h_free h = idx :: h_free h') \/
   (h_slots h' = h_slots h ++ [slot_new] /\ h_free h = [] /\ h_free h' = [] /\ idx = length (h_slots h))) /\
  caps_cover h'.

Lemma marks_replicate (m : list nat) n :
  length m = n -> (forall i k, m !! i = Some k -> k = 0%nat) -> m = replicate n 0%nat.
Proof.
  intros <- H. induction m as [|x m IH]; auto. simpl. f_equal.
  - apply (H 0%nat); auto.
  - apply IH. intros i k Hk. apply (H (S i)); auto.
Qed.

Lemma sat_add_le a b B : sat_add a b <= B -> B < usize_max -> a + b <= B /\ sat_add a b = a + b.
Proof. unfold sat_add. lia. Qed.

Lemma take_slot_spec h p : heap_ok h -> total_bytes h + additional_bytes_for_heap_alloc p h <= h_max_bytes h ->
  exists h' idx, take_slot h = (h', Ok idx) /\ take_slot_ok h h' idx /\ total_bytes h' + p <= h_max_bytes h.
Proof.
  intros H Hadd. destruct (hk_lim h H) as (Hid & _ & _ & _ & Hm & Hslot & _).
  unfold take_slot, additional_bytes_for_heap_alloc in *.
  destruct (h_free h) as [|idx free] eqn:Hf.
  - unfold reserve_for_new_slot. unfold additional_bytes_for_new_slot in *.
    set (n := nlen (h_slots h) + 1) in *.
    remember (vec_growth_bytes (sz_slot (h_layout h)) (c_slots (h_caps h)) n) as g1 eqn:G1.
    remember (vec_growth_bytes 1 (c_marks (h_caps h)) n) as g2 eqn:G2.
    remember (vec_growth_bytes 4 (c_free (h_caps h)) n) as g3 eqn:G3.
    remember (vec_growth_bytes (sz_heap_id (h_layout h)) (c_work (h_caps h)) n) as g4 eqn:G4.
    assert (Hsum : p + (g1 + g2 + g3 + g4) <= h_max_bytes h /\
                   total_bytes h + (p + (g1 + g2 + g3 + g4)) <= h_max_bytes h).
    { clear - Hadd Hm. unfold sat_add in Hadd. lia. }
    destruct Hsum as [Hs0 Hs1]. clear Hadd.
    destruct (reserve_ok (sz_slot (h_layout h)) (c_slots (h_caps h)) n (h_max_bytes h))
      as (a & Ha & Ha1 & Ha2 & Ha3); auto; [nia|lia|]. rewrite <- G1 in Ha3.
    destruct (reserve_ok 1 (c_marks (h_caps h)) n (h_max_bytes h)) as (b & Hb & Hb1 & Hb2 & Hb3); auto; [lia..|]. rewrite <- G2 in Hb3.
    destruct (reserve_ok 4 (c_free (h_caps h)) n (h_max_bytes h)) as (c & Hc & Hc1 & Hc2 & Hc3); auto; [lia..|]. rewrite <- G3 in Hc3.
    destruct (reserve_ok (sz_heap_id (h_layout h)) (c_work (h_caps h)) n (h_max_bytes h))
      as (d & Hd & Hd1 & Hd2 & Hd3); auto; [lia|]. rewrite <- G4 in Hd3.
    rewrite Ha. cbn [h_caps c_marks set]. unfold set at 1 2. cbn [h_caps c_marks c_free c_work].
    change (c_marks (h_caps _)) with (c_marks (h_caps h)). cbn.
    rewrite Hb. cbn. rewrite Hc. cbn. rewrite Hd.
    eexists _, _. split; [reflexivity|].
    pose proof (hk_caps h H) as (?&?&?&?&?&?&?&?&?&?&?).
    split.
    + split; [repeat split|]. split; [reflexivity|]. cbn. split.
      { rewrite app_length. cbn [length].
        rewrite (marks_replicate (h_marks h) (length (h_slots h)) (hk_marks_len h H) (hk_marks h H)).
        by rewrite replicate_add. }
      split; [right; auto|].
      unfold caps_cover; cbn. rewrite nlen_app. unfold n in *. unfold nlen at 2 4 6 8; simpl length.
      repeat split; auto; lia.
    + assert (Ea : a * sz_slot (h_layout h) = c_slots (h_caps h) * sz_slot (h_layout h) + g1) by nia.
      assert (Ed : d * sz_heap_id (h_layout h) = c_work (h_caps h) * sz_heap_id (h_layout h) + g4) by nia.
      unfold total_bytes in *; cbn. lia.
  - eexists _, _. split; [reflexivity|]. split; [|unfold total_bytes in *; cbn in *; lia].
    split; [repeat split|]. split; [reflexivity|]. cbn.
    split; [apply marks_replicate; [apply (hk_marks_len h H)|apply (hk_marks h H)]|].
    split; [left; auto|]. apply (hk_caps h H).
Qed.

(** [nb] is the saturated computation of the size [p]. *)
Definition sizes (nb p : N) : Prop := nb = p \/ nb = N.min p usize_max.

Lemma alloc_unchecked_spec obj nb h : heap_ok h ->
  sizes nb (payload_bytes (h_layout h) obj) ->
  exists h1, heap_ok h1 /\ gstep [] h h1 /\
    (alloc_unchecked obj nb h = (h1, Err EOutOfMemory) \/
     exists h2 id, alloc_unchecked obj nb h = (h2, Ok id) /\ heap_ok h2 /\ alloc_step h1 h2 id obj).
Proof.
  intros H Hnb. unfold alloc_unchecked, mbind.
  destruct (ensure_spec (additional_bytes_for_heap_alloc nb) [] h H)
    as (h1 & H1 & G & _ & [[E1 _]|[E1 Hs]]); exists h1; (split; [done|]); (split; [done|]); rewrite E1; auto.
  right. rewrite <- (gs_layout _ _ _ G) in Hnb. clear E1 G H h.
  rename h1 into h, H1 into H.
  destruct (take_slot_spec h nb H Hs) as (h1 & idx & -> & Htk & Hfit).
  destruct Htk as (Hrest & Hu & Hmk & Hsl & Hcc).
  destruct Hrest as (R1&R2&R3&R4&R5&R6&R7&R8&R9&R10&R11&R12).
  destruct (hk_lim h H) as (_ & _ & _ & _ & Hm & _).
  destruct (hk_free h H) as [Hfn Hff].
  assert (Hs1 : exists s, h_slots h1 !! idx = Some s /\ sl_value s = None /\ sl_gen s < two32 /\ sl_bytes s = 0
            /\ (h_slots h !! idx = None \/ h_slots h !! idx = Some s)).
  { destruct Hsl as [(Es & Ef)|(Es & Ef & _ & ->)].
    - assert (Hin : idx ∈ h_free h) by (rewrite Ef; set_solver).
      apply Hff in Hin as (s & Hsx & Hv). exists s. rewrite Es. destruct (hk_slots h H idx s Hsx) as [A B C].
      rewrite Hv in B. auto 6.
    - exists slot_new. rewrite Es. split; [|split; [done|]].
      + apply list_lookup_middle. done.
      + split; [done|]. split; auto. left. apply lookup_ge_None. lia. }
  destruct Hs1 as (s & Hsx & Hv & Hg & Hb & Hold).
  unfold store_new. rewrite Hsx.
  assert (Hidx : (idx < length (h_slots h1))%nat) by (eapply lookup_lt_Some; eauto).
  assert (Hsum1 : sum_bytes (h_slots h1) = sum_bytes (h_slots h)).
  { destruct Hsl as [(Es & Ef)|(Es & _)]; rewrite Es; auto. rewrite sum_bytes_app. cbn. lia. }
  assert (Hus : h_used h1 = sum_bytes (h_slots h1)) by (rewrite Hu, (hk_used h H); auto).
  assert (Hnb' : nb = payload_bytes (h_layout h) obj) by (unfold sizes in Hnb; lia).
  assert (Hadd : sat_add (h_used h1) nb = h_used h1 + nb).
  { unfold sat_add. unfold total_bytes in Hfit. lia. }
  cbv zeta. rewrite Hadd.
  assert (Hidx32 : N.of_nat idx < two32).
  { destruct Hcc as (Hc & _). unfold nlen in Hc.
    assert (c_slots (h_caps h1) * sz_slot (h_layout h) <= h_max_bytes h).
    { unfold total_bytes in Hfit. rewrite R1 in Hfit. lia. }
    destruct (hk_lim h H) as (_ & _ & _ & _ & _ & Hs32 & _).
    assert (c_slots (h_caps h1) < two32) by nia. lia. }
  destruct (N.leb_spec two32 (N.of_nat idx)); [lia|].
  eexists _, _. split; [reflexivity|].
  set (s' := Slot (sl_gen s) (Some obj) None nb).
  pose proof (sum_bytes_insert (h_slots h1) idx s s' Hsx) as Hins. rewrite Hb in Hins. cbn in Hins.
  assert (Hothers : forall i x, i <> idx -> h_slots h1 !! i = Some x -> h_slots h !! i = Some x).
  { intros i x Hi Hx. destruct Hsl as [(Es & Ef)|(Es & Ef & _ & ->)]; rewrite Es in Hx; auto.
    apply lookup_app_Some in Hx as [Hx|[Hl Hx]]; auto.
    destruct (i - length (h_slots h))%nat eqn:E; [lia|]. simpl in Hx. done. }
  split.
  - constructor; cbn.
    + rewrite R1, R2. apply H.
    + rewrite Hmk, replicate_length, insert_length. done.
    + intros i k Hk. rewrite Hmk in Hk. apply lookup_replicate in Hk. tauto.
    + split.
      * destruct Hsl as [(Es & Ef)|(_ & _ & Ef & _)].
        -- rewrite Ef in Hfn. by apply NoDup_cons in Hfn as [_ ?].
        -- rewrite Ef. constructor.
      * intros i. destruct (decide (i = idx)) as [->|Hne].
        -- rewrite list_lookup_insert by auto. split.
           ++ intros Hin. exfalso. destruct Hsl as [(Es & Ef)|(_ & _ & Ef & _)].
              ** rewrite Ef in Hfn. apply NoDup_cons in Hfn. tauto.
              ** rewrite Ef in Hin. by apply elem_of_nil in Hin.
           ++ intros (x & Hx & Hx'). simplify_eq.
        -- rewrite list_lookup_insert_ne by auto. destruct Hsl as [(Es & Ef)|(Es & Ef & Ef' & Hi)].
           ++ rewrite Es. rewrite <- Hff. rewrite Ef. set_solver.
           ++ rewrite Ef'. split; [intros Hc; by apply elem_of_nil in Hc|].
              intros (x & Hx & Hx'). apply Hothers in Hx; auto.
              assert (Hc : i ∈ h_free h) by (apply Hff; eauto). rewrite Ef in Hc. by apply elem_of_nil in Hc.
    + intros i x Hx. rewrite R1. destruct (decide (i = idx)) as [->|Hne].
      * rewrite list_lookup_insert in Hx by auto. simplify_eq. constructor; cbn; auto.
      * rewrite list_lookup_insert_ne in Hx by auto. apply Hothers in Hx; auto. by apply (hk_slots h H i).
    + rewrite Hus. change (sum_bytes (h_slots h1) + nb = sum_bytes (<[idx := s']> (h_slots h1))). lia.
    + destruct Hcc as (?&?&?&?&?&?&?&?&?&?&?). unfold caps_cover, nlen in *. cbn. rewrite insert_length.
      repeat split; auto.
    + rewrite R2. unfold total_bytes in *. cbn. lia.
    + rewrite R8, R9. apply H.
    + rewrite R10, R11. apply H.
  - constructor; cbn.
    + repeat split; auto.
    + exists s'. cbn. rewrite list_lookup_insert by auto. auto.
    + intros j Hj. rewrite list_lookup_insert_ne by auto.
      destruct Hsl as [(Es & Ef)|(Es & Ef & _ & ->)]; rewrite Es; auto.
      destruct (decide (j < length (h_slots h))%nat).
      * by rewrite lookup_app_l.
      * rewrite lookup_app_r by lia. rewrite (lookup_ge_None_2 (h_slots h)) by lia.
        destruct (j - length (h_slots h))%nat eqn:E; [lia|]. done.
    + destruct Hold; auto. right. eauto.
    + auto.
Qed.

Lemma alloc_step_evolves h h' id obj : heap_ok h -> alloc_step h h' id obj -> evolves h h'.
Proof.
  intros H [(R1&R2&R3&R4&_) Hl Ho Hf Hg]. constructor; auto; [lia|].
  intros i s Hs. destruct (evolves_refl h H) as [_ _ _ E]. destruct (E i s Hs) as (s1 & k & E1 & E2 & E3 & E4).
  assert (s1 = s) by congruence. subst s1.
  destruct (decide (i = hid_index id)) as [->|Hne].
  - destruct Hf as [Hf|(s0 & Hs0 & Hv & Hg0)]; [congruence|]. assert (s0 = s) by congruence. subst s0.
    destruct Hl as (s' & Hs' & Hg' & _). exists s', k. split; auto. split; [rewrite R4; auto|].
    split; [congruence|]. intros _ o Hov. congruence.
  - exists s, k. rewrite Ho by auto. split; auto. split; [rewrite R4; auto|]. auto.
Qed.


Lemma good_alloc_at obj nb h h' r :
  heap_ok h -> sizes nb (payload_bytes (h_layout h) obj) ->
  alloc_unchecked obj nb h = (h', r) -> heap_ok h' /\ r <> Panic /\ evolves h h'.
Proof.
  intros H Hnb E. destruct (alloc_unchecked_spec obj nb h H Hnb) as (h1 & H1 & G & [E1|(h2 & id & E1 & H2 & A)]);
    rewrite E1 in E; simplify_eq; (split; [done|]); (split; [done|]).
  - eapply gstep_evolves; eauto.
  - eapply evolves_trans; [eapply gstep_evolves; eauto|]. eapply alloc_step_evolves; eauto.
Qed.

(* ------------------------------------------------------------------ *)
(** * Persistent roots *)

Lemma heap_ok_ext_proots h h' :
  heap_ok h -> same_rest (h <| h_proots := h_proots h' |> <| h_proots_free := h_proots_free h' |>) h' ->
  h_slots h' = h_slots h -> h_marks h' = h_marks h -> h_free h' = h_free h -> h_used h' = h_used h ->
  caps_cover h' -> total_bytes h' <= h_max_bytes h ->
  free_ok (h_proots_free h') (h_proots h') (fun r => r = None) -> heap_ok h'.
Proof.
  intros H (R1&R2&R3&R4&R5&R6&R7&R8&R9&R10&R11&R12) Es Em Ef Eu Hc Ht Hf. cbn in *.
  constructor; rewrite ?R1, ?R2, ?Es, ?Em, ?Ef, ?Eu, ?R10, ?R11; auto; apply H.
Qed.

Lemma heap_ok_ext_peroots h h' :
  heap_ok h -> same_rest (h <| h_peroots := h_peroots h' |> <| h_peroots_free := h_peroots_free h' |>) h' ->
  h_slots h' = h_slots h -> h_marks h' = h_marks h -> h_free h' = h_free h -> h_used h' = h_used h ->
  caps_cover h' -> total_bytes h' <= h_max_bytes h ->
  free_ok (h_peroots_free h') (h_peroots h') (fun r => r = None) -> heap_ok h'.
Proof.
  intros H (R1&R2&R3&R4&R5&R6&R7&R8&R9&R10&R11&R12) Es Em Ef Eu Hc Ht Hf. cbn in *.
  constructor; rewrite ?R1, ?R2, ?Es, ?Em, ?Ef, ?Eu, ?R8, ?R9; auto; apply H.
Qed.

Lemma free_ok_take {A} idx free (l : list (option A)) v :
  free_ok (idx :: free) l (fun r => r = None) ->
  free_ok free (<[idx := Some v]> l) (fun r => r = None).
Proof.
  intros [Hn Hf]. apply NoDup_cons in Hn as [Hni Hn]. split; auto. intros i.
  destruct (decide (i = idx)) as [->|Hne].
  - split; [tauto|]. intros (x & Hx & ->).
    assert (Hi : idx ∈ idx :: free) by set_solver. apply Hf in Hi as (y & Hy & _).
    rewrite list_lookup_insert in Hx by (eapply lookup_lt_Some; eauto). done.
  - rewrite list_lookup_insert_ne by auto. rewrite <- Hf. set_solver.
Qed.

Lemma free_ok_push {A} (l : list (option A)) v :
  free_ok [] l (fun r => r = None) -> free_ok [] (l ++ [Some v]) (fun r => r = None).
Proof.
  intros [Hn Hf]. split; [constructor|]. intros i. split; [intros Hc; by apply elem_of_nil in Hc|].
  intros (x & Hx & ->). apply Hf. apply lookup_app_Some in Hx as [Hx|[Hl Hx]]; [eauto|].
  destruct (i - length l)%nat; simpl in Hx; done.
Qed.

Lemma free_ok_release {A} idx free (l : list (option A)) v :
  free_ok free l (fun r => r = None) -> l !! idx = Some (Some v) ->
  free_ok (idx :: free) (<[idx := None]> l) (fun r => r = None).
Proof.
  intros [Hn Hf] Hi. assert (Hlt : (idx < length l)%nat) by (eapply lookup_lt_Some; eauto). split.
  - constructor; auto. intros Hc. apply Hf in Hc as (x & Hx & ->). congruence.
  - intros i. destruct (decide (i = idx)) as [->|Hne].
    + rewrite list_lookup_insert by auto. split; [eauto|set_solver].
    + rewrite list_lookup_insert_ne by auto. rewrite <- Hf. set_solver.
Qed.

Lemma free_ok_set {A} idx free (l : list (option A)) v w :
  free_ok free l (fun r => r = None) -> l !! idx = Some (Some v) ->
  free_ok free (<[idx := Some w]> l) (fun r => r = None).
Proof.
  intros [Hn Hf] Hi. assert (Hlt : (idx < length l)%nat) by (eapply lookup_lt_Some; eauto). split; auto.
  intros i. rewrite Hf. destruct (decide (i = idx)) as [->|Hne].
  - rewrite list_lookup_insert by auto. rewrite Hi. split; intros (x & Hx & ->); done.
  - by rewrite list_lookup_insert_ne.
Qed.

(** [add_root] either reuses a free table entry, or (after a collection that
    protects the value) appends one. *)
Lemma add_root_spec v h : heap_ok h ->
  exists h1, heap_ok h1 /\ gstep (trace_value v) h h1 /\
    (add_root v h = (h1, Err EOutOfMemory) \/
     exists h2 i, add_root v h = (h2, Ok i) /\ heap_ok h2 /\
       h_slots h2 = h_slots h1 /\
       same_rest (h1 <| h_proots := h_proots h2 |> <| h_proots_free := h_proots_free h2 |>) h2 /\
       h_proots h2 !! i = Some (Some v) /\
       (forall j w, h_proots h !! j = Some (Some w) -> j <> i /\ h_proots h2 !! j = Some (Some w)) /\
       (forall j, j <> i -> get_root h2 j = get_root h j)).
Proof.
  intros H. unfold add_root. destruct (h_proots_free h) as [|idx free] eqn:Hf.
  - unfold mbind.
    destruct (ensure_spec additional_bytes_for_new_proot (trace_value v) h H)
      as (h1 & H1 & G & _ & [[E1 _]|[E1 Hs]]); exists h1; (split; [done|]); (split; [done|]); rewrite E1; auto.
    right. pose proof (gs_proots _ _ _ G) as Gp. pose proof (gs_proots_free _ _ _ G) as Gf.
    destruct (hk_lim h1 H1) as (_ & _ & _ & _ & Hm & _ & Hsz & _).
    unfold additional_bytes_for_new_proot, reserve_for_new_proot in *.
    set (n := nlen (h_proots h1) + 1) in *.
    remember (vec_growth_bytes (sz_opt_value (h_layout h1)) (c_proots (h_caps h1)) n) as g1 eqn:G1.
    remember (vec_growth_bytes 4 (c_proots_free (h_caps h1)) n) as g2 eqn:G2.
    assert (Hsum : g1 + g2 <= h_max_bytes h1 /\ total_bytes h1 + (g1 + g2) <= h_max_bytes h1).
    { clear - Hs Hm. unfold sat_add in Hs. lia. }
    destruct Hsum as [Hs0 Hs1].
    destruct (reserve_ok (sz_opt_value (h_layout h1)) (c_proots (h_caps h1)) n (h_max_bytes h1))
      as (a & Ha & Ha1 & Ha2 & Ha3); auto; [nia|lia|]. rewrite <- G1 in Ha3.
    destruct (reserve_ok 4 (c_proots_free (h_caps h1)) n (h_max_bytes h1)) as (b & Hb & Hb1 & Hb2 & Hb3); auto; [lia..|].
    rewrite <- G2 in Hb3. rewrite Ha. cbn. rewrite Hb. cbn.
    assert (Htr : trunc32 (length (h_proots h1)) = length (h_proots h1)).
    { apply trunc32_small. apply hk_proot_index; auto. }
    eexists _, _. split; [reflexivity|]. rewrite Htr.
    assert (Hk : free_ok [] (h_proots h1) (fun r => r = None)).
    { pose proof (hk_proots h1 H1) as Hp. by rewrite Gf, Hf in Hp. }
    split.
    + pose proof (hk_caps h1 H1) as (?&?&?&?&?&?&?&?&?&?&?).
      apply (heap_ok_ext_proots h1); cbn; auto.
      * repeat split.
      * unfold caps_cover; cbn. rewrite nlen_app. unfold n in *. cbn in *. repeat split; auto; try lia.
      * assert (Ea : a * sz_opt_value (h_layout h1) = c_proots (h_caps h1) * sz_opt_value (h_layout h1) + g1) by nia.
        unfold total_bytes in *; cbn. lia.
      * rewrite Gf, Hf. by apply free_ok_push.
    + split; [reflexivity|]. split; [repeat split|]. cbn. rewrite <- Gp. split; [by apply list_lookup_middle|].
      split.
      * intros j w Hj. split; [apply lookup_lt_Some in Hj; lia|]. by apply lookup_app_l_Some.
      * intros j Hj. unfold get_root. cbn. rewrite <- Gp.
        destruct (decide (j < length (h_proots h1))%nat).
        -- by rewrite lookup_app_l.
        -- rewrite lookup_app_r by lia. rewrite (lookup_ge_None_2 (h_proots h1)) by lia.
           destruct (j - length (h_proots h1))%nat eqn:E; [lia|]. done.
  - exists h. split; auto. split; [apply gstep_refl|]. right.
    pose proof (hk_proots h H) as Hp. rewrite Hf in Hp.
    assert (Hi : idx ∈ idx :: free) by set_solver. apply Hp in Hi as (x & Hx & ->). cbn. rewrite Hx.
    assert (Hlt : (idx < length (h_proots h))%nat) by (eapply lookup_lt_Some; eauto).
    assert (Htr : trunc32 idx = idx).
    { apply trunc32_small. pose proof (hk_proot_index h H). lia. }
    eexists _, _. split; [reflexivity|]. rewrite Htr. split.
    + pose proof (hk_caps h H) as (?&?&?&?&?&?&?&?&?&?&?).
      apply (heap_ok_ext_proots h); cbn; auto.
      * repeat split.
      * unfold caps_cover, nlen in *; cbn. rewrite insert_length. repeat split; auto.
      * apply (hk_total h H).
      * by apply free_ok_take.
    + split; [reflexivity|]. split; [repeat split|]. cbn. split; [by apply list_lookup_insert|].
      split.
      * intros j w Hj. assert (j <> idx) by congruence. split; auto. by rewrite list_lookup_insert_ne.
      * intros j Hj. unfold get_root. cbn. by rewrite list_lookup_insert_ne.
Qed.

Lemma good_add_root v : good (add_root v).
Proof.
  intros h h' r H E. destruct (add_root_spec v h H) as (h1 & H1 & G & [E1|(h2 & i & E1 & H2 & Es & R & _)]);
    rewrite E1 in E; simplify_eq; (split; [done|]); (split; [done|]).
  - eapply gstep_evolves; eauto.
  - destruct R as (R1&R2&R3&R4&_). cbn in *.
    eapply evolves_trans; [eapply gstep_evolves; eauto|]. by apply evolves_same_slots.
Qed.

Lemma set_root_ok i v h : heap_ok h -> heap_ok (fst (set_root i v h)).
Proof.
  intros H. unfold set_root. destruct (h_proots h !! i) as [[w|]|] eqn:Hi; cbn; auto.
  pose proof (hk_caps h H) as (?&?&?&?&?&?&?&?&?&?&?).
  apply (heap_ok_ext_proots h); cbn; auto.
  - repeat split.
  - unfold caps_cover, nlen in *; cbn. rewrite insert_length. repeat split; auto.
  - apply (hk_total h H).
  - eapply free_ok_set; eauto. apply (hk_proots h H).
Qed.
Lemma good_set_root i v : good (set_root i v).
Proof.
  intros h h' r H E. pose proof (set_root_ok i v h H) as Hk. rewrite E in Hk. cbn in Hk. split; auto.
  unfold set_root in E. destruct (h_proots h !! i) as [[w|]|]; simplify_eq; (split; [done|]);
    by apply evolves_same_slots.
Qed.
Lemma remove_root_ok i h : heap_ok h -> heap_ok (fst (remove_root i h)).
Proof.
  intros H. unfold remove_root. destruct (h_proots h !! i) as [[w|]|] eqn:Hi; cbn; auto.
  pose proof (hk_caps h H) as (?&?&?&?&?&?&?&?&?&?&?).
  apply (heap_ok_ext_proots h); cbn; auto.
  - repeat split.
  - unfold caps_cover, nlen in *; cbn. rewrite insert_length. repeat split; auto.
  - apply (hk_total h H).
  - eapply free_ok_release; eauto. apply (hk_proots h H).
Qed.
Lemma good_remove_root i : good (remove_root i).
Proof.
  intros h h' r H E. pose proof (remove_root_ok i h H) as Hk. rewrite E in Hk. cbn in Hk. split; auto.
  unfold remove_root in E. destruct (h_proots h !! i) as [[w|]|]; simplify_eq; (split; [done|]);
    by apply evolves_same_slots.
Qed.

(** The second half of [add_env_root] (the environment is already a stack root). *)
Definition add_env_root_inner (env : heap_id) : M nat := fun h =>
  match h_peroots_free h with
  | idx :: free =>
      let h := h <| h_peroots_free := free |> in
      match h_peroots h !! idx with
      | None => (h, Panic)
      | Some _ => (h <| h_peroots := <[idx := Some env]> (h_peroots h) |>, Ok (trunc32 idx))
      end
  | [] =>
      (ensure_can_allocate_with additional_bytes_for_new_peroot [] ;;;
       reserve_for_new_peroot ;;;
       fun h =>
         let idx := length (h_peroots h) in
         (h <| h_peroots := h_peroots h ++ [Some env] |>, Ok (trunc32 idx))) h
  end.

Lemma add_env_root_inner_spec v h : heap_ok h ->
  exists h1, heap_ok h1 /\ gstep [] h h1 /\
    (add_env_root_inner v h = (h1, Err EOutOfMemory) \/
     exists h2 i, add_env_root_inner v h = (h2, Ok i) /\ heap_ok h2 /\
       h_slots h2 = h_slots h1 /\
       same_rest (h1 <| h_peroots := h_peroots h2 |> <| h_peroots_free := h_peroots_free h2 |>) h2 /\
       h_peroots h2 !! i = Some (Some v) /\
       (forall j w, h_peroots h !! j = Some (Some w) -> j <> i /\ h_peroots h2 !! j = Some (Some w)) /\
       (forall j, j <> i -> get_env_root h2 j = get_env_root h j)).
Proof.
  intros H. unfold add_env_root_inner. destruct (h_peroots_free h) as [|idx free] eqn:Hf.
  - unfold mbind.
    destruct (ensure_spec additional_bytes_for_new_peroot [] h H)
      as (h1 & H1 & G & _ & [[E1 _]|[E1 Hs]]); exists h1; (split; [done|]); (split; [done|]); rewrite E1; auto.
    right. pose proof (gs_peroots _ _ _ G) as Gp. pose proof (gs_peroots_free _ _ _ G) as Gf.
    destruct (hk_lim h1 H1) as (_ & _ & _ & _ & Hm & _ & _ & Hsz).
    unfold additional_bytes_for_new_peroot, reserve_for_new_peroot in *.
    set (n := nlen (h_peroots h1) + 1) in *.
    remember (vec_growth_bytes (sz_opt_env (h_layout h1)) (c_peroots (h_caps h1)) n) as g1 eqn:G1.
    remember (vec_growth_bytes 4 (c_peroots_free (h_caps h1)) n) as g2 eqn:G2.
    assert (Hsum : g1 + g2 <= h_max_bytes h1 /\ total_bytes h1 + (g1 + g2) <= h_max_bytes h1).
    { clear - Hs Hm. unfold sat_add in Hs. lia. }
    destruct Hsum as [Hs0 Hs1].
    destruct (reserve_ok (sz_opt_env (h_layout h1)) (c_peroots (h_caps h1)) n (h_max_bytes h1))
      as (a & Ha & Ha1 & Ha2 & Ha3); auto; [nia|lia|]. rewrite <- G1 in Ha3.
    destruct (reserve_ok 4 (c_peroots_free (h_caps h1)) n (h_max_bytes h1)) as (b & Hb & Hb1 & Hb2 & Hb3); auto; [lia..|].
    rewrite <- G2 in Hb3. rewrite Ha. cbn. rewrite Hb. cbn.
    assert (Htr : trunc32 (length (h_peroots h1)) = length (h_peroots h1)).
    { apply trunc32_small. apply hk_peroot_index; auto. }
    eexists _, _. split; [reflexivity|]. rewrite Htr.
    assert (Hk : free_ok [] (h_peroots h1) (fun r => r = None)).
    { pose proof (hk_peroots h1 H1) as Hp. by rewrite Gf, Hf in Hp. }
    split.
    + pose proof (hk_caps h1 H1) as (?&?&?&?&?&?&?&?&?&?&?).
      apply (heap_ok_ext_peroots h1); cbn; auto.
      * repeat split.
      * unfold caps_cover; cbn. rewrite nlen_app. unfold n in *. cbn in *. repeat split; auto; try lia.
      * assert (Ea : a * sz_opt_env (h_layout h1) = c_peroots (h_caps h1) * sz_opt_env (h_layout h1) + g1) by nia.
        unfold total_bytes in *; cbn. lia.
      * rewrite Gf, Hf. by apply free_ok_push.
    + split; [reflexivity|]. split; [repeat split|]. cbn. rewrite <- Gp. split; [by apply list_lookup_middle|].
      split.
      * intros j w Hj. split; [apply lookup_lt_Some in Hj; lia|]. by apply lookup_app_l_Some.
      * intros j Hj. unfold get_env_root. cbn. rewrite <- Gp.
        destruct (decide (j < length (h_peroots h1))%nat).
        -- by rewrite lookup_app_l.
        -- rewrite lookup_app_r by lia. rewrite (lookup_ge_None_2 (h_peroots h1)) by lia.
           destruct (j - length (h_peroots h1))%nat eqn:E; [lia|]. done.
  - exists h. split; auto. split; [apply gstep_refl|]. right.
    pose proof (hk_peroots h H) as Hp. rewrite Hf in Hp.
    assert (Hi : idx ∈ idx :: free) by set_solver. apply Hp in Hi as (x & Hx & ->). cbn. rewrite Hx.
    assert (Hlt : (idx < length (h_peroots h))%nat) by (eapply lookup_lt_Some; eauto).
    assert (Htr : trunc32 idx = idx).
    { apply trunc32_small. pose proof (hk_peroot_index h H). lia. }
    eexists _, _. split; [reflexivity|]. rewrite Htr. split.
    + pose proof (hk_caps h H) as (?&?&?&?&?&?&?&?&?&?&?).
      apply (heap_ok_ext_peroots h); cbn; auto.
      * repeat split.
      * unfold caps_cover, nlen in *; cbn. rewrite insert_length. repeat split; auto.
      * apply (hk_total h H).
      * by apply free_ok_take.
    + split; [reflexivity|]. split; [repeat split|]. cbn. split; [by apply list_lookup_insert|].
      split.
      * intros j w Hj. assert (j <> idx) by congruence. split; auto. by rewrite list_lookup_insert_ne.
      * intros j Hj. unfold get_env_root. cbn. by rewrite list_lookup_insert_ne.
Qed.

Lemma good_add_env_root v : good (add_env_root v).
Proof.
  apply good_with_scope. apply good_bind; [apply good_push_env_root|]. intros _.
  change (good (add_env_root_inner v)).
  intros h h' r H E. destruct (add_env_root_inner_spec v h H) as (h1 & H1 & G & [E1|(h2 & i & E1 & H2 & Es & R & _)]);
    rewrite E1 in E; simplify_eq; (split; [done|]); (split; [done|]).
  - eapply gstep_evolves; eauto.
  - destruct R as (R1&R2&R3&R4&_). cbn in *.
    eapply evolves_trans; [eapply gstep_evolves; eauto|]. by apply evolves_same_slots.
Qed.

Lemma good_set_env_root i v : good (set_env_root i v).
Proof.
  intros h h' r H E. unfold set_env_root in E. destruct (h_peroots h !! i) as [[w|]|] eqn:Hi; simplify_eq;
    try (split; [done|]; split; [done|]; by apply evolves_refl).
  split; [|split; [done|by apply evolves_same_slots]].
  pose proof (hk_caps h H) as (?&?&?&?&?&?&?&?&?&?&?).
  apply (heap_ok_ext_peroots h); cbn; auto.
  - repeat split.
  - unfold caps_cover, nlen in *; cbn. rewrite insert_length. repeat split; auto.
  - apply (hk_total h H).
  - eapply free_ok_set; eauto. apply (hk_peroots h H).
Qed.
Lemma good_remove_env_root i : good (remove_env_root i).
Proof.
  intros h h' r H E. unfold remove_env_root in E. destruct (h_peroots h !! i) as [[w|]|] eqn:Hi; simplify_eq;
    try (split; [done|]; split; [done|]; by apply evolves_refl).
  split; [|split; [done|by apply evolves_same_slots]].
  pose proof (hk_caps h H) as (?&?&?&?&?&?&?&?&?&?&?).
  apply (heap_ok_ext_peroots h); cbn; auto.
  - repeat split.
  - unfold caps_cover, nlen in *; cbn. rewrite insert_length. repeat split; auto.
  - apply (hk_total h H).
  - eapply free_ok_release; eauto. apply (hk_peroots h H).
Qed.

Lemma good_collect_garbage : good collect_garbage.
Proof.
  intros h h' r H E. unfold collect_garbage in E. destruct (collect_ok [] h H) as (h1 & E1 & H1 & G & _).
  rewrite E1 in E. simplify_eq. split; auto. split; [done|]. eapply gstep_evolves; eauto.
Qed.
