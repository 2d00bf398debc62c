(** Environment records change only through the environment operations, and stay sorted. *)
From stdpp Require Import base decidable list numbers sets sorting.
From Coq Require Import NArith ZArith Lia.
From RecordUpdate Require Import RecordUpdate.
From Verif Require Import VmBase HeapModel HeapObjModel HeapSpec HeapGcProofs HeapInvProofs HeapObjProofs
  ObjectOpsModel ObjectOpsProofs HeapTidyProofs HeapSafeProofs HeapHistory HeapHistoryProofs HeapFrameProofs HeapApiProofs
  ObjSpec ObjViewProofs ObjHistoryProofs ProtoProofs ProtoApiProofs EnvSpec.

Open Scope N_scope.

(** ** The binding table *)
Lemma search_key_contract k bs : sorted_bindings bs -> search_contract k bs (search_key eb_symbol k bs).
Proof.
  induction 1 as [|x bs HS IH Hx]; cbn [search_key].
  - cbn. split; [lia|]. split; intros j b Hj; by rewrite lookup_nil in Hj.
  - destruct (N.eqb_spec (eb_symbol x) k) as [E|E]; [cbn; eauto|]. rewrite Forall_forall in Hx.
    destruct (N.ltb_spec k (eb_symbol x)) as [L|L].
    + cbn. split; [lia|]. split; [intros; lia|]. intros [|j] b Hj _; cbn in Hj; [congruence|].
      apply elem_of_list_lookup_2 in Hj. apply Hx in Hj. lia.
    + destruct (search_key eb_symbol k bs) as [i|i]; cbn in *; [done|]. destruct IH as (I1 & I2 & I3). split; [lia|]. split.
      * intros [|j] b Hj Hl; cbn in Hj; [simplify_eq; lia|]. apply (I2 j b Hj). lia.
      * intros [|j] b Hj Hl; cbn in Hj; [lia|]. apply (I3 j b Hj). lia.
Qed.
Lemma insert_at_sorted b bs i : sorted_bindings bs -> search_key eb_symbol (eb_symbol b) bs = inr i -> sorted_bindings (insert_at i b bs).
Proof.
  intros HS. revert i. induction HS as [|x bs HS IH Hx]; cbn [search_key]; intros i E.
  - injection E as <-. repeat constructor.
  - destruct (N.eqb_spec (eb_symbol x) (eb_symbol b)) as [|Hne]; [done|]. rewrite Forall_forall in Hx.
    destruct (N.ltb_spec (eb_symbol b) (eb_symbol x)) as [L|L].
    + injection E as <-. unfold insert_at. cbn. constructor; [by constructor; [|rewrite Forall_forall]|]. apply Forall_forall.
      intros y [->|Hy]%elem_of_cons; [done|]. apply Hx in Hy. lia.
    + destruct (search_key _ _ _) as [|i0] eqn:Es; [done|]. injection E as <-. unfold insert_at. cbn. constructor; [by apply IH|].
      apply Forall_forall. intros y [Hy|[->|Hy]%elem_of_cons]%elem_of_app.
      * apply Hx. apply elem_of_take in Hy as (j & Hj & _). by eapply elem_of_list_lookup_2.
      * lia.
      * apply Hx. rewrite <- (take_drop i0 bs). apply elem_of_app. by right.
Qed.
Lemma sorted_symbols bs bs' : map eb_symbol bs = map eb_symbol bs' -> sorted_bindings bs -> sorted_bindings bs'.
Proof.
  intros E HS. revert bs' E. induction HS as [|x bs HS IH Hx]; intros [|y bs'] E; try done; [constructor|]. cbn in E. injection E as E1 E2.
  constructor; [by apply IH|]. rewrite Forall_forall in *. intros z Hz. rewrite <- E1.
  assert (Hz' : eb_symbol z ∈ map eb_symbol bs) by (rewrite E2; apply elem_of_list_fmap; eauto).
  apply elem_of_list_fmap in Hz' as (w & -> & Hw). auto.
Qed.
Lemma update_binding_symbols i f bs bs' : (forall b b', f b = Ok b' -> eb_symbol b' = eb_symbol b) -> update_binding_at i f bs = Ok bs' ->
  map eb_symbol bs' = map eb_symbol bs.
Proof.
  intros Hf E. unfold update_binding_at in E. destruct (bs !! i) as [b|] eqn:Hb; [|done]. destruct (f b) as [b'| |] eqn:Ef; [|done..].
  cbn in E. injection E as <-. change (eb_symbol <$> <[i:=b']> bs = eb_symbol <$> bs). rewrite list_fmap_insert. apply list_insert_id.
  rewrite list_lookup_fmap, Hb. cbn. f_equal. symmetry. auto.
Qed.
Lemma initialize_symbol v b b' : initialize_binding b v = Ok b' -> eb_symbol b' = eb_symbol b.
Proof. unfold initialize_binding. destruct (eb_initialized b); [done|]. by intros [= <-]. Qed.
Lemma assign_symbol v b b' : assign_binding b v = Ok b' -> eb_symbol b' = eb_symbol b.
Proof. unfold assign_binding. destruct (negb _); [done|]. destruct (negb _); [done|]. by intros [= <-]. Qed.
Lemma sort_by_sorted bs : StronglySorted (fun a b => eb_symbol a <= eb_symbol b) (sort_by eb_symbol bs).
Proof.
  assert (I : forall x l, StronglySorted (fun a b => eb_symbol a <= eb_symbol b) l -> StronglySorted (fun a b => eb_symbol a <= eb_symbol b) (insert_by eb_symbol x l)).
  { intros x l. induction 1 as [|y l HS IH Hy]; cbn; [repeat constructor|]. rewrite Forall_forall in Hy.
    destruct (N.leb_spec (eb_symbol x) (eb_symbol y)).
    - constructor; [constructor; [done|by rewrite Forall_forall]|]. apply Forall_forall. intros z [->|Hz]%elem_of_cons; [done|]. apply Hy in Hz. lia.
    - constructor; [done|]. apply Forall_forall. intros z Hz. rewrite (insert_by_perm eb_symbol x l) in Hz. apply elem_of_cons in Hz as [->|Hz]; [lia|auto]. }
  induction bs; cbn; [constructor|auto].
Qed.
Lemma no_dup_sorted bs : StronglySorted (fun a b => eb_symbol a <= eb_symbol b) bs -> has_adjacent_dup eb_symbol bs = false -> sorted_bindings bs.
Proof.
  induction 1 as [|x bs HS IH Hx]; intros Hd; [constructor|]. destruct bs as [|y bs]; [repeat constructor|].
  cbn in Hd. apply orb_false_iff in Hd as [Hne Hd]. apply N.eqb_neq in Hne. specialize (IH Hd).
  constructor; [done|]. inversion Hx as [|? ? Hxy Hxb]; subst. inversion IH as [|? ? IH1 IH2]; subst.
  constructor; [lia|]. rewrite Forall_forall in *. intros z Hz. apply IH2 in Hz. lia.
Qed.

(** ** Frames *)
Definition env_of (x : heap_object) : option env_record := match x with HEnv r => Some r | _ => None end.
Definition env_fine (x : heap_object) : Prop :=
  match x with HEnv (EnvDeclarative _ bs _ _) => sorted_bindings bs | _ => True end.
Definition erel (T : Prop) (x x' : heap_object) : Prop := env_of x' = env_of x \/ T /\ (env_fine x -> env_fine x').
Lemma env_of_fine x x' : env_of x' = env_of x -> env_fine x -> env_fine x'.
Proof. destruct x, x'; cbn; try done. by intros [= <-]. Qed.
Lemma erel_fine T x x' : erel T x x' -> env_fine x -> env_fine x'.
Proof. intros [E|[_ E]]; [by apply env_of_fine|done]. Qed.
Lemma erel_trans (T : Prop) x y z : erel T x y -> erel T y z -> erel T x z.
Proof.
  intros [E|[HT E]] [F|[HT' F]]; [left; congruence|right..].
  - split; [done|]. intros Hx. apply F. by eapply env_of_fine.
  - split; [done|]. intros Hx. eapply env_of_fine; eauto.
  - split; auto.
Qed.

(** Environments outside [P] keep their contents; the others stay sorted and new ones are. *)
Record envs (P : heap_id -> Prop) (h h' : heap) : Prop := {
  en_keeps : keeps (fun _ => True) h h';
  en_slots : forall i s' x', h_slots h' !! i = Some s' -> sl_value s' = Some x' ->
    (exists s x, h_slots h !! i = Some s /\ sl_gen s = sl_gen s' /\ sl_value s = Some x /\ erel (P (HId i (sl_gen s'))) x x') \/
    (newer h h' (HId i (sl_gen s')) /\ env_fine x') }.

Lemma envs_same P h h' : heap_ok h -> h_layout h' = h_layout h -> h_gc_runs h' = h_gc_runs h -> h_slots h' = h_slots h -> envs P h h'.
Proof. intros H E1 E2 E3. constructor; [by apply keeps_same|]. intros i s x Hs Hx. left. exists s, x. rewrite <- E3. repeat split; auto. by left. Qed.
Lemma envs_refl P h : heap_ok h -> envs P h h.
Proof. intros H. by apply envs_same. Qed.
Lemma envs_trans P h1 h2 h3 : heap_ok h1 -> envs P h1 h2 -> envs P h2 h3 -> envs P h1 h3.
Proof.
  intros H [K1 S1] [K2 S2]. constructor; [by eapply keeps_trans|]. intros i s x Hs Hx.
  destruct (S2 i s x Hs Hx) as [(s2 & x2 & A1 & A2 & A3 & A4)|[A B]].
  - destruct (S1 i s2 x2 A1 A3) as [(s1 & x1 & B1 & B2 & B3 & B4)|[B C]].
    + left. exists s1, x1. repeat split; auto; [congruence|]. rewrite <- A2. rewrite <- A2 in A4. by eapply erel_trans.
    + right. split; [rewrite <- A2; eapply newer_keeps; [exact B|apply K1|exact K2]|]. by eapply erel_fine.
  - right. split; [|done]. eapply newer_between; [exact H|exact K1|exact K2|done].
Qed.
Lemma envs_gstep P extra h h' : heap_ok h -> gstep extra h h' -> envs P h h'.
Proof.
  intros H G. constructor; [by eapply keeps_gstep|]. intros i s' x' Hs Hx. left.
  destruct (h_slots h !! i) as [s|] eqn:E.
  - destruct (gs_slots _ _ _ G _ _ E) as (s2 & Hs' & [->|(_ & -> & _)]); [|rewrite Hs in Hs'; simplify_eq].
    assert (s = s') by congruence. subst. exists s', x'. repeat split; auto. by left.
  - exfalso. pose proof (gs_len _ _ _ G) as L. apply lookup_lt_Some in Hs. apply lookup_ge_None in E. lia.
Qed.
Lemma envs_ustep P id o o' h h' : heap_ok h -> erel (P id) o o' -> ustep id o o' h h' -> envs P h h'.
Proof.
  intros H Hp U. constructor; [by eapply keeps_ustep_T|]. intros i s' x' Hs Hx. left.
  destruct (decide (i = hid_index id)) as [->|N].
  - destruct (us_live _ _ _ _ _ U) as (hs & t & A & B & C & D). destruct (us_live' _ _ _ _ _ U) as (hs' & t' & A' & B' & C' & D').
    exists t, o. assert (t' = s') by congruence. subst t'. assert (x' = o') as -> by congruence. repeat split; auto; [congruence|].
    replace (HId (hid_index id) (sl_gen s')) with id; [done|]. rewrite B'. by destruct id.
  - rewrite (us_other _ _ _ _ _ U) in Hs by done. exists s', x'. repeat split; auto. by left.
Qed.
Lemma envs_alloc P h h' id obj : heap_ok h -> env_fine obj -> alloc_step h h' id obj -> envs P h h'.
Proof.
  intros H Hp A. constructor; [by eapply keeps_alloc|]. intros i s' x' Hs Hx.
  destruct (decide (i = hid_index id)) as [->|N].
  - right. destruct (as_live _ _ _ _ A) as (t & T1 & T2 & T3 & T4). assert (t = s') by congruence. subst t. split.
    + intros s E. cbn in E. left. destruct (as_fresh _ _ _ _ A) as [?|(s0 & E1 & E2 & E3)]; congruence.
    + assert (obj = x') as <- by congruence. done.
  - left. rewrite (as_other _ _ _ _ A) in Hs by done. exists s', x'. repeat split; auto. by left.
Qed.

Definition ev {A} (P : heap_id -> Prop) (m : M A) : Prop :=
  forall h h' r, heap_ok h -> m h = (h', r) -> heap_ok h' /\ envs P h h'.
Definition evl {A} (l : layout) (P : heap_id -> Prop) (m : M A) : Prop :=
  forall h h' r, h_layout h = l -> heap_ok h -> m h = (h', r) -> heap_ok h' /\ envs P h h'.
Lemma evl_of_ev {A} l P (m : M A) : ev P m -> evl l P m.
Proof. intros Hm h h' r _. apply Hm. Qed.
Lemma evl_bind {A B} l P (m : M A) (k : A -> M B) : evl l P m -> (forall a, evl l P (k a)) -> evl l P (mbind m k).
Proof.
  intros Hm Hk h h' r Hl H E. unfold mbind in E. destruct (m h) as [h1 r1] eqn:E1.
  destruct (Hm _ _ _ Hl H E1) as [H1 K1]. destruct r1 as [a|e|]; simplify_eq; auto.
  destruct (Hk a h1 h' r) as [H2 K2]; auto; [rewrite (kp_layout _ _ _ (en_keeps _ _ _ K1)); auto|].
  split; auto. eapply envs_trans; eauto.
Qed.
Lemma ev_bind {A B} P (m : M A) (k : A -> M B) : ev P m -> (forall a, ev P (k a)) -> ev P (mbind m k).
Proof. intros Hm Hk h h' r. apply (evl_bind (h_layout h) P m k); [by apply evl_of_ev|intros; by apply evl_of_ev|done]. Qed.
Lemma ev_layout {A} P (k : layout -> M A) : (forall l, evl l P (k l)) -> ev P (mbind (mget h_layout) k).
Proof. intros Hk h h' r. apply (Hk (h_layout h) h h' r eq_refl). Qed.
Lemma ev_ret {A} P (a : A) : ev P (mret a).
Proof. intros h h' r H E. unfold mret in E. simplify_eq. split; auto. by apply envs_refl. Qed.
Lemma ev_fail {A} P e : ev P (mfail (A:=A) e).
Proof. intros h h' r H E. unfold mfail in E. simplify_eq. split; auto. by apply envs_refl. Qed.
Lemma ev_mget {A} P (f : heap -> A) : ev P (mget f).
Proof. intros h h' r H E. unfold mget in E. simplify_eq. split; auto. by apply envs_refl. Qed.
Lemma ev_mread {A} P (f : heap -> res A) : ev P (mread f).
Proof. intros h h' r H E. unfold mread in E. simplify_eq. split; auto. by apply envs_refl. Qed.
Lemma ev_with_scope {A} P (m : M A) : ev P m -> ev P (with_scope m).
Proof.
  intros Hm h h' r H E. unfold with_scope in E. destruct (m h) as [h1 r1] eqn:Em. destruct (Hm _ _ _ H Em) as [H1 K1].
  injection E as <- <-. split.
  - pose proof (hk_caps h1 H1) as (?&?&?&?&?&?&?&?&?&?&?). apply heap_ok_set_roots; auto.
    + pose proof (nlen_take (length (h_roots h)) (h_roots h1)). lia.
    + pose proof (nlen_take (length (h_env_roots h)) (h_env_roots h1)). lia.
  - eapply envs_trans; eauto. by apply envs_same.
Qed.
Lemma ev_good {A} P (m : M A) : good m -> (forall h h' r, heap_ok h -> m h = (h', r) -> envs P h h') -> ev P m.
Proof. intros Hg Hk h h' r H E. destruct (Hg _ _ _ H E) as (? & _). split; eauto. Qed.
Lemma ev_ensure P add extra : ev P (ensure_can_allocate_with add extra).
Proof.
  intros h h' r H E. destruct (ensure_spec add extra h H) as (h1 & H1 & G & _ & [[E1 _]|[E1 _]]); rewrite E1 in E; simplify_eq;
    (split; [done|eapply envs_gstep; eauto]).
Qed.
Lemma ev_push_roots_with P vs extra : ev P (push_roots_with vs extra).
Proof.
  intros h h' r H E. destruct (push_roots_spec vs extra h H) as (h1 & H1 & G & [E1|(c & E1 & H2)]); rewrite E1 in E; injection E as <- <-.
  - split; [done|eapply envs_gstep; eauto].
  - split; [done|]. eapply envs_trans; [done|eapply envs_gstep; eauto|]. by apply envs_same.
Qed.
Lemma ev_push_env_root P e : ev P (push_env_root e).
Proof.
  intros h h' r H E. destruct (push_env_root_spec e h H) as (h1 & H1 & G & [E1|(c & E1 & H2)]); rewrite E1 in E; injection E as <- <-.
  - split; [done|eapply envs_gstep; eauto].
  - split; [done|]. eapply envs_trans; [done|eapply envs_gstep; eauto|]. by apply envs_same.
Qed.
Lemma evl_alloc l P obj nb : sizes nb (payload_bytes l obj) -> env_fine obj -> evl l P (alloc_unchecked obj nb).
Proof.
  intros Hs Hp h h' r <- H E. destruct (alloc_unchecked_spec obj nb h H Hs) as (h1 & H1 & G & [E1|(h2 & id & E1 & H2 & A)]); rewrite E1 in E; simplify_eq.
  - split; [done|eapply envs_gstep; eauto].
  - split; [done|]. eapply envs_trans; [done|eapply envs_gstep; eauto|]. eapply envs_alloc; eauto.
Qed.
Lemma ev_alloc P obj nb : (forall l, sizes nb (payload_bytes l obj)) -> env_fine obj -> ev P (alloc_unchecked obj nb).
Proof. intros Hs Hp h h' r. by apply (evl_alloc (h_layout h)). Qed.
Lemma ev_mmodify P f : (forall h, heap_ok h -> heap_ok (f h)) ->
  (forall h, h_layout (f h) = h_layout h /\ h_gc_runs (f h) = h_gc_runs h /\ h_slots (f h) = h_slots h) -> ev P (mmodify f).
Proof. intros Hf He h h' r H E. unfold mmodify in E. simplify_eq. split; auto. destruct (He h) as (?&?&?). by apply envs_same. Qed.

Lemma env_set_base x b b' : base_of x = Some b -> env_of (set_base x b') = env_of x.
Proof. by destruct x. Qed.
Lemma ev_delete_own P o k : ev P (object_delete_own_property o k).
Proof.
  apply ev_good; [auto with good|]. intros h h' r H E.
  destruct (delete_own_spec o k h H) as [[E1 _]|(ob & b & Hl & Hb & [[_ E1]|(i & h1 & _ & E1 & U)])]; rewrite E1 in E; simplify_eq.
  - by apply envs_refl.
  - by apply envs_refl.
  - eapply envs_ustep; [done| |exact U]. left. eapply env_set_base; eauto.
Qed.
Lemma ev_define_core P o k d h h' t r : heap_ok h -> define_target o k h = Ok t ->
  define_core o k d t h = (h', r) -> heap_ok h' /\ envs P h h'.
Proof.
  intros H Ht E. destruct (define_core_spec o k d h t H Ht) as (s & ob & b & _ & _ & _ & Hb & _ & h1 & H1 & G & [(e & E1 & _)|(h2 & E1 & U)]);
    rewrite E1 in E; simplify_eq.
  - split; [done|eapply envs_gstep; eauto].
  - split; [apply U|]. eapply envs_trans; [done|eapply envs_gstep; eauto|]. eapply envs_ustep; [done| |exact U].
    left. eapply env_set_base; exact Hb.
Qed.

(** Updates of one slot in place. *)
Definition equiet {A} (m : M A) : Prop :=
  forall h h' r, m h = (h', r) ->
    h_layout h' = h_layout h /\ h_gc_runs h' = h_gc_runs h /\
    forall i, match h_slots h !! i, h_slots h' !! i with
              | None, None => True
              | Some s, Some s' => sl_gen s' = sl_gen s /\
                  match sl_value s, sl_value s' with None, None => True | Some x, Some x' => env_of x' = env_of x | _, _ => False end
              | _, _ => False
              end.
Lemma equiet_ev {A} P (m : M A) : good m -> equiet m -> ev P m.
Proof.
  intros Hg Hq. apply ev_good; auto. intros h h' r H E. destruct (Hq _ _ _ E) as (E1 & E2 & E3). constructor.
  - constructor; auto; try lia. intros i s Hs. specialize (E3 i). rewrite Hs in E3. destruct (h_slots h' !! i) as [s'|] eqn:E4; [|done].
    destruct E3 as [Eg Ev]. exists s', 0. split; auto. split; [lia|]. split; [rewrite Eg; eapply gen_small; eauto|].
    intros _ o Ho. rewrite Ho in Ev. destruct (sl_value s') as [x'|]; [|done]. exists x'. split; [done|]. intros Hn. by destruct Hn.
  - intros i s' x' Hs Hx. left. specialize (E3 i). rewrite Hs in E3. destruct (h_slots h !! i) as [s|]; [|done]. destruct E3 as [Eg Ev].
    rewrite Hx in Ev. destruct (sl_value s) as [x|] eqn:Hx0; [|done]. exists s, x. repeat split; try congruence. left. congruence.
Qed.
Lemma equiet_id {A} (m : M A) : (forall h, fst (m h) = h) -> equiet m.
Proof.
  intros Hm h h' r E. pose proof (Hm h) as Q. rewrite E in Q. cbn in Q. subst. split; auto. split; auto. intros i.
  destruct (h_slots h !! i) as [s|]; [|done]. split; [done|]. by destruct (sl_value s).
Qed.
Lemma equiet_bind {A B} (m : M A) (k : A -> M B) : equiet m -> (forall a, equiet (k a)) -> equiet (mbind m k).
Proof.
  intros Hm Hk h h' r E. unfold mbind in E. destruct (m h) as [h1 r1] eqn:E1. destruct (Hm _ _ _ E1) as (L1 & R1 & S1).
  destruct r1 as [a|e|]; simplify_eq; auto. destruct (Hk a _ _ _ E) as (L2 & R2 & S2). split; [congruence|]. split; [congruence|].
  intros i. specialize (S1 i). specialize (S2 i). destruct (h_slots h !! i) as [s|], (h_slots h1 !! i) as [s1|], (h_slots h' !! i) as [s2|]; try done.
  destruct S1 as [A1 A2], S2 as [B1 B2]. split; [congruence|]. destruct (sl_value s), (sl_value s1), (sl_value s2); try done. congruence.
Qed.
Lemma equiet_update_object id f : (forall o o', f o = Ok o' -> env_of o' = env_of o) -> equiet (update_object id f).
Proof.
  intros Hf h h' r E. unfold update_object in E. destruct (validate h id) as [ix|] eqn:Hv.
  2:{ simplify_eq. by eapply (equiet_id (mfail (A:=unit) EInvalidHandle)). }
  apply validate_Some in Hv as [-> Hl]. destruct (live_slot h id Hl) as (s & o & Hs & Hg & Ho). rewrite Hs, Ho in E.
  destruct (f o) eqn:Ef; simplify_eq; try (by eapply (equiet_id (mfail (A:=unit) EInvalidHandle))).
  split; [done|]. split; [done|]. cbn. intros i. destruct (decide (i = hid_index id)) as [->|N].
  - rewrite list_lookup_insert by (by eapply lookup_lt_Some). rewrite Hs. split; [done|]. cbn. rewrite Ho. by apply Hf.
  - rewrite list_lookup_insert_ne by done. destruct (h_slots h !! i) as [t|]; [|done]. split; [done|]. by destruct (sl_value t).
Qed.
Lemma equiet_update_slot_bytes i n : equiet (update_slot_bytes i n).
Proof.
  intros h h' r E. unfold update_slot_bytes in E. destruct (h_slots h !! i) as [s|] eqn:Hs; simplify_eq.
  - split; [done|]. split; [done|]. cbn. intros j. destruct (decide (i = j)) as [->|N].
    + rewrite list_lookup_insert by (by eapply lookup_lt_Some). rewrite Hs. split; [done|]. cbn. by destruct (sl_value s).
    + rewrite list_lookup_insert_ne by done. destruct (h_slots h !! j) as [t|]; [|done]. split; [done|]. by destruct (sl_value t).
  - by eapply (equiet_id (mfail (A:=unit) EInvalidHandle)).
Qed.
Lemma equiet_update_base id f : equiet (update_base id f).
Proof.
  unfold update_base. apply equiet_update_object. intros x x'. destruct (base_of x) as [b|] eqn:Hb; [|done]. cbn.
  destruct (f b) as [b'| |] eqn:E; [|done..]. cbn. intros [= <-]. eapply env_set_base; eauto.
Qed.

Create HintDb equiet.
Global Hint Extern 1 (equiet (mret _)) => apply equiet_id; done : equiet.
Global Hint Extern 1 (equiet (mfail _)) => apply equiet_id; done : equiet.
Global Hint Extern 1 (equiet (mget _)) => apply equiet_id; done : equiet.
Global Hint Extern 1 (equiet (mread _)) => apply equiet_id; done : equiet.
Global Hint Resolve equiet_update_slot_bytes : equiet.
Global Hint Extern 4 (equiet (mbind _ _)) => apply equiet_bind; [|intros ?] : equiet.
Global Hint Extern 5 (equiet (match ?x with _ => _ end)) => destruct x : equiet.
Ltac equo := apply equiet_update_object; let x := fresh "x" in let x' := fresh "x'" in let E := fresh "E" in
  intros x x' E; destruct x as [| | | |[]|]; try discriminate E; cbn in E; cases E; injection E as <-; reflexivity.
Lemma equiet_update_promise p f : equiet (update_promise p f).
Proof.
  apply equiet_update_object. intros x x' E. destruct x as [| | | | |q]; try discriminate E.
  destruct (f q) as [q'| |] eqn:Eq; [|discriminate E..]. by injection E as <-.
Qed.
Global Hint Resolve equiet_update_promise equiet_update_base : equiet.
Global Hint Extern 2 (equiet (update_object _ _)) => equo : equiet.
Ltac eraw := apply equiet_ev; [auto with good|].

Section targets.
Context (P : heap_id -> Prop).
Lemma ev_heap_array_set_length o n : ev P (heap_array_set_length o n).
Proof. eraw. unfold heap_array_set_length. auto with equiet. Qed.
Lemma ev_array_set_length_writable o n : ev P (array_set_length_writable o n).
Proof. eraw. unfold array_set_length_writable. auto with equiet. Qed.
Lemma ev_object_set_extensible o n : ev P (object_set_extensible o n).
Proof. eraw. unfold object_set_extensible. auto with equiet. Qed.
Lemma ev_define_array_fixup o a n k : ev P (define_array_fixup o a n k).
Proof. eraw. unfold define_array_fixup. auto 10 with equiet. Qed.
Lemma ev_set_existing o k v : ev P (object_set_existing_data_property_value o k v).
Proof. eraw. unfold object_set_existing_data_property_value. auto 10 with equiet. Qed.
Lemma ev_update_bindings e f : P e -> (forall bs bs', f bs = Ok bs' -> length bs' = length bs /\ map eb_symbol bs' = map eb_symbol bs) ->
  (forall bs, np (f bs)) -> ev P (update_bindings e f).
Proof.
  intros HP Hf Hn. apply ev_good; [apply good_update_bindings; [intros bs bs' E; by apply Hf|done]|]. intros h h' r H E.
  unfold update_bindings in E. match type of E with update_object e ?g h = _ => destruct (update_object_spec e g h H) as [(er & E1 & _)|(x & x' & h1 & Hl & Hx & E1 & U)] end.
  - intros x x'. destruct x as [| | | |[]|]; try done. destruct (f bindings) eqn:Ef; simpl; [|done|done].
    intros [= <-]. split; [done|]. simpl. unfold nlen. destruct (Hf _ _ Ef) as [-> _]. done.
  - intros x. destruct x as [| | | |[]|]; auto with np.
  - rewrite E1 in E. injection E as <- <-. by apply envs_refl.
  - rewrite E1 in E. injection E as <- <-. eapply envs_ustep; [done| |exact U]. right. split; [done|].
    destruct x as [| | | |[o bs t n|]|]; try done. destruct (f bs) as [bs'| |] eqn:Ef; try done. cbn in Hx. injection Hx as <-. cbn.
    apply sorted_symbols. symmetry. by apply Hf.
Qed.
Lemma update_at_ok i f : (forall b b', f b = Ok b' -> eb_symbol b' = eb_symbol b) ->
  forall bs bs', update_binding_at i f bs = Ok bs' -> length bs' = length bs /\ map eb_symbol bs' = map eb_symbol bs.
Proof. intros Hf bs bs' E. split; [by eapply update_binding_at_length|by eapply update_binding_symbols]. Qed.
Lemma np_update_at i f bs : (forall b, np (f b)) -> np (update_binding_at i f bs).
Proof. intros Hf. unfold update_binding_at. destruct (bs !! i); [|auto with np]. apply np_rbind; [done|]. intros. apply np_Ok. Qed.
Lemma np_initialize v b : np (initialize_binding b v).
Proof. unfold initialize_binding. destruct (eb_initialized b); auto with np. Qed.
Lemma np_assign v b : np (assign_binding b v).
Proof. unfold assign_binding. destruct (negb _); [auto with np|]. destruct (negb _); auto with np. Qed.
Lemma ev_env_initialize o k v : P o -> ev P (env_initialize_binding o k v).
Proof.
  intros HP. unfold env_initialize_binding. apply ev_bind; [apply ev_mread|]. intros bs. apply ev_bind; [apply ev_mread|]. intros [i|]; [|apply ev_fail].
  apply ev_update_bindings; [done|apply update_at_ok, initialize_symbol|]. intros. apply np_update_at, np_initialize.
Qed.
Lemma ev_env_set o k v : P o -> ev P (env_set_mutable_binding o k v).
Proof.
  intros HP. unfold env_set_mutable_binding. apply ev_bind; [apply ev_mread|]. intros bs. apply ev_bind; [apply ev_mread|]. intros [i|]; [|apply ev_fail].
  apply ev_update_bindings; [done|apply update_at_ok, assign_symbol|]. intros. apply np_update_at, np_assign.
Qed.
Lemma ev_env_initialize_sym o k v : P o -> ev P (env_initialize_symbol_binding o k v).
Proof.
  intros HP. unfold env_initialize_symbol_binding. apply ev_update_bindings; [done|..].
  - intros bs bs' E. destruct (symbol_binding_index bs k); [|done]. revert E. apply update_at_ok, initialize_symbol.
  - intros bs. destruct (symbol_binding_index bs k); [apply np_update_at, np_initialize|auto with np].
Qed.
Lemma ev_env_set_sym o k v : P o -> ev P (env_set_mutable_symbol_binding o k v).
Proof.
  intros HP. unfold env_set_mutable_symbol_binding. apply ev_update_bindings; [done|..].
  - intros bs bs' E. destruct (symbol_binding_index bs k); [|done]. revert E. apply update_at_ok, assign_symbol.
  - intros bs. destruct (symbol_binding_index bs k); [apply np_update_at, np_assign|auto with np].
Qed.
Lemma ev_bound_this o v : ev P (set_function_bound_this o v).
Proof. eraw. unfold set_function_bound_this, update_function. auto 10 with equiet. Qed.
Lemma ev_bound_new_target o v : ev P (set_function_bound_new_target o v).
Proof. eraw. unfold set_function_bound_new_target, update_function. auto 10 with equiet. Qed.
Lemma ev_realm o v : ev P (set_function_realm o v).
Proof. eraw. unfold set_function_realm, update_function. auto 10 with equiet. Qed.
Lemma ev_job_realm o v : ev P (set_function_job_realm o v).
Proof. eraw. unfold set_function_job_realm, update_function. auto 10 with equiet. Qed.
Lemma ev_data o v : ev P (set_function_data o v).
Proof. eraw. unfold set_function_data, update_function. auto 10 with equiet. Qed.
Lemma ev_closure_env o v : ev P (set_function_closure_env o v).
Proof. eraw. unfold set_function_closure_env, update_function. auto 10 with equiet. Qed.
Lemma ev_update_function o g : (forall x, fn_bound_args (g x) = fn_bound_args x /\ fn_native_slots (g x) = fn_native_slots x
     /\ fn_base (g x) = fn_base x) -> ev P (update_function o g).
Proof.
  intros Hg. apply equiet_ev; [by apply good_update_function|]. unfold update_function. apply equiet_update_object.
  intros x x' E. destruct x; try discriminate E. by injection E as <-.
Qed.
Lemma ev_promise_handled o v : ev P (promise_set_is_handled o v).
Proof. eraw. unfold promise_set_is_handled. auto 10 with equiet. Qed.
Lemma ev_promise_set_state o st r : ev P (promise_set_state_and_result o st r).
Proof. eraw. unfold promise_set_state_and_result, promise_set_fields. destruct st; auto 10 with equiet. Qed.
Lemma ev_promise_fulfill o r : ev P (promise_fulfill o r).
Proof. apply ev_promise_set_state. Qed.
Lemma ev_promise_reject o r : ev P (promise_reject o r).
Proof. apply ev_promise_set_state. Qed.
Lemma ev_promise_settle o st r : ev P (promise_settle_and_take_reactions o st r).
Proof. eraw. unfold promise_settle_and_take_reactions. auto 12 with equiet. Qed.
Lemma ev_host_slots o hs : ev P (object_set_host_slots o hs).
Proof.
  eraw. intros h h' r E. unfold object_set_host_slots in E. destruct (validate h o) as [ix|] eqn:Hv.
  2:{ simplify_eq. by eapply (equiet_id (mfail (A:=unit) EInvalidHandle)). }
  destruct (h_slots h !! ix) as [s|] eqn:Hs.
  2:{ simplify_eq. by eapply (equiet_id (mpanic (A:=unit))). }
  assert (K : h' = h \/ h' = h <| h_slots := <[ix := s <| sl_host := hs |>]> (h_slots h) |>)
    by (destruct (sl_value s) as [[]|]; simplify_eq; auto).
  destruct K as [->| ->]; [by eapply (equiet_id (mfail (A:=unit) EInvalidHandle))|].
  split; [done|]. split; [done|]. cbn. intros j. destruct (decide (ix = j)) as [->|N].
  - rewrite list_lookup_insert by (by eapply lookup_lt_Some). rewrite Hs. split; [done|]. cbn. by destruct (sl_value s).
  - rewrite list_lookup_insert_ne by done. destruct (h_slots h !! j) as [t|]; [|done]. split; [done|]. by destruct (sl_value t).
Qed.
Lemma ev_env_add_binding o b : P o -> ev P (env_add_binding o b).
Proof.
  intros HP. apply ev_good; [auto with good|]. intros h h' r H E.
  destruct (env_add_binding_spec o b h H) as [(e & E1)|(x & x' & Hl & h1 & H1 & G & [(e & E1)|(h2 & Hf & E1 & U)])];
    rewrite E1 in E; simplify_eq; [by apply envs_refl|by eapply envs_gstep|].
  eapply envs_trans; [done|eapply envs_gstep; eauto|]. eapply envs_ustep; [done| |exact U]. right. split; [done|].
  unfold add_binding_fn in Hf. destruct x as [| | | |[]|]; try discriminate Hf. destruct (search_key _ _ _) eqn:Es; try discriminate Hf. injection Hf as <-.
  cbn. intros Hs. by apply insert_at_sorted.
Qed.
Lemma ev_append_reaction o f b : ev P (promise_append_reaction o f b).
Proof.
  apply ev_good; [auto with good|]. intros h h' r H E.
  destruct (append_reaction_spec o f b h H) as [(e & E1)|(x & x' & Hl & _ & h1 & H1 & G & [(e & E1)|(h2 & Hf & E1 & U)])];
    rewrite E1 in E; simplify_eq; [by apply envs_refl|by eapply envs_gstep|].
  eapply envs_trans; [done|eapply envs_gstep; eauto|]. eapply envs_ustep; [done| |exact U].
  left. unfold append_reaction_fn in Hf. cases Hf; by injection Hf as <-.
Qed.
Lemma ev_heap_define_property o k d : ev P (heap_define_property o k d).
Proof.
  apply ev_good; [auto with good|]. intros h h' r H E. rewrite heap_define_property_unfold in E.
  destruct (define_target o k h) as [t|e|] eqn:Ht; [|simplify_eq; by apply envs_refl..].
  match type of E with context [define_new_length ?a ?b ?c ?d] => destruct (define_new_length a b c d) as [nl|e|] end;
    [|simplify_eq; by apply envs_refl..].
  unfold mbind in E. destruct (define_core o k d t h) as [h1 r1] eqn:E1.
  destruct (ev_define_core P _ _ _ _ _ _ _ H Ht E1) as [H1 K1].
  destruct r1 as [a|e|]; [|simplify_eq; auto..].
  destruct (ev_define_array_fixup _ _ _ _ _ _ _ H1 E) as [H2 K2]. eapply envs_trans; eauto.
Qed.
Lemma ev_registry_insert key sym : ev P (symbol_registry_insert key sym).
Proof.
  apply ev_good; [auto with good|]. intros h h' r H E.
  destruct (registry_insert_spec key sym h H) as (h1 & H1 & G & [(e & E1)|(c & H2 & [(e & E1)|(u & x & _ & _ & E1)])]).
  - rewrite E1 in E. simplify_eq. eapply envs_gstep; eauto.
  - rewrite E1 in E. simplify_eq. eapply envs_trans; [done|eapply envs_gstep; eauto|]. by apply envs_same.
  - destruct x as [i|i]; [|destruct E1 as [E1 _]]; rewrite E1 in E; simplify_eq;
      (eapply envs_trans; [done|eapply envs_gstep; eauto|]; by apply envs_same).
Qed.
Lemma ev_collect : ev P collect_garbage.
Proof.
  apply ev_good; [auto with good|]. intros h h' r H E. destruct (collect_ok [] h H) as (h1 & E1 & H1 & G & _).
  unfold collect_garbage in E. rewrite E1 in E. simplify_eq. eapply envs_gstep; eauto.
Qed.
Lemma ev_add_root v : ev P (add_root v).
Proof.
  apply ev_good; [auto with good|]. intros h h' r H E.
  destruct (add_root_spec v h H) as (h1 & H1 & G & [E1|(h2 & j & E1 & H2 & Es & R & _)]); rewrite E1 in E; simplify_eq.
  - eapply envs_gstep; eauto.
  - eapply envs_trans; [done|eapply envs_gstep; eauto|]. destruct R as (R1&R2&R3&R4&_). by apply envs_same.
Qed.
Lemma ev_add_env_root v : ev P (add_env_root v).
Proof.
  change (add_env_root v) with (with_scope (push_env_root v ;;; add_env_root_inner v)).
  apply ev_with_scope, ev_bind; [apply ev_push_env_root|]. intros _ h h' r H E.
  destruct (add_env_root_inner_spec v h H) as (h1 & H1 & G & [E1|(h2 & j & E1 & H2 & Es & R & _)]); rewrite E1 in E; simplify_eq.
  - split; [done|]. eapply envs_gstep; eauto.
  - split; [done|]. eapply envs_trans; [done|eapply envs_gstep; eauto|]. destruct R as (R1&R2&R3&R4&_). by apply envs_same.
Qed.
Lemma ev_roots_only {A} (m : M A) : good m ->
  (forall h, h_layout (fst (m h)) = h_layout h /\ h_gc_runs (fst (m h)) = h_gc_runs h /\ h_slots (fst (m h)) = h_slots h) -> ev P m.
Proof.
  intros Hg Hm. apply ev_good; auto. intros h h' r H E. destruct (Hm h) as (E1 & E2 & E3). rewrite E in *. by apply envs_same.
Qed.
Lemma ev_set_root i v : ev P (set_root i v).
Proof. apply ev_roots_only; [auto with good|]. intros h. unfold set_root. destruct (h_proots h !! i) as [[]|]; done. Qed.
Lemma ev_remove_root i : ev P (remove_root i).
Proof. apply ev_roots_only; [auto with good|]. intros h. unfold remove_root. destruct (h_proots h !! i) as [[]|]; done. Qed.
Lemma ev_set_env_root i v : ev P (set_env_root i v).
Proof. apply ev_roots_only; [auto with good|]. intros h. unfold set_env_root. destruct (h_peroots h !! i) as [[]|]; done. Qed.
Lemma ev_remove_env_root i : ev P (remove_env_root i).
Proof. apply ev_roots_only; [auto with good|]. intros h. unfold remove_env_root. destruct (h_peroots h !! i) as [[]|]; done. Qed.
Lemma ev_push_root v : ev P (push_root v).
Proof. apply ev_push_roots_with. Qed.
Lemma ev_push_roots v : ev P (push_roots v).
Proof. apply ev_push_roots_with. Qed.
End targets.

Create HintDb ev.
Global Hint Resolve ev_ret ev_fail ev_mget ev_mread ev_ensure ev_push_roots_with ev_push_env_root ev_delete_own
  ev_heap_array_set_length ev_array_set_length_writable ev_object_set_extensible ev_set_existing
  ev_env_initialize ev_env_set ev_env_initialize_sym ev_env_set_sym ev_bound_this ev_bound_new_target ev_realm ev_job_realm
  ev_data ev_closure_env ev_promise_handled ev_promise_set_state ev_promise_fulfill ev_promise_reject ev_promise_settle
  ev_host_slots ev_env_add_binding ev_append_reaction ev_heap_define_property ev_registry_insert ev_collect ev_add_root
  ev_add_env_root ev_set_root ev_remove_root ev_set_env_root ev_remove_env_root ev_push_root ev_push_roots : ev.
Global Hint Extern 1 (ev _ (with_scope _)) => apply ev_with_scope : ev.
Global Hint Extern 1 (ev _ (ensure_can_allocate _)) => apply ev_ensure : ev.
Global Hint Extern 3 (ev _ (mbind (mget h_layout) _)) => apply ev_layout; intros ? : ev.
Global Hint Extern 4 (ev _ (mbind _ _)) => apply ev_bind; [|intros ?] : ev.
Global Hint Extern 4 (evl _ _ (mbind _ _)) => apply evl_bind; [|intros ?] : ev.
Global Hint Extern 5 (ev _ (match ?x with _ => _ end)) => destruct x : ev.
Global Hint Extern 5 (evl _ _ (match ?x with _ => _ end)) => destruct x : ev.
Global Hint Extern 6 (evl _ _ _) => apply evl_of_ev : ev.

(** ** Allocation *)
Ltac epp := apply ev_bind; [auto 10 with ev|intros ?].
Ltac elp := apply evl_bind; [apply evl_of_ev; auto 10 with ev|intros ?].
Section allocs.
Context (P : heap_id -> Prop).
Lemma ev_alloc_string u : ev P (alloc_string u).
Proof. unfold alloc_string. epp. apply ev_alloc; [intros l; apply string_bytes_ok|done]. Qed.
Lemma ev_new_symbol d : ev P (new_symbol d).
Proof.
  unfold new_symbol. apply ev_with_scope. do 3 epp. apply ev_bind; [|intros ?; apply ev_alloc; [intros l; by left|done]].
  apply ev_mmodify; [|done]. intros h H. by apply heap_ok_set_symbol.
Qed.
Lemma ev_alloc_object : ev P alloc_object.
Proof. unfold alloc_object. apply ev_layout. intros l. elp. apply evl_alloc; [by right|done]. Qed.
Lemma ev_alloc_object_with_properties p ps : ev P (alloc_object_with_properties p ps).
Proof.
  unfold alloc_object_with_properties. apply ev_with_scope. epp. apply ev_layout. intros l. elp. by apply evl_alloc; [right|].
Qed.
Lemma ev_alloc_promise p : ev P (alloc_promise_with_prototype p).
Proof.
  unfold alloc_promise_with_prototype. apply ev_with_scope. epp. apply ev_layout. intros l. elp. apply evl_alloc;
  [right; by rewrite promise_bytes_ok|done].
Qed.
Lemma ev_alloc_declarative_env o bs : ev P (alloc_declarative_env_record o bs).
Proof.
  unfold alloc_declarative_env_record. apply ev_with_scope. epp.
  destruct (negb a); [apply ev_fail|]. epp.
  apply ev_layout. intros l. elp.
  destruct (has_adjacent_dup _ _) eqn:Hd; [apply evl_of_ev, ev_fail|]. apply evl_alloc.
  - right. rewrite env_bytes_ok. simpl. unfold nlen. by rewrite sort_by_length.
  - cbn. apply no_dup_sorted; [apply sort_by_sorted|done].
Qed.
Lemma ev_alloc_object_env b o w : ev P (alloc_object_env_record b o w).
Proof.
  unfold alloc_object_env_record. apply ev_with_scope. epp.
  destruct (negb a); [apply ev_fail|]. epp. apply ev_layout. intros l. elp. apply evl_alloc; [by left|done].
Qed.
Lemma ev_env_create o : ev P (env_create o).
Proof. unfold env_create. apply ev_with_scope. epp. apply ev_layout. intros l. elp. apply evl_alloc; [by right|constructor]. Qed.
End allocs.
Global Hint Resolve ev_alloc_string ev_new_symbol ev_alloc_object ev_alloc_object_with_properties ev_alloc_promise
  ev_alloc_declarative_env ev_alloc_object_env ev_env_create : ev.
Section compound.
Context (P : heap_id -> Prop).
Lemma ev_alloc_array n : ev P (alloc_array n).
Proof.
  unfold alloc_array. destruct (_ <? _); [apply ev_fail|]. apply ev_with_scope. do 2 epp. apply ev_layout. intros l. elp.
  apply evl_alloc; [by right|done].
Qed.
Lemma ev_symbol_for k : ev P (symbol_for k).
Proof. unfold symbol_for. auto 20 with ev. Qed.
Lemma ev_compute_function_name n p : ev P (compute_function_name n p).
Proof. unfold compute_function_name. destruct p, n; auto 10 with ev. Qed.
Lemma ev_define_property o k d : ev P (define_property o k d).
Proof. unfold define_property. auto with ev. Qed.
End compound.
Global Hint Resolve ev_alloc_array ev_symbol_for ev_compute_function_name ev_define_property : ev.
Section functions.
Context (P : heap_id -> Prop).
Lemma ev_set_function_name f n p : ev P (set_function_name f n p).
Proof. unfold set_function_name. apply ev_with_scope. do 5 epp. by apply ev_update_function. Qed.
Lemma ev_set_function_length f n : ev P (set_function_length f n).
Proof. unfold set_function_length. apply ev_with_scope. do 3 epp. by apply ev_update_function. Qed.
Lemma ev_make_constructor f : ev P (make_constructor f).
Proof. unfold make_constructor. apply ev_with_scope. auto 20 with ev. Qed.
End functions.
Global Hint Resolve ev_set_function_name ev_set_function_length ev_make_constructor : ev.
Section functions2.
Context (P : heap_id -> Prop).
Lemma ev_alloc_native_function a b c d e f : ev P (alloc_native_function a b c d e f).
Proof.
  unfold alloc_native_function. apply ev_with_scope. epp. apply ev_layout. intros l. elp.
  apply evl_bind; [apply evl_alloc; [right; apply function_size_ok|done]|]. intros fn. apply evl_of_ev. auto 10 with ev.
Qed.
Lemma ev_alloc_ecma_function a b c d e f g : ev P (alloc_ecma_function a b c d e f g).
Proof.
  unfold alloc_ecma_function. apply ev_with_scope. epp. apply ev_layout. intros l. elp.
  apply evl_bind; [apply evl_alloc; [right; apply function_size_ok|done]|]. intros fn. apply evl_of_ev. auto 10 with ev.
Qed.
Lemma ev_alloc_user_function a b c : ev P (alloc_user_function a b c).
Proof.
  unfold alloc_user_function. apply ev_with_scope. epp. apply ev_layout. intros l. elp.
  apply evl_bind; [apply evl_alloc; [right; apply function_size_ok|done]|]. intros fn. apply evl_of_ev. auto 10 with ev.
Qed.
Lemma ev_alloc_bound_function a b c d e : ev P (alloc_bound_function a b c d e).
Proof.
  unfold alloc_bound_function. epp. unfold alloc_bound_function_raw. apply ev_with_scope. epp. apply ev_layout. intros l. elp.
  apply evl_alloc; [right; apply function_size_ok|done].
Qed.
Lemma ev_heap_ordinary_delete o k : ev P (heap_ordinary_delete o k).
Proof. unfold heap_ordinary_delete. auto 10 with ev. Qed.
End functions2.
Global Hint Resolve ev_alloc_native_function ev_alloc_ecma_function ev_alloc_user_function ev_alloc_bound_function ev_heap_ordinary_delete : ev.

(** ** Object internal methods *)
Lemma ev_validate_and_apply P o k e p c : ev P (validate_and_apply o k e p c).
Proof. unfold validate_and_apply. auto 20 with ev. Qed.
Global Hint Resolve ev_validate_and_apply : ev.
Lemma ev_ordinary_define P o k p : ev P (ordinary_define_own_property o k p).
Proof. unfold ordinary_define_own_property. auto 20 with ev. Qed.
Lemma ev_ordinary_delete P o k : ev P (ordinary_delete o k).
Proof. unfold ordinary_delete. auto 20 with ev. Qed.
Global Hint Resolve ev_ordinary_define ev_ordinary_delete : ev.
Lemma ev_array_delete_loop P o lk ol nl nw ks : ev P (array_delete_loop o lk ol nl nw ks).
Proof. induction ks; cbn [array_delete_loop]; auto 30 with ev. Qed.
Global Hint Resolve ev_array_delete_loop : ev.
Lemma ev_array_set_length P o lk p : ev P (array_set_length o lk p).
Proof. unfold array_set_length. auto 30 with ev. Qed.
Global Hint Resolve ev_array_set_length : ev.
Lemma ev_array_define P o k p : ev P (array_define_own_property o k p).
Proof. unfold array_define_own_property. auto 30 with ev. Qed.
Global Hint Resolve ev_array_define : ev.
Lemma ev_define_own_property P o k p : ev P (define_own_property o k p).
Proof. unfold define_own_property. auto 30 with ev. Qed.
Global Hint Resolve ev_define_own_property : ev.
Lemma ev_define_property_or_throw P o k p : ev P (define_property_or_throw o k p).
Proof. unfold define_property_or_throw. auto 30 with ev. Qed.
Lemma ev_create_data_property P o k v : ev P (create_data_property o k v).
Proof. unfold create_data_property. auto 30 with ev. Qed.
Global Hint Resolve ev_define_property_or_throw ev_create_data_property : ev.
Lemma ev_create_data_property_or_throw P o k v : ev P (create_data_property_or_throw o k v).
Proof. unfold create_data_property_or_throw. auto 30 with ev. Qed.
Lemma ev_delete_property_or_throw P o k : ev P (delete_property_or_throw o k).
Proof. unfold delete_property_or_throw. auto 30 with ev. Qed.
Lemma ev_ordinary_set_stop P o k v r : ev P (ordinary_set stop_call o k v r).
Proof. unfold ordinary_set, stop_call. destruct r; auto 30 with ev. Qed.
Lemma ev_env_create_binding (P : heap_id -> Prop) e n m : P e -> ev P (env_create_binding e n m).
Proof. intros HP. unfold env_create_binding. auto 30 with ev. Qed.
Lemma ev_scope_append_reaction P p f r : ev P (scope_append_reaction p f r).
Proof. unfold scope_append_reaction. auto 30 with ev. Qed.
Global Hint Resolve ev_create_data_property_or_throw ev_delete_property_or_throw ev_env_create_binding ev_scope_append_reaction ev_ordinary_set_stop : ev.
Lemma ev_void {A} P (m : M A) : ev P m -> ev P (void m).
Proof. intros Hm. unfold void. apply ev_bind; [exact Hm|]. intros _. apply ev_ret. Qed.
Lemma ev_set_prototype P o p : ev P (object_set_prototype o p).
Proof.
  apply ev_good; [auto with good|]. intros h h' r H E. destruct (set_prototype_cases o p h H) as [(e & E1)|(x & b & h1 & Hl & Hb & _ & E1 & U)];
    rewrite E1 in E; injection E as <- <-; [by apply envs_refl|]. eapply envs_ustep; [done| |exact U]. left. by eapply env_set_base.
Qed.
(** The calls that write an environment record. *)
Definition env_writes (o : op) : list heap_id :=
  match o with
  | OpEnvCreateBinding e _ _ | OpEnvInitialize e _ _ | OpEnvSet e _ _ | OpEnvInitializeSym e _ _ | OpEnvSetSym e _ _ => [e]
  | _ => []
  end.
Lemma ev_exec o : (forall body, o <> OpScope body) -> ev (fun x => x ∈ env_writes o) (exec o).
Proof.
  intros N1. destruct o; try (by destruct (N1 body)); cbn [exec env_writes]; try apply ev_void;
    first [apply ev_set_prototype|apply ev_env_create_binding; set_solver|apply ev_env_initialize; set_solver|apply ev_env_set; set_solver
          |apply ev_env_initialize_sym; set_solver|apply ev_env_set_sym; set_solver|auto with ev].
Qed.

(** ** Histories *)
Definition all_sorted (h : heap) : Prop := forall i s x, h_slots h !! i = Some s -> sl_value s = Some x -> env_fine x.
Lemma envs_sorted P h h' : envs P h h' -> all_sorted h -> all_sorted h'.
Proof.
  intros [_ S] A i s' x' Hs Hx. destruct (S i s' x' Hs Hx) as [(s & x & B1 & B2 & B3 & B4)|[_ B]]; [|done].
  eapply erel_fine; [exact B4|]. by eapply A.
Qed.
Lemma run_sorted cs : Forall (fun c => forall h, heap_ok h -> all_sorted h -> all_sorted (fst (exec c h))) cs ->
  forall h, heap_ok h -> all_sorted h -> all_sorted (run cs h).
Proof.
  induction 1 as [|c cs Hc _ IH]; intros h H A; [done|]. cbn [run]. destruct (exec_evolves c h H) as [H1 _]. auto.
Qed.
Lemma exec_sorted c : forall h, heap_ok h -> all_sorted h -> all_sorted (fst (exec c h)).
Proof.
  induction c as [body IH|c Hns] using op_ind'; intros h H A.
  - rewrite exec_scope_state. exact (run_sorted body IH h H A).
  - destruct (exec c h) as [h1 r] eqn:E. destruct (ev_exec c Hns h h1 r H E) as [_ K]. by eapply envs_sorted.
Qed.
Lemma state_sorted h : reachable_state h -> all_sorted h.
Proof.
  intros (ly & mb & gt & os & Hl & ->). apply run_sorted; [|by apply heap_new_ok|].
  - apply Forall_forall. intros c _. apply exec_sorted.
  - intros i s x Hs. cbn in Hs. by rewrite lookup_nil in Hs.
Qed.
