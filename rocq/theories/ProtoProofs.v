(** Prototype chains stay finite. *)
From stdpp Require Import base decidable list numbers sets.
From Coq Require Import NArith ZArith Lia.
From RecordUpdate Require Import RecordUpdate.
From Verif Require Import VmBase HeapModel HeapObjModel HeapSpec HeapGcProofs HeapInvProofs HeapObjProofs
  ObjectOpsModel ObjectOpsProofs HeapTidyProofs HeapSafeProofs HeapHistory HeapHistoryProofs HeapFrameProofs HeapApiProofs
  ObjSpec ObjViewProofs ObjHistoryProofs ProtoSpec.

Open Scope N_scope.

Definition proto_of (x : heap_object) : option heap_id := base_of x ≫= ob_prototype.
Definition fine (P : heap_id -> Prop) (x : heap_object) : Prop := forall p, proto_of x = Some p -> P p.

(** Objects that are not new keep their prototype; new ones have one from [P]. *)
Record protos (P : heap_id -> Prop) (h h' : heap) : Prop := {
  po_keeps : keeps (fun _ => True) h h';
  po_slots : forall i s' x', h_slots h' !! i = Some s' -> sl_value s' = Some x' ->
    (exists s x, h_slots h !! i = Some s /\ sl_gen s = sl_gen s' /\ sl_value s = Some x /\ proto_of x' = proto_of x) \/
    (newer h h' (HId i (sl_gen s')) /\ fine P x') }.

Lemma protos_same P h h' : heap_ok h -> h_layout h' = h_layout h -> h_gc_runs h' = h_gc_runs h -> h_slots h' = h_slots h -> protos P h h'.
Proof. intros H E1 E2 E3. constructor; [by apply keeps_same|]. intros i s x Hs Hx. left. exists s, x. rewrite <- E3. done. Qed.
Lemma protos_refl P h : heap_ok h -> protos P h h.
Proof. intros H. by apply protos_same. Qed.
Lemma newer_between T h1 h2 h3 f : heap_ok h1 -> keeps T h1 h2 -> keeps T h2 h3 -> newer h2 h3 f -> newer h1 h3 f.
Proof.
  intros H K1 K2 Hn s Hs. destruct (kp_slots _ _ _ K1 _ _ Hs) as (s2 & k & A1 & A2 & A3 & A4).
  pose proof (kp_runs _ _ _ K1). pose proof (kp_runs _ _ _ K2).
  destruct (sl_value s) as [o|] eqn:Hv; [right|by left].
  assert (C : exists s3 k3, h_slots h3 !! hid_index f = Some s3 /\ k3 <= h_gc_runs h3 - h_gc_runs h2 /\ sl_gen s3 = (sl_gen s2 + k3) mod two32 /\ (1 <= k + k3)).
  { destruct (Hn s2 A1) as [Hd|(s3 & k3 & B1 & B2 & B3)]; [|exists s3, k3; repeat split; auto; lia].
    destruct (kp_slots _ _ _ K2 _ _ A1) as (s3 & k3 & B1 & B2 & B3 & _). exists s3, k3. do 3 (split; [done|]).
    destruct (decide (k = 0)) as [Hk|Hk]; [|lia]. destruct (A4 Hk o eq_refl) as (o' & C & _). congruence. }
  destruct C as (s3 & k3 & B1 & B2 & B3 & B4). exists s3, (k + k3). split; [done|]. split; [lia|].
  rewrite B3, A3, N.add_mod_idemp_l by done. f_equal. lia.
Qed.
Lemma protos_trans P h1 h2 h3 : heap_ok h1 -> protos P h1 h2 -> protos P h2 h3 -> protos P h1 h3.
Proof.
  intros H [K1 S1] [K2 S2]. constructor; [by eapply keeps_trans|]. intros i s x Hs Hx.
  destruct (S2 i s x Hs Hx) as [(s2 & x2 & A1 & A2 & A3 & A4)|[A B]].
  - destruct (S1 i s2 x2 A1 A3) as [(s1 & x1 & B1 & B2 & B3 & B4)|[B C]].
    + left. exists s1, x1. repeat split; auto; congruence.
    + right. split; [rewrite <- A2; eapply newer_keeps; [exact B|apply K1|exact K2]|]. unfold fine. by rewrite A4.
  - right. split; [|done]. eapply newer_between; [exact H|exact K1|exact K2|done].
Qed.
Lemma protos_gstep P extra h h' : heap_ok h -> gstep extra h h' -> protos P h h'.
Proof.
  intros H G. constructor; [by eapply keeps_gstep|]. intros i s' x' Hs Hx. left.
  destruct (h_slots h !! i) as [s|] eqn:E.
  - destruct (gs_slots _ _ _ G _ _ E) as (s2 & Hs' & [->|(_ & -> & _)]); [|rewrite Hs in Hs'; simplify_eq].
    assert (s = s') by congruence. subst. exists s', x'. done.
  - exfalso. pose proof (gs_len _ _ _ G) as L. apply lookup_lt_Some in Hs. apply lookup_ge_None in E. lia.
Qed.
Lemma protos_ustep P id o o' h h' : heap_ok h -> proto_of o' = proto_of o -> ustep id o o' h h' -> protos P h h'.
Proof.
  intros H Hp U. constructor; [by eapply keeps_ustep_T|]. intros i s' x' Hs Hx. left.
  destruct (decide (i = hid_index id)) as [->|N].
  - destruct (us_live _ _ _ _ _ U) as (hs & t & A & B & C & D). destruct (us_live' _ _ _ _ _ U) as (hs' & t' & A' & B' & C' & D').
    exists t, o. assert (t' = s') by congruence. subst t'. repeat split; auto; congruence.
  - rewrite (us_other _ _ _ _ _ U) in Hs by done. exists s', x'. done.
Qed.
Lemma protos_alloc P h h' id obj : heap_ok h -> fine P obj -> alloc_step h h' id obj -> protos P h h'.
Proof.
  intros H Hp A. constructor; [by eapply keeps_alloc|]. intros i s' x' Hs Hx.
  destruct (decide (i = hid_index id)) as [->|N].
  - right. destruct (as_live _ _ _ _ A) as (t & T1 & T2 & T3 & T4). assert (t = s') by congruence. subst t. split.
    + intros s E. cbn in E. left. destruct (as_fresh _ _ _ _ A) as [?|(s0 & E1 & E2 & E3)]; congruence.
    + assert (obj = x') as <- by congruence. done.
  - left. rewrite (as_other _ _ _ _ A) in Hs by done. exists s', x'. done.
Qed.

Definition pt {A} (P : heap_id -> Prop) (m : M A) : Prop :=
  forall h h' r, heap_ok h -> m h = (h', r) -> heap_ok h' /\ protos P h h'.
Definition ptl {A} (l : layout) (P : heap_id -> Prop) (m : M A) : Prop :=
  forall h h' r, h_layout h = l -> heap_ok h -> m h = (h', r) -> heap_ok h' /\ protos P h h'.
Lemma ptl_of_pt {A} l P (m : M A) : pt P m -> ptl l P m.
Proof. intros Hm h h' r _. apply Hm. Qed.
Lemma ptl_bind {A B} l P (m : M A) (k : A -> M B) : ptl l P m -> (forall a, ptl l P (k a)) -> ptl l P (mbind m k).
Proof.
  intros Hm Hk h h' r Hl H E. unfold mbind in E. destruct (m h) as [h1 r1] eqn:E1.
  destruct (Hm _ _ _ Hl H E1) as [H1 K1]. destruct r1 as [a|e|]; simplify_eq; auto.
  destruct (Hk a h1 h' r) as [H2 K2]; auto; [rewrite (kp_layout _ _ _ (po_keeps _ _ _ K1)); auto|].
  split; auto. eapply protos_trans; eauto.
Qed.
Lemma pt_bind {A B} P (m : M A) (k : A -> M B) : pt P m -> (forall a, pt P (k a)) -> pt P (mbind m k).
Proof. intros Hm Hk h h' r. apply (ptl_bind (h_layout h) P m k); [by apply ptl_of_pt|intros; by apply ptl_of_pt|done]. Qed.
Lemma pt_layout {A} P (k : layout -> M A) : (forall l, ptl l P (k l)) -> pt P (mbind (mget h_layout) k).
Proof. intros Hk h h' r. apply (Hk (h_layout h) h h' r eq_refl). Qed.
Lemma pt_ret {A} P (a : A) : pt P (mret a).
Proof. intros h h' r H E. unfold mret in E. simplify_eq. split; auto. by apply protos_refl. Qed.
Lemma pt_fail {A} P e : pt P (mfail (A:=A) e).
Proof. intros h h' r H E. unfold mfail in E. simplify_eq. split; auto. by apply protos_refl. Qed.
Lemma pt_mget {A} P (f : heap -> A) : pt P (mget f).
Proof. intros h h' r H E. unfold mget in E. simplify_eq. split; auto. by apply protos_refl. Qed.
Lemma pt_mread {A} P (f : heap -> res A) : pt P (mread f).
Proof. intros h h' r H E. unfold mread in E. simplify_eq. split; auto. by apply protos_refl. Qed.
Lemma pt_with_scope {A} P (m : M A) : pt P m -> pt P (with_scope m).
Proof.
  intros Hm h h' r H E. unfold with_scope in E. destruct (m h) as [h1 r1] eqn:Em. destruct (Hm _ _ _ H Em) as [H1 K1].
  injection E as <- <-. split.
  - pose proof (hk_caps h1 H1) as (?&?&?&?&?&?&?&?&?&?&?). apply heap_ok_set_roots; auto.
    + pose proof (nlen_take (length (h_roots h)) (h_roots h1)). lia.
    + pose proof (nlen_take (length (h_env_roots h)) (h_env_roots h1)). lia.
  - eapply protos_trans; eauto. by apply protos_same.
Qed.
Lemma pt_good {A} P (m : M A) : good m -> (forall h h' r, heap_ok h -> m h = (h', r) -> protos P h h') -> pt P m.
Proof. intros Hg Hk h h' r H E. destruct (Hg _ _ _ H E) as (? & _). split; eauto. Qed.
Lemma pt_ensure P add extra : pt P (ensure_can_allocate_with add extra).
Proof.
  intros h h' r H E. destruct (ensure_spec add extra h H) as (h1 & H1 & G & _ & [[E1 _]|[E1 _]]); rewrite E1 in E; simplify_eq;
    (split; [done|eapply protos_gstep; eauto]).
Qed.
Lemma pt_push_roots_with P vs extra : pt P (push_roots_with vs extra).
Proof.
  intros h h' r H E. destruct (push_roots_spec vs extra h H) as (h1 & H1 & G & [E1|(c & E1 & H2)]); rewrite E1 in E; injection E as <- <-.
  - split; [done|eapply protos_gstep; eauto].
  - split; [done|]. eapply protos_trans; [done|eapply protos_gstep; eauto|]. by apply protos_same.
Qed.
Lemma pt_push_env_root P e : pt P (push_env_root e).
Proof.
  intros h h' r H E. destruct (push_env_root_spec e h H) as (h1 & H1 & G & [E1|(c & E1 & H2)]); rewrite E1 in E; injection E as <- <-.
  - split; [done|eapply protos_gstep; eauto].
  - split; [done|]. eapply protos_trans; [done|eapply protos_gstep; eauto|]. by apply protos_same.
Qed.
Lemma ptl_alloc l P obj nb : sizes nb (payload_bytes l obj) -> fine P obj -> ptl l P (alloc_unchecked obj nb).
Proof.
  intros Hs Hp h h' r <- H E. destruct (alloc_unchecked_spec obj nb h H Hs) as (h1 & H1 & G & [E1|(h2 & id & E1 & H2 & A)]); rewrite E1 in E; simplify_eq.
  - split; [done|eapply protos_gstep; eauto].
  - split; [done|]. eapply protos_trans; [done|eapply protos_gstep; eauto|]. eapply protos_alloc; eauto.
Qed.
Lemma pt_alloc P obj nb : (forall l, sizes nb (payload_bytes l obj)) -> fine P obj -> pt P (alloc_unchecked obj nb).
Proof. intros Hs Hp h h' r. by apply (ptl_alloc (h_layout h)). Qed.
Lemma pt_mmodify P f : (forall h, heap_ok h -> heap_ok (f h)) ->
  (forall h, h_layout (f h) = h_layout h /\ h_gc_runs (f h) = h_gc_runs h /\ h_slots (f h) = h_slots h) -> pt P (mmodify f).
Proof. intros Hf He h h' r H E. unfold mmodify in E. simplify_eq. split; auto. destruct (He h) as (?&?&?). by apply protos_same. Qed.

Lemma proto_set_base x b b' : base_of x = Some b -> ob_prototype b' = ob_prototype b -> proto_of (set_base x b') = proto_of x.
Proof. unfold proto_of. destruct x as [| |? |f| |p]; cbn; intros [= <-]; cbn; by intros ->. Qed.
Lemma pt_delete_own P o k : pt P (object_delete_own_property o k).
Proof.
  apply pt_good; [auto with good|]. intros h h' r H E.
  destruct (delete_own_spec o k h H) as [[E1 _]|(ob & b & Hl & Hb & [[_ E1]|(i & h1 & _ & E1 & U)])]; rewrite E1 in E; simplify_eq.
  - by apply protos_refl.
  - by apply protos_refl.
  - eapply protos_ustep; [done| |exact U]. eapply proto_set_base; eauto.
Qed.
Lemma base_with_proto b k d pos : ob_prototype (base_with b k d pos) = ob_prototype b.
Proof. unfold base_with. by destruct pos. Qed.
Lemma pt_define_core P o k d h h' t r : heap_ok h -> define_target o k h = Ok t ->
  define_core o k d t h = (h', r) -> heap_ok h' /\ protos P h h'.
Proof.
  intros H Ht E. destruct (define_core_spec o k d h t H Ht) as (s & ob & b & _ & _ & _ & Hb & _ & h1 & H1 & G & [(e & E1 & _)|(h2 & E1 & U)]);
    rewrite E1 in E; simplify_eq.
  - split; [done|eapply protos_gstep; eauto].
  - split; [apply U|]. eapply protos_trans; [done|eapply protos_gstep; eauto|]. eapply protos_ustep; [done| |exact U].
    eapply proto_set_base; [exact Hb|]. apply base_with_proto.
Qed.

(** Updates of one slot in place. *)
Definition quiet {A} (m : M A) : Prop :=
  forall h h' r, m h = (h', r) ->
    h_layout h' = h_layout h /\ h_gc_runs h' = h_gc_runs h /\
    forall i, match h_slots h !! i, h_slots h' !! i with
              | None, None => True
              | Some s, Some s' => sl_gen s' = sl_gen s /\
                  match sl_value s, sl_value s' with None, None => True | Some x, Some x' => proto_of x' = proto_of x | _, _ => False end
              | _, _ => False
              end.
Lemma quiet_pt {A} P (m : M A) : good m -> quiet m -> pt P m.
Proof.
  intros Hg Hq. apply pt_good; auto. intros h h' r H E. destruct (Hq _ _ _ E) as (E1 & E2 & E3). constructor.
  - constructor; auto; try lia. intros i s Hs. specialize (E3 i). rewrite Hs in E3. destruct (h_slots h' !! i) as [s'|] eqn:E4; [|done].
    destruct E3 as [Eg Ev]. exists s', 0. split; auto. split; [lia|]. split; [rewrite Eg; eapply gen_small; eauto|].
    intros _ o Ho. rewrite Ho in Ev. destruct (sl_value s') as [x'|]; [|done]. exists x'. split; [done|]. intros Hn. by destruct Hn.
  - intros i s' x' Hs Hx. left. specialize (E3 i). rewrite Hs in E3. destruct (h_slots h !! i) as [s|]; [|done]. destruct E3 as [Eg Ev].
    rewrite Hx in Ev. destruct (sl_value s) as [x|] eqn:Hx0; [|done]. exists s, x. repeat split; congruence.
Qed.
Lemma quiet_id {A} (m : M A) : (forall h, fst (m h) = h) -> quiet m.
Proof.
  intros Hm h h' r E. pose proof (Hm h) as Q. rewrite E in Q. cbn in Q. subst. split; auto. split; auto. intros i.
  destruct (h_slots h !! i) as [s|]; [|done]. split; [done|]. by destruct (sl_value s).
Qed.
Lemma quiet_bind {A B} (m : M A) (k : A -> M B) : quiet m -> (forall a, quiet (k a)) -> quiet (mbind m k).
Proof.
  intros Hm Hk h h' r E. unfold mbind in E. destruct (m h) as [h1 r1] eqn:E1. destruct (Hm _ _ _ E1) as (L1 & R1 & S1).
  destruct r1 as [a|e|]; simplify_eq; auto. destruct (Hk a _ _ _ E) as (L2 & R2 & S2). split; [congruence|]. split; [congruence|].
  intros i. specialize (S1 i). specialize (S2 i). destruct (h_slots h !! i) as [s|], (h_slots h1 !! i) as [s1|], (h_slots h' !! i) as [s2|]; try done.
  destruct S1 as [A1 A2], S2 as [B1 B2]. split; [congruence|]. destruct (sl_value s), (sl_value s1), (sl_value s2); try done. congruence.
Qed.
Lemma quiet_update_object id f : (forall o o', f o = Ok o' -> proto_of o' = proto_of o) -> quiet (update_object id f).
Proof.
  intros Hf h h' r E. unfold update_object in E. destruct (validate h id) as [ix|] eqn:Hv.
  2:{ simplify_eq. by eapply (quiet_id (mfail (A:=unit) EInvalidHandle)). }
  apply validate_Some in Hv as [-> Hl]. destruct (live_slot h id Hl) as (s & o & Hs & Hg & Ho). rewrite Hs, Ho in E.
  destruct (f o) eqn:Ef; simplify_eq; try (by eapply (quiet_id (mfail (A:=unit) EInvalidHandle))).
  split; [done|]. split; [done|]. cbn. intros i. destruct (decide (i = hid_index id)) as [->|N].
  - rewrite list_lookup_insert by (by eapply lookup_lt_Some). rewrite Hs. split; [done|]. cbn. rewrite Ho. by apply Hf.
  - rewrite list_lookup_insert_ne by done. destruct (h_slots h !! i) as [t|]; [|done]. split; [done|]. by destruct (sl_value t).
Qed.
Lemma quiet_update_slot_bytes i n : quiet (update_slot_bytes i n).
Proof.
  intros h h' r E. unfold update_slot_bytes in E. destruct (h_slots h !! i) as [s|] eqn:Hs; simplify_eq.
  - split; [done|]. split; [done|]. cbn. intros j. destruct (decide (i = j)) as [->|N].
    + rewrite list_lookup_insert by (by eapply lookup_lt_Some). rewrite Hs. split; [done|]. cbn. by destruct (sl_value s).
    + rewrite list_lookup_insert_ne by done. destruct (h_slots h !! j) as [t|]; [|done]. split; [done|]. by destruct (sl_value t).
  - by eapply (quiet_id (mfail (A:=unit) EInvalidHandle)).
Qed.
Lemma quiet_update_base id f : (forall b b', f b = Ok b' -> ob_prototype b' = ob_prototype b) -> quiet (update_base id f).
Proof.
  intros Hf. unfold update_base. apply quiet_update_object. intros x x'. destruct (base_of x) as [b|] eqn:Hb; [|done]. cbn.
  destruct (f b) as [b'| |] eqn:E; [|done..]. cbn. intros [= <-]. eapply proto_set_base; eauto.
Qed.

Create HintDb quiet.
Global Hint Extern 1 (quiet (mret _)) => apply quiet_id; done : quiet.
Global Hint Extern 1 (quiet (mfail _)) => apply quiet_id; done : quiet.
Global Hint Extern 1 (quiet (mget _)) => apply quiet_id; done : quiet.
Global Hint Extern 1 (quiet (mread _)) => apply quiet_id; done : quiet.
Global Hint Resolve quiet_update_slot_bytes : quiet.
Global Hint Extern 4 (quiet (mbind _ _)) => apply quiet_bind; [|intros ?] : quiet.
Global Hint Extern 5 (quiet (match ?x with _ => _ end)) => destruct x : quiet.
Lemma proto_set_array_length b n : ob_prototype (base_set_array_length b n) = ob_prototype b.
Proof. unfold base_set_array_length. cbn. by repeat case_match. Qed.
Ltac cases E := repeat match type of E with
  | context [match ?x with _ => _ end] => let Hx := fresh "Hx" in destruct x eqn:Hx; cbn in E; try discriminate E end.
Ltac qfin E := injection E as <-; first [reflexivity|etrans; [apply proto_set_array_length|reflexivity]].
Ltac qub := apply quiet_update_base; let b := fresh "b" in let b' := fresh "b'" in let E := fresh "E" in
  intros b b' E; cbn in E; cases E; qfin E.
Ltac quo := apply quiet_update_object; let x := fresh "x" in let x' := fresh "x'" in let E := fresh "E" in
  intros x x' E; destruct x as [| | | |[]|]; try discriminate E; cbn in E; cases E; injection E as <-; reflexivity.
Lemma quiet_update_bindings e f : quiet (update_bindings e f).
Proof.
  apply quiet_update_object. intros x x' E. destruct x as [| | | |[outer bs this nt|]|]; try discriminate E.
  destruct (f bs); [|discriminate E..]. by injection E as <-.
Qed.
Lemma quiet_update_promise p f : (forall q q', f q = Ok q' -> ob_prototype (pr_base q') = ob_prototype (pr_base q)) -> quiet (update_promise p f).
Proof.
  intros Hf. apply quiet_update_object. intros x x' E. destruct x as [| | | | |q]; try discriminate E.
  destruct (f q) as [q'| |] eqn:Eq; [|discriminate E..]. injection E as <-. unfold proto_of. cbn. by apply Hf.
Qed.
Ltac qpr := apply quiet_update_promise; let b := fresh "b" in let b' := fresh "b'" in let E := fresh "E" in
  intros b b' E; cbn in E; cases E; injection E as <-; reflexivity.
Global Hint Resolve quiet_update_bindings : quiet.
Global Hint Extern 2 (quiet (update_promise _ _)) => qpr : quiet.
Global Hint Extern 2 (quiet (update_base _ _)) => qub : quiet.
Global Hint Extern 2 (quiet (update_object _ _)) => quo : quiet.
Ltac praw := apply quiet_pt; [auto with good|].

Section targets.
Context (P : heap_id -> Prop).
Lemma pt_heap_array_set_length o n : pt P (heap_array_set_length o n).
Proof. praw. unfold heap_array_set_length. auto with quiet. Qed.
Lemma pt_array_set_length_writable o n : pt P (array_set_length_writable o n).
Proof. praw. unfold array_set_length_writable. auto with quiet. Qed.
Lemma pt_object_set_extensible o n : pt P (object_set_extensible o n).
Proof. praw. unfold object_set_extensible. auto with quiet. Qed.
Lemma pt_define_array_fixup o a n k : pt P (define_array_fixup o a n k).
Proof. praw. unfold define_array_fixup. auto 10 with quiet. Qed.
Lemma pt_set_existing o k v : pt P (object_set_existing_data_property_value o k v).
Proof. praw. unfold object_set_existing_data_property_value. auto 10 with quiet. Qed.
Lemma pt_env_initialize o k v : pt P (env_initialize_binding o k v).
Proof. praw. unfold env_initialize_binding. auto 10 with quiet. Qed.
Lemma pt_env_set o k v : pt P (env_set_mutable_binding o k v).
Proof. praw. unfold env_set_mutable_binding. auto 10 with quiet. Qed.
Lemma pt_env_initialize_sym o k v : pt P (env_initialize_symbol_binding o k v).
Proof. praw. unfold env_initialize_symbol_binding. auto 10 with quiet. Qed.
Lemma pt_env_set_sym o k v : pt P (env_set_mutable_symbol_binding o k v).
Proof. praw. unfold env_set_mutable_symbol_binding. auto 10 with quiet. Qed.
Lemma pt_bound_this o v : pt P (set_function_bound_this o v).
Proof. praw. unfold set_function_bound_this, update_function. auto 10 with quiet. Qed.
Lemma pt_bound_new_target o v : pt P (set_function_bound_new_target o v).
Proof. praw. unfold set_function_bound_new_target, update_function. auto 10 with quiet. Qed.
Lemma pt_realm o v : pt P (set_function_realm o v).
Proof. praw. unfold set_function_realm, update_function. auto 10 with quiet. Qed.
Lemma pt_job_realm o v : pt P (set_function_job_realm o v).
Proof. praw. unfold set_function_job_realm, update_function. auto 10 with quiet. Qed.
Lemma pt_data o v : pt P (set_function_data o v).
Proof. praw. unfold set_function_data, update_function. auto 10 with quiet. Qed.
Lemma pt_closure_env o v : pt P (set_function_closure_env o v).
Proof. praw. unfold set_function_closure_env, update_function. auto 10 with quiet. Qed.
Lemma pt_update_function o g : (forall x, fn_bound_args (g x) = fn_bound_args x /\ fn_native_slots (g x) = fn_native_slots x
     /\ fn_base (g x) = fn_base x) -> pt P (update_function o g).
Proof.
  intros Hg. apply quiet_pt; [by apply good_update_function|]. unfold update_function. apply quiet_update_object.
  intros x x' E. destruct x; try discriminate E. injection E as <-. unfold proto_of. cbn. destruct (Hg f) as (_ & _ & ->). done.
Qed.
Lemma pt_promise_handled o v : pt P (promise_set_is_handled o v).
Proof. praw. unfold promise_set_is_handled. auto 10 with quiet. Qed.
Lemma pt_promise_set_state o st r : pt P (promise_set_state_and_result o st r).
Proof. praw. unfold promise_set_state_and_result, promise_set_fields. destruct st; auto 10 with quiet. Qed.
Lemma pt_promise_fulfill o r : pt P (promise_fulfill o r).
Proof. apply pt_promise_set_state. Qed.
Lemma pt_promise_reject o r : pt P (promise_reject o r).
Proof. apply pt_promise_set_state. Qed.
Lemma pt_promise_settle o st r : pt P (promise_settle_and_take_reactions o st r).
Proof. praw. unfold promise_settle_and_take_reactions. auto 12 with quiet. Qed.
Lemma pt_host_slots o hs : pt P (object_set_host_slots o hs).
Proof.
  praw. intros h h' r E. unfold object_set_host_slots in E. destruct (validate h o) as [ix|] eqn:Hv.
  2:{ simplify_eq. by eapply (quiet_id (mfail (A:=unit) EInvalidHandle)). }
  destruct (h_slots h !! ix) as [s|] eqn:Hs.
  2:{ simplify_eq. by eapply (quiet_id (mpanic (A:=unit))). }
  assert (K : h' = h \/ h' = h <| h_slots := <[ix := s <| sl_host := hs |>]> (h_slots h) |>)
    by (destruct (sl_value s) as [[]|]; simplify_eq; auto).
  destruct K as [->| ->]; [by eapply (quiet_id (mfail (A:=unit) EInvalidHandle))|].
  split; [done|]. split; [done|]. cbn. intros j. destruct (decide (ix = j)) as [->|N].
  - rewrite list_lookup_insert by (by eapply lookup_lt_Some). rewrite Hs. split; [done|]. cbn. by destruct (sl_value s).
  - rewrite list_lookup_insert_ne by done. destruct (h_slots h !! j) as [t|]; [|done]. split; [done|]. by destruct (sl_value t).
Qed.
Lemma pt_env_add_binding o b : pt P (env_add_binding o b).
Proof.
  apply pt_good; [auto with good|]. intros h h' r H E.
  destruct (env_add_binding_spec o b h H) as [(e & E1)|(x & x' & Hl & h1 & H1 & G & [(e & E1)|(h2 & Hf & E1 & U)])];
    rewrite E1 in E; simplify_eq; [by apply protos_refl|by eapply protos_gstep|].
  eapply protos_trans; [done|eapply protos_gstep; eauto|]. eapply protos_ustep; [done| |exact U].
  unfold add_binding_fn in Hf. destruct x as [| | | |[]|]; try discriminate Hf. destruct (search_key _ _ _); try discriminate Hf. by injection Hf as <-.
Qed.
Lemma pt_append_reaction o f b : pt P (promise_append_reaction o f b).
Proof.
  apply pt_good; [auto with good|]. intros h h' r H E.
  destruct (append_reaction_spec o f b h H) as [(e & E1)|(x & x' & Hl & _ & h1 & H1 & G & [(e & E1)|(h2 & Hf & E1 & U)])];
    rewrite E1 in E; simplify_eq; [by apply protos_refl|by eapply protos_gstep|].
  eapply protos_trans; [done|eapply protos_gstep; eauto|]. eapply protos_ustep; [done| |exact U].
  unfold append_reaction_fn in Hf. cases Hf; by injection Hf as <-.
Qed.
Lemma pt_heap_define_property o k d : pt P (heap_define_property o k d).
Proof.
  apply pt_good; [auto with good|]. intros h h' r H E. rewrite heap_define_property_unfold in E.
  destruct (define_target o k h) as [t|e|] eqn:Ht; [|simplify_eq; by apply protos_refl..].
  match type of E with context [define_new_length ?a ?b ?c ?d] => destruct (define_new_length a b c d) as [nl|e|] end;
    [|simplify_eq; by apply protos_refl..].
  unfold mbind in E. destruct (define_core o k d t h) as [h1 r1] eqn:E1.
  destruct (pt_define_core P _ _ _ _ _ _ _ H Ht E1) as [H1 K1].
  destruct r1 as [a|e|]; [|simplify_eq; auto..].
  destruct (pt_define_array_fixup _ _ _ _ _ _ _ H1 E) as [H2 K2]. eapply protos_trans; eauto.
Qed.
Lemma pt_registry_insert key sym : pt P (symbol_registry_insert key sym).
Proof.
  apply pt_good; [auto with good|]. intros h h' r H E.
  destruct (registry_insert_spec key sym h H) as (h1 & H1 & G & [(e & E1)|(c & H2 & [(e & E1)|(u & x & _ & _ & E1)])]).
  - rewrite E1 in E. simplify_eq. eapply protos_gstep; eauto.
  - rewrite E1 in E. simplify_eq. eapply protos_trans; [done|eapply protos_gstep; eauto|]. by apply protos_same.
  - destruct x as [i|i]; [|destruct E1 as [E1 _]]; rewrite E1 in E; simplify_eq;
      (eapply protos_trans; [done|eapply protos_gstep; eauto|]; by apply protos_same).
Qed.
Lemma pt_collect : pt P collect_garbage.
Proof.
  apply pt_good; [auto with good|]. intros h h' r H E. destruct (collect_ok [] h H) as (h1 & E1 & H1 & G & _).
  unfold collect_garbage in E. rewrite E1 in E. simplify_eq. eapply protos_gstep; eauto.
Qed.
Lemma pt_add_root v : pt P (add_root v).
Proof.
  apply pt_good; [auto with good|]. intros h h' r H E.
  destruct (add_root_spec v h H) as (h1 & H1 & G & [E1|(h2 & j & E1 & H2 & Es & R & _)]); rewrite E1 in E; simplify_eq.
  - eapply protos_gstep; eauto.
  - eapply protos_trans; [done|eapply protos_gstep; eauto|]. destruct R as (R1&R2&R3&R4&_). by apply protos_same.
Qed.
Lemma pt_add_env_root v : pt P (add_env_root v).
Proof.
  change (add_env_root v) with (with_scope (push_env_root v ;;; add_env_root_inner v)).
  apply pt_with_scope, pt_bind; [apply pt_push_env_root|]. intros _ h h' r H E.
  destruct (add_env_root_inner_spec v h H) as (h1 & H1 & G & [E1|(h2 & j & E1 & H2 & Es & R & _)]); rewrite E1 in E; simplify_eq.
  - split; [done|]. eapply protos_gstep; eauto.
  - split; [done|]. eapply protos_trans; [done|eapply protos_gstep; eauto|]. destruct R as (R1&R2&R3&R4&_). by apply protos_same.
Qed.
Lemma pt_roots_only {A} (m : M A) : good m ->
  (forall h, h_layout (fst (m h)) = h_layout h /\ h_gc_runs (fst (m h)) = h_gc_runs h /\ h_slots (fst (m h)) = h_slots h) -> pt P m.
Proof.
  intros Hg Hm. apply pt_good; auto. intros h h' r H E. destruct (Hm h) as (E1 & E2 & E3). rewrite E in *. by apply protos_same.
Qed.
Lemma pt_set_root i v : pt P (set_root i v).
Proof. apply pt_roots_only; [auto with good|]. intros h. unfold set_root. destruct (h_proots h !! i) as [[]|]; done. Qed.
Lemma pt_remove_root i : pt P (remove_root i).
Proof. apply pt_roots_only; [auto with good|]. intros h. unfold remove_root. destruct (h_proots h !! i) as [[]|]; done. Qed.
Lemma pt_set_env_root i v : pt P (set_env_root i v).
Proof. apply pt_roots_only; [auto with good|]. intros h. unfold set_env_root. destruct (h_peroots h !! i) as [[]|]; done. Qed.
Lemma pt_remove_env_root i : pt P (remove_env_root i).
Proof. apply pt_roots_only; [auto with good|]. intros h. unfold remove_env_root. destruct (h_peroots h !! i) as [[]|]; done. Qed.
Lemma pt_push_root v : pt P (push_root v).
Proof. apply pt_push_roots_with. Qed.
Lemma pt_push_roots v : pt P (push_roots v).
Proof. apply pt_push_roots_with. Qed.
End targets.

Create HintDb pt.
Global Hint Resolve pt_ret pt_fail pt_mget pt_mread pt_ensure pt_push_roots_with pt_push_env_root pt_delete_own
  pt_heap_array_set_length pt_array_set_length_writable pt_object_set_extensible pt_set_existing
  pt_env_initialize pt_env_set pt_env_initialize_sym pt_env_set_sym pt_bound_this pt_bound_new_target pt_realm pt_job_realm
  pt_data pt_closure_env pt_promise_handled pt_promise_set_state pt_promise_fulfill pt_promise_reject pt_promise_settle
  pt_host_slots pt_env_add_binding pt_append_reaction pt_heap_define_property pt_registry_insert pt_collect pt_add_root
  pt_add_env_root pt_set_root pt_remove_root pt_set_env_root pt_remove_env_root pt_push_root pt_push_roots : pt.
Global Hint Extern 1 (pt _ (with_scope _)) => apply pt_with_scope : pt.
Global Hint Extern 1 (pt _ (ensure_can_allocate _)) => apply pt_ensure : pt.
Global Hint Extern 3 (pt _ (mbind (mget h_layout) _)) => apply pt_layout; intros ? : pt.
Global Hint Extern 4 (pt _ (mbind _ _)) => apply pt_bind; [|intros ?] : pt.
Global Hint Extern 4 (ptl _ _ (mbind _ _)) => apply ptl_bind; [|intros ?] : pt.
Global Hint Extern 5 (pt _ (match ?x with _ => _ end)) => destruct x : pt.
Global Hint Extern 5 (ptl _ _ (match ?x with _ => _ end)) => destruct x : pt.
Global Hint Extern 6 (ptl _ _ _) => apply ptl_of_pt : pt.

(** ** Allocation *)
Ltac pp := apply pt_bind; [auto 10 with pt|intros ?].
Ltac plp := apply ptl_bind; [apply ptl_of_pt; auto 10 with pt|intros ?].
Ltac fin0 := let p := fresh in let E := fresh in intros p E; cbn in E; discriminate E.
Section allocs.
Context (P : heap_id -> Prop).
Lemma pt_alloc_string u : pt P (alloc_string u).
Proof. unfold alloc_string. pp. apply pt_alloc; [intros l; apply string_bytes_ok|fin0]. Qed.
Lemma pt_new_symbol d : pt P (new_symbol d).
Proof.
  unfold new_symbol. apply pt_with_scope. do 3 pp. apply pt_bind; [|intros ?; apply pt_alloc; [intros l; by left|fin0]].
  apply pt_mmodify; [|done]. intros h H. by apply heap_ok_set_symbol.
Qed.
Lemma pt_alloc_object : pt P alloc_object.
Proof. unfold alloc_object. apply pt_layout. intros l. plp. apply ptl_alloc; [by right|fin0]. Qed.
Lemma pt_alloc_object_with_properties p ps : (forall x, p = Some x -> P x) -> pt P (alloc_object_with_properties p ps).
Proof.
  intros HP. unfold alloc_object_with_properties. apply pt_with_scope. pp. apply pt_layout. intros l. plp. apply ptl_alloc; [by right|].
  intros x E. by apply HP.
Qed.
Lemma pt_alloc_promise p : (forall x, p = Some x -> P x) -> pt P (alloc_promise_with_prototype p).
Proof.
  intros HP. unfold alloc_promise_with_prototype. apply pt_with_scope. pp. apply pt_layout. intros l. plp. apply ptl_alloc;
  [right; by rewrite promise_bytes_ok|]. intros x E. by apply HP.
Qed.
Lemma pt_alloc_declarative_env o bs : pt P (alloc_declarative_env_record o bs).
Proof.
  unfold alloc_declarative_env_record. apply pt_with_scope. pp.
  destruct (negb a); [apply pt_fail|]. pp.
  apply pt_layout. intros l. plp.
  destruct (has_adjacent_dup _ _); [apply ptl_of_pt, pt_fail|]. apply ptl_alloc; [|fin0].
  right. rewrite env_bytes_ok. simpl. unfold nlen. by rewrite sort_by_length.
Qed.
Lemma pt_alloc_object_env b o w : pt P (alloc_object_env_record b o w).
Proof.
  unfold alloc_object_env_record. apply pt_with_scope. pp.
  destruct (negb a); [apply pt_fail|]. pp. apply pt_layout. intros l. plp. apply ptl_alloc; [by left|fin0].
Qed.
Lemma pt_env_create o : pt P (env_create o).
Proof. unfold env_create. apply pt_with_scope. pp. apply pt_layout. intros l. plp. apply ptl_alloc; [by right|fin0]. Qed.
End allocs.
Global Hint Resolve pt_alloc_string pt_new_symbol pt_alloc_object pt_alloc_object_with_properties pt_alloc_promise
  pt_alloc_declarative_env pt_alloc_object_env pt_env_create : pt.
Section compound.
Context (P : heap_id -> Prop).
Lemma pt_alloc_array n : pt P (alloc_array n).
Proof.
  unfold alloc_array. destruct (_ <? _); [apply pt_fail|]. apply pt_with_scope. do 2 pp. apply pt_layout. intros l. plp.
  apply ptl_alloc; [by right|fin0].
Qed.
Lemma pt_symbol_for k : pt P (symbol_for k).
Proof. unfold symbol_for. auto 20 with pt. Qed.
Lemma pt_compute_function_name n p : pt P (compute_function_name n p).
Proof. unfold compute_function_name. destruct p, n; auto 10 with pt. Qed.
Lemma pt_define_property o k d : pt P (define_property o k d).
Proof. unfold define_property. auto with pt. Qed.
End compound.
Global Hint Resolve pt_alloc_array pt_symbol_for pt_compute_function_name pt_define_property : pt.
Section functions.
Context (P : heap_id -> Prop).
Lemma pt_set_function_name f n p : pt P (set_function_name f n p).
Proof. unfold set_function_name. apply pt_with_scope. do 5 pp. by apply pt_update_function. Qed.
Lemma pt_set_function_length f n : pt P (set_function_length f n).
Proof. unfold set_function_length. apply pt_with_scope. do 3 pp. by apply pt_update_function. Qed.
Lemma pt_make_constructor f : pt P (make_constructor f).
Proof. unfold make_constructor. apply pt_with_scope. auto 20 with pt. Qed.
End functions.
Global Hint Resolve pt_set_function_name pt_set_function_length pt_make_constructor : pt.
Section functions2.
Context (P : heap_id -> Prop).
Lemma pt_alloc_native_function a b c d e f : pt P (alloc_native_function a b c d e f).
Proof.
  unfold alloc_native_function. apply pt_with_scope. pp. apply pt_layout. intros l. plp.
  apply ptl_bind; [apply ptl_alloc; [right; apply function_size_ok|fin0]|]. intros fn. apply ptl_of_pt. auto 10 with pt.
Qed.
Lemma pt_alloc_ecma_function a b c d e f g : pt P (alloc_ecma_function a b c d e f g).
Proof.
  unfold alloc_ecma_function. apply pt_with_scope. pp. apply pt_layout. intros l. plp.
  apply ptl_bind; [apply ptl_alloc; [right; apply function_size_ok|fin0]|]. intros fn. apply ptl_of_pt. auto 10 with pt.
Qed.
Lemma pt_alloc_user_function a b c : pt P (alloc_user_function a b c).
Proof.
  unfold alloc_user_function. apply pt_with_scope. pp. apply pt_layout. intros l. plp.
  apply ptl_bind; [apply ptl_alloc; [right; apply function_size_ok|fin0]|]. intros fn. apply ptl_of_pt. auto 10 with pt.
Qed.
Lemma pt_alloc_bound_function a b c d e : pt P (alloc_bound_function a b c d e).
Proof.
  unfold alloc_bound_function. pp. unfold alloc_bound_function_raw. apply pt_with_scope. pp. apply pt_layout. intros l. plp.
  apply ptl_alloc; [right; apply function_size_ok|fin0].
Qed.
Lemma pt_heap_ordinary_delete o k : pt P (heap_ordinary_delete o k).
Proof. unfold heap_ordinary_delete. auto 10 with pt. Qed.
End functions2.
Global Hint Resolve pt_alloc_native_function pt_alloc_ecma_function pt_alloc_user_function pt_alloc_bound_function pt_heap_ordinary_delete : pt.

(** ** Object internal methods *)
Lemma pt_validate_and_apply P o k e p c : pt P (validate_and_apply o k e p c).
Proof. unfold validate_and_apply. auto 20 with pt. Qed.
Global Hint Resolve pt_validate_and_apply : pt.
Lemma pt_ordinary_define P o k p : pt P (ordinary_define_own_property o k p).
Proof. unfold ordinary_define_own_property. auto 20 with pt. Qed.
Lemma pt_ordinary_delete P o k : pt P (ordinary_delete o k).
Proof. unfold ordinary_delete. auto 20 with pt. Qed.
Global Hint Resolve pt_ordinary_define pt_ordinary_delete : pt.
Lemma pt_array_delete_loop P o lk ol nl nw ks : pt P (array_delete_loop o lk ol nl nw ks).
Proof. induction ks; cbn [array_delete_loop]; auto 30 with pt. Qed.
Global Hint Resolve pt_array_delete_loop : pt.
Lemma pt_array_set_length P o lk p : pt P (array_set_length o lk p).
Proof. unfold array_set_length. auto 30 with pt. Qed.
Global Hint Resolve pt_array_set_length : pt.
Lemma pt_array_define P o k p : pt P (array_define_own_property o k p).
Proof. unfold array_define_own_property. auto 30 with pt. Qed.
Global Hint Resolve pt_array_define : pt.
Lemma pt_define_own_property P o k p : pt P (define_own_property o k p).
Proof. unfold define_own_property. auto 30 with pt. Qed.
Global Hint Resolve pt_define_own_property : pt.
Lemma pt_define_property_or_throw P o k p : pt P (define_property_or_throw o k p).
Proof. unfold define_property_or_throw. auto 30 with pt. Qed.
Lemma pt_create_data_property P o k v : pt P (create_data_property o k v).
Proof. unfold create_data_property. auto 30 with pt. Qed.
Global Hint Resolve pt_define_property_or_throw pt_create_data_property : pt.
Lemma pt_create_data_property_or_throw P o k v : pt P (create_data_property_or_throw o k v).
Proof. unfold create_data_property_or_throw. auto 30 with pt. Qed.
Lemma pt_delete_property_or_throw P o k : pt P (delete_property_or_throw o k).
Proof. unfold delete_property_or_throw. auto 30 with pt. Qed.
Lemma pt_ordinary_set_stop P o k v r : pt P (ordinary_set stop_call o k v r).
Proof. unfold ordinary_set, stop_call. destruct r; auto 30 with pt. Qed.
Lemma pt_env_create_binding P e n m : pt P (env_create_binding e n m).
Proof. unfold env_create_binding. auto 30 with pt. Qed.
Lemma pt_scope_append_reaction P p f r : pt P (scope_append_reaction p f r).
Proof. unfold scope_append_reaction. auto 30 with pt. Qed.
Global Hint Resolve pt_create_data_property_or_throw pt_delete_property_or_throw pt_env_create_binding pt_scope_append_reaction pt_ordinary_set_stop : pt.
Lemma pt_void {A} P (m : M A) : pt P m -> pt P (void m).
Proof. intros Hm. unfold void. apply pt_bind; [exact Hm|]. intros _. apply pt_ret. Qed.
Lemma pt_exec o : (forall body, o <> OpScope body) -> (forall a p, o <> OpSetPrototype a p) -> pt (fun x => x ∈ op_handles o) (exec o).
Proof.
  intros N1 N2. destruct o; try (by destruct (N1 body)); try (by edestruct N2); cbn [exec op_handles]; try apply pt_void; auto with pt.
  - apply pt_alloc_object_with_properties. intros x ->. set_solver.
  - apply pt_alloc_promise. intros x ->. set_solver.
Qed.
