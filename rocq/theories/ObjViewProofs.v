(** How the abstract view of one object evolves while the object is rooted. *)
From stdpp Require Import base decidable list numbers sets.
From Coq Require Import NArith ZArith Lia.
From RecordUpdate Require Import RecordUpdate.
From Verif Require Import VmBase HeapModel HeapObjModel HeapSpec HeapGcProofs HeapInvProofs HeapObjProofs
  ObjectOpsModel ObjectOpsProofs HeapTidyProofs HeapSafeProofs HeapSafeOps HeapSafeOps2 HeapSafeOps3 HeapHistory HeapHistoryProofs
  KeySpec KeyProofs ObjSpec.

Open Scope N_scope.

(** ** Strings *)
Lemma live_as_fun h id x y : live_as h id x -> live_as h id y -> x = y.
Proof. intros (? & ? & A1 & A2 & A3 & A4) (? & ? & B1 & B2 & B3 & B4). congruence. Qed.
Lemma get_object_base_Ok h o b : get_object_base h o = Ok b <-> exists x, live_as h o x /\ base_of x = Some b.
Proof.
  unfold get_object_base. destruct (get_heap_object h o) as [x|e|] eqn:E; cbn.
  - apply get_heap_object_Ok in E. split.
    + intros Hb. exists x. split; [done|]. destruct (base_of x); by simplify_eq/=.
    + intros (y & Hy & Hb). rewrite (live_as_fun _ _ _ _ E Hy), Hb. done.
  - split; [done|]. intros (y & Hy & _). apply get_heap_object_Ok in Hy. congruence.
  - split; [done|]. intros (y & Hy & _). apply get_heap_object_Ok in Hy. congruence.
Qed.
Lemma get_string_dead h s : ~ live h s -> get_string h s = Err EInvalidHandle.
Proof. intros Hd. unfold get_string. destruct (get_heap_object_cases h s) as [(o & E & Ho)|[E _]]; rewrite E; [|done]. destruct Hd. by exists o. Qed.
Lemma get_string_live_as h s x : live_as h s x -> get_string h s = match x with HString u => Ok u | _ => Err EInvalidHandle end.
Proof. intros Hl. unfold get_string. apply get_heap_object_Ok in Hl. rewrite Hl. by destruct x. Qed.
Lemma get_string_agree h h' s : (forall x, live_as h s x <-> live_as h' s x) -> get_string h' s = get_string h s.
Proof.
  intros Ha. destruct (get_heap_object_cases h s) as [(o & _ & Ho)|[_ Hd]].
  - rewrite (get_string_live_as _ _ _ Ho). apply Ha in Ho. by rewrite (get_string_live_as _ _ _ Ho).
  - rewrite (get_string_dead _ _ Hd). apply get_string_dead. intros (x & Hx). apply Hd. exists x. by apply Ha.
Qed.
Lemma get_string_slots h h' s : h_slots h' = h_slots h -> get_string h' s = get_string h s.
Proof. intros E. apply get_string_agree. intros x. unfold live_as, live_with. by rewrite E. Qed.
Lemma get_object_base_slots h h' s : h_slots h' = h_slots h -> get_object_base h' s = get_object_base h s.
Proof. intros E. unfold get_object_base, get_heap_object, validate, is_some. unfold validate_in. by rewrite E. Qed.
Lemma live_slots h h' s : h_slots h' = h_slots h -> live h' s <-> live h s.
Proof. intros E. unfold live, live_as, live_with. by rewrite E. Qed.

(** ** Slots other than the object's are unchanged or freed *)
Definition frame (o : heap_id) (h h' : heap) : Prop :=
  forall i s, i <> hid_index o -> h_slots h !! i = Some s ->
    exists s', h_slots h' !! i = Some s' /\ (s' = s \/ sl_value s' = None).
Lemma frame_refl o h : frame o h h.
Proof. intros i s _ Hs. eauto. Qed.
Lemma frame_trans o h1 h2 h3 : frame o h1 h2 -> frame o h2 h3 -> frame o h1 h3.
Proof.
  intros F1 F2 i s Hi Hs. destruct (F1 i s Hi Hs) as (s2 & Hs2 & [->|Hn]); [eauto|].
  destruct (F2 i s2 Hi Hs2) as (s3 & Hs3 & [->|Hn3]); eauto.
Qed.
Lemma frame_slots o h h' : h_slots h' = h_slots h -> frame o h h'.
Proof. intros E i s _ Hs. rewrite E. eauto. Qed.
Lemma frame_gstep o extra h h' : gstep extra h h' -> frame o h h'.
Proof. intros G i s _ Hs. destruct (gs_slots _ _ _ G _ _ Hs) as (s' & Hs' & [->|(_ & -> & _)]); eauto. Qed.
Lemma frame_ustep o x x' h h' : ustep o x x' h h' -> frame o h h'.
Proof. intros U i s Hi Hs. exists s. rewrite (us_other _ _ _ _ _ U) by done. auto. Qed.
Lemma frame_live o h h' id x : frame o h h' -> hid_index id <> hid_index o -> live_as h id x -> live h' id -> live_as h' id x.
Proof.
  intros F Hi (hs & s & A & B & C & D) (x' & hs' & s' & A' & B' & C' & D').
  destruct (F _ _ Hi A) as (s2 & Hs2 & [->|Hn]); [|congruence]. exists hs, s. done.
Qed.

(** ** Steps and strings *)
Lemma gstep_live_same extra h h' id x : gstep extra h h' -> live_as h id x -> live h' id -> live_as h' id x.
Proof.
  intros G (hs & s & A & B & C & D) (x' & hs' & s' & A' & B' & C' & D').
  destruct (gs_slots _ _ _ G _ _ A) as (s2 & Hs2 & [->|(_ & -> & _)]).
  - exists hs, s. done.
  - rewrite A' in Hs2. injection Hs2 as ->. done.
Qed.
Lemma gstep_live_back extra h h' id x : gstep extra h h' -> live_as h' id x -> live_as h id x.
Proof. intros G (hs & Hl). exists hs. eapply gstep_back; eauto. Qed.
Lemma gstep_string extra h h' s : gstep extra h h' -> live h' s -> get_string h' s = get_string h s.
Proof.
  intros G Hl. apply get_string_agree. intros x. split; intros Hx.
  - eapply gstep_live_same; eauto.
  - eapply gstep_live_back; eauto.
Qed.
Lemma gstep_base extra h h' o : gstep extra h h' -> live h' o -> get_object_base h' o = get_object_base h o.
Proof.
  intros G (x & Hx). pose proof (gstep_live_back _ _ _ _ _ G Hx) as Hx0. unfold get_object_base.
  apply get_heap_object_Ok in Hx, Hx0. by rewrite Hx, Hx0.
Qed.
Lemma ustep_string o x x' b b' h h' s : ustep o x x' h h' -> base_of x = Some b -> base_of x' = Some b' ->
  get_string h' s = get_string h s.
Proof.
  intros U Hb Hb'. destruct (decide (hid_index s = hid_index o)) as [Hi|Hi].
  - destruct (us_live _ _ _ _ _ U) as (hs & t & A & B & C & D). destruct (us_live' _ _ _ _ _ U) as (hs' & t' & A' & B' & C' & D').
    destruct (decide (hid_gen s = hid_gen o)) as [Hg|Hg].
    + assert (s = o) by (destruct s, o; cbn in *; congruence). subst s.
      rewrite (get_string_live_as _ _ _ (us_live _ _ _ _ _ U)), (get_string_live_as _ _ _ (us_live' _ _ _ _ _ U)).
      destruct x, x'; done.
    + rewrite !get_string_dead; [done|..]; intros (y & hs2 & t2 & A2 & B2 & _); rewrite Hi in A2; congruence.
  - apply get_string_agree. intros y. unfold live_as, live_with. by rewrite (us_other _ _ _ _ _ U).
Qed.

(** ** Abstractions depend on strings only *)
Lemma abs_value_ext h h' v : (forall s, value_has v s -> get_string h' s = get_string h s) -> abs_value h' v = abs_value h v.
Proof. intros He. destruct v; cbn; auto. rewrite He; [done|constructor]. Qed.
Lemma abs_key_ext h h' k : (forall s, key_has k s -> get_string h' s = get_string h s) -> abs_key h' k = abs_key h k.
Proof. intros He. destruct k; cbn; auto. rewrite He; [done|constructor]. Qed.
Lemma abs_desc_ext h h' d : (forall s, desc_has d s -> get_string h' s = get_string h s) -> abs_desc h' d = abs_desc h d.
Proof.
  intros He. unfold abs_desc. destruct d as [e c [v w|g s]]; cbn in *; f_equal; f_equal; apply abs_value_ext; intros; apply He; by constructor.
Qed.
Lemma abs_base_ext h h' b : (forall s, base_has b s -> get_string h' s = get_string h s) -> abs_base h' b = abs_base h b.
Proof.
  intros He. unfold abs_base. f_equal. apply map_ext_in. intros e Hin%elem_of_list_In. unfold abs_entry. f_equal.
  - apply abs_key_ext. intros s Hs. apply He. eapply bh_key; eauto.
  - apply abs_desc_ext. intros s Hs. apply He. eapply bh_desc; eauto.
Qed.
Lemma object_has_base x b s : base_of x = Some b -> base_has b s -> object_has x s.
Proof. destruct x; cbn; intros E; simplify_eq; intros Hs; [by apply oh_object|apply oh_function; by apply fh_base|apply oh_promise; by apply ph_base]. Qed.

Lemma abs_object_Some h o v : abs_object h o = Some v <-> exists b, get_object_base h o = Ok b /\ v = abs_base h b.
Proof. unfold abs_object. destruct (get_object_base h o) as [b|e|]; split; intros E; [|destruct E as (? & ? & ?)|..]; simplify_eq; eauto; by destruct E as (? & ? & ?). Qed.

(** A collection that keeps the object keeps its view. *)
Lemma gstep_view extra h h' o : gstep extra h h' -> no_dangling h' -> live h' o -> abs_object h' o = abs_object h o.
Proof.
  intros G [_ ND] Hl. unfold abs_object. pose proof (gstep_base _ _ _ _ G Hl) as E.
  destruct (get_object_base h' o) as [b|e|] eqn:E'; rewrite <- E; auto. f_equal. apply abs_base_ext.
  intros s Hs. eapply gstep_string; eauto. apply get_object_base_Ok in E' as (x & Hx & Hb).
  eapply ND; [exact Hx|]. eapply object_has_base; eauto.
Qed.
Lemma slots_view h h' o : h_slots h' = h_slots h -> abs_object h' o = abs_object h o.
Proof.
  intros E. unfold abs_object. rewrite (get_object_base_slots _ _ _ E). destruct (get_object_base h o); auto. f_equal.
  apply abs_base_ext. intros s _. by apply get_string_slots.
Qed.

(** The handle of the first key of an array. *)
Definition hd_key (b : object_base) : option property_key := pe_key <$> head (ob_properties b).
Definition head_key (h : heap) (o : heap_id) : option property_key :=
  match get_object_base h o with Ok b => match ob_kind b with KArray _ => hd_key b | KOrdinary => None end | _ => None end.
Lemma head_key_slots h h' s : h_slots h' = h_slots h -> head_key h' s = head_key h s.
Proof. intros E. unfold head_key. by rewrite (get_object_base_slots _ _ _ E). Qed.

(** ** States in which the object and the handles of [X] are rooted; the strings
    among [X] read as in the reference heap [h0] *)
Record st (h0 : heap) (o : heap_id) (X : list heap_id) (v : aobj) (h : heap) : Prop := {
  st_ok : heap_ok h;
  st_nd : no_dangling h;
  st_in : o ∈ X;
  st_root : forall x, x ∈ X -> stack_rooted h x;
  st_str : forall x, x ∈ X -> get_string h x = get_string h0 x;
  st_view : abs_object h o = Some v;
  st_kind : ao_array v <> None -> exists b, live_as h o (HObject b);
  st_head : forall k, head_key h0 o = Some k -> head_key h o = Some k }.
Lemma st_live h0 o X v h x : st h0 o X v h -> x ∈ X -> live h x.
Proof. intros S Hx. apply (st_nd _ _ _ _ _ S). apply stack_rooted_rooted. by apply (st_root _ _ _ _ _ S). Qed.

Definition tri {A} (h0 : heap) (o : heap_id) (X : list heap_id) (v : aobj) (m : M A) (Q : res A -> aobj -> Prop) : Prop :=
  forall h h' r, st h0 o X v h -> m h = (h', r) -> frame o h h' /\ stack_ext h h' /\ exists v', st h0 o X v' h' /\ Q r v'.

Lemma tri_post {A} h0 o X v (m : M A) (Q Q' : res A -> aobj -> Prop) : tri h0 o X v m Q -> (forall r v', Q r v' -> Q' r v') -> tri h0 o X v m Q'.
Proof. intros Hm Hq h h' r S E. destruct (Hm h h' r S E) as (F & T & v' & S' & H). eauto 8. Qed.
Lemma tri_bind {A B} h0 o X v (m : M A) (k : A -> M B) (Q : res A -> aobj -> Prop) (R : res B -> aobj -> Prop) :
  tri h0 o X v m Q -> (forall a v', Q (Ok a) v' -> tri h0 o X v' (k a) R) ->
  (forall e v', Q (Err e) v' -> R (Err e) v') -> (forall v', Q Panic v' -> R Panic v') -> tri h0 o X v (mbind m k) R.
Proof.
  intros Hm Hk He Hp h h' r S E. unfold mbind in E. destruct (m h) as [h1 r1] eqn:E1.
  destruct (Hm _ _ _ S E1) as (F & T & v' & S' & H). destruct r1 as [a|e|]; simplify_eq; eauto 8.
  destruct (Hk a v' H _ _ _ S' E) as (F' & T' & v'' & S'' & H'). split; [eapply frame_trans; eauto|].
  split; [eapply stack_ext_trans; eauto|eauto].
Qed.
Lemma tri_ret {A} h0 o X v (a : A) (Q : res A -> aobj -> Prop) : Q (Ok a) v -> tri h0 o X v (mret a) Q.
Proof. intros H h h' r S E. unfold mret in E. simplify_eq. split; [apply frame_refl|]. split; [apply stack_ext_refl|eauto]. Qed.
Lemma tri_fail {A} h0 o X v e (Q : res A -> aobj -> Prop) : Q (Err e) v -> tri h0 o X v (mfail e) Q.
Proof. intros H h h' r S E. unfold mfail in E. simplify_eq. split; [apply frame_refl|]. split; [apply stack_ext_refl|eauto]. Qed.
Lemma tri_mread {A} h0 o X v (f : heap -> res A) (Q : res A -> aobj -> Prop) :
  (forall h, st h0 o X v h -> Q (f h) v) -> tri h0 o X v (mread f) Q.
Proof. intros H h h' r S E. unfold mread in E. simplify_eq. split; [apply frame_refl|]. split; [apply stack_ext_refl|eauto]. Qed.
Lemma tri_mget {A} h0 o X v (f : heap -> A) (Q : res A -> aobj -> Prop) :
  (forall h, st h0 o X v h -> Q (Ok (f h)) v) -> tri h0 o X v (mget f) Q.
Proof. intros H h h' r S E. unfold mget in E. simplify_eq. split; [apply frame_refl|]. split; [apply stack_ext_refl|eauto]. Qed.
(** Reading and going on: the continuation may use the state the read happened in. *)
Lemma tri_read {A B} h0 o X v (f : heap -> res A) (k : A -> M B) (R : res B -> aobj -> Prop) :
  (forall h, st h0 o X v h -> match f h with Ok a => tri h0 o X v (k a) R | Err e => R (Err e) v | Panic => R Panic v end) ->
  tri h0 o X v (mbind (mread f) k) R.
Proof.
  intros H h h' r S E. unfold mbind, mread in E. specialize (H h S). destruct (f h) as [a|e|]; [by apply (H h h' r)|..];
    simplify_eq; (split; [apply frame_refl|]; split; [apply stack_ext_refl|eauto]).
Qed.
Lemma tri_get {A B} h0 o X v (f : heap -> A) (k : A -> M B) (R : res B -> aobj -> Prop) :
  (forall h, st h0 o X v h -> tri h0 o X v (k (f h)) R) -> tri h0 o X v (mbind (mget f) k) R.
Proof. intros H h h' r S E. unfold mbind, mget in E. by apply (H h S h h' r). Qed.
(** A continuation at a known state. *)
Lemma tri_here {A} h0 o X v (m : M A) R : (forall h, st h0 o X v h -> tri h0 o X v m R) -> tri h0 o X v m R.
Proof. intros H h h' r S E. by apply (H h S h h' r). Qed.

Lemma st_gstep h0 o X v h h' extra : st h0 o X v h -> gstep extra h h' -> (forall x, x ∈ extra -> live h x) -> heap_ok h' ->
  st h0 o X v h' /\ stack_ext h h'.
Proof.
  intros S G He H'. destruct (gstep_closed _ _ _ G (st_nd _ _ _ _ _ S) He) as (N' & _ & T).
  assert (L : forall x, x ∈ X -> live h' x).
  { intros x Hx. apply N', stack_rooted_rooted. eapply stack_rooted_ext; eauto. by apply (st_root _ _ _ _ _ S). }
  split; [|done]. constructor; auto.
  - apply (st_in _ _ _ _ _ S).
  - intros x Hx. eapply stack_rooted_ext; eauto. by apply (st_root _ _ _ _ _ S).
  - intros x Hx. rewrite <- (st_str _ _ _ _ _ S) by done. eapply gstep_string; eauto.
  - rewrite <- (st_view _ _ _ _ _ S). eapply gstep_view; eauto. apply L, S.
  - intros Hk. destruct (st_kind _ _ _ _ _ S Hk) as (b & Hb). exists b. eapply gstep_live_same; eauto. apply L, S.
  - intros k Hh. unfold head_key. rewrite (gstep_base _ _ _ _ G) by apply L, S. by apply (st_head _ _ _ _ _ S).
Qed.
Lemma st_slots h0 o X v h h' : st h0 o X v h -> heap_ok h' -> no_dangling h' -> h_slots h' = h_slots h -> (forall x, x ∈ X -> stack_rooted h' x) ->
  st h0 o X v h'.
Proof.
  intros S H' N' E R. constructor; auto.
  - apply (st_in _ _ _ _ _ S).
  - intros x Hx. rewrite (get_string_slots _ _ _ E). by apply (st_str _ _ _ _ _ S).
  - rewrite (slots_view _ _ _ E). apply (st_view _ _ _ _ _ S).
  - intros Hk. destruct (st_kind _ _ _ _ _ S Hk) as (b & Hb). exists b. unfold live_as, live_with. by rewrite E.
  - intros k Hh. rewrite (head_key_slots _ _ _ E). by apply (st_head _ _ _ _ _ S).
Qed.

Lemma tri_push_roots h0 o X v vs : (forall h, st h0 o X v h -> forall x, x ∈ trace_values vs -> live h x) ->
  tri h0 o X v (push_roots vs) (fun r v' => v' = v /\ (r = Ok tt \/ r = Err EOutOfMemory)).
Proof.
  intros Hv h h' r S E. assert (HL := Hv h S).
  destruct (safe_push_roots [] (trace_values vs) vs ltac:(set_solver) h h' r) as (H' & N' & T & _); try apply S; auto; [set_solver|].
  unfold push_roots in E. destruct (push_roots_spec vs [] h (st_ok _ _ _ _ _ S)) as (h1 & H1 & G & Hc).
  destruct (st_gstep _ _ _ _ _ _ _ S G) as [S1 T1]; auto.
  { intros x Hx. apply HL. set_solver. }
  destruct Hc as [E1|(c & E1 & H2)]; rewrite E1 in E; simplify_eq.
  - split; [by eapply frame_gstep|]. split; auto. exists v. auto.
  - split; [|split; [done|]].
    + eapply frame_trans; [by eapply frame_gstep|]. by apply frame_slots.
    + exists v. split; [|auto]. eapply st_slots; [exact S1|..]; auto.
      intros x Hx. eapply stack_rooted_ext; [exact T|]. by apply (st_root _ _ _ _ _ S).
Qed.

(** The same at one particular state. *)
Definition tria {A} (h0 : heap) (o : heap_id) (X : list heap_id) (v : aobj) (h : heap) (m : M A) (Q : res A -> aobj -> Prop) : Prop :=
  forall h' r, m h = (h', r) -> frame o h h' /\ stack_ext h h' /\ exists v', st h0 o X v' h' /\ Q r v'.
Lemma tri_at {A} h0 o X v (m : M A) Q : tri h0 o X v m Q <-> forall h, st h0 o X v h -> tria h0 o X v h m Q.
Proof. split; [intros H h S h' r E; by apply H|intros H h h' r S E; by apply (H h S)]. Qed.
Lemma tria_read {A B} h0 o X v h (f : heap -> res A) a (k : A -> M B) (R : res B -> aobj -> Prop) :
  f h = Ok a -> tria h0 o X v h (k a) R -> tria h0 o X v h (mbind (mread f) k) R.
Proof. intros Hf H h' r E. unfold mbind, mread in E. rewrite Hf in E. by apply H. Qed.
Lemma tria_get {A B} h0 o X v h (f : heap -> A) (k : A -> M B) (R : res B -> aobj -> Prop) :
  tria h0 o X v h (k (f h)) R -> tria h0 o X v h (mbind (mget f) k) R.
Proof. intros H h' r E. unfold mbind, mget in E. by apply H. Qed.
Lemma tria_ret {A} h0 o X v h (a : A) (Q : res A -> aobj -> Prop) : st h0 o X v h -> Q (Ok a) v -> tria h0 o X v h (mret a) Q.
Proof. intros S H h' r E. unfold mret in E. simplify_eq. split; [apply frame_refl|]. split; [apply stack_ext_refl|eauto]. Qed.
Lemma tria_fail {A} h0 o X v h e (Q : res A -> aobj -> Prop) : st h0 o X v h -> Q (Err e) v -> tria h0 o X v h (mfail e) Q.
Proof. intros S H h' r E. unfold mfail in E. simplify_eq. split; [apply frame_refl|]. split; [apply stack_ext_refl|eauto]. Qed.
Lemma tria_bind {A B} h0 o X v h (m : M A) (k : A -> M B) (Q : res A -> aobj -> Prop) (R : res B -> aobj -> Prop) :
  tria h0 o X v h m Q -> (forall a v', Q (Ok a) v' -> tri h0 o X v' (k a) R) ->
  (forall e v', Q (Err e) v' -> R (Err e) v') -> (forall v', Q Panic v' -> R Panic v') -> tria h0 o X v h (mbind m k) R.
Proof.
  intros Hm Hk He Hp h' r E. unfold mbind in E. destruct (m h) as [h1 r1] eqn:E1.
  destruct (Hm _ _ E1) as (F & T & v' & S' & H). destruct r1 as [a|e|]; simplify_eq; eauto 8.
  destruct (Hk a v' H _ _ _ S' E) as (F' & T' & v'' & S'' & H'). split; [eapply frame_trans; eauto|].
  split; [eapply stack_ext_trans; eauto|eauto].
Qed.
Lemma tria_post {A} h0 o X v h (m : M A) (Q Q' : res A -> aobj -> Prop) : tria h0 o X v h m Q -> (forall r v', Q r v' -> Q' r v') -> tria h0 o X v h m Q'.
Proof. intros Hm Hq h' r E. destruct (Hm h' r E) as (F & T & v' & S' & H). eauto 8. Qed.

Lemma tria_with_scope {A} h0 o X v h (m : M A) Q : st h0 o X v h -> tria h0 o X v h m Q -> tria h0 o X v h (with_scope m) Q.
Proof.
  intros S Hm h' r E. unfold with_scope in E. destruct (m h) as [h1 r1] eqn:Em.
  destruct (Hm _ _ Em) as (F & T & v' & S1 & Hq). injection E as <- <-.
  assert (E1 : take (length (h_roots h)) (h_roots h1) = h_roots h) by (destruct T as [[l1 ->] _]; apply take_app).
  assert (E2 : take (length (h_env_roots h)) (h_env_roots h1) = h_env_roots h) by (destruct T as [_ [l1 ->]]; apply take_app).
  set (h' := h1 <| h_roots := _ |> <| h_env_roots := _ |>) in *.
  assert (T' : stack_ext h h') by (split; cbn; by rewrite ?E1, ?E2).
  split; [eapply frame_trans; [exact F|by apply frame_slots]|]. split; [done|].
  exists v'. split; [|done]. eapply st_slots; [exact S1|..].
  - pose proof (st_ok _ _ _ _ _ S1) as H1. pose proof (hk_caps h1 H1) as (?&?&?&?&?&?&?&?&?&?&?). apply heap_ok_set_roots; auto.
    + pose proof (nlen_take (length (h_roots h)) (h_roots h1)). lia.
    + pose proof (nlen_take (length (h_env_roots h)) (h_env_roots h1)). lia.
  - destruct (st_nd _ _ _ _ _ S1) as [CR CO]. split; [|done]. intros x Hx. apply CR. destruct T as [[l1 S1'] [l2 S2']]. destruct Hx.
    + eapply rt_stack; eauto. cbn in H. rewrite E1 in H. rewrite S1'. set_solver.
    + apply rt_env_stack. cbn in H. rewrite E2 in H. rewrite S2'. set_solver.
    + eapply rt_persistent; eauto.
    + apply rt_persistent_env. done.
    + apply rt_registry_key. done.
    + apply rt_registry_sym. done.
  - done.
  - intros x Hx. eapply stack_rooted_ext; [exact T'|]. by apply (st_root _ _ _ _ _ S).
Qed.
Lemma tri_with_scope {A} h0 o X v (m : M A) Q : tri h0 o X v m Q -> tri h0 o X v (with_scope m) Q.
Proof. rewrite !tri_at. intros H h S. apply tria_with_scope; auto. Qed.

(** Rewriting the object itself. *)
Lemma st_ustep h0 o X v h h' x b b' : st h0 o X v h -> ustep o x (set_base x b') h h' -> base_of x = Some b -> base_kind_eq b b' ->
  (ob_kind b <> KOrdinary -> forall k, hd_key b = Some k -> hd_key b' = Some k) -> (forall s, base_has b' s -> live h s) ->
  st h0 o X (abs_base h b') h' /\ stack_ext h h'.
Proof.
  intros S U Hb Hke Hhd Hlive. assert (Hb' : base_of (set_base x b') = Some b') by (by destruct x).
  pose proof (us_rest _ _ _ _ _ U) as R. destruct (same_rest_frame _ _ R) as (R1 & R2 & R3 & R4).
  assert (T : stack_ext h h') by (split; by rewrite ?R1, ?R2).
  assert (Str : forall s, get_string h' s = get_string h s) by (intros s; eapply ustep_string; eauto).
  assert (N' : no_dangling h').
  { pose proof (st_nd _ _ _ _ _ S) as N. apply (ustep_closed _ _ _ _ _ U N). intros y Hy%trace_object_in.
    destruct N as [_ NO]. pose proof (us_live _ _ _ _ _ U) as Hlx.
    apply trace_object_in, (trace_set_base x b b' (trace_base b') Hb ltac:(set_solver)), elem_of_app in Hy as [Hy|Hy].
    - apply trace_object_in in Hy. by apply (NO _ _ _ Hlx Hy).
    - apply Hlive. by apply trace_base_in. }
  split; [|done]. constructor; auto.
  - apply U.
  - apply (st_in _ _ _ _ _ S).
  - intros y Hy. eapply stack_rooted_ext; [exact T|]. by apply (st_root _ _ _ _ _ S).
  - intros y Hy. rewrite Str. by apply (st_str _ _ _ _ _ S).
  - apply abs_object_Some. exists b'. split; [|symmetry; by apply abs_base_ext].
    apply get_object_base_Ok. exists (set_base x b'). split; [apply U|done].
  - intros Hk. assert (Hv : ao_array v <> None).
    { pose proof (st_view _ _ _ _ _ S) as Hv. apply abs_object_Some in Hv as (b0 & E0 & ->).
      apply get_object_base_Ok in E0 as (x0 & Hx0 & Hb0). rewrite (live_as_fun _ _ _ _ Hx0 (us_live _ _ _ _ _ U)) in Hb0.
      assert (b0 = b) by congruence. subst b0. unfold base_kind_eq in Hke. cbn in Hk |- *.
      destruct (ob_kind b), (ob_kind b'); done. }
    destruct (st_kind _ _ _ _ _ S Hv) as (b0 & Hb0). rewrite (live_as_fun _ _ _ _ (us_live _ _ _ _ _ U) Hb0) in U.
    exists b'. apply U.
  - intros k Hh. apply (st_head _ _ _ _ _ S) in Hh. unfold head_key in *.
    rewrite (proj2 (get_object_base_Ok h o b)) in Hh by (exists x; split; [apply U|done]).
    rewrite (proj2 (get_object_base_Ok h' o b')) by (exists (set_base x b'); split; [apply U|done]).
    unfold base_kind_eq in Hke. destruct (ob_kind b) eqn:K1, (ob_kind b') eqn:K2; try done. by apply Hhd.
Qed.

Lemma st_base h0 o X v h : st h0 o X v h -> exists b, get_object_base h o = Ok b /\ v = abs_base h b
  /\ (forall s, base_has b s -> live h s) /\ exists x, live_as h o x /\ base_of x = Some b.
Proof.
  intros S. destruct (proj1 (abs_object_Some _ _ _) (st_view _ _ _ _ _ S)) as (b & E & ->). exists b. split; [done|]. split; [done|].
  apply get_object_base_Ok in E as (x & Hx & Hb). split; [|by exists x]. intros s Hs.
  apply (proj2 (st_nd _ _ _ _ _ S) o x s Hx). by eapply object_has_base.
Qed.
Lemma tri_update_base h0 o X v f (Q : res unit -> aobj -> Prop) :
  (forall b b', f b = Ok b' -> base_like b b') -> (forall b, np (f b)) ->
  (forall h b, st h0 o X v h -> get_object_base h o = Ok b -> v = abs_base h b ->
     match f b with
     | Ok b' => (forall k, hd_key b = Some k -> hd_key b' = Some k) /\ (forall s, base_has b' s -> base_has b s \/ live h s) /\ Q (Ok tt) (abs_base h b')
     | Err e => Q (Err e) v
     | Panic => True
     end) ->
  tri h0 o X v (update_base o f) Q.
Proof.
  intros Hl Hn Hf h h' r S E. destruct (st_base _ _ _ _ _ S) as (b & Eb & Ev & Hlv & x & Hx & Hxb).
  specialize (Hf h b S Eb Ev). unfold update_base in E.
  match type of E with update_object o ?g h = _ => destruct (update_object_spec o g h (st_ok _ _ _ _ _ S)) as
    [(e & E1 & He)|(y & y' & h1 & Hy & Ey & E1 & U)] end.
  { intros y y'. destruct (base_of y) eqn:Hy; [|done]. cbn. destruct (f o0) eqn:Ef; [|done..]. cbn. intros [= <-].
    eapply set_base_like; eauto. }
  { by apply update_base_np. }
  - rewrite E1 in E. simplify_eq. split; [apply frame_refl|]. split; [apply stack_ext_refl|].
    destruct He as [[_ Hd]|(y & Hy & Ey)]; [destruct Hd; by exists x|].
    assert (y = x) by (eapply live_as_fun; eauto). subst y. rewrite Hxb in Ey. destruct (f b); simplify_eq/=. eauto.
  - rewrite E1 in E. simplify_eq. assert (y = x) by (eapply live_as_fun; eauto). subst y. rewrite Hxb in Ey.
    destruct (f b) as [b'|e|] eqn:Ef; simplify_eq/=. destruct Hf as (Hh & Hs & Hq).
    split; [by eapply frame_ustep|]. destruct (st_ustep _ _ _ _ _ _ _ _ _ S U Hxb) as [S' T']; eauto.
    { by apply (Hl _ _ Ef). }
    intros s Hb'. destruct (Hs s Hb'); auto.
Qed.

(** Pushing live handles. *)
Lemma push_enter vs h h1 r : heap_ok h -> no_dangling h -> (forall x, x ∈ trace_values vs -> live h x) -> push_roots vs h = (h1, r) ->
  heap_ok h1 /\ no_dangling h1 /\ stack_ext h h1 /\ (forall o, frame o h h1) /\ (r = Ok tt \/ r = Err EOutOfMemory) /\
  (forall x, live h1 x -> get_string h1 x = get_string h x) /\ (forall o, live h1 o -> abs_object h1 o = abs_object h o) /\
  (forall o x, live_as h o x -> live h1 o -> live_as h1 o x) /\ (r = Ok tt -> forall x, x ∈ trace_values vs -> stack_rooted h1 x).
Proof.
  intros H N HL E.
  destruct (safe_push_roots [] (trace_values vs) vs ltac:(set_solver) h h1 r) as (H' & N' & T & R); auto; [set_solver|].
  unfold push_roots in E. destruct (push_roots_spec vs [] h H) as (h2 & H2 & G & Hc).
  destruct (gstep_closed _ _ _ G N) as (N2 & _ & T2); [intros x Hx; apply HL; set_solver|].
  assert (Es : h_slots h1 = h_slots h2 /\ (r = Ok tt \/ r = Err EOutOfMemory)).
  { destruct Hc as [E1|(c & E1 & _)]; rewrite E1 in E; simplify_eq; auto. }
  destruct Es as [Es Hr]. do 3 (split; [done|]).
  split; [intros o; eapply frame_trans; [by eapply frame_gstep|by apply frame_slots]|]. split; [done|]. split; [|split; [|split]].
  - intros x Hx. rewrite (get_string_slots _ _ _ Es). eapply gstep_string; eauto. by apply (live_slots _ _ _ Es).
  - intros x Hx. rewrite (slots_view _ _ _ Es). eapply gstep_view; eauto. by apply (live_slots _ _ _ Es).
  - intros o x Hx Ho. apply (live_slots _ _ _ Es) in Ho. pose proof (gstep_live_same _ _ _ _ _ G Hx Ho) as Hl.
    unfold live_as, live_with in *. by rewrite Es.
  - intros -> x Hx. destruct (R tt eq_refl) as [R1 _]. by apply R1.
Qed.
Lemma tria_push_then {A} h0 o X v h vs (m : M A) (Q : res A -> aobj -> Prop) : st h0 o X v h ->
  (forall x, x ∈ trace_values vs -> live h x) -> Q (Err EOutOfMemory) v ->
  (forall h1, st h1 o (X ++ trace_values vs) v h1 ->
     (forall x, live h1 x -> get_string h1 x = get_string h x) -> tria h1 o (X ++ trace_values vs) v h1 m Q) ->
  tria h0 o X v h (push_roots vs ;;; m) Q.
Proof.
  intros S HL Hq Hm h' r E. unfold mbind in E. destruct (push_roots vs h) as [h1 r1] eqn:E1.
  destruct (push_enter vs h h1 r1 (st_ok _ _ _ _ _ S) (st_nd _ _ _ _ _ S) HL E1) as (H1 & N1 & T1 & F1 & Hr & Str & Vw & Lv & Rt).
  assert (RX : forall x, x ∈ X -> stack_rooted h1 x).
  { intros x Hx. eapply stack_rooted_ext; [exact T1|]. by apply (st_root _ _ _ _ _ S). }
  assert (LX : forall x, x ∈ X -> live h1 x).
  { intros x Hx. by apply N1, stack_rooted_rooted, RX. }
  pose proof (st_in _ _ _ _ _ S) as Ho.
  assert (S1 : st h0 o X v h1).
  { constructor; auto.
    - intros x Hx. rewrite Str by auto. by apply (st_str _ _ _ _ _ S).
    - rewrite Vw by auto. apply (st_view _ _ _ _ _ S).
    - intros Hk. destruct (st_kind _ _ _ _ _ S Hk) as (b & Hb). exists b. auto.
    - intros k Hh. pose proof (st_head _ _ _ _ _ S k Hh) as Hh'. unfold head_key in Hh' |- *.
      destruct (get_object_base h o) as [b| |] eqn:Eb; [|done..]. apply get_object_base_Ok in Eb as (x & Hx & Hb).
      rewrite (proj2 (get_object_base_Ok h1 o b)); [done|]. exists x. auto. }
  destruct Hr as [->| ->].
  2:{ simplify_eq. eauto 8. }
  assert (S2 : st h1 o (X ++ trace_values vs) v h1).
  { destruct S1; constructor; auto; [set_solver|]. intros x [Hx|Hx]%elem_of_app; auto. }
  destruct (Hm h1 S2 Str h' r E) as (F2 & T2 & v' & S' & Hq').
  split; [by eapply frame_trans|]. split; [by eapply stack_ext_trans|]. exists v'. split; [|done].
  destruct S'. constructor; auto.
  - intros x Hx. apply st_root0. set_solver.
  - intros x Hx. rewrite st_str0 by set_solver. by apply (st_str _ _ _ _ _ S1).
  - intros k Hh. apply st_head0. by apply (st_head _ _ _ _ _ S1).
Qed.

(** ** Keys *)
Lemma key_eq_abs h a b : good_key (abs_key h b) -> property_key_eq h a b = bool_decide (abs_key h a = abs_key h b).
Proof.
  intros Hg. symmetry. destruct a as [a|a], b as [b|b]; cbn in *.
  - destruct (get_string h b) as [y|e|]; [|done..]. destruct (get_string h a) as [x|e|].
    + apply bool_decide_ext. split; congruence.
    + by apply bool_decide_eq_false.
    + by apply bool_decide_eq_false.
  - by destruct (get_string h a).
  - by destruct (get_string h b).
  - apply bool_decide_ext. split; congruence.
Qed.
Lemma find_entry_abs h k ps : good_key (abs_key h k) ->
  abs_desc h <$> find_entry h k ps = alookup (abs_key h k) (map (abs_entry h) ps).
Proof.
  intros Hg. induction ps as [|e ps IH]; [done|]. cbn. rewrite key_eq_abs by done.
  destruct (decide (abs_key h (pe_key e) = abs_key h k)) as [E|E].
  - by rewrite bool_decide_true.
  - by rewrite bool_decide_false.
Qed.
Lemma position_find h k ps : find_entry h k ps = pe_desc <$> (position h k ps ≫= fun i => ps !! i).
Proof.
  induction ps as [|e ps IH]; [done|]. cbn. destruct (property_key_eq h (pe_key e) k); [done|]. rewrite IH.
  by destruct (position h k ps).
Qed.
Lemma position_put h k d ps : good_key (abs_key h k) ->
  map (abs_entry h) (match position h k ps with
                     | Some i => alter (fun e => e <| pe_desc := d |>) i ps
                     | None => ps ++ [PEntry k d] end) = aput (abs_key h k) (abs_desc h d) (map (abs_entry h) ps).
Proof.
  intros Hg. induction ps as [|e ps IH]; [done|]. cbn. rewrite key_eq_abs by done.
  destruct (decide (abs_key h (pe_key e) = abs_key h k)) as [E|E].
  - rewrite bool_decide_true by done. done.
  - rewrite bool_decide_false by done. rewrite <- IH. by destruct (position h k ps).
Qed.
Lemma position_remove h k ps : good_key (abs_key h k) ->
  map (abs_entry h) (match position h k ps with Some i => remove_nth i ps | None => ps end) = aremove (abs_key h k) (map (abs_entry h) ps).
Proof.
  intros Hg. induction ps as [|e ps IH]; [done|]. cbn. rewrite key_eq_abs by done.
  destruct (decide (abs_key h (pe_key e) = abs_key h k)) as [E|E].
  - rewrite bool_decide_true by done. done.
  - rewrite bool_decide_false by done. rewrite <- IH. by destruct (position h k ps).
Qed.
Lemma key_is_length_abs h k : property_key_is_length h k = bool_decide (abs_key h k = akey_length).
Proof.
  symmetry. destruct k as [s|s]; cbn; [|done]. destruct (get_string h s); [|done..]. unfold akey_length, length_units.
  apply bool_decide_ext. split; congruence.
Qed.
Lemma array_index_abs h k i : array_index h k = Some i <-> akey_index (abs_key h k) i.
Proof.
  rewrite array_index_spec. unfold index_key, akey_index. split.
  - intros (s & -> & Hs & Hi). cbn. rewrite (get_string_live_as _ _ _ Hs). done.
  - intros [E Hi]. destruct k as [s|s]; cbn in E; [|done]. exists s. split; [done|]. split; [|done].
    apply get_string_live. by destruct (get_string h s); simplify_eq.
Qed.
Lemma akey_index_good k i : akey_index k i -> good_key k.
Proof. intros [-> _]. done. Qed.
Lemma akey_index_fun k i j : akey_index k i -> akey_index k j -> i = j.
Proof. intros [-> _] [E _]. injection E as E. by apply decimal_inj. Qed.
