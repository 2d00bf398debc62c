(** Every object-level operation keeps the heap invariant. *)
From stdpp Require Import base decidable list numbers sets.
From Coq Require Import NArith ZArith Lia.
From RecordUpdate Require Import RecordUpdate.
From Verif Require Import VmBase HeapModel HeapObjModel HeapSpec HeapGcProofs HeapInvProofs.

Open Scope N_scope.

(* ------------------------------------------------------------------ *)
(** * Reading handles *)

Lemma validate_Some h id i : validate h id = Some i <-> i = hid_index id /\ live h id.
Proof. unfold validate. rewrite validate_in_Some, valid_in_live. done. Qed.
Lemma validate_None h id : validate h id = None <-> ~ live h id.
Proof. unfold validate. rewrite validate_in_None, valid_in_live. done. Qed.

Lemma live_slot h id : live h id ->
  exists s o, h_slots h !! hid_index id = Some s /\ sl_gen s = hid_gen id /\ sl_value s = Some o.
Proof. intros (o & hs & s & A & B & C & D). eauto 6. Qed.
Lemma slot_live h id s o : h_slots h !! hid_index id = Some s -> sl_gen s = hid_gen id ->
  sl_value s = Some o -> live_as h id o.
Proof. intros A B C. exists (sl_host s), s. auto. Qed.

Lemma get_heap_object_Ok h id o : get_heap_object h id = Ok o <-> live_as h id o.
Proof.
  unfold get_heap_object. destruct (validate h id) as [i|] eqn:Hv; cbn.
  - apply validate_Some in Hv as [-> Hl]. destruct (live_slot h id Hl) as (s & o' & Hs & Hg & Ho).
    rewrite Hs, Ho. cbn. split.
    + intros [= ->]. eapply slot_live; eauto.
    + intros (hs & s' & Hs' & _ & Ho' & _). congruence.
  - apply validate_None in Hv. split; [done|]. intros Ho. destruct Hv. by exists o.
Qed.
Lemma get_heap_object_cases h id :
  (exists o, get_heap_object h id = Ok o /\ live_as h id o) \/
  (get_heap_object h id = Err EInvalidHandle /\ ~ live h id).
Proof.
  unfold get_heap_object. destruct (validate h id) as [i|] eqn:Hv; cbn.
  - apply validate_Some in Hv as [-> Hl]. destruct (live_slot h id Hl) as (s & o' & Hs & Hg & Ho).
    rewrite Hs, Ho. cbn. left. exists o'. split; auto. eapply slot_live; eauto.
  - apply validate_None in Hv. auto.
Qed.

Definition np {A} (r : res A) : Prop := r <> Panic.
Lemma np_rbind {A B} (m : res A) (k : A -> res B) : np m -> (forall a, np (k a)) -> np (let? a := m in k a).
Proof. unfold np. destruct m; simpl; auto. Qed.
Lemma np_Ok {A} (a : A) : np (Ok a). Proof. done. Qed.
Lemma np_Err {A} e : np (@Err A e). Proof. done. Qed.
Lemma np_ok_or {A} (o : option A) e : np (ok_or o e). Proof. destruct o; done. Qed.
Lemma np_get_heap_object h id : np (get_heap_object h id).
Proof. destruct (get_heap_object_cases h id) as [(o & -> & _)|[-> _]]; done. Qed.
Create HintDb np discriminated.
Global Hint Resolve np_Ok np_Err np_ok_or np_get_heap_object : np.
Global Hint Extern 2 (np (rbind _ _)) => apply np_rbind; [|intros ?] : np.
Global Hint Extern 3 (np (match ?x with _ => _ end)) => destruct x : np.

Lemma np_get_string h s : np (get_string h s).
Proof. unfold get_string. auto with np. Qed.
Lemma np_get_symbol_description h s : np (get_symbol_description h s).
Proof. unfold get_symbol_description. auto with np. Qed.
Lemma np_get_object_base h s : np (get_object_base h s).
Proof. unfold get_object_base. auto with np. Qed.
Lemma np_object_prototype h s : np (object_prototype h s).
Proof. unfold object_prototype. apply np_rbind; auto using np_get_object_base with np. Qed.
Lemma np_get_promise h s : np (get_promise h s).
Proof. unfold get_promise. auto with np. Qed.
Lemma np_get_env h s : np (get_env h s).
Proof. unfold get_env. auto with np. Qed.
Global Hint Resolve np_get_string np_get_symbol_description np_get_object_base np_object_prototype
  np_get_promise np_get_env : np.
Lemma np_get_declarative_bindings h s : np (get_declarative_bindings h s).
Proof. unfold get_declarative_bindings. auto with np. Qed.
Lemma np_array_length_entry h o : np (array_length_entry h o).
Proof. unfold array_length_entry. auto 8 with np. Qed.
Lemma np_proto_walk fuel h o : forall vis c, np (proto_walk fuel h o vis c).
Proof.
  induction fuel as [|n IH]; intros vis [c|]; simpl; auto with np.
Qed.
Lemma np_object_get_own_property h o k : np (object_get_own_property h o k).
Proof. unfold object_get_own_property. auto with np. Qed.
Lemma np_find_binding_index h bs name : np (find_binding_index h bs name).
Proof.
  induction bs as [|b bs IH]; simpl; auto 10 with np.
Qed.
Lemma np_get_property_walk fuel h k : forall vis c, np (get_property_walk fuel h k vis c).
Proof.
  induction fuel as [|n IH]; intros vis [c|]; simpl; auto with np.
  destruct (bool_decide _); [auto with np|]. apply np_rbind; [apply np_object_get_own_property|].
  intros [d|]; auto with np.
Qed.
Lemma np_define_target o k h : np (define_target o k h).
Proof.
  unfold define_target. destruct (validate h o) as [i|] eqn:Hv; auto with np.
  apply validate_Some in Hv as [-> Hl]. destruct (live_slot h o Hl) as (s & o' & Hs & Hg & Ho).
  rewrite Hs, Ho. destruct (base_of o'); auto with np.
Qed.
Lemma np_registry_search fuel h key : forall low high,
  (high <= length (h_registry h))%nat -> (high - low < fuel)%nat -> np (registry_search fuel h key low high).
Proof.
  induction fuel as [|n IH]; intros low high Hh Hf; [lia|]. cbn [registry_search].
  destruct (Nat.ltb_spec low high) as [Hlt|Hge]; auto with np.
  assert (Hd : ((high - low) / 2 < high - low)%nat) by (apply Nat.div_lt; lia).
  set (mid := (low + (high - low) / 2)%nat).
  destruct (h_registry h !! mid) eqn:Hm; [|apply lookup_ge_None in Hm; unfold mid in Hm; lia].
  apply np_rbind; [auto with np|]. intros mk. destruct (units_compare mk key); [apply np_Ok|apply IH; unfold mid; lia..].
Qed.
Lemma np_binary_search h key : np (symbol_registry_binary_search h key).
Proof. apply np_registry_search; lia. Qed.

Lemma registry_search_bound fuel h key : forall low high r,
  (low <= high)%nat -> registry_search fuel h key low high = Ok r ->
  match r with inl i => (low <= i < high)%nat | inr i => (low <= i <= high)%nat end.
Proof.
  induction fuel as [|n IH]; intros low high r Hlh; [done|]. cbn [registry_search].
  destruct (Nat.ltb_spec low high) as [Hlt|Hge].
  2: { intros [= <-]. lia. }
  assert (Hd : ((high - low) / 2 < high - low)%nat) by (apply Nat.div_lt; lia).
  set (mid := (low + (high - low) / 2)%nat) in *.
  destruct (h_registry h !! mid); [|done]. destruct (get_string h (rg_key r0)) as [mk| |]; simpl; try done.
  destruct (units_compare mk key); intros E.
  - injection E as <-. unfold mid. lia.
  - apply IH in E; [|unfold mid; lia]. unfold mid in *. destruct r; lia.
  - apply IH in E; [|unfold mid; lia]. unfold mid in *. destruct r; lia.
Qed.
Lemma np_symbol_registry_get h key : np (symbol_registry_get h key).
Proof.
  unfold symbol_registry_get. pose proof (np_binary_search h key) as Hn.
  unfold symbol_registry_binary_search in *.
  destruct (registry_search _ h key _ _) as [[i|i]| |] eqn:E; simpl; auto with np.
  2: { by destruct Hn. }
  apply registry_search_bound in E; [|lia]. destruct (h_registry h !! i) eqn:Hi; auto with np.
  apply lookup_ge_None in Hi. lia.
Qed.
Global Hint Resolve np_get_declarative_bindings np_array_length_entry np_proto_walk np_object_get_own_property
  np_find_binding_index np_get_property_walk np_define_target np_binary_search np_symbol_registry_get : np.

(* ------------------------------------------------------------------ *)
(** * Rewriting one slot *)

(** One live slot's object was replaced by another object of the same kind, and
    the byte counter follows. *)
Record ustep (id : heap_id) (o o' : heap_object) (h h' : heap) : Prop := {
  us_live : live_as h id o;
  us_live' : live_as h' id o';
  us_rest : same_rest h h';
  us_free : h_free h' = h_free h;
  us_caps : h_caps h' = h_caps h;
  us_other : forall j, j <> hid_index id -> h_slots h' !! j = h_slots h !! j;
  us_kind : same_kind o o';
  us_ok : heap_ok h' }.

Lemma ustep_evolves id o o' h h' : heap_ok h -> ustep id o o' h h' -> evolves h h'.
Proof.
  intros H U. destruct (us_rest _ _ _ _ _ U) as (R1&R2&R3&R4&_). constructor; auto; [lia|].
  intros i s Hs. destruct (evolves_refl h H) as [_ _ _ E]. destruct (E i s Hs) as (s1 & k & E1 & E2 & E3 & E4).
  assert (s1 = s) by congruence. subst s1.
  destruct (decide (i = hid_index id)) as [->|Hne].
  - destruct (us_live _ _ _ _ _ U) as (hs & s0 & A & B & C & D).
    destruct (us_live' _ _ _ _ _ U) as (hs' & s1 & A' & B' & C' & D').
    assert (s0 = s) by congruence. subst s0. exists s1, k. split; auto. split; [rewrite R4; auto|].
    split; [congruence|]. intros Hk x Hx. exists o'. split; auto.
    assert (x = o) by congruence. subst. apply (us_kind _ _ _ _ _ U).
  - exists s, k. rewrite (us_other _ _ _ _ _ U) by auto. split; auto. split; [rewrite R4; auto|]. auto.
Qed.

Lemma heap_ok_put h id s o o' hs' u :
  heap_ok h -> h_slots h !! hid_index id = Some s -> sl_gen s = hid_gen id -> sl_value s = Some o ->
  same_kind o o' -> u + payload_bytes (h_layout h) o = h_used h + payload_bytes (h_layout h) o' ->
  (payload_bytes (h_layout h) o' <= payload_bytes (h_layout h) o \/
   total_bytes h + (payload_bytes (h_layout h) o' - payload_bytes (h_layout h) o) <= h_max_bytes h) ->
  ustep id o o' h
    (h <| h_used := u |>
       <| h_slots := <[hid_index id := Slot (sl_gen s) (Some o') hs' (payload_bytes (h_layout h) o')]> (h_slots h) |>).
Proof.
  intros H Hs Hg Ho Hk Hu Hfit. set (s' := Slot _ _ _ _).
  assert (Hlt : (hid_index id < length (h_slots h))%nat) by (eapply lookup_lt_Some; eauto).
  pose proof (hk_slots h H _ s Hs) as [G B P]. rewrite Ho in B.
  constructor; cbn; auto.
  - eapply slot_live; eauto.
  - exists hs', s'. cbn. rewrite list_lookup_insert by auto. auto.
  - repeat split.
  - intros j Hj. by rewrite list_lookup_insert_ne.
  - pose proof (sum_bytes_insert (h_slots h) _ s s' Hs) as Hins. rewrite B in Hins. cbn in Hins.
    pose proof (hk_used h H) as Hus.
    constructor; cbn; try apply H.
    + rewrite insert_length. apply H.
    + destruct (hk_free h H) as [Hn Hf]. split; auto. intros i. rewrite Hf.
      destruct (decide (i = hid_index id)) as [->|Hne].
      * rewrite list_lookup_insert by auto. rewrite Hs. split; intros (x & Hx & Hv); simplify_eq; cbn in *; congruence.
      * by rewrite list_lookup_insert_ne.
    + intros i x Hx. destruct (decide (i = hid_index id)) as [->|Hne].
      * rewrite list_lookup_insert in Hx by auto. simplify_eq. constructor; cbn; auto. done.
      * rewrite list_lookup_insert_ne in Hx by auto. by apply (hk_slots h H i).
    + change (u = sum_bytes (<[hid_index id := s']> (h_slots h))). lia.
    + pose proof (hk_caps h H) as (?&?&?&?&?&?&?&?&?&?&?). unfold caps_cover, nlen in *; cbn.
      rewrite insert_length. repeat split; auto.
    + pose proof (hk_total h H) as Ht. unfold total_bytes in *. cbn. lia.
Qed.

(** [update_object]: either the handle is dead, or the slot is rewritten. *)
Lemma update_object_live id f h s o :
  h_slots h !! hid_index id = Some s -> sl_gen s = hid_gen id -> sl_value s = Some o ->
  update_object id f h =
    match f o with
    | Ok o' => (h <| h_slots := <[hid_index id := s <| sl_value := Some o' |>]> (h_slots h) |>, Ok tt)
    | Err e => (h, Err e)
    | Panic => (h, Panic)
    end.
Proof.
  intros Hs Hg Ho. unfold update_object.
  assert (Hv : validate h id = Some (hid_index id)).
  { apply validate_Some. split; auto. exists o. eapply slot_live; eauto. }
  rewrite Hv, Hs, Ho. done.
Qed.
Lemma update_object_dead id f h : ~ live h id -> update_object id f h = (h, Err EInvalidHandle).
Proof. intros Hd. unfold update_object. apply validate_None in Hd. by rewrite Hd. Qed.

Lemma heap_eta_used h sl : h <| h_slots := sl |> = h <| h_used := h_used h |> <| h_slots := sl |>.
Proof. by destruct h. Qed.

(** In-place updates that keep the size. *)
Lemma update_object_spec id f h : heap_ok h ->
  (forall o o', f o = Ok o' -> same_kind o o' /\ payload_bytes (h_layout h) o' = payload_bytes (h_layout h) o) ->
  (forall o, np (f o)) ->
  (exists e, update_object id f h = (h, Err e) /\
      (e = EInvalidHandle /\ ~ live h id \/ exists o, live_as h id o /\ f o = Err e)) \/
  (exists o o' h', live_as h id o /\ f o = Ok o' /\ update_object id f h = (h', Ok tt) /\ ustep id o o' h h').
Proof.
  intros H Hf Hn. destruct (get_heap_object_cases h id) as [(o & _ & Ho)|[_ Hd]].
  - destruct Ho as (hs & s & Hs & Hg & Hv & Hh).
    rewrite (update_object_live id f h s o Hs Hg Hv).
    assert (Hl : live_as h id o) by (eapply slot_live; eauto).
    destruct (f o) as [o'|e|] eqn:E.
    + right. destruct (Hf _ _ E) as [Hk Hp]. eexists o, o', _. split; auto. split; auto. split; [reflexivity|].
      rewrite heap_eta_used.
      assert (Es : s <| sl_value := Some o' |>
                   = Slot (sl_gen s) (Some o') (sl_host s) (payload_bytes (h_layout h) o')).
      { pose proof (so_bytes _ _ (hk_slots h H _ s Hs)) as B. rewrite Hv in B. rewrite Hp, <- B. by destruct s. }
      rewrite Es. apply heap_ok_put; auto; lia.
    + left. exists e. split; auto. right. eauto.
    + exfalso. by apply (Hn o).
  - left. exists EInvalidHandle. split; [by apply update_object_dead|]. auto.
Qed.

Lemma good_update_object id f :
  (forall l o o', f o = Ok o' -> same_kind o o' /\ payload_bytes l o' = payload_bytes l o) ->
  (forall o, np (f o)) -> good (update_object id f).
Proof.
  intros Hf Hn h h' r H E.
  destruct (update_object_spec id f h H (Hf _) Hn) as [(e & E1 & _)|(o & o' & h1 & _ & _ & E1 & U)];
    rewrite E1 in E; simplify_eq.
  - split; auto. split; [done|by apply evolves_refl].
  - split; [apply U|]. split; [done|eapply ustep_evolves; eauto].
Qed.

Definition base_kind_eq (b b' : object_base) : Prop :=
  match ob_kind b, ob_kind b' with
  | KOrdinary, KOrdinary => True | KArray _, KArray _ => True | _, _ => False
  end.
Definition base_like (b b' : object_base) : Prop :=
  base_kind_eq b b' /\ length (ob_properties b') = length (ob_properties b).

Lemma set_base_like l o b b' : base_of o = Some b -> base_like b b' ->
  same_kind o (set_base o b') /\ payload_bytes l (set_base o b') = payload_bytes l o.
Proof.
  intros Hb [Hk Hl]. unfold base_kind_eq in Hk.
  destruct o; simpl in *; simplify_eq; unfold base_payload, nlen; rewrite Hl; auto.
Qed.

Lemma update_base_np (f : object_base -> res object_base) : (forall b, np (f b)) ->
  forall o, np (match base_of o with None => Err EInvalidHandle | Some b => let? b' := f b in Ok (set_base o b') end).
Proof. intros Hf o. destruct (base_of o); auto with np. Qed.

Lemma good_update_base id f :
  (forall b b', f b = Ok b' -> base_like b b') -> (forall b, np (f b)) -> good (update_base id f).
Proof.
  intros Hf Hn. apply good_update_object; [|by apply update_base_np].
  intros l o o'. destruct (base_of o) eqn:Hb; [|done].
  destruct (f o0) eqn:E; simpl; [|done|done]. intros [= <-]. eapply set_base_like; eauto.
Qed.

(** Growing or shrinking an object: rewrite it, then store its new size. *)
Lemma resize_spec id f nb h s o o' :
  heap_ok h -> h_slots h !! hid_index id = Some s -> sl_gen s = hid_gen id -> sl_value s = Some o ->
  f o = Ok o' -> same_kind o o' -> sizes nb (payload_bytes (h_layout h) o') ->
  (payload_bytes (h_layout h) o' <= payload_bytes (h_layout h) o \/
   total_bytes h + sat_sub nb (sl_bytes s) <= h_max_bytes h) ->
  exists h1 h', update_object id f h = (h1, Ok tt) /\ h_layout h1 = h_layout h /\ live_as h1 id o' /\
    update_slot_bytes (hid_index id) nb h1 = (h', Ok tt) /\ ustep id o o' h h'.
Proof.
  intros H Hs Hg Ho Hf Hk Hnb Hfit. rewrite (update_object_live id f h s o Hs Hg Ho), Hf.
  assert (Hlt : (hid_index id < length (h_slots h))%nat) by (eapply lookup_lt_Some; eauto).
  pose proof (so_bytes _ _ (hk_slots h H _ s Hs)) as B. rewrite Ho in B.
  pose proof (hk_used h H) as Hus. pose proof (hk_total h H) as Ht.
  destruct (hk_lim h H) as (_ & _ & _ & _ & Hm & _).
  assert (Hle : payload_bytes (h_layout h) o <= h_used h).
  { rewrite <- B, Hus. eapply sum_bytes_lookup; eauto. }
  assert (Hut : h_used h <= total_bytes h) by (unfold total_bytes; lia).
  assert (Hnb' : nb = payload_bytes (h_layout h) o').
  { unfold sizes, sat_sub in *. rewrite B in Hfit. lia. }
  eexists _, _. split; [reflexivity|]. split; [done|]. split.
  { exists (sl_host s), (s <| sl_value := Some o' |>). cbn. rewrite list_lookup_insert by auto. auto. }
  unfold update_slot_bytes. cbn [h_slots set]. cbn. rewrite list_lookup_insert by auto. cbn.
  rewrite list_insert_insert.
  set (u := if sl_bytes s <=? nb then _ else _).
  assert (Hu : u + payload_bytes (h_layout h) o = h_used h + payload_bytes (h_layout h) o').
  { subst u. unfold sat_add, sat_sub in *. rewrite <- B in *. rewrite <- Hnb' in *.
    destruct (N.leb_spec (sl_bytes s) nb); lia. }
  split; [reflexivity|].
  match goal with |- ustep _ _ _ _ ?h' =>
    assert (E : h' = h <| h_used := u |>
       <| h_slots := <[hid_index id := Slot (sl_gen s) (Some o') (sl_host s) (payload_bytes (h_layout h) o')]> (h_slots h) |>)
  end.
  { rewrite <- Hnb'. destruct h, s; reflexivity. }
  rewrite E. apply heap_ok_put; auto. rewrite <- B, <- Hnb'. unfold sat_sub in Hfit. lia.
Qed.

(* ------------------------------------------------------------------ *)
(** * The saturating size computations *)

Lemma sizes_refl n : sizes n n. Proof. by left. Qed.
Lemma sizes_min n : sizes (N.min n usize_max) n. Proof. by right. Qed.
Lemma string_bytes_ok (u : js_string) : sizes (string_bytes (nlen u)) (nlen u * 2).
Proof. right. reflexivity. Qed.
Lemma props_bytes_ok l b : props_bytes l (nlen (ob_properties b)) = N.min (base_payload l b) usize_max.
Proof. reflexivity. Qed.
Lemma opt_len_count {A} (o : option (list A)) : opt_len o = opt_count o.
Proof. by destruct o. Qed.
Lemma function_bytes_ok l a b c :
  function_bytes l a b c = N.min ((a + b) * sz_value l + c * sz_property_entry l) usize_max.
Proof. unfold function_bytes, props_bytes, sat_add, sat_mul. rewrite N.mul_add_distr_r. lia. Qed.
Lemma function_size_ok l f : function_size l f = N.min (payload_bytes l (HFunction f)) usize_max.
Proof.
  unfold function_size. rewrite function_bytes_ok, !opt_len_count. reflexivity.
Qed.
Lemma promise_bytes_ok l a b c :
  promise_bytes l a b c = N.min (sz_promise l + a * sz_property_entry l + (b + c) * sz_reaction l) usize_max.
Proof. unfold promise_bytes, sat_add, sat_mul. rewrite N.mul_add_distr_r. lia. Qed.
Lemma promise_size_ok l p : promise_size l p = N.min (payload_bytes l (HPromise p)) usize_max.
Proof. unfold promise_size. rewrite promise_bytes_ok, !opt_len_count. reflexivity. Qed.
Lemma env_bytes_ok l n : env_bytes l n = N.min (n * sz_env_binding l) usize_max.
Proof. reflexivity. Qed.
Lemma size_with_props_ok l o b : base_of o <> None ->
  size_with_props l o (nlen (ob_properties b)) = N.min (payload_bytes l (set_base o b)) usize_max.
Proof.
  intros Hb. destruct o; simpl in Hb |- *; try done.
  - rewrite function_bytes_ok, !opt_len_count. reflexivity.
  - rewrite promise_bytes_ok, !opt_len_count. reflexivity.
Qed.

(* ------------------------------------------------------------------ *)
(** * Allocation *)

(** [good] for computations that depend on the layout read earlier. *)
Definition goodl {A} (l : layout) (m : M A) : Prop :=
  forall h h' r, h_layout h = l -> heap_ok h -> m h = (h', r) -> heap_ok h' /\ r <> Panic /\ evolves h h'.
Lemma goodl_of_good {A} l (m : M A) : good m -> goodl l m.
Proof. intros Hm h h' r _. apply Hm. Qed.
Lemma goodl_bind {A B} l (m : M A) (k : A -> M B) :
  goodl l m -> (forall a, goodl l (k a)) -> goodl l (mbind m k).
Proof.
  intros Hm Hk h h' r L H E. unfold mbind in E. destruct (m h) as [h1 [a|e|]] eqn:E1.
  - destruct (Hm _ _ _ L H E1) as (H1 & _ & V1).
    destruct (Hk a h1 h' r) as (H2 & ? & V2); auto.
    { rewrite (ev_layout _ _ V1). done. }
    split; auto. split; auto. eapply evolves_trans; eauto.
  - destruct (Hm _ _ _ L H E1) as (H1 & _ & V1). simplify_eq. auto.
  - destruct (Hm _ _ _ L H E1) as (_ & ? & _). done.
Qed.
Lemma good_layout {A} (k : layout -> M A) : (forall l, goodl l (k l)) -> good (mbind (mget h_layout) k).
Proof. intros Hk h h' r H E. cbn in E. eapply Hk; eauto. Qed.
Lemma goodl_alloc l obj nb : sizes nb (payload_bytes l obj) -> goodl l (alloc_unchecked obj nb).
Proof. intros Hs h h' r <- H E. eapply good_alloc_at; eauto. Qed.
Lemma good_alloc obj nb : (forall l, sizes nb (payload_bytes l obj)) -> good (alloc_unchecked obj nb).
Proof. intros Hs h h' r H E. eapply good_alloc_at; eauto. Qed.
Lemma good_ensure_plain n : good (ensure_can_allocate n).
Proof. apply good_ensure. Qed.

Create HintDb good discriminated.
Global Hint Resolve good_ret good_fail good_mget good_ensure good_ensure_plain good_push_roots_with good_push_root
  good_push_env_root good_add_root good_set_root good_remove_root good_add_env_root good_set_env_root
  good_remove_env_root good_collect_garbage good_truncate : good.
Lemma good_push_roots vs : good (push_roots vs).
Proof. apply good_push_roots_with. Qed.
Global Hint Resolve good_push_roots : good.
Global Hint Extern 1 (good (with_scope _)) => apply good_with_scope : good.
Global Hint Extern 1 (good (mread _)) => apply good_mread; intros ? _; change np with (fun A (r : res A) => r <> Panic) : good.
Global Hint Extern 3 (good (mbind (mget h_layout) _)) => apply good_layout; intros ? : good.
Global Hint Extern 4 (good (mbind _ _)) => apply good_bind; [|intros ?] : good.
Global Hint Extern 4 (goodl _ (mbind _ _)) => apply goodl_bind; [|intros ?] : good.
Global Hint Extern 5 (good (match ?x with _ => _ end)) => destruct x : good.
Global Hint Extern 5 (goodl _ (match ?x with _ => _ end)) => destruct x : good.
Global Hint Extern 6 (goodl _ _) => apply goodl_of_good : good.

Lemma good_mread_np {A} (f : heap -> res A) : (forall h, np (f h)) -> good (mread f).
Proof. intros Hf. apply good_mread. intros h _. apply Hf. Qed.
Global Hint Extern 0 (good (mread _)) => apply good_mread_np; intros ?; solve [auto 10 with np] : good.

Lemma good_mmodify f : (forall h, heap_ok h -> heap_ok (f h) /\ evolves h (f h)) -> good (mmodify f).
Proof. intros Hf h h' r H E. unfold mmodify in E. simplify_eq. destruct (Hf h H). auto. Qed.

Lemma good_alloc_string u : good (alloc_string u).
Proof. unfold alloc_string. apply good_bind; [auto with good|]. intros _. apply good_alloc. intros l. apply string_bytes_ok. Qed.

Lemma heap_ok_set_symbol h n : heap_ok h -> heap_ok (h <| h_next_symbol := n |>).
Proof. intros H. constructor; cbn; apply H. Qed.
Lemma good_new_symbol d : good (new_symbol d).
Proof.
  unfold new_symbol. apply good_with_scope. apply good_bind; [auto with good|]. intros _.
  apply good_bind; [auto with good|]. intros _. apply good_bind; [auto with good|]. intros n.
  apply good_bind; [|intros _; apply good_alloc; intros l; by left].
  apply good_mmodify. intros h H. split; [by apply heap_ok_set_symbol|by apply evolves_same_slots].
Qed.
Lemma good_alloc_object : good alloc_object.
Proof. unfold alloc_object. apply good_layout. intros l. apply goodl_bind; [auto with good|]. intros _. apply goodl_alloc. by right. Qed.
Lemma good_alloc_object_with_properties p ps : good (alloc_object_with_properties p ps).
Proof.
  unfold alloc_object_with_properties. apply good_with_scope. apply good_bind; [auto with good|]. intros _.
  apply good_layout. intros l. apply goodl_bind; [auto with good|]. intros _. apply goodl_alloc. by right.
Qed.
Lemma good_alloc_array n : good (alloc_array n).
Proof.
  unfold alloc_array. destruct (_ <? _); [auto with good|]. apply good_with_scope.
  apply good_bind; [apply good_alloc_string|]. intros k. apply good_bind; [auto with good|]. intros _.
  apply good_layout. intros l. apply goodl_bind; [auto with good|]. intros _. apply goodl_alloc. by right.
Qed.
Lemma good_alloc_promise p : good (alloc_promise_with_prototype p).
Proof.
  unfold alloc_promise_with_prototype. apply good_with_scope. apply good_bind; [auto with good|]. intros _.
  apply good_layout. intros l. apply goodl_bind; [auto with good|]. intros _. apply goodl_alloc.
  right. by rewrite promise_bytes_ok.
Qed.
Lemma sort_by_length {A} (key : A -> N) l : length (sort_by key l) = length l.
Proof.
  induction l as [|x l IH]; simpl; auto.
  assert (Hi : forall m, length (insert_by key x m) = S (length m)).
  { induction m; simpl; auto. destruct (_ <=? _); simpl; auto. }
  by rewrite Hi, IH.
Qed.
Lemma good_alloc_declarative_env o bs : good (alloc_declarative_env_record o bs).
Proof.
  unfold alloc_declarative_env_record. apply good_with_scope. apply good_bind; [auto with good|]. intros ok.
  destruct (negb ok); [auto with good|]. apply good_bind; [auto with good|]. intros _.
  apply good_layout. intros l. apply goodl_bind; [auto with good|]. intros _.
  destruct (has_adjacent_dup _ _); [auto with good|]. apply goodl_alloc.
  right. rewrite env_bytes_ok. simpl. unfold nlen. by rewrite sort_by_length.
Qed.
Lemma good_alloc_object_env b o w : good (alloc_object_env_record b o w).
Proof.
  unfold alloc_object_env_record. apply good_with_scope. apply good_bind; [auto with good|]. intros ok.
  destruct (negb ok); [auto with good|]. apply good_bind; [auto with good|]. intros _.
  apply good_layout. intros l. apply goodl_bind; [auto with good|]. intros _. apply goodl_alloc. by left.
Qed.
Lemma good_env_create o : good (env_create o).
Proof.
  unfold env_create. apply good_with_scope. apply good_bind; [auto with good|]. intros _.
  apply good_layout. intros l. apply goodl_bind; [auto with good|]. intros _. apply goodl_alloc. by right.
Qed.
Global Hint Resolve good_alloc_string good_new_symbol good_alloc_object good_alloc_object_with_properties
  good_alloc_array good_alloc_promise good_alloc_declarative_env good_alloc_object_env good_env_create : good.

(* ------------------------------------------------------------------ *)
(** * In-place updates *)

Lemma base_like_refl b : base_like b b.
Proof. split; auto. unfold base_kind_eq. destruct (ob_kind b); auto. Qed.
Lemma base_like_set_array_length b n : base_like b (base_set_array_length b n).
Proof.
  unfold base_set_array_length. destruct (ob_kind b) eqn:Hk; [apply base_like_refl|].
  cbn. destruct (ob_properties b) as [|e es] eqn:Hp.
  - split; cbn; [unfold base_kind_eq; cbn; by rewrite Hk|by rewrite Hp].
  - destruct (pd_kind (pe_desc e)); split; cbn; try (unfold base_kind_eq; cbn; by rewrite Hk); by rewrite Hp.
Qed.
Lemma base_like_trans a b c : base_like a b -> base_like b c -> base_like a c.
Proof.
  intros [K1 L1] [K2 L2]. split; [|congruence]. unfold base_kind_eq in *.
  destruct (ob_kind a), (ob_kind b), (ob_kind c); tauto.
Qed.
Lemma base_like_props b f : (forall l, length (f l) = length l) -> base_like b (b <| ob_properties ::= f |>).
Proof. intros Hf. split; [|apply Hf]. unfold base_kind_eq. cbn. destruct (ob_kind b); auto. Qed.

Lemma good_heap_array_set_length o n : good (heap_array_set_length o n).
Proof.
  apply good_update_base.
  - intros b b'. destruct (base_array_length b); [|done]. intros [= <-]. apply base_like_set_array_length.
  - intros b. auto with np.
Qed.
Lemma good_array_set_length_writable o w : good (array_set_length_writable o w).
Proof.
  unfold array_set_length_writable. apply good_bind; [auto with good|]. intros _. apply good_update_base.
  - intros b b'. destruct (ob_properties b) as [|e es] eqn:Hp; [done|].
    destruct (pd_kind (pe_desc e)); [|done]. intros [= <-]. split; cbn; [|by rewrite Hp].
    unfold base_kind_eq. cbn. destruct (ob_kind b); auto.
  - intros b. auto with np.
Qed.
Lemma good_object_set_prototype o p : good (object_set_prototype o p).
Proof.
  unfold object_set_prototype. apply good_bind; [auto with good|]. intros _.
  destruct (bool_decide _); [auto with good|]. apply good_bind; [auto with good|]. intros _.
  apply good_update_base; [|auto with np]. intros b b' [= <-]. split; auto.
  unfold base_kind_eq. cbn. destruct (ob_kind b); auto.
Qed.
Lemma good_object_set_extensible o e : good (object_set_extensible o e).
Proof.
  apply good_update_base; [|auto with np]. intros b b' [= <-]. split; auto.
  unfold base_kind_eq. cbn. destruct (ob_kind b); auto.
Qed.
Lemma good_define_array_fixup o a n k : good (define_array_fixup o a n k).
Proof.
  unfold define_array_fixup. apply good_bind.
  - destruct n; [|auto with good]. apply good_update_base; [|auto with np]. intros b b' [= <-]. apply base_like_set_array_length.
  - intros _. destruct k; [|auto with good]. destruct a; [|auto with good]. apply good_update_base.
    + intros b b'. destruct (base_array_length b); [|intros [= <-]; apply base_like_refl]. cbv zeta.
      destruct (_ <? _); intros [= <-]; [apply base_like_set_array_length|apply base_like_refl].
    + intros b. destruct (base_array_length b); auto with np.
Qed.
Lemma good_set_existing o k v : good (object_set_existing_data_property_value o k v).
Proof.
  unfold object_set_existing_data_property_value. do 4 (apply good_bind; [auto with good|]; intros ?).
  destruct a2; [|auto with good]. apply good_update_base.
  - intros b b'. destruct (a && _).
    + destruct v; try done. destruct (array_length_from_f64 n0); [|done]. intros [= <-]. apply base_like_set_array_length.
    + destruct (ob_properties b !! n); [|done]. destruct (pd_kind _); [|done]. cbv zeta.
      match goal with |- context [b <| ob_properties ::= ?f |>] =>
        assert (Hb : base_like b (b <| ob_properties ::= f |>)) by (apply base_like_props; intros; apply alter_length) end.
      destruct a0; [|intros [= <-]; auto].
      destruct (base_array_length _); [|intros [= <-]; auto].
      destruct (_ <? _); intros [= <-]; auto. eapply base_like_trans; [exact Hb|apply base_like_set_array_length].
  - intros b. destruct (a && _); [auto with np|]. destruct (_ !! _); [|auto with np].
    destruct (pd_kind _); [|auto with np]. cbv zeta. auto with np.
Qed.

Lemma good_update_bindings e f :
  (forall bs bs', f bs = Ok bs' -> length bs' = length bs) -> (forall bs, np (f bs)) -> good (update_bindings e f).
Proof.
  intros Hf Hn. apply good_update_object.
  - intros l o o'. destruct o as [| | | |[]|]; try done. destruct (f bindings) eqn:E; simpl; [|done|done].
    intros [= <-]. split; [done|]. simpl. unfold nlen. by rewrite (Hf _ _ E).
  - intros o. destruct o as [| | | |[]|]; auto with np.
Qed.
Lemma update_binding_at_length i f bs bs' : update_binding_at i f bs = Ok bs' -> length bs' = length bs.
Proof.
  unfold update_binding_at. destruct (bs !! i); [|done]. destruct (f e); simpl; [|done|done]. intros [= <-].
  apply insert_length.
Qed.
Lemma np_initialize b v : np (initialize_binding b v).
Proof. unfold initialize_binding. auto with np. Qed.
Lemma np_assign b v : np (assign_binding b v).
Proof. unfold assign_binding. auto with np. Qed.
Lemma np_update_binding_at i f bs : (forall b, np (f b)) -> np (update_binding_at i f bs).
Proof. intros Hf. unfold update_binding_at. auto with np. Qed.
Global Hint Resolve np_initialize np_assign : np.
Lemma good_env_initialize e n v : good (env_initialize_binding e n v).
Proof.
  unfold env_initialize_binding. do 2 (apply good_bind; [auto with good|]; intros ?). destruct a0; [|auto with good].
  apply good_update_bindings; [intros ??; apply update_binding_at_length|].
  intros bs. apply np_update_binding_at. auto with np.
Qed.
Lemma good_env_set_mutable e n v : good (env_set_mutable_binding e n v).
Proof.
  unfold env_set_mutable_binding. do 2 (apply good_bind; [auto with good|]; intros ?). destruct a0; [|auto with good].
  apply good_update_bindings; [intros ??; apply update_binding_at_length|].
  intros bs. apply np_update_binding_at. auto with np.
Qed.
Lemma good_env_initialize_symbol e n v : good (env_initialize_symbol_binding e n v).
Proof.
  apply good_update_bindings.
  - intros bs bs'. destruct (symbol_binding_index bs n); [|done]. apply update_binding_at_length.
  - intros bs. destruct (symbol_binding_index bs n); [|auto with np]. apply np_update_binding_at. auto with np.
Qed.
Lemma good_env_set_mutable_symbol e n v : good (env_set_mutable_symbol_binding e n v).
Proof.
  apply good_update_bindings.
  - intros bs bs'. destruct (symbol_binding_index bs n); [|done]. apply update_binding_at_length.
  - intros bs. destruct (symbol_binding_index bs n); [|auto with np]. apply np_update_binding_at. auto with np.
Qed.

Lemma good_update_function f g :
  (forall x, fn_bound_args (g x) = fn_bound_args x /\ fn_native_slots (g x) = fn_native_slots x
             /\ fn_base (g x) = fn_base x) -> good (update_function f g).
Proof.
  intros Hg. apply good_update_object.
  - intros l o o'. destruct o; try done. intros [= <-]. split; [done|]. simpl.
    destruct (Hg f0) as (-> & -> & ->). done.
  - intros o. destruct o; auto with np.
Qed.
Lemma good_set_bound_this f v : good (set_function_bound_this f v).
Proof. apply good_update_function. done. Qed.
Lemma good_set_bound_new_target f v : good (set_function_bound_new_target f v).
Proof. apply good_update_function. done. Qed.
Lemma good_set_realm f v : good (set_function_realm f v).
Proof. apply good_update_function. done. Qed.
Lemma good_set_job_realm f v : good (set_function_job_realm f v).
Proof. apply good_update_function. done. Qed.
Lemma good_set_data f v : good (set_function_data f v).
Proof. apply good_update_function. done. Qed.
Lemma good_set_closure_env f v : good (set_function_closure_env f v).
Proof. apply good_update_function. done. Qed.
Lemma good_promise_set_is_handled p b : good (promise_set_is_handled p b).
Proof.
  apply good_update_object.
  - intros l o o'. destruct o; try done. intros [= <-]. done.
  - intros o. destruct o; auto with np.
Qed.
Lemma good_set_host_slots o hs : good (object_set_host_slots o hs).
Proof.
  intros h h' r H E. unfold object_set_host_slots in E. destruct (validate h o) as [i|] eqn:Hv.
  - apply validate_Some in Hv as [-> Hl]. destruct (live_slot h o Hl) as (s & ob & Hs & Hg & Ho).
    rewrite Hs, Ho in E.
    assert (U : ustep o ob ob h (h <| h_used := h_used h |> <| h_slots := <[hid_index o := Slot (sl_gen s) (Some ob) hs
              (payload_bytes (h_layout h) ob)]> (h_slots h) |>)).
    { apply heap_ok_put; auto; try apply same_kind_refl; lia. }
    assert (Es : s <| sl_host := hs |> = Slot (sl_gen s) (Some ob) hs (payload_bytes (h_layout h) ob)).
    { pose proof (so_bytes _ _ (hk_slots h H _ s Hs)) as B. rewrite Ho in B. rewrite <- B. destruct s; cbn in *. subst. reflexivity. }
    rewrite Es, heap_eta_used in E.
    destruct ob; simplify_eq;
      try (split; [done|split; [done|by apply evolves_refl]]);
      (split; [apply U|split; [done|eapply ustep_evolves; eauto]]).
  - simplify_eq. split; [done|split; [done|by apply evolves_refl]].
Qed.
Global Hint Resolve good_heap_array_set_length good_array_set_length_writable good_object_set_prototype
  good_object_set_extensible good_define_array_fixup good_set_existing good_env_initialize good_env_set_mutable
  good_env_initialize_symbol good_env_set_mutable_symbol good_set_bound_this good_set_bound_new_target good_set_realm
  good_set_job_realm good_set_data good_set_closure_env good_promise_set_is_handled good_set_host_slots : good.

(* ------------------------------------------------------------------ *)
(** * Operations that resize an object *)

Lemma resize_seq {A} id f nb h s o o' (k : M A) :
  heap_ok h -> h_slots h !! hid_index id = Some s -> sl_gen s = hid_gen id -> sl_value s = Some o ->
  f o = Ok o' -> same_kind o o' -> sizes nb (payload_bytes (h_layout h) o') ->
  (payload_bytes (h_layout h) o' <= payload_bytes (h_layout h) o \/
   total_bytes h + sat_sub nb (sl_bytes s) <= h_max_bytes h) ->
  exists h', ustep id o o' h h' /\
    (update_object id f ;;; update_slot_bytes (hid_index id) nb ;;; k) h = k h'.
Proof.
  intros. destruct (resize_spec id f nb h s o o') as (h1 & h' & E1 & _ & _ & E2 & U); auto.
  exists h'. split; auto. unfold mbind. by rewrite E1, E2.
Qed.
Lemma resize_seq_last id f nb h s o o' :
  heap_ok h -> h_slots h !! hid_index id = Some s -> sl_gen s = hid_gen id -> sl_value s = Some o ->
  f o = Ok o' -> same_kind o o' -> sizes nb (payload_bytes (h_layout h) o') ->
  (payload_bytes (h_layout h) o' <= payload_bytes (h_layout h) o \/
   total_bytes h + sat_sub nb (sl_bytes s) <= h_max_bytes h) ->
  exists h', ustep id o o' h h' /\
    (update_object id f ;;; update_slot_bytes (hid_index id) nb) h = (h', Ok tt).
Proof.
  intros. destruct (resize_spec id f nb h s o o') as (h1 & h' & E1 & _ & _ & E2 & U); auto.
  exists h'. split; auto. unfold mbind. by rewrite E1, E2.
Qed.

Lemma set_base_same_kind o b b' : base_of o = Some b -> base_kind_eq b b' -> same_kind o (set_base o b').
Proof. intros Hb Hk. unfold base_kind_eq in Hk. destruct o; simpl in *; simplify_eq; auto. Qed.
Lemma base_of_set_base o b : base_of o <> None -> base_of (set_base o b) = Some b.
Proof. destruct o; simpl; done. Qed.
Lemma payload_set_base_mono l o b b' : base_of o = Some b ->
  (length (ob_properties b') <= length (ob_properties b))%nat ->
  payload_bytes l (set_base o b') <= payload_bytes l o.
Proof.
  intros Hb Hl. destruct o; simpl in *; simplify_eq; unfold base_payload, nlen in *; nia.
Qed.

Lemma position_lt h k ps i : position h k ps = Some i -> (i < length ps)%nat.
Proof.
  revert i. induction ps as [|e es IH]; simpl; intros i; [done|].
  destruct (property_key_eq _ _ _); [intros [= <-]; lia|].
  destruct (position h k es); simpl; [|done]. intros [= <-]. specialize (IH n eq_refl). lia.
Qed.
Lemma remove_nth_length {A} i (l : list A) : (i < length l)%nat -> S (length (remove_nth i l)) = length l.
Proof. intros Hi. unfold remove_nth. rewrite app_length, take_length, drop_length. lia. Qed.

(** [object_delete_own_property], opened up. *)
Lemma delete_own_spec o k h : heap_ok h ->
  (object_delete_own_property o k h = (h, Err EInvalidHandle) /\ (forall b, get_object_base h o <> Ok b)) \/
  (exists ob b, live_as h o ob /\ base_of ob = Some b /\
     ((position h k (ob_properties b) = None /\ object_delete_own_property o k h = (h, Ok false)) \/
      exists i h', position h k (ob_properties b) = Some i /\
        object_delete_own_property o k h = (h', Ok true) /\
        ustep o ob (set_base ob (b <| ob_properties ::= remove_nth i |>)) h h')).
Proof.
  intros H. unfold object_delete_own_property. destruct (validate h o) as [ix|] eqn:Hv.
  2: { left. split; auto. apply validate_None in Hv. intros b Hb. unfold get_object_base in Hb.
       destruct (get_heap_object_cases h o) as [(x & E & Hx)|[E _]]; rewrite E in Hb; [|done].
       apply Hv. by exists x. }
  apply validate_Some in Hv as [-> Hl]. destruct (live_slot h o Hl) as (s & ob & Hs & Hg & Ho).
  rewrite Hs, Ho. assert (Hla : live_as h o ob) by (eapply slot_live; eauto).
  destruct (base_of ob) as [b|] eqn:Hb.
  2: { left. split; auto. intros b. unfold get_object_base. apply get_heap_object_Ok in Hla. rewrite Hla. simpl. by rewrite Hb. }
  right. exists ob, b. split; auto. split; auto. destruct (position h k (ob_properties b)) as [i|] eqn:Hp; [|auto].
  right. exists i. pose proof (position_lt _ _ _ _ Hp) as Hi.
  set (b' := b <| ob_properties ::= remove_nth i |>).
  assert (Hlen : nlen (ob_properties b) - 1 = nlen (ob_properties b')).
  { unfold nlen. cbn. pose proof (remove_nth_length i (ob_properties b) Hi). lia. }
  rewrite Hlen.
  edestruct (resize_seq (A:=bool) o (fun o => match base_of o with None => Err EInvalidHandle
             | Some b => let? b' := Ok (b <| ob_properties ::= remove_nth i |>) in Ok (set_base o b') end)
             (size_with_props (h_layout h) ob (nlen (ob_properties b'))) h s ob (set_base ob b') (mret true))
    as (h' & U & E); eauto.
  - rewrite Hb. reflexivity.
  - apply (set_base_same_kind _ b); auto. unfold base_kind_eq. cbn. destruct (ob_kind b); auto.
  - right. apply size_with_props_ok. by rewrite Hb.
  - left. eapply payload_set_base_mono; eauto. cbn. pose proof (remove_nth_length i (ob_properties b) Hi). lia.
Qed.
Lemma good_delete_own o k : good (object_delete_own_property o k).
Proof.
  intros h h' r H E. destruct (delete_own_spec o k h H) as [[E1 _]|(ob & b & _ & _ & [[_ E1]|(i & h1 & _ & E1 & U)])];
    rewrite E1 in E; simplify_eq.
  - split; [done|split; [done|by apply evolves_refl]].
  - split; [done|split; [done|by apply evolves_refl]].
  - split; [apply U|split; [done|eapply ustep_evolves; eauto]].
Qed.

(** What [ensure_can_allocate] leaves of an object: dead, or unchanged. *)
Lemma gstep_live_cases extra h h' id s o :
  gstep extra h h' -> h_slots h !! hid_index id = Some s -> sl_gen s = hid_gen id -> sl_value s = Some o ->
  h_slots h' !! hid_index id = Some s \/ ~ live h' id.
Proof.
  intros G Hs Hg Ho. destruct (gs_slots _ _ _ G _ _ Hs) as (s' & Hs' & [->|(_ & -> & _)]); auto.
  right. intros (o' & hs & s2 & Hs2 & _ & Ho2 & _). rewrite Hs' in Hs2. simplify_eq.
Qed.

Lemma sat_sub_le a b : sat_sub a b = a - b. Proof. reflexivity. Qed.

(** Ensuring space, then growing an object (which may have died in between). *)
Lemma ensure_grow_spec id f nb h s o o' :
  heap_ok h -> h_slots h !! hid_index id = Some s -> sl_gen s = hid_gen id -> sl_value s = Some o ->
  f o = Ok o' -> same_kind o o' -> sizes nb (payload_bytes (h_layout h) o') ->
  exists h1, heap_ok h1 /\ gstep [] h h1 /\
    ((exists e, (ensure_can_allocate (sat_sub nb (sl_bytes s)) ;;;
                 update_object id f ;;; update_slot_bytes (hid_index id) nb) h = (h1, Err e)
        /\ (e = EOutOfMemory \/ e = EInvalidHandle /\ ~ live h1 id)) \/
     (exists h2, ustep id o o' h1 h2 /\
        (ensure_can_allocate (sat_sub nb (sl_bytes s)) ;;;
         update_object id f ;;; update_slot_bytes (hid_index id) nb) h = (h2, Ok tt))).
Proof.
  intros H Hs Hg Ho Hf Hk Hnb. unfold mbind at 1 3.
  destruct (ensure_spec (fun _ => sat_sub nb (sl_bytes s)) [] h H) as (h1 & H1 & G & _ & [[E1 _]|[E1 Hsp]]);
    exists h1; (split; [done|]); (split; [done|]); unfold ensure_can_allocate; rewrite E1.
  - left. eauto.
  - destruct (gstep_live_cases _ _ _ id s o G Hs Hg Ho) as [Hs1|Hd].
    + right. destruct (resize_seq_last id f nb h1 s o o') as (h2 & U & E2); auto.
      * by rewrite (gs_layout _ _ _ G).
      * eauto.
    + left. exists EInvalidHandle. split; auto. unfold mbind. by rewrite update_object_dead.
Qed.

(** [Heap::define_property] up to the array fix-up. *)
Definition define_core (o : heap_id) (k : property_key) (d : property_descriptor)
  (t : nat * heap_object * object_base * option nat * N) : M unit :=
  let '(idx, obj, b, existing, old_bytes) := t in
  match existing with
  | Some i =>
      update_base o (fun b => Ok (b <| ob_properties ::= alter (fun e => e <| pe_desc := d |>) i |>))
  | None =>
      let* l := mget h_layout in
      let new_bytes := size_with_props l obj (nlen (ob_properties b) + 1) in
      ensure_can_allocate (sat_sub new_bytes old_bytes) ;;;
      update_base o (fun b => Ok (b <| ob_properties ::= (fun ps => ps ++ [PEntry k d]) |>)) ;;;
      update_slot_bytes idx new_bytes
  end.

Lemma define_target_spec o k h t : define_target o k h = Ok t ->
  exists s ob b, h_slots h !! hid_index o = Some s /\ sl_gen s = hid_gen o /\ sl_value s = Some ob /\
    base_of ob = Some b /\ t = (hid_index o, ob, b, position h k (ob_properties b), sl_bytes s).
Proof.
  unfold define_target. destruct (validate h o) as [ix|] eqn:Hv; [|done].
  apply validate_Some in Hv as [-> Hl]. destruct (live_slot h o Hl) as (s & ob & Hs & Hg & Ho).
  rewrite Hs, Ho. destruct (base_of ob) as [b|] eqn:Hb; [|done]. intros [= <-]. eauto 8.
Qed.

Definition base_with (b : object_base) (k : property_key) (d : property_descriptor) (pos : option nat) : object_base :=
  match pos with
  | Some i => b <| ob_properties ::= alter (fun e => e <| pe_desc := d |>) i |>
  | None => b <| ob_properties ::= (fun ps => ps ++ [PEntry k d]) |>
  end.

(** Either the table now holds the descriptor, or nothing but garbage changed. *)
Lemma define_core_spec o k d h t : heap_ok h -> define_target o k h = Ok t ->
  exists s ob b, h_slots h !! hid_index o = Some s /\ sl_gen s = hid_gen o /\ sl_value s = Some ob /\
    base_of ob = Some b /\ t = (hid_index o, ob, b, position h k (ob_properties b), sl_bytes s) /\
  exists h1, heap_ok h1 /\ gstep [] h h1 /\
    ((exists e, define_core o k d t h = (h1, Err e) /\ (e = EOutOfMemory \/ e = EInvalidHandle /\ ~ live h1 o)) \/
     exists h2, define_core o k d t h = (h2, Ok tt) /\
       ustep o ob (set_base ob (base_with b k d (position h k (ob_properties b)))) h1 h2).
Proof.
  intros H Ht. apply define_target_spec in Ht as (s & ob & b & Hs & Hg & Ho & Hb & ->).
  exists s, ob, b. do 5 (split; [done|]). unfold define_core.
  destruct (position h k (ob_properties b)) as [i|] eqn:Hp.
  - exists h. split; auto. split; [apply gstep_refl|].
    match goal with |- context [update_base o ?f] => set (F := f) end.
    assert (HF : forall b b', F b = Ok b' -> base_like b b').
    { intros x x' [= <-]. apply base_like_props. intros. apply alter_length. }
    unfold update_base.
    match goal with |- context [update_object o ?g] => set (Gf := g) end.
    destruct (update_object_spec o Gf h H) as [(e & E & He)|(ob' & ob'' & h' & Hl & Hf & E & U)].
    { intros x x'. unfold Gf. destruct (base_of x) eqn:Hx; [|done]. simpl. intros [= <-].
      eapply set_base_like; eauto. }
    { intros x. unfold Gf. destruct (base_of x); done. }
    + exfalso. destruct He as [[_ Hd]|(x & Hx & Hfe)].
      * apply Hd. exists ob. eapply slot_live; eauto.
      * unfold Gf in Hfe. destruct (base_of x) eqn:Hx'; [done|].
        destruct Hx as (hs & s2 & Hs2 & _ & Ho2 & _). congruence.
    + right. exists h'. split; auto.
      assert (ob' = ob) by (destruct Hl as (hs & s2 & Hs2 & _ & Ho2 & _); congruence). subst ob'.
      unfold Gf in Hf. rewrite Hb in Hf. simpl in Hf. injection Hf as <-. exact U.
  - cbn [mbind mget]. unfold mbind at 1 4. unfold mget. cbn iota beta.
    set (b' := base_with b k d None).
    assert (Hlen : nlen (ob_properties b) + 1 = nlen (ob_properties b')) by (cbn; by rewrite nlen_app).
    rewrite Hlen. unfold update_base.
    match goal with |- context [update_object o ?g] => set (Gf := g) end.
    destruct (ensure_grow_spec o Gf (size_with_props (h_layout h) ob (nlen (ob_properties b'))) h s ob (set_base ob b'))
      as (h1 & H1 & G & [(e & E & He)|(h2 & U & E)]); auto.
    + unfold Gf. rewrite Hb. reflexivity.
    + apply (set_base_same_kind _ b); auto. unfold base_kind_eq. cbn. destruct (ob_kind b); auto.
    + right. apply size_with_props_ok. by rewrite Hb.
    + exists h1. split; auto. split; auto. left. exists e. split; auto.
    + exists h1. split; auto. split; auto. right. exists h2. split; auto.
Qed.
Lemma define_core_good o k d h h' t r : heap_ok h -> define_target o k h = Ok t -> define_core o k d t h = (h', r) ->
  heap_ok h' /\ r <> Panic /\ evolves h h'.
Proof.
  intros H Ht E. destruct (define_core_spec o k d h t H Ht)
    as (s & ob & b & _ & _ & _ & _ & _ & h1 & H1 & G & [(e & E1 & _)|(h2 & E1 & U)]); rewrite E1 in E; simplify_eq.
  - split; auto. split; [done|]. eapply gstep_evolves; eauto.
  - split; [apply U|]. split; [done|]. eapply evolves_trans; [eapply gstep_evolves; eauto|eapply ustep_evolves; eauto].
Qed.

Lemma heap_define_property_unfold o k d h :
  heap_define_property o k d h =
  match define_target o k h with
  | Ok t =>
      match define_new_length (property_key_is_length h k) (target_array_len (snd (fst (fst (fst t)))))
              (snd (fst t)) d with
      | Ok new_length =>
          (define_core o k d t ;;;
           define_array_fixup o (match target_array_len (snd (fst (fst (fst t)))) with Some _ => true | None => false end)
             new_length (array_index h k)) h
      | Err e => (h, Err e)
      | Panic => (h, Panic)
      end
  | Err e => (h, Err e)
  | Panic => (h, Panic)
  end.
Proof.
  unfold heap_define_property, mbind at 1 2 3 4, mget, mread. cbn iota beta.
  destruct (define_target o k h) as [[[[[idx obj] b] ex] ob]|e|]; auto.
Qed.
Lemma np_define_new_length a b c d : np (define_new_length a b c d).
Proof. unfold define_new_length. auto 10 with np. Qed.
Lemma good_heap_define_property o k d : good (heap_define_property o k d).
Proof.
  intros h h' r H E. rewrite heap_define_property_unfold in E.
  pose proof (np_define_target o k h) as Hn.
  destruct (define_target o k h) as [t|e|] eqn:Ht; [|simplify_eq; split; [done|split; [done|by apply evolves_refl]]|by destruct Hn].
  match type of E with context [define_new_length ?a ?b ?c ?d] => pose proof (np_define_new_length a b c d) as Hn2;
    destruct (define_new_length a b c d) as [nl|e|] end;
    [|simplify_eq; split; [done|split; [done|by apply evolves_refl]]|by destruct Hn2].
  unfold mbind in E. destruct (define_core o k d t h) as [h1 r1] eqn:E1.
  destruct (define_core_good _ _ _ _ _ _ _ H Ht E1) as (H1 & P1 & V1).
  destruct r1 as [a|e|]; [|simplify_eq; auto|done].
  destruct (good_define_array_fixup _ _ _ _ _ _ _ H1 E) as (H2 & P2 & V2).
  split; auto. split; auto. eapply evolves_trans; eauto.
Qed.
Lemma good_define_property o k d : good (define_property o k d).
Proof. unfold define_property. apply good_with_scope. apply good_bind; [auto with good|]. intros _. apply good_heap_define_property. Qed.
Lemma good_heap_ordinary_delete o k : good (heap_ordinary_delete o k).
Proof.
  unfold heap_ordinary_delete. apply good_bind; [auto with good|]. intros [d|]; [|auto with good].
  destruct (negb _); [auto with good|]. apply good_bind; [apply good_delete_own|]. auto with good.
Qed.
Global Hint Resolve good_delete_own good_heap_define_property good_define_property good_heap_ordinary_delete : good.

(** ** Environments *)
Lemma insert_at_length {A} i (x : A) l : (i <= length l)%nat -> length (insert_at i x l) = S (length l).
Proof. intros Hi. unfold insert_at. rewrite app_length, take_length. simpl. rewrite drop_length. lia. Qed.
Lemma search_key_bound {A} (key : A -> N) k l :
  match search_key key k l with inl i => (i < length l)%nat | inr i => (i <= length l)%nat end.
Proof.
  induction l as [|x l IH]; simpl; [lia|]. destruct (_ =? _); [lia|]. destruct (_ <? _); [lia|].
  destruct (search_key key k l); simpl; lia.
Qed.

Definition add_binding_fn (b : env_binding) : heap_object -> res heap_object := fun o =>
    match o with
    | HEnv (EnvDeclarative outer bs this nt) =>
        let? bs' := match search_key eb_symbol (eb_symbol b) bs with
                 | inl _ => Err EUnimplemented
                 | inr i => Ok (insert_at i b bs)
                 end in Ok (HEnv (EnvDeclarative outer bs' this nt))
    | HEnv (EnvObject _ _ _) => Err EUnimplemented
    | _ => Err EInvalidHandle
    end.
Lemma env_add_binding_spec e b h : heap_ok h ->
  (exists err, env_add_binding e b h = (h, Err err)) \/
  exists o o', live_as h e o /\ exists h1, heap_ok h1 /\ gstep [] h h1 /\
    ((exists err, env_add_binding e b h = (h1, Err err)) \/
     exists h2, add_binding_fn b o = Ok o' /\ env_add_binding e b h = (h2, Ok tt) /\ ustep e o o' h1 h2).
Proof.
  intros H. unfold env_add_binding. destruct (validate h e) as [ix|] eqn:Hv; [|left; eauto].
  apply validate_Some in Hv as [-> Hl]. destruct (live_slot h e Hl) as (s & ob & Hs & Hg & Ho).
  rewrite Hs, Ho. destruct ob as [| | | |[outer bs this nt|]|]; try (left; eauto; fail).
  unfold update_bindings. fold (add_binding_fn b).
  destruct (search_key eb_symbol (eb_symbol b) bs) as [i|i] eqn:Hsr.
  - right. exists (HEnv (EnvDeclarative outer bs this nt)), (HEnv (EnvDeclarative outer bs this nt)).
    split; [eapply slot_live; eauto|].
    destruct (ensure_spec (fun _ => sat_sub (env_bytes (h_layout h) (nlen bs + 1)) (sl_bytes s)) [] h H)
      as (h1 & H1 & G & _ & [[E1 _]|[E1 Hsp]]); exists h1; (split; [done|]); (split; [done|]);
      unfold mbind at 1; unfold ensure_can_allocate; rewrite E1; left.
    + eauto.
    + destruct (gstep_live_cases _ _ _ e s _ G Hs Hg Ho) as [Hs1|Hd].
      * exists EUnimplemented. unfold mbind.
        rewrite (update_object_live e _ h1 s _ Hs1 Hg Ho). unfold add_binding_fn. by rewrite Hsr.
      * exists EInvalidHandle. unfold mbind. by rewrite update_object_dead.
  - right. exists (HEnv (EnvDeclarative outer bs this nt)), (HEnv (EnvDeclarative outer (insert_at i b bs) this nt)).
    split; [eapply slot_live; eauto|].
    pose proof (search_key_bound eb_symbol (eb_symbol b) bs) as Hi. rewrite Hsr in Hi.
    destruct (ensure_grow_spec e (add_binding_fn b) (env_bytes (h_layout h) (nlen bs + 1)) h s
      (HEnv (EnvDeclarative outer bs this nt)) (HEnv (EnvDeclarative outer (insert_at i b bs) this nt)))
      as (h1 & H1 & G & [(err & E & He)|(h2 & U & E)]); auto.
    + unfold add_binding_fn. by rewrite Hsr.
    + done.
    + right. rewrite env_bytes_ok. simpl. unfold nlen. rewrite insert_at_length by lia. f_equal. f_equal. lia.
    + exists h1. split; auto. split; auto. left. exists err. auto.
    + exists h1. split; auto. split; auto. right. exists h2. split; [|auto]. unfold add_binding_fn. by rewrite Hsr.
Qed.
Lemma good_env_add_binding e b : good (env_add_binding e b).
Proof.
  intros h h' r H E. destruct (env_add_binding_spec e b h H) as [(err & E1)|(o & o' & _ & h1 & H1 & G & [(err & E1)|(h2 & _ & E1 & U)])];
    rewrite E1 in E; simplify_eq.
  - split; [done|split; [done|by apply evolves_refl]].
  - split; auto. split; [done|]. eapply gstep_evolves; eauto.
  - split; [apply U|]. split; [done|]. eapply evolves_trans; [eapply gstep_evolves; eauto|eapply ustep_evolves; eauto].
Qed.
Lemma np_env_has_binding h e n : np (env_has_binding h e n).
Proof. unfold env_has_binding. auto with np. Qed.
Global Hint Resolve np_env_has_binding : np.
Lemma good_env_create_binding e n m : good (env_create_binding e n m).
Proof.
  unfold env_create_binding. apply good_bind; [auto with good|]. intros dup. destruct dup; [auto with good|].
  apply good_with_scope. do 3 (apply good_bind; [auto with good|]; intros ?). apply good_env_add_binding.
Qed.
Global Hint Resolve good_env_add_binding good_env_create_binding : good.

(** ** Promises *)
Lemma payload_promise_settled l p st r :
  payload_bytes l (HPromise (p <| pr_state := st |> <| pr_result := r |> <| pr_fulfill := None |> <| pr_reject := None |>))
  <= payload_bytes l (HPromise p).
Proof. simpl. nia. Qed.
Lemma payload_promise_set_fields l p st r :
  payload_bytes l (HPromise (promise_set_fields p st r)) <= payload_bytes l (HPromise p).
Proof. destruct st; simpl; [|nia..]. destruct (pr_fulfill p), (pr_reject p); simpl; unfold nlen; simpl; nia. Qed.

(** Shrinking a promise and storing its recomputed size. *)
Lemma promise_shrink {A} p g h q (k : M A) : heap_ok h -> live_as h p (HPromise q) ->
  payload_bytes (h_layout h) (HPromise (g q)) <= payload_bytes (h_layout h) (HPromise q) ->
  exists h', ustep p (HPromise q) (HPromise (g q)) h h' /\
   (update_promise p (fun p => Ok (g p)) ;;;
    let* bytes := mread (fun h => let? q := get_promise h p in Ok (promise_size (h_layout h) q)) in
    update_slot_bytes (hid_index p) bytes ;;; k) h = k h' /\
   (update_promise p (fun p => Ok (g p)) ;;;
    let* bytes := mread (fun h => let? q := get_promise h p in Ok (promise_size (h_layout h) q)) in
    update_slot_bytes (hid_index p) bytes) h = (h', Ok tt).
Proof.
  intros H (hs & s & Hs & Hg & Ho & _) Hle.
  destruct (resize_spec p (fun o => match o with HPromise p => let? p' := Ok (g p) in Ok (HPromise p') | _ => Err EInvalidHandle end)
     (promise_size (h_layout h) (g q)) h s (HPromise q) (HPromise (g q)))
    as (h1 & h' & E1 & L1 & Hl & E2 & U); auto.
  { done. }
  { right. apply promise_size_ok. }
  exists h'. split; auto. unfold mbind, update_promise. rewrite E1. unfold mread.
  unfold get_promise. apply get_heap_object_Ok in Hl. rewrite Hl. cbn. rewrite L1, E2. auto.
Qed.
Lemma update_promise_fail p f h : (forall q, ~ live_as h p (HPromise q)) ->
  update_promise p f h = (h, Err EInvalidHandle).
Proof.
  intros Hd. unfold update_promise, update_object. destruct (validate h p) as [ix|] eqn:Hv; auto.
  apply validate_Some in Hv as [-> Hl]. destruct (live_slot h p Hl) as (s & ob & Hs & Hg & Ho).
  rewrite Hs, Ho. destruct ob; auto. exfalso. eapply Hd. eapply slot_live; eauto.
Qed.
Lemma promise_dec h p : (exists q, live_as h p (HPromise q)) \/ (forall q, ~ live_as h p (HPromise q)).
Proof.
  destruct (get_heap_object_cases h p) as [(o & _ & Ho)|[_ Hd]].
  - destruct o; try (right; intros q (hs1 & s1 & A & B & C & D); destruct Ho as (hs2 & s2 & A' & B' & C' & D'); congruence).
    left. eauto.
  - right. intros q Hq. apply Hd. by exists (HPromise q).
Qed.
Lemma good_promise_set_state p st r : good (promise_set_state_and_result p st r).
Proof.
  intros h h' x H E. unfold promise_set_state_and_result in E.
  destruct (promise_dec h p) as [(q & Hq)|Hd].
  - destruct (promise_shrink (A:=unit) p (fun p => promise_set_fields p st r) h q (mret tt) H Hq)
      as (h1 & U & _ & E1); [apply payload_promise_set_fields|].
    rewrite E1 in E. simplify_eq. split; [apply U|split; [done|eapply ustep_evolves; eauto]].
  - unfold mbind in E. rewrite update_promise_fail in E by auto. simplify_eq.
    split; [done|split; [done|by apply evolves_refl]].
Qed.
Lemma good_promise_settle p st r : good (promise_settle_and_take_reactions p st r).
Proof.
  intros h h' x H E. unfold promise_settle_and_take_reactions in E.
  destruct (bool_decide _); [unfold mfail in E; simplify_eq; split; [done|split; [done|by apply evolves_refl]]|].
  unfold mbind at 1 in E. unfold mread at 1 in E. pose proof (np_get_promise h p) as Hn.
  destruct (get_promise h p) as [q|e|] eqn:Hq; [|simplify_eq; split; [done|split; [done|by apply evolves_refl]]|by destruct Hn].
  destruct (negb _); [unfold mret in E; simplify_eq; split; [done|split; [done|by apply evolves_refl]]|].
  assert (Hl : live_as h p (HPromise q)).
  { unfold get_promise in Hq. destruct (get_heap_object_cases h p) as [(o & E1 & Ho)|[E1 _]]; rewrite E1 in Hq; [|done].
    cbn in Hq. destruct o; try done. by injection Hq as <-. }
  destruct (promise_shrink p (fun q => q <| pr_state := st |> <| pr_result := Some r |>
     <| pr_fulfill := None |> <| pr_reject := None |>) h q (mret (default [] (pr_fulfill q), default [] (pr_reject q))) H Hl)
    as (h1 & U & E1 & _); [apply payload_promise_settled|].
  rewrite E1 in E. unfold mret in E. simplify_eq. split; [apply U|split; [done|eapply ustep_evolves; eauto]].
Qed.

Definition append_reaction_fn (is_fulfill : bool) (r : promise_reaction) : heap_object -> res heap_object := fun o =>
    match o with
    | HPromise q => let? q' := if is_fulfill then
                     match pr_fulfill q with
                     | None => Err EInvalidHandle
                     | Some l => Ok (q <| pr_fulfill := Some (l ++ [r]) |>)
                     end
                   else
                     match pr_reject q with
                     | None => Err EInvalidHandle
                     | Some l => Ok (q <| pr_reject := Some (l ++ [r]) |>)
                     end in Ok (HPromise q')
    | _ => Err EInvalidHandle
    end.
Lemma append_reaction_spec p f r h : heap_ok h ->
  (exists err, promise_append_reaction p f r h = (h, Err err)) \/
  exists q o', live_as h p (HPromise q) /\ pr_state q = Pending /\ exists h1, heap_ok h1 /\ gstep [] h h1 /\
    ((exists err, promise_append_reaction p f r h = (h1, Err err)) \/
     exists h2, append_reaction_fn f r (HPromise q) = Ok o' /\ promise_append_reaction p f r h = (h2, Ok tt)
       /\ ustep p (HPromise q) o' h1 h2).
Proof.
  intros H. unfold promise_append_reaction. destruct (validate h p) as [ix|] eqn:Hv; [|left; eauto].
  apply validate_Some in Hv as [-> Hl]. destruct (live_slot h p Hl) as (s & ob & Hs & Hg & Ho).
  rewrite Hs, Ho. destruct ob as [| | | | |q]; try (left; eauto; fail).
  destruct (bool_decide (pr_state q = Pending)) eqn:Hst; [|left; eauto]. apply bool_decide_eq_true_1 in Hst. simpl negb. cbv iota.
  unfold update_promise. fold (append_reaction_fn f r).
  set (nb := promise_bytes _ _ _ _).
  right. pose proof (slot_live h p s _ Hs Hg Ho) as Hla.
  destruct (append_reaction_fn f r (HPromise q)) as [o'|e|] eqn:Hf.
  - exists q, o'. split; auto. split; auto.
    assert (Hk : same_kind (HPromise q) o').
    { unfold append_reaction_fn in Hf. destruct f; [destruct (pr_fulfill q)|destruct (pr_reject q)]; simpl in Hf; simplify_eq; done. }
    destruct (ensure_grow_spec p (append_reaction_fn f r) nb h s (HPromise q) o')
      as (h1 & H1 & G & [(err & E & He)|(h2 & U & E)]); auto.
    + right. subst nb. rewrite promise_bytes_ok.
      unfold append_reaction_fn in Hf. destruct f; [destruct (pr_fulfill q) eqn:Hq|destruct (pr_reject q) eqn:Hq];
        simpl in Hf; simplify_eq; simpl; rewrite !opt_len_count, ?Hq; simpl; rewrite nlen_app; unfold base_payload;
        cbn; f_equal; f_equal; f_equal; unfold nlen; simpl; lia.
    + exists h1. split; auto. split; auto. left. eauto.
    + exists h1. split; auto. split; auto. right. exists h2. auto.
  - exists q, (HPromise q). split; auto. split; auto.
    destruct (ensure_spec (fun _ => sat_sub nb (sl_bytes s)) [] h H)
      as (h1 & H1 & G & _ & [[E1 _]|[E1 Hsp]]); exists h1; (split; [done|]); (split; [done|]);
      unfold mbind at 1; unfold ensure_can_allocate; rewrite E1; left; eauto.
    destruct (gstep_live_cases _ _ _ p s _ G Hs Hg Ho) as [Hs1|Hd].
    + exists e. unfold mbind. rewrite (update_object_live p _ h1 s _ Hs1 Hg Ho). by rewrite Hf.
    + exists EInvalidHandle. unfold mbind. by rewrite update_object_dead.
  - exfalso. unfold append_reaction_fn in Hf. destruct f; [destruct (pr_fulfill q)|destruct (pr_reject q)]; done.
Qed.
Lemma good_append_reaction p f r : good (promise_append_reaction p f r).
Proof.
  intros h h' x H E. destruct (append_reaction_spec p f r h H) as [(err & E1)|(o & o' & _ & _ & h1 & H1 & G & [(err & E1)|(h2 & _ & E1 & U)])];
    rewrite E1 in E; simplify_eq.
  - split; [done|split; [done|by apply evolves_refl]].
  - split; auto. split; [done|]. eapply gstep_evolves; eauto.
  - split; [apply U|]. split; [done|]. eapply evolves_trans; [eapply gstep_evolves; eauto|eapply ustep_evolves; eauto].
Qed.
Lemma good_scope_append_reaction p f r : good (scope_append_reaction p f r).
Proof. unfold scope_append_reaction. apply good_with_scope. apply good_bind; [auto with good|]. intros _. apply good_append_reaction. Qed.
Lemma good_promise_fulfill p v : good (promise_fulfill p v).
Proof. apply good_promise_set_state. Qed.
Lemma good_promise_reject p v : good (promise_reject p v).
Proof. apply good_promise_set_state. Qed.
Global Hint Resolve good_promise_set_state good_promise_settle good_append_reaction good_scope_append_reaction
  good_promise_fulfill good_promise_reject : good.

(** ** Symbol registry *)
Lemma heap_ok_set_registry h r : heap_ok h -> nlen r <= c_registry (h_caps h) -> heap_ok (h <| h_registry := r |>).
Proof.
  intros H Hr. pose proof (hk_caps h H) as (?&?&?&?&?&?&?&?&?&?&?).
  constructor; cbn; try apply H. unfold caps_cover; cbn. repeat split; auto.
Qed.
Definition registry_reserve : M unit := fun h =>
  match reserve_cap (c_registry (h_caps h)) (nlen (h_registry h) + 1) with
  | Ok c => (h <| h_caps ::= set c_registry (fun _ => c) |>, Ok tt)
  | _ => (h, Err EOutOfMemory)
  end.
(** Space is ensured and reserved: the capacity covers one more entry. *)
Lemma registry_room_spec h : heap_ok h ->
  exists h1, heap_ok h1 /\ gstep [] h h1 /\
    ((ensure_can_allocate_with (additional_bytes_for_registry 1) [] ;;; registry_reserve) h = (h1, Err EOutOfMemory) \/
     exists c, let h2 := h1 <| h_caps ::= set c_registry (fun _ => c) |> in
       (ensure_can_allocate_with (additional_bytes_for_registry 1) [] ;;; registry_reserve) h = (h2, Ok tt) /\
       heap_ok h2 /\ nlen (h_registry h1) + 1 <= c).
Proof.
  intros H. unfold mbind.
  destruct (ensure_spec (additional_bytes_for_registry 1) [] h H) as (h1 & H1 & G & _ & [[E1 _]|[E1 Hs]]);
    exists h1; (split; [done|]); (split; [done|]); rewrite E1; auto. right.
  destruct (hk_lim h1 H1) as (_ & _ & _ & Hsz & Hm & _). unfold additional_bytes_for_registry in Hs.
  set (g := vec_growth_bytes _ _ _) in Hs.
  destruct (reserve_ok (sz_registry_entry (h_layout h1)) (c_registry (h_caps h1)) (nlen (h_registry h1) + 1) (h_max_bytes h1))
    as (c & Hc & Hr & Hcur & Hg); auto; [fold g; lia|]. fold g in Hg.
  unfold registry_reserve. rewrite Hc. exists c. cbn zeta. split; [done|]. split; [|lia].
  apply heap_ok_set_caps; cbn; try lia; auto; try (split; lia).
  unfold total_bytes in *. cbn.
  assert (c * sz_registry_entry (h_layout h1) = c_registry (h_caps h1) * sz_registry_entry (h_layout h1) + g) by nia.
  lia.
Qed.
Lemma mbind_assoc {A B C} (m : M A) (f : A -> M B) (g : B -> M C) h :
  mbind (mbind m f) g h = mbind m (fun a => mbind (f a) g) h.
Proof. unfold mbind. destruct (m h) as [h1 [a|e|]]; auto. Qed.

Lemma registry_insert_unfold key sym h :
  symbol_registry_insert key sym h =
  mbind (ensure_can_allocate_with (additional_bytes_for_registry 1) [] ;;; registry_reserve)
    (fun _ => let* contents := mread (fun h => get_string h key) in
      let* r := mread (fun h => symbol_registry_binary_search h contents) in
      match r with
      | inl _ => mret tt
      | inr i => mmodify (fun h => h <| h_registry := take i (h_registry h) ++ REntry key sym
                                                      :: drop i (h_registry h) |>)
      end) h.
Proof. rewrite mbind_assoc. reflexivity. Qed.

Lemma registry_insert_spec key sym h : heap_ok h ->
  exists h1, heap_ok h1 /\ gstep [] h h1 /\
    ((exists e, symbol_registry_insert key sym h = (h1, Err e)) \/
     exists c, let h2 := h1 <| h_caps ::= set c_registry (fun _ => c) |> in heap_ok h2 /\
       ((exists e, symbol_registry_insert key sym h = (h2, Err e)) \/
        exists u r, get_string h2 key = Ok u /\ symbol_registry_binary_search h2 u = Ok r /\
          match r with
          | inl _ => symbol_registry_insert key sym h = (h2, Ok tt)
          | inr i =>
              let h3 := h2 <| h_registry := take i (h_registry h2) ++ REntry key sym :: drop i (h_registry h2) |> in
              symbol_registry_insert key sym h = (h3, Ok tt) /\ heap_ok h3
          end)).
Proof.
  intros H. destruct (registry_room_spec h H) as (h1 & H1 & G & [E|(c & E & H2 & Hc)]); exists h1;
    (split; [done|]); (split; [done|]).
  - left. exists EOutOfMemory. rewrite registry_insert_unfold. unfold mbind at 1. by rewrite E.
  - right. exists c. cbn zeta. split; auto. set (h2 := h1 <| h_caps ::= set c_registry (fun _ => c) |>) in *.
    rewrite registry_insert_unfold.
    match goal with |- context [mbind ?m ?k h] => assert (EQ : mbind m k h = k tt h2) by (unfold mbind at 1; by rewrite E) end.
    rewrite EQ. clear EQ. unfold mbind, mread.
    pose proof (np_get_string h2 key) as Hn. destruct (get_string h2 key) as [u|e|]; [|left; eauto|by destruct Hn].
    pose proof (np_binary_search h2 u) as Hn2.
    destruct (symbol_registry_binary_search h2 u) as [r|e|] eqn:Hr; [|left; eauto|by destruct Hn2].
    right. exists u, r. split; auto. split; auto. destruct r as [i|i]; auto. split; auto.
    apply heap_ok_set_registry; auto. unfold symbol_registry_binary_search in Hr.
    apply registry_search_bound in Hr; [|lia]. unfold nlen. rewrite app_length, take_length. simpl. rewrite drop_length.
    subst h2. cbn in *. unfold nlen in Hc. lia.
Qed.
Lemma good_registry_insert key sym : good (symbol_registry_insert key sym).
Proof.
  intros h h' r H E. destruct (registry_insert_spec key sym h H) as (h1 & H1 & G & [(e & E1)|(c & H2 & [(e & E1)|(u & x & _ & _ & E1)])]).
  - rewrite E1 in E. simplify_eq. split; auto. split; [done|]. eapply gstep_evolves; eauto.
  - rewrite E1 in E. simplify_eq. split; auto. split; [done|].
    eapply evolves_trans; [eapply gstep_evolves; eauto|]. by apply evolves_same_slots.
  - destruct x as [i|i].
    + rewrite E1 in E. simplify_eq. split; auto. split; [done|].
      eapply evolves_trans; [eapply gstep_evolves; eauto|]. by apply evolves_same_slots.
    + destruct E1 as [E1 H3]. rewrite E1 in E. simplify_eq. split; auto. split; [done|].
      eapply evolves_trans; [eapply gstep_evolves; eauto|]. by apply evolves_same_slots.
Qed.
Global Hint Resolve good_registry_insert : good.
Lemma good_symbol_for key : good (symbol_for key).
Proof.
  unfold symbol_for. do 2 (apply good_bind; [auto with good|]; intros ?). destruct a0; [auto with good|].
  apply good_bind; [auto with good|]. intros _. apply good_with_scope.
  do 4 (apply good_bind; [auto with good|]; intros ?). auto with good.
Qed.

(** ** Functions *)
Lemma good_compute_function_name n p : good (compute_function_name n p).
Proof.
  unfold compute_function_name. destruct p, n; auto with good; (apply good_bind; [|auto with good]); auto 10 with good np.
Qed.
Global Hint Resolve good_symbol_for good_compute_function_name : good.
Lemma good_set_function_name f n p : good (set_function_name f n p).
Proof.
  unfold set_function_name. apply good_with_scope.
  do 5 (apply good_bind; [auto with good|]; intros ?). apply good_update_function. done.
Qed.
Lemma good_set_function_length f n : good (set_function_length f n).
Proof.
  unfold set_function_length. apply good_with_scope.
  do 3 (apply good_bind; [auto with good|]; intros ?). apply good_update_function. done.
Qed.
Lemma good_make_constructor f : good (make_constructor f).
Proof.
  unfold make_constructor. apply good_with_scope.
  do 7 (apply good_bind; [auto with good|]; intros ?). auto with good.
Qed.
Global Hint Resolve good_set_function_name good_set_function_length good_make_constructor : good.
Lemma good_alloc_native_function a b c d e f : good (alloc_native_function a b c d e f).
Proof.
  unfold alloc_native_function. apply good_with_scope. apply good_bind; [auto with good|]. intros _.
  apply good_layout. intros l. apply goodl_bind; [auto with good|]. intros _.
  apply goodl_bind; [apply goodl_alloc; right; apply function_size_ok|]. intros fn. apply goodl_of_good.
  do 2 (apply good_bind; [auto with good|]; intros ?). auto with good.
Qed.
Lemma good_alloc_ecma_function a b c d e f g : good (alloc_ecma_function a b c d e f g).
Proof.
  unfold alloc_ecma_function. apply good_with_scope. apply good_bind; [auto with good|]. intros _.
  apply good_layout. intros l. apply goodl_bind; [auto with good|]. intros _.
  apply goodl_bind; [apply goodl_alloc; right; apply function_size_ok|]. intros fn. apply goodl_of_good.
  do 2 (apply good_bind; [auto with good|]; intros ?). auto with good.
Qed.
Lemma good_alloc_bound_function_raw a b c d e f g : good (alloc_bound_function_raw a b c d e f g).
Proof.
  unfold alloc_bound_function_raw. apply good_with_scope. apply good_bind; [auto with good|]. intros _.
  apply good_layout. intros l. apply goodl_bind; [auto with good|]. intros _.
  apply goodl_alloc; right; apply function_size_ok.
Qed.
Lemma good_alloc_bound_function a b c d e : good (alloc_bound_function a b c d e).
Proof.
  unfold alloc_bound_function. apply good_bind; [auto 10 with good np|]. intros. apply good_alloc_bound_function_raw.
Qed.
Lemma good_alloc_user_function a b c : good (alloc_user_function a b c).
Proof.
  unfold alloc_user_function. apply good_with_scope. apply good_bind; [auto with good|]. intros _.
  apply good_layout. intros l. apply goodl_bind; [auto with good|]. intros _.
  apply goodl_bind; [apply goodl_alloc; right; apply function_size_ok|]. intros fn. apply goodl_of_good.
  do 2 (apply good_bind; [auto with good|]; intros ?). auto with good.
Qed.
Global Hint Resolve good_alloc_native_function good_alloc_ecma_function good_alloc_bound_function_raw
  good_alloc_bound_function good_alloc_user_function : good.
