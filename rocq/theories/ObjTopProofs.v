(** The object internal methods called from unrooted handles, on abstract objects. *)
From stdpp Require Import base decidable list numbers sets sorting.
From Coq Require Import NArith ZArith Lia.
From RecordUpdate Require Import RecordUpdate.
From Verif Require Import VmBase HeapModel HeapObjModel HeapSpec HeapGcProofs HeapInvProofs HeapObjProofs
  ObjectOpsModel ObjectOpsProofs HeapTidyProofs HeapSafeProofs HeapSafeOps HeapSafeOps2 HeapSafeOps3 HeapHistory HeapHistoryProofs
  KeySpec KeyProofs ObjSpec ObjViewProofs ObjDefineProofs ObjOpsProofs ObjArrayProofs.

Open Scope N_scope.

(** *** Array [[DefineOwnProperty]] after its roots are pushed *)
Definition array_rest (o : heap_id) (k : property_key) (p : descriptor_patch) : M bool :=
  let* is_length := mget (fun h => property_key_is_length h k) in
  if (is_length : bool) then
    let* length_key := mread (fun h => array_length_key h o) in
    array_set_length o length_key p
  else
    let* ix := mget (fun h => array_index h k) in
    match ix with
    | Some index =>
        let* old_len := mread (fun h => array_length h o) in
        let* ok := (if old_len <=? index then mread (fun h => array_length_writable h o) else mret true) in
        if negb (ok : bool) then mret false
        else
          let* succeeded := ordinary_define_own_property o k p in
          if negb (succeeded : bool) then mret false
          else
            (if old_len <=? index then
               match checked_succ32 index with
               | None => mfail EInvariantViolation
               | Some new_len => heap_array_set_length o new_len
               end
             else mret tt) ;;;
            mret true
    | None => ordinary_define_own_property o k p
    end.

Definition array_result v n w es ck ap : res bool -> aobj -> Prop := fun r v' =>
  (exists ok, r = Ok ok /\ array_define_spec v n w es ck ap ok v') \/
  (r = Err EOutOfMemory /\ (v' = v \/ ck = akey_length /\ array_oom v n w es ap v')).

Lemma tria_array_rest o X v h k p n w es : st h o X v h -> array_shape v n w es ->
  trace_key k ⊆ X -> trace_values (patch_values p) ⊆ X -> good_key (abs_key h k) -> patch_good (abs_patch h p) -> ~ patch_mixed (abs_patch h p) ->
  tria h o X v h (array_rest o k p) (array_result v n w es (abs_key h k) (abs_patch h p)).
Proof.
  intros S Sh Hk Hp Hg Hgood Hmix. unfold array_rest. apply tria_get. rewrite key_is_length_abs.
  assert (Lk : forall x, x ∈ trace_key k -> live h x) by (intros; eapply st_live; eauto).
  assert (Lp : forall x, x ∈ trace_values (patch_values p) -> live h x) by (intros; eapply st_live; eauto).
  destruct (array_entry_st _ _ _ _ _ _ _ _ S Sh) as (b & e & ps & Eb & Hkb & Hpb & Hke & _ & Hle & _ & Hh).
  case_bool_decide as Hl.
  { eapply tria_read; [unfold array_length_key; by rewrite Hle|]. rewrite Hl.
    eapply tria_post; [eapply array_set_length_at; eauto|]. intros r v' [?|[-> ?]]; [by left|]. right. auto. }
  apply tria_get. destruct (array_index h k) as [i|] eqn:Hi.
  2:{ eapply tria_post; [by eapply tria_odop_elem|]. assert (Hni : forall i, ~ akey_index (abs_key h k) i).
      { intros i Hx. apply array_index_abs in Hx. congruence. }
      intros r v' [(-> & Hr & ->)|[(-> & Hr & HD)|[-> ->]]].
      - left. eexists. split; [done|]. by apply ads_other_rejected.
      - left. eexists. split; [done|]. cbn zeta in HD. destruct HD as [[-> Ha]|[(i & Hx & _)|[_ ->]]].
        + rewrite <- (array_with_same v n w es) at 2 by done. rewrite <- Ha at 2. by apply ads_other.
        + by destruct (Hni i).
        + by apply ads_other.
      - right. auto. }
  apply array_index_abs in Hi. assert (Hi32 : i < 2 ^ 32 - 1) by apply Hi.
  eapply tria_read; [by eapply array_length_st|].
  assert (Hgo : i < n \/ w = true ->
    tria h o X v h (let* succeeded := ordinary_define_own_property o k p in
          if negb (succeeded : bool) then mret false
          else
            (if n <=? i then
               match checked_succ32 i with
               | None => mfail EInvariantViolation
               | Some new_len => heap_array_set_length o new_len
               end
             else mret tt) ;;;
            mret true) (array_result v n w es (abs_key h k) (abs_patch h p))).
  { intros Hw. eapply tria_bind; [by eapply (tria_odop_elem h o X v n w es h k p)|..].
    - set (d := merged (own v (abs_key h k)) (abs_patch h p)).
      intros ok v' [(E & Hr & ->)|[(E & Hr & HD)|[? ?]]]; [| |done]; injection E as ->; cbn [negb].
      { apply tri_ret. left. eexists. split; [done|]. by eapply ads_index_rejected. }
      cbn zeta in HD. fold d in HD.
      assert (HD' : exists m es1, v' = array_with v m w es1 /\ es1 = aput (abs_key h k) d es /\ (n <= i \/ m = N.max n (i + 1))).
      { destruct HD as [[-> Ha]|[(j & Hx & ->)|[Hn _]]].
        - exists n, es. split; [by rewrite array_with_same|]. split; [done|]. lia.
        - rewrite (akey_index_fun _ _ _ Hx Hi). eauto 8.
        - by destruct (Hn i). }
      destruct HD' as (m & es1 & -> & -> & Hm). clear HD.
      assert (Hspec : array_define_spec v n w es (abs_key h k) (abs_patch h p) true (array_with v (N.max n (i + 1)) w (aput (abs_key h k) d es))) by by apply ads_index.
      destruct (N.leb_spec n i) as [Le|Lt].
      + unfold checked_succ32. destruct (N.eqb_spec i u32_max) as [->|_]; [exfalso; by vm_compute in Hi32|].
        eapply tri_bind; [eapply (tri_heap_array_set_length h o X _ m (anum m) w _ (i + 1)); [done|done|lia]|..].
        * intros [] v' [_ ->]. apply tri_ret. left. eexists. split; [done|]. rewrite array_with_with.
          replace (i + 1) with (N.max n (i + 1)) by lia. done.
        * intros e0 v' [? _]. done.
        * intros v' [? _]. done.
      + destruct Hm as [?|Hm]; [lia|]. eapply tri_bind; [apply (tri_ret _ _ _ _ _ (fun r v' => r = Ok tt /\ v' = array_with v m w (aput (abs_key h k) d es))); done|..].
        * intros [] v' [_ ->]. apply tri_ret. left. eexists. split; [done|]. by rewrite Hm.
        * intros e0 v' [? _]. done.
        * intros v' [? _]. done.
    - intros e0 v' [(? & _)|[(? & _)|[[= ->] ->]]]; [done..|]. right. auto.
    - intros v' [(? & _)|[(? & _)|[? _]]]; done. }
  destruct (N.leb_spec n i) as [Le|Lt].
  - eapply tria_read; [by eapply array_writable_st|]. destruct w eqn:Ew; cbn [negb].
    + apply Hgo. by right.
    + apply tria_ret; [done|]. left. eexists. split; [done|]. by eapply ads_index_readonly.
  - intros h' r E. unfold mbind at 1, mret at 1 in E. cbn [negb] in E. apply Hgo in E; [done|by left].
Qed.

(** *** [[DefineOwnProperty]] while the object is rooted *)
Definition shaped (v : aobj) : Prop := ao_array v = None \/ exists n w es, array_shape v n w es.
Definition define_result (v : aobj) (k : akey) (p : apatch) : res bool -> aobj -> Prop := fun r v' =>
  (exists ok, r = Ok ok /\ define_spec v k p ok v') \/ (r = Err EInvalidPatch /\ patch_mixed p /\ v' = v) \/
  (r = Err EOutOfMemory /\ define_oom v k p v').

Lemma array_result_define v n w es k p r v' : array_shape v n w es -> array_result v n w es k p r v' -> define_result v k p r v'.
Proof.
  intros Sh [(ok & -> & H)|(-> & H)].
  - left. exists ok. split; [done|]. by eapply dfs_array.
  - right. right. split; [done|]. destruct H as [->|(Hk & [->|(x & m & es' & Hx & Hm & Lt & -> & Hr & [Hs Hg] & ->)])]; [constructor..|].
    by eapply doo_cut.
Qed.
Lemma odop_unfold o k p : ordinary_define_own_property o k p =
  (mread (fun _ => patch_validate p) ;;; push_roots (VObject o :: key_value k :: patch_values p) ;;; odop_rest o k p).
Proof. done. Qed.
Lemma adop_unfold o k p : array_define_own_property o k p =
  (mread (fun _ => patch_validate p) ;;; push_roots (VObject o :: key_value k :: patch_values p) ;;; array_rest o k p).
Proof. done. Qed.

Lemma tria_odop_rest_ordinary o X v h k p : st h o X v h -> ao_array v = None -> trace_key k ⊆ X -> trace_values (patch_values p) ⊆ X ->
  good_key (abs_key h k) -> patch_good (abs_patch h p) -> ~ patch_mixed (abs_patch h p) ->
  tria h o X v h (odop_rest o k p) (define_result v (abs_key h k) (abs_patch h p)).
Proof.
  intros S Ha Hk Hp Hg Hgood Hmix.
  eapply tria_post; [eapply (tria_odop_rest o X v h k p (fun v' =>
    v' = with_props v (aput (abs_key h k) (merged (own v (abs_key h k)) (abs_patch h p)) (ao_props v)))); auto|].
  - intros E. rewrite aput_same by done. by destruct v.
  - intros _ h1 Y d HY1 HY2 Ek Ed. rewrite <- Ed, <- Ek. apply tri_heap_define; auto. by rewrite Ek.
  - intros r v' [(-> & Hr & ->)|[(-> & Hr & ->)|[-> ->]]].
    + left. eexists. split; [done|]. apply dfs_ordinary; [done|]. by constructor.
    + left. eexists. split; [done|]. apply dfs_ordinary; [done|]. by constructor.
    + right. right. split; [done|]. constructor.
Qed.

Definition define_rest (arr : bool) := if arr then array_rest else odop_rest.
Lemma tria_define_rest o X v h k p arr : st h o X v h -> shaped v -> arr = bool_decide (ao_array v <> None) ->
  trace_key k ⊆ X -> trace_values (patch_values p) ⊆ X ->
  good_key (abs_key h k) -> patch_good (abs_patch h p) -> ~ patch_mixed (abs_patch h p) ->
  tria h o X v h (define_rest arr o k p) (define_result v (abs_key h k) (abs_patch h p)).
Proof.
  intros S [Ha|(n & w & es & Sh)] -> Hk Hp Hg Hgood Hmix.
  - rewrite bool_decide_false by (intros Hn; by apply Hn). by apply tria_odop_rest_ordinary.
  - rewrite bool_decide_true by (by rewrite (ar_len _ _ _ _ Sh)).
    eapply tria_post; [by eapply tria_array_rest|]. intros r v'. by apply array_result_define.
Qed.
Lemma define_unfold h o v k p : abs_object h o = Some v ->
  define_own_property o k p h = (mread (fun _ => patch_validate p) ;;; push_roots (VObject o :: key_value k :: patch_values p) ;;;
    define_rest (bool_decide (ao_array v <> None)) o k p) h.
Proof.
  intros (b & Eb & ->)%abs_object_Some. unfold define_own_property. unfold mbind at 1, mread at 1, object_is_array. rewrite Eb. cbn [rbind].
  assert (match base_array_length b with Some _ => true | None => false end = bool_decide (ao_array (abs_base h b) <> None)) as ->.
  { cbn. unfold base_array_length. by destruct (ob_kind b). }
  case_bool_decide; done.
Qed.

Lemma tria_define_own h0 o X v h k p : st h0 o X v h -> shaped v ->
  (forall x, x ∈ trace_key k -> live h x) -> (forall x, x ∈ trace_values (patch_values p) -> live h x) ->
  good_key (abs_key h k) -> patch_good (abs_patch h p) ->
  tria h0 o X v h (define_own_property o k p) (define_result v (abs_key h k) (abs_patch h p)).
Proof.
  intros S Hsh Hk Hp Hg Hgood h' r E. rewrite (define_unfold _ _ _ _ _ (st_view _ _ _ _ _ S)) in E. revert h' r E.
  destruct (decide (patch_mixed (abs_patch h p))) as [Hm|Hm].
  { intros h' r E. unfold mbind at 1, mread at 1 in E. rewrite (patch_validate_abs h), decide_True in E by done. injection E as <- <-.
    split; [apply frame_refl|]. split; [apply stack_ext_refl|]. exists v. split; [done|]. right. left. done. }
  eapply tria_read; [by rewrite (patch_validate_abs h), decide_False by done|].
  apply tria_push_then; [done| |right; right; split; [done|constructor]|].
  { intros x. rewrite !trace_values_cons, trace_key_value. cbn. rewrite elem_of_cons, elem_of_app.
    intros [->|[Hx|Hx]]; [|auto..]. eapply st_live; eauto. apply S. }
  intros h1 S1 Str. rewrite !trace_values_cons, trace_key_value in S1 |- *. set (X1 := X ++ _) in *.
  assert (Hk1 : trace_key k ⊆ X1) by (unfold X1; set_solver).
  assert (Hp1 : trace_values (patch_values p) ⊆ X1) by (unfold X1; set_solver).
  assert (L1 : forall x, x ∈ X1 -> live h1 x) by (intros x Hx; by eapply st_live).
  assert (Ek : abs_key h1 k = abs_key h k).
  { apply abs_key_ext. intros s Hs. apply Str, L1, Hk1, trace_key_in, Hs. }
  assert (Ep : abs_patch h1 p = abs_patch h p).
  { apply abs_patch_ext. intros s Hs. apply Str, L1, Hp1, Hs. }
  rewrite <- Ek, <- Ep. apply tria_define_rest; auto; by rewrite ?Ek, ?Ep.
Qed.

(** *** Calls from unrooted handles *)
Record ready (h : heap) (o : heap_id) (v : aobj) : Prop := {
  rd_ok : heap_ok h;
  rd_nd : no_dangling h;
  rd_wf : well_formed h o v }.
Lemma ready_shaped h o v : ready h o v -> shaped v.
Proof. intros [_ _ [_ [H|[H _]]]]; [by left|by right]. Qed.
Lemma ready_live h o v : ready h o v -> live h o.
Proof. intros [_ _ [(b & (x & Hx & _)%get_object_base_Ok & _)%abs_object_Some _]]. by exists x. Qed.
Lemma ready_kind h o v : ready h o v -> ao_array v <> None -> exists b, live_as h o (HObject b).
Proof. intros [_ _ [_ [H|[_ (b & H%get_heap_object_Ok)]]]] Hn; [done|]. by exists b. Qed.

(** The call keeps every other object, and either reaches [Q], or runs out of
    memory before doing anything. *)
Definition top {A} (o : heap_id) (v : aobj) (h : heap) (m : M A) (Q : res A -> aobj -> Prop) : Prop :=
  forall h' r, m h = (h', r) -> frame o h h' /\
    ((exists v', abs_object h' o = Some v' /\ (ao_array v' <> None -> exists b, live_as h' o (HObject b)) /\ Q r v') \/
     (r = Err EOutOfMemory /\ (live h' o -> abs_object h' o = Some v /\ (ao_array v <> None -> exists b, live_as h' o (HObject b))))).

Lemma top_tria {A} h0 o X v h (m : M A) (Q : res A -> aobj -> Prop) : tria h0 o X v h m Q -> top o v h m Q.
Proof. intros H h' r E. destruct (H _ _ E) as (F & _ & v' & S & Hq). split; [done|]. left. exists v'. split; [apply S|]. split; [apply S|done]. Qed.
Lemma top_post {A} o v h (m : M A) (Q Q' : res A -> aobj -> Prop) : top o v h m Q -> (forall r v', Q r v' -> Q' r v') -> top o v h m Q'.
Proof. intros H Hq h' r E. destruct (H _ _ E) as (F & [(v' & V & K & Hr)|?]); eauto 8. Qed.
Lemma top_with_scope {A} o v h (m : M A) (Q : res A -> aobj -> Prop) : top o v h m Q -> top o v h (with_scope m) Q.
Proof.
  intros H h' r E. unfold with_scope in E. destruct (m h) as [h1 r1] eqn:Em. injection E as <- <-.
  destruct (H _ _ Em) as [F Hc]. set (h' := h1 <| h_roots := _ |> <| h_env_roots := _ |>).
  assert (Es : h_slots h' = h_slots h1) by done.
  assert (Hl : forall b, live_as h1 o (HObject b) -> live_as h' o (HObject b)) by (intros b; unfold live_as, live_with; by rewrite Es).
  split; [eapply frame_trans; [exact F|by apply frame_slots]|]. rewrite (slots_view _ _ _ Es). destruct Hc as [(v' & V & K & Hq)|[-> K]].
  - left. exists v'. split; [done|]. split; [|done]. intros Hv. destruct (K Hv) as (b & Hb). exists b. auto.
  - right. split; [done|]. intros L%(live_slots _ _ _ Es). destruct (K L) as [V K']. split; [done|]. intros Hv. destruct (K' Hv) as (b & Hb). exists b. auto.
Qed.
Lemma top_push_then {A} o v h vs (m : M A) (Q : res A -> aobj -> Prop) : ready h o v -> o ∈ trace_values vs ->
  (forall x, x ∈ trace_values vs -> live h x) ->
  (forall h1, st h1 o (trace_values vs) v h1 ->
     (forall x, live h1 x -> get_string h1 x = get_string h x) -> tria h1 o (trace_values vs) v h1 m Q) ->
  top o v h (push_roots vs ;;; m) Q.
Proof.
  intros R Ho HL Hm h' r E. unfold mbind in E. destruct (push_roots vs h) as [h1 r1] eqn:E1.
  destruct (push_enter vs h h1 r1 (rd_ok _ _ _ R) (rd_nd _ _ _ R) HL E1) as (H1 & N1 & T1 & F1 & Hr & Str & Vw & Lv & Rt).
  assert (Hv : abs_object h o = Some v) by apply R.
  destruct Hr as [->| ->].
  - assert (S : st h1 o (trace_values vs) v h1).
    { assert (live h1 o) by (by apply N1, stack_rooted_rooted, Rt). constructor; auto.
      - by rewrite Vw.
      - intros Hk. destruct (ready_kind _ _ _ R Hk) as (b & Hb). exists b. auto. }
    destruct (Hm h1 S Str h' r E) as (F2 & _ & v' & S' & Hq). split; [eapply frame_trans; [apply F1|done]|].
    left. exists v'. split; [apply S'|]. split; [apply S'|done].
  - injection E as <- <-. split; [by apply F1|]. right. split; [done|]. intros Hl. rewrite Vw by done. split; [done|].
    intros Hk. destruct (ready_kind _ _ _ R Hk) as (b & Hb). exists b. auto.
Qed.

Lemma top_define_own h o v k p : ready h o v ->
  (forall x, x ∈ trace_key k -> live h x) -> (forall x, x ∈ trace_values (patch_values p) -> live h x) ->
  good_key (abs_key h k) -> patch_good (abs_patch h p) ->
  top o v h (define_own_property o k p) (define_result v (abs_key h k) (abs_patch h p)).
Proof.
  intros R Hk Hp Hg Hgood h' r E. assert (Hv : abs_object h o = Some v) by apply R. rewrite (define_unfold _ _ _ _ _ Hv) in E.
  destruct (decide (patch_mixed (abs_patch h p))) as [Hm|Hm].
  { unfold mbind at 1, mread at 1 in E. rewrite (patch_validate_abs h), decide_True in E by done. injection E as <- <-.
    split; [apply frame_refl|]. left. exists v. split; [done|]. split; [by apply ready_kind|]. right. left. done. }
  unfold mbind at 1, mread at 1 in E. rewrite (patch_validate_abs h), decide_False in E by done.
  revert h' r E. apply top_push_then; [done|..].
  { rewrite !trace_values_cons. cbn. left. }
  { intros x. rewrite !trace_values_cons, trace_key_value. cbn. rewrite elem_of_cons, elem_of_app.
    intros [->|[Hx|Hx]]; [|auto..]. by eapply ready_live. }
  intros h1 S1 Str. rewrite !trace_values_cons, trace_key_value in S1 |- *. set (X1 := trace_value (VObject o) ++ _) in *.
  assert (Hk1 : trace_key k ⊆ X1) by (unfold X1; set_solver).
  assert (Hp1 : trace_values (patch_values p) ⊆ X1) by (unfold X1; set_solver).
  assert (L1 : forall x, x ∈ X1 -> live h1 x) by (intros x Hx; by eapply st_live).
  assert (Ek : abs_key h1 k = abs_key h k).
  { apply abs_key_ext. intros s Hs. apply Str, L1, Hk1, trace_key_in, Hs. }
  assert (Ep : abs_patch h1 p = abs_patch h p).
  { apply abs_patch_ext. intros s Hs. apply Str, L1, Hp1, Hs. }
  rewrite <- Ek, <- Ep. apply tria_define_rest; auto; rewrite ?Ek, ?Ep; auto. by eapply ready_shaped.
Qed.

Definition or_throw (Q : res bool -> aobj -> Prop) : res unit -> aobj -> Prop := fun r v' =>
  (r = Ok tt /\ Q (Ok true) v') \/ (r = Err ETypeError /\ Q (Ok false) v') \/ (exists e, r = Err e /\ Q (Err e) v') \/ (r = Panic /\ Q Panic v').

Lemma tria_or_throw h0 o X v h (m : M bool) (Q : res bool -> aobj -> Prop) : tria h0 o X v h m Q ->
  tria h0 o X v h (let* ok := m in if (ok : bool) then mret tt else mfail ETypeError) (or_throw Q).
Proof.
  intros H. eapply tria_bind; [exact H|..].
  - intros [] v' Hq; [apply tri_ret; left|apply tri_fail; right; left]; done.
  - intros e v' Hq. right. right. left. eauto.
  - intros v' Hq. right. right. right. done.
Qed.
Lemma top_or_throw o v h (m : M bool) (Q : res bool -> aobj -> Prop) : top o v h m Q ->
  top o v h (let* ok := m in if (ok : bool) then mret tt else mfail ETypeError) (or_throw Q).
Proof.
  intros H h' r E. unfold mbind in E. destruct (m h) as [h1 r1] eqn:E1. destruct (H _ _ E1) as [F Hc].
  assert (Hr : match r1 with Ok true => r = Ok tt | Ok false => r = Err ETypeError | Err e => r = Err e | Panic => r = Panic end /\ h' = h1).
  { destruct r1 as [[]| |]; cbn in E; unfold mret, mfail in E; by injection E as <- <-. }
  destruct Hr as [Hr ->]. split; [done|]. destruct Hc as [(v' & V & K & Hq)|[-> K]].
  - left. exists v'. split; [done|]. split; [done|]. unfold or_throw. destruct r1 as [[]| |]; eauto 8.
  - right. done.
Qed.

Lemma pushed_ext h h1 o X v vs k p : st h1 o X v h1 -> (forall x, live h1 x -> get_string h1 x = get_string h x) -> trace_values vs ⊆ X ->
  trace_key k ⊆ trace_values vs -> trace_values (patch_values p) ⊆ trace_values vs ->
  abs_key h1 k = abs_key h k /\ abs_patch h1 p = abs_patch h p /\
  (forall x, x ∈ trace_key k -> live h1 x) /\ (forall x, x ∈ trace_values (patch_values p) -> live h1 x).
Proof.
  intros S Str Hvs Hk Hp. assert (L : forall x, x ∈ trace_values vs -> live h1 x) by (intros x Hx; eapply st_live; eauto).
  split; [|split; [|split]]; auto.
  - apply abs_key_ext. intros s Hs. apply Str, L, Hk, trace_key_in, Hs.
  - apply abs_patch_ext. intros s Hs. apply Str, L, Hp, Hs.
Qed.

Lemma top_define_or_throw h o v k p : ready h o v ->
  (forall x, x ∈ trace_key k -> live h x) -> (forall x, x ∈ trace_values (patch_values p) -> live h x) ->
  good_key (abs_key h k) -> patch_good (abs_patch h p) ->
  top o v h (define_property_or_throw o k p) (or_throw (define_result v (abs_key h k) (abs_patch h p))).
Proof.
  intros R Hk Hp Hg Hgood. unfold define_property_or_throw. apply top_with_scope, top_push_then; [done|..].
  { rewrite !trace_values_cons. cbn. left. }
  { intros x. rewrite !trace_values_cons, trace_key_value. cbn. rewrite elem_of_cons, elem_of_app.
    intros [->|[Hx|Hx]]; [|auto..]. by eapply ready_live. }
  intros h1 S1 Str.
  destruct (pushed_ext h h1 o _ v (VObject o :: key_value k :: patch_values p) k p S1 Str) as (Ek & Ep & Lk & Lp); [done| | |].
  { rewrite !trace_values_cons, trace_key_value. set_solver. }
  { rewrite !trace_values_cons, trace_key_value. set_solver. }
  apply tria_or_throw. rewrite <- Ek, <- Ep. apply tria_define_own; auto; rewrite ?Ek, ?Ep; auto. by eapply ready_shaped.
Qed.

Lemma data_patch_values x : patch_values (data_patch x) = [x].
Proof. done. Qed.
Lemma tria_create_data h0 o X v h k x : st h0 o X v h -> shaped v ->
  (forall y, y ∈ trace_key k -> live h y) -> (forall y, y ∈ trace_values [x] -> live h y) ->
  good_key (abs_key h k) -> ~ stale (abs_value h x) ->
  tria h0 o X v h (create_data_property o k x) (define_result v (abs_key h k) (abs_patch h (data_patch x))).
Proof.
  intros S Hsh Hk Hx Hg Hgood. unfold create_data_property. apply tria_with_scope; [done|].
  apply tria_push_then; [done| |right; right; split; [done|constructor]|].
  { intros y. rewrite 2!trace_values_cons, trace_key_value. cbn [trace_value app]. rewrite elem_of_cons, elem_of_app.
    intros [->|[Hy|Hy]]; [|auto..]. eapply st_live; eauto. apply S. }
  intros h1 S1 Str.
  destruct (pushed_ext h h1 o _ v [VObject o; key_value k; x] k (data_patch x) S1 Str) as (Ek & Ep & Lk & Lp); [set_solver| | |].
  { rewrite !trace_values_cons, trace_key_value. set_solver. }
  { rewrite data_patch_values, !trace_values_cons. set_solver. }
  rewrite <- Ek, <- Ep. apply tria_define_own; auto; rewrite ?Ek, ?Ep; auto.
  split; [|split]; cbn; [intros y [= <-]; done|done|done].
Qed.
Lemma top_create_data h o v k x : ready h o v ->
  (forall y, y ∈ trace_key k -> live h y) -> (forall y, y ∈ trace_values [x] -> live h y) ->
  good_key (abs_key h k) -> ~ stale (abs_value h x) ->
  top o v h (create_data_property o k x) (define_result v (abs_key h k) (abs_patch h (data_patch x))).
Proof.
  intros R Hk Hx Hg Hgood. unfold create_data_property. apply top_with_scope, top_push_then; [done|..].
  { rewrite trace_values_cons. cbn. left. }
  { intros y. rewrite 2!trace_values_cons, trace_key_value. cbn [trace_value app]. rewrite elem_of_cons, elem_of_app.
    intros [->|[Hy|Hy]]; [|auto..]. by eapply ready_live. }
  intros h1 S1 Str.
  destruct (pushed_ext h h1 o _ v [VObject o; key_value k; x] k (data_patch x) S1 Str) as (Ek & Ep & Lk & Lp); [done| | |].
  { rewrite !trace_values_cons, trace_key_value. set_solver. }
  { rewrite data_patch_values, !trace_values_cons. set_solver. }
  rewrite <- Ek, <- Ep. apply tria_define_own; auto; rewrite ?Ek, ?Ep; auto; [by eapply ready_shaped|].
  split; [|split]; cbn; [intros y [= <-]; done|done|done].
Qed.

(** *** [[Delete]] *)
Definition delete_result (v : aobj) (k : akey) : res bool -> aobj -> Prop := fun r v' =>
  (exists ok, r = Ok ok /\ delete_spec v k ok v') \/ (r = Err EOutOfMemory /\ v' = v).
Lemma shaped_array v : shaped v -> ao_array v <> None -> exists n w es, array_shape v n w es.
Proof. by intros [?|?]. Qed.
Lemma top_delete h o v k : ready h o v -> (forall x, x ∈ trace_key k -> live h x) -> good_key (abs_key h k) ->
  top o v h (ordinary_delete o k) (delete_result v (abs_key h k)).
Proof.
  intros R Hk Hg. apply top_push_then; [done|..].
  { rewrite trace_values_cons. cbn. left. }
  { intros x. rewrite 2!trace_values_cons, trace_key_value. cbn. rewrite elem_of_cons, app_nil_r.
    intros [->|Hx]; [|auto..]. by eapply ready_live. }
  intros h1 S1 Str h' r E. destruct (st_base _ _ _ _ _ S1) as (b & Eb & _).
  destruct (pushed_ext h h1 o _ v [VObject o; key_value k] k patch_default S1 Str) as (Ek & _ & _ & _); [done| | |].
  { rewrite !trace_values_cons, trace_key_value. set_solver. }
  { cbn. set_solver. }
  rewrite <- Ek in Hg |- *.
  destruct (delete_rest _ _ _ _ _ _ _ _ _ S1 Eb Hg (shaped_array _ (ready_shaped _ _ _ R)) E) as (F & T & _ & v' & b' & S' & _ & Hc).
  split; [done|]. split; [done|]. exists v'. split; [done|]. destruct Hc as [[? _]|(? & ? & _)]; [by left|by right].
Qed.
Lemma top_delete_or_throw h o v k : ready h o v -> (forall x, x ∈ trace_key k -> live h x) -> good_key (abs_key h k) ->
  top o v h (delete_property_or_throw o k) (or_throw (delete_result v (abs_key h k))).
Proof.
  intros R Hk Hg. unfold delete_property_or_throw. apply top_with_scope, top_push_then; [done|..].
  { rewrite trace_values_cons. cbn. left. }
  { intros x. rewrite 2!trace_values_cons, trace_key_value. cbn. rewrite elem_of_cons, app_nil_r.
    intros [->|Hx]; [|auto..]. by eapply ready_live. }
  intros h1 S1 Str. apply tria_or_throw. intros h' r E. destruct (st_base _ _ _ _ _ S1) as (b & Eb & _).
  destruct (pushed_ext h h1 o _ v [VObject o; key_value k] k patch_default S1 Str) as (Ek & _ & Lk & _); [done| | |].
  { rewrite !trace_values_cons, trace_key_value. set_solver. }
  { cbn. set_solver. }
  rewrite <- Ek in Hg |- *.
  destruct (delete_at _ _ _ _ _ _ _ _ _ S1 Eb Lk Hg (shaped_array _ (ready_shaped _ _ _ R)) E) as (F & T & _ & v' & b' & S' & _ & Hc).
  split; [done|]. split; [done|]. exists v'. split; [done|]. destruct Hc as [[? _]|(? & ? & _)]; [by left|by right].
Qed.

(** *** [[Set]] with an object as receiver *)
Definition value_only (x : aval) : apatch := APatch None None (Some x) None None None.
Definition set_result (v : aobj) (k : akey) (x : aval) : res bool -> aobj -> Prop := fun r v' =>
  (v' = v /\ r <> Ok true) \/
  ((exists d y, own v k = Some d /\ a_kind d = AData y true) /\ define_result v k (value_only x) r v') \/
  (own v k = None /\ define_result v k (APatch (Some true) (Some true) (Some x) (Some true) None None) r v').
Lemma top_set h o k x rc v : ready h rc v -> live h o -> (forall y, y ∈ trace_key k -> live h y) -> (forall y, y ∈ trace_values [x] -> live h y) ->
  good_key (abs_key h k) -> ~ stale (abs_value h x) ->
  top rc v h (ordinary_set stop_call o k x (VObject rc)) (set_result v (abs_key h k) (abs_value h x)).
Proof.
  intros R Lo Hk Hx Hg Hgood. unfold ordinary_set. apply top_push_then; [done|..].
  { rewrite !trace_values_cons, trace_key_value. cbn. set_solver. }
  { intros y. rewrite !trace_values_cons, trace_key_value. cbn -[trace_value]. rewrite !elem_of_app.
    cbn in Hx. rewrite app_nil_r in Hx. intros [Hy|[Hy|[Hy|[Hy|Hy]]]]; auto.
    - cbn in Hy. apply elem_of_list_singleton in Hy as ->. done.
    - cbn in Hy. apply elem_of_list_singleton in Hy as ->. by eapply ready_live.
    - by apply elem_of_nil in Hy. }
  intros h1 S1 Str.
  destruct (pushed_ext h h1 rc _ v [VObject o; key_value k; x; VObject rc] k (data_patch x) S1 Str) as (Ek & Ep & Lk & Lp); [done| | |].
  { rewrite !trace_values_cons, trace_key_value. set_solver. }
  { rewrite data_patch_values, !trace_values_cons. set_solver. }
  rewrite data_patch_values in Lp.
  assert (Ex : abs_value h1 x = abs_value h x).
  { assert (E : ap_value (abs_patch h1 (data_patch x)) = ap_value (abs_patch h (data_patch x))) by (by rewrite Ep). cbn in E. congruence. }
  set (X1 := trace_values [VObject o; key_value k; x; VObject rc]) in *.
  intros h' r E. unfold mbind at 1, mread at 1 in E. destruct (get_property h1 o k) as [d|e|].
  2,3: injection E as <- <-; split; [apply frame_refl|]; split; [apply stack_ext_refl|]; exists v; split; [done|]; by left.
  revert h' r E. rewrite <- Ek in Hg |- *. rewrite <- Ex in Hgood |- *.
  match goal with |- forall h' r, ?m h1 = _ -> _ => change (tria h1 rc X1 v h1 m (set_result v (abs_key h1 k) (abs_value h1 x))) end.
  assert (Hsh : shaped v) by by eapply ready_shaped.
  destruct (pd_kind (default _ d)) as [y wr|g s].
  - destruct wr; cbn [negb]; [|apply tria_ret; [done|by left]].
    destruct (st_base _ _ _ _ _ S1) as (b & Eb & Ev & _).
    eapply (tria_read _ _ _ _ _ _ (find_entry h1 k (ob_properties b))). { unfold object_get_own_property. by rewrite Eb. }
    pose proof (find_entry_abs h1 k (ob_properties b) Hg) as Hf.
    change (map (abs_entry h1) (ob_properties b)) with (ao_props (abs_base h1 b)) in Hf. rewrite <- Ev in Hf. fold (own v (abs_key h1 k)) in Hf.
    destruct (find_entry h1 k (ob_properties b)) as [ex|]; cbn in Hf.
    + destruct (pd_kind ex) as [z rw|g s] eqn:Hex; [|apply tria_ret; [done|by left]].
      destruct rw; cbn [negb]; [|apply tria_ret; [done|by left]].
      eapply tria_post; [apply tria_define_own; auto|].
      * split; [|split]; cbn; [intros q [= <-]; done|done|done].
      * intros r v' Hd. right. left. split; [|exact Hd]. exists (abs_desc h1 ex), (abs_value h1 z). split; [done|]. unfold abs_desc. cbn. by rewrite Hex.
    + eapply tria_post; [apply tria_create_data; auto|]. intros r v' Hd. right. right. done.
  - assert (Hs : tria h1 rc X1 v h1 (let* c := mread (fun h => is_callable h s) in
      if negb (c : bool) then mfail ETypeError else stop_call s (VObject rc) [x] ;;; mret true) (set_result v (abs_key h1 k) (abs_value h1 x))).
    { intros h' r E. unfold mbind at 1, mread in E. assert (h' = h1 /\ r <> Ok true) as [-> Hr].
      { destruct (is_callable h1 s) as [[]| |]; cbn in E; unfold mfail, mret in E; simplify_eq; done. }
      split; [apply frame_refl|]. split; [apply stack_ext_refl|]. exists v. split; [done|]. by left. }
    destruct s; try exact Hs. apply tria_ret; [done|by left].
Qed.

(** *** [[PreventExtensions]] *)
Definition with_extensible (v : aobj) (e : bool) : aobj := AObject (ao_prototype v) e (ao_array v) (ao_props v).
Lemma top_set_extensible h o v e : ready h o v -> top o v h (object_set_extensible o e) (fun r v' => r = Ok tt /\ v' = with_extensible v e).
Proof.
  intros R h' r E. unfold object_set_extensible, update_base in E. destruct (rd_wf _ _ _ R) as [V _].
  pose proof V as (b & (x & Hx & Hb)%get_object_base_Ok & Ev)%abs_object_Some.
  match type of E with update_object o ?g h = _ => destruct (update_object_spec o g h (rd_ok _ _ _ R)) as
    [(e0 & E1 & He)|(y & y' & h1 & Hy & Ey & E1 & U)] end.
  { intros y y'. destruct (base_of y) eqn:Hy; [|done]. cbn. intros [= <-]. eapply set_base_like; eauto. split; [|done]. unfold base_kind_eq. cbn. by destruct (ob_kind o0). }
  { apply update_base_np. done. }
  - exfalso. destruct He as [[_ Hd]|(y & Hy & Ey)]; [destruct Hd; by exists x|].
    rewrite (live_as_fun _ _ _ _ Hy Hx), Hb in Ey. done.
  - rewrite E1 in E. injection E as <- <-. rewrite (live_as_fun _ _ _ _ Hy Hx) in *. rewrite Hb in Ey. cbn in Ey. injection Ey as <-.
    split; [by eapply frame_ustep|]. left. exists (with_extensible v e).
    assert (Hb' : base_of (set_base x (b <| ob_extensible := e |>)) = Some (b <| ob_extensible := e |>)) by (by destruct x).
    split; [|split; [|done]].
    + apply abs_object_Some. eexists. split.
      * apply get_object_base_Ok. eexists. split; [apply U|]. exact Hb'.
      * rewrite Ev. rewrite (abs_base_ext h h1); [done|]. intros s Hs. eapply ustep_string; eauto.
    + intros Hk. destruct (ready_kind _ _ _ R Hk) as (b0 & Hb0). pose proof (live_as_fun _ _ _ _ Hx Hb0) as ->. eexists. apply U.
Qed.
