(** [[DefineOwnProperty]] and [[Delete]] on abstract objects. *)
From stdpp Require Import base decidable list numbers sets.
From Coq Require Import NArith ZArith Lia.
From RecordUpdate Require Import RecordUpdate.
From Verif Require Import VmBase HeapModel HeapObjModel HeapSpec HeapGcProofs HeapInvProofs HeapObjProofs
  ObjectOpsModel ObjectOpsProofs HeapTidyProofs HeapSafeProofs HeapSafeOps HeapSafeOps2 HeapSafeOps3 HeapHistory HeapHistoryProofs
  KeySpec KeyProofs ObjSpec ObjViewProofs.

Open Scope N_scope.

(** ** Doubles that are array lengths *)
Lemma f64_of_N_fields n : 0 < n -> n < 2 ^ 53 ->
  f64_exp (f64_of_N n) = 1023 + N.log2 n /\ f64_frac (f64_of_N n) = n * 2 ^ (52 - N.log2 n) - 2 ^ 52
  /\ N.log2 n <= 52 /\ 2 ^ 52 <= n * 2 ^ (52 - N.log2 n) < 2 ^ 53.
Proof.
  intros Hp Hn. pose proof (N.log2_spec n Hp) as [L1 L2].
  assert (He : N.log2 n <= 52).
  { destruct (N.le_gt_cases (N.log2 n) 52); [done|]. assert (2 ^ 53 <= 2 ^ N.log2 n) by (apply N.pow_le_mono_r; lia). lia. }
  set (e := N.log2 n) in *.
  assert (Hb : 2 ^ 52 <= n * 2 ^ (52 - e) < 2 ^ 53).
  { replace (2 ^ 52) with (2 ^ e * 2 ^ (52 - e)) by (rewrite <- N.pow_add_r; f_equal; lia).
    replace (2 ^ 53) with (2 ^ N.succ e * 2 ^ (52 - e)) by (rewrite <- N.pow_add_r; f_equal; lia).
    split; [apply N.mul_le_mono_r; lia|]. apply N.mul_lt_mono_pos_r; [|lia]. apply N.neq_0_lt_0, N.pow_nonzero. lia. }
  unfold f64_of_N. destruct (N.eqb_spec n 0); [lia|]. fold e. set (fr := n * 2 ^ (52 - e) - 2 ^ 52).
  assert (Hf : fr < 2 ^ 52) by (subst fr; change (2 ^ 53) with (2 ^ 52 + 2 ^ 52) in Hb; lia).
  unfold f64_exp, f64_frac. cbn [f64_bits]. split; [|split; [|split; [done|done]]].
  - rewrite N.add_comm, N.div_add by done. rewrite N.div_small by done. rewrite N.add_0_l. apply N.mod_small.
    change (2 ^ 11) with 2048. lia.
  - rewrite N.add_comm, N.mod_add by done. by apply N.mod_small.
Qed.
Lemma f64_of_N_ok n : n < 2 ^ 53 ->
  f64_is_nan (f64_of_N n) = false /\ f64_is_finite (f64_of_N n) = true /\ f64_ltb_zero (f64_of_N n) = false
  /\ f64_int_mag (f64_of_N n) = Some n.
Proof.
  intros Hn. destruct (N.eq_dec n 0) as [->|H0]; [by vm_compute|].
  destruct (f64_of_N_fields n ltac:(lia) Hn) as (E & F & He & Hb).
  set (e := N.log2 n) in *. set (x := f64_of_N n) in *. assert (Hexp : f64_exp x <> 2047 /\ f64_exp x <> 0) by lia.
  assert (Hfin : f64_is_finite x = true) by (unfold f64_is_finite; destruct (N.eqb_spec (f64_exp x) 2047); [lia|done]).
  split; [|split; [done|split]].
  - unfold f64_is_nan. destruct (N.eqb_spec (f64_exp x) 2047); [lia|done].
  - unfold f64_ltb_zero. assert (f64_neg x = false) as ->; [|done]. unfold f64_neg. apply N.bits_above_log2.
    assert (Hbits : f64_bits x < 2 ^ 63).
    { subst x. unfold f64_of_N. destruct (N.eqb_spec n 0); [lia|]. cbn [f64_bits]. fold e.
      set (fr := n * 2 ^ (52 - e) - 2 ^ 52). assert (fr < 2 ^ 52) by (subst fr; change (2 ^ 53) with (2 ^ 52 + 2 ^ 52) in Hb; lia).
      change (2 ^ 63) with (2048 * 2 ^ 52). assert ((1023 + e) * 2 ^ 52 <= 2047 * 2 ^ 52) by (apply N.mul_le_mono_r; lia). lia. }
    destruct (N.eq_dec (f64_bits x) 0) as [Hz|Hz]; [rewrite Hz; done|]. apply N.log2_lt_pow2; lia.
  - unfold f64_int_mag. rewrite Hfin. cbn [negb]. unfold f64_pow, f64_mant. destruct (N.eqb_spec (f64_exp x) 0); [lia|].
    rewrite E, F. replace (2 ^ 52 + (n * 2 ^ (52 - e) - 2 ^ 52)) with (n * 2 ^ (52 - e)) by lia.
    destruct (N.eq_dec e 52) as [->|Hne].
    + cbn. f_equal. lia.
    + replace (Z.of_N (1023 + e) - 1075)%Z with (- Z.of_N (52 - e))%Z by lia.
      destruct (52 - e) as [|p] eqn:Ep; [lia|]. change (- Z.of_N (N.pos p))%Z with (Z.neg p). cbv beta iota.
      rewrite N.mod_mul by (apply N.pow_nonzero; lia). rewrite N.eqb_refl. f_equal. apply N.div_mul. apply N.pow_nonzero. lia.
Qed.
Lemma array_length_from_of_N n : n < 2 ^ 32 -> array_length_from_f64 (f64_of_N n) = Some n.
Proof.
  intros Hn. destruct (f64_of_N_ok n) as (A & B & C & D); [apply (N.lt_trans _ (2 ^ 32)); [done|by vm_compute]|].
  unfold array_length_from_f64. rewrite B, C, D. cbn [negb]. destruct (N.ltb_spec u32_max n) as [L|L]; [|done]. change u32_max with (2 ^ 32 - 1) in L. lia.
Qed.
Lemma array_length_from_spec f n : array_length_from_f64 f = Some n <->
  f64_is_finite f = true /\ f64_ltb_zero f = false /\ f64_int_mag f = Some n /\ n < 2 ^ 32.
Proof.
  unfold array_length_from_f64. destruct (f64_is_finite f); cbn [negb]; [|intuition congruence].
  destruct (f64_ltb_zero f); cbn [negb]; [intuition congruence|]. destruct (f64_int_mag f) as [m|]; [|intuition congruence].
  destruct (N.ltb_spec u32_max m) as [L|L]; change u32_max with (2 ^ 32 - 1) in L; split.
  - done.
  - intros (_ & _ & [= ->] & ?). lia.
  - intros [= ->]. repeat split; auto. lia.
  - intros (_ & _ & [= ->] & ?). done.
Qed.
Lemma nan_not_finite f : f64_is_finite f = true -> f64_is_nan f = false.
Proof. unfold f64_is_finite, f64_is_nan. destruct (f64_exp f =? 2047) eqn:E; [|done]. cbn. done. Qed.
Lemma array_length_from_value_spec h x n : array_length_from_value x = Some n <-> length_value (abs_value h x) n.
Proof.
  unfold length_value. destruct x as [| |bb|f|bb|s|s|s]; cbn;
    try (split; [done|intros (? & ? & _); done]).
  2:{ split; [done|]. intros (f & E & _). by destruct (get_string h s). }
  rewrite array_length_from_spec. split.
  - intros (A & B & C & D). exists f. rewrite nan_not_finite by done. done.
  - intros (g & E & ?). destruct (f64_is_nan f); [done|]. simplify_eq. done.
Qed.
Lemma abs_of_N h n : n < 2 ^ 32 -> abs_value h (VNumber (f64_of_N n)) = anum n.
Proof.
  intros Hn. cbn. destruct (f64_of_N_ok n) as (-> & _); [|done]. apply (N.lt_trans _ (2 ^ 32)); [done|by vm_compute].
Qed.
(** SameValue on array lengths is equality. *)
Lemma f64_of_N_inj n m : n < 2 ^ 32 -> m < 2 ^ 32 -> f64_of_N n = f64_of_N m -> n = m.
Proof. intros Hn Hm E. apply array_length_from_of_N in Hn, Hm. rewrite E in Hn. congruence. Qed.

(** ** SameValue *)
Lemma same_value_abs h a b : ~ stale (abs_value h a) -> same_value h a b = bool_decide (abs_value h a = abs_value h b).
Proof.
  intros Hs. symmetry. destruct a, b; cbn in *; try (by apply bool_decide_eq_true); try (by apply bool_decide_eq_false);
    repeat match goal with
      | |- context [f64_is_nan ?x] => destruct (f64_is_nan x) eqn:?
      | |- context [get_string h ?x] => destruct (get_string h x) eqn:?
      end; cbn in *; try done; try (by apply bool_decide_eq_true); try (by apply bool_decide_eq_false);
    try (apply bool_decide_ext; split; congruence).
  1: destruct b, b0; done.
  all: destruct n as [x], n0 as [y]; cbn in *; unfold f64_eqb; rewrite Heqb, Heqb0; cbn;
    destruct (f64_is_zero _ && f64_is_zero _); cbn; try (by apply bool_decide_eq_false);
    (destruct (N.eqb_spec x y) as [->|Hne]; [first [congruence|by apply bool_decide_eq_true]|apply bool_decide_eq_false; congruence]).
Qed.

(** ** Storing a descriptor *)
Lemma st_key h0 o X v h k : st h0 o X v h -> trace_key k ⊆ X -> abs_key h k = abs_key h0 k.
Proof. intros S Hk. apply abs_key_ext. intros s Hs. apply (st_str _ _ _ _ _ S), Hk, trace_key_in, Hs. Qed.
Lemma st_desc h0 o X v h d : st h0 o X v h -> trace_desc d ⊆ X -> abs_desc h d = abs_desc h0 d.
Proof. intros S Hk. apply abs_desc_ext. intros s Hs. apply (st_str _ _ _ _ _ S), Hk, trace_desc_in, Hs. Qed.
Lemma st_value h0 o X v h w : st h0 o X v h -> trace_value w ⊆ X -> abs_value h w = abs_value h0 w.
Proof. intros S Hk. apply abs_value_ext. intros s Hs. apply (st_str _ _ _ _ _ S), Hk, trace_value_in, Hs. Qed.

Lemma base_has_put b k d pos s : base_has (base_with b k d pos) s -> base_has b s \/ key_has k s \/ desc_has d s.
Proof.
  intros Hs. apply trace_base_in in Hs. rewrite <- trace_base_in, <- trace_key_in, <- trace_desc_in.
  apply trace_base_with in Hs. rewrite !elem_of_app in Hs. tauto.
Qed.
Lemma hd_key_with b k d pos k' : hd_key b = Some k' -> hd_key (base_with b k d pos) = Some k'.
Proof. unfold hd_key, base_with. destruct pos as [[|i]|]; cbn; destruct (ob_properties b) as [|e es]; done. Qed.
Lemma abs_base_put h b k d : good_key (abs_key h k) ->
  abs_base h (base_with b k d (position h k (ob_properties b)))
  = with_props (abs_base h b) (aput (abs_key h k) (abs_desc h d) (ao_props (abs_base h b))).
Proof.
  intros Hg. unfold abs_base, with_props. cbn. rewrite <- position_put by done.
  unfold base_with. destruct (position h k (ob_properties b)); done.
Qed.

(** Everything up to the array fix-up. *)
Lemma tri_define_core h0 o X v k d h h' r t : st h0 o X v h -> define_target o k h = Ok t ->
  trace_key k ⊆ X -> trace_desc d ⊆ X -> good_key (abs_key h0 k) ->
  define_core o k d t h = (h', r) ->
  frame o h h' /\ stack_ext h h' /\
  ((r = Ok tt /\ st h0 o X (with_props v (aput (abs_key h0 k) (abs_desc h0 d) (ao_props v))) h') \/
   (r = Err EOutOfMemory /\ st h0 o X v h')).
Proof.
  intros S Ht Hk Hd Hg E.
  destruct (define_core_spec o k d h t (st_ok _ _ _ _ _ S) Ht) as (s & ob & b & Hs & Hgen & Hob & Hb & -> & h1 & H1 & G & Hc).
  destruct (st_gstep _ _ _ _ _ _ _ S G) as [S1 T1]; [set_solver|done|].
  destruct Hc as [(e & E1 & He)|(h2 & E1 & U)]; rewrite E1 in E; simplify_eq.
  - split; [by eapply frame_gstep|]. split; [done|]. right. split; [|done].
    destruct He as [->|[_ Hd']]; [done|]. destruct Hd'. eapply st_live; eauto. apply S.
  - set (b' := base_with b k d (position h k (ob_properties b))) in *.
    pose proof (us_live _ _ _ _ _ U) as Hlo.
    assert (Hlive : forall y, base_has b' y -> live h1 y).
    { intros y [Hy|[Hy|Hy]]%base_has_put.
      - apply (proj2 (st_nd _ _ _ _ _ S1) _ _ _ Hlo). by eapply object_has_base.
      - eapply st_live; eauto. by apply Hk, trace_key_in.
      - eapply st_live; eauto. by apply Hd, trace_desc_in. }
    destruct (st_ustep _ _ _ _ _ _ _ _ _ S1 U Hb) as [S2 T2]; auto.
    { unfold b', base_with, base_kind_eq. destruct (position h k (ob_properties b)); cbn; by destruct (ob_kind b). }
    { intros _. apply hd_key_with. }
    split; [eapply frame_trans; [by eapply frame_gstep|by eapply frame_ustep]|].
    split; [by eapply stack_ext_trans|]. left. split; [done|].
    assert (Ev : v = abs_base h b).
    { destruct (st_base _ _ _ _ _ S) as (b0 & Eb & -> & _). f_equal. apply get_object_base_Ok in Eb as (x & Hx & Hxb).
      assert (x = ob) by (eapply live_as_fun; [eauto|eapply slot_live; eauto]). congruence. }
    assert (Eabs : abs_base h1 b' = with_props v (aput (abs_key h0 k) (abs_desc h0 d) (ao_props v))).
    { transitivity (abs_base h b').
      - apply abs_base_ext. intros y Hy. eapply gstep_string; eauto.
      - unfold b'. rewrite Ev. rewrite <- (st_key _ _ _ _ _ _ S Hk), <- (st_desc _ _ _ _ _ _ S Hd). apply abs_base_put.
        by rewrite (st_key _ _ _ _ _ _ S Hk). }
    by rewrite <- Eabs.
Qed.

Lemma define_target_st h0 o X v h k : st h0 o X v h -> exists s ob b, define_target o k h = Ok (hid_index o, ob, b, position h k (ob_properties b), sl_bytes s)
  /\ live_as h o ob /\ base_of ob = Some b /\ v = abs_base h b.
Proof.
  intros S. destruct (st_base _ _ _ _ _ S) as (b & Eb & -> & _ & x & Hx & Hxb).
  destruct (live_slot h o) as (s & ob & Hs & Hg & Ho); [by exists x|].
  assert (x = ob) by (eapply live_as_fun; [eauto|eapply slot_live; eauto]). subst x.
  exists s, ob, b. split; [|done]. unfold define_target.
  assert (validate h o = Some (hid_index o)) as ->.
  { apply validate_Some. split; auto. exists ob. eapply slot_live; eauto. }
  by rewrite Hs, Ho, Hxb.
Qed.

Lemma tri_heap_define h0 o X v k d : ao_array v = None -> trace_key k ⊆ X -> trace_desc d ⊆ X -> good_key (abs_key h0 k) ->
  tri h0 o X v (heap_define_property o k d) (fun r v' =>
    (r = Ok tt /\ v' = with_props v (aput (abs_key h0 k) (abs_desc h0 d) (ao_props v))) \/ (r = Err EOutOfMemory /\ v' = v)).
Proof.
  intros Ha Hk Hd Hg h h' r S E. rewrite heap_define_property_unfold in E.
  destruct (define_target_st _ _ _ _ _ k S) as (s & ob & b & Et & Hlo & Hb & Ev).
  rewrite Et in E. cbn [fst snd] in E.
  assert (Hta : target_array_len ob = None).
  { rewrite Ev in Ha. cbn in Ha. destruct ob; cbn in *; simplify_eq; auto. }
  rewrite Hta in E. cbn [define_new_length] in E. unfold mbind in E.
  destruct (define_core o k d _ h) as [h1 r1] eqn:E1.
  destruct (tri_define_core _ _ _ _ _ _ _ _ _ _ S Et Hk Hd Hg E1) as (F & T & [[-> S1]|[-> S1]]).
  - assert (h' = h1 /\ r = Ok tt) as [-> ->].
    { unfold define_array_fixup, mbind, mret in E. destruct (array_index h k); by simplify_eq. }
    eauto 10.
  - simplify_eq. eauto 10.
Qed.

(** [Scope::define_property]: the descriptor's handles need only be live. *)
Lemma trace_key_value k : trace_value (key_value k) = trace_key k.
Proof. by destruct k. Qed.
Lemma trace_values_cons v vs : trace_values (v :: vs) = trace_value v ++ trace_values vs.
Proof. done. Qed.
Lemma trace_desc_values d : trace_values (desc_values d) ≡ₚ trace_desc d.
Proof. destruct d as [e c [v w|g s]]; unfold trace_values; cbn; by rewrite ?app_nil_r. Qed.

Lemma tria_define_property_with h0 o X v h k d (Q : res unit -> aobj -> Prop) : st h0 o X v h ->
  (forall x, x ∈ trace_desc d -> live h x) -> trace_key k ⊆ X -> Q (Err EOutOfMemory) v ->
  (forall h1 Y, trace_key k ⊆ Y -> trace_desc d ⊆ Y -> abs_key h1 k = abs_key h0 k -> abs_desc h1 d = abs_desc h d ->
     tri h1 o Y v (heap_define_property o k d) Q) ->
  tria h0 o X v h (define_property o k d) Q.
Proof.
  intros S Hd Hk Hq Hm. unfold define_property. apply tria_with_scope; [done|].
  set (vs := VObject o :: key_value k :: desc_values d).
  assert (Hvs : trace_values vs ≡ₚ o :: trace_key k ++ trace_desc d).
  { unfold vs. rewrite !trace_values_cons. rewrite trace_key_value, trace_desc_values. done. }
  apply tria_push_then; [done| |done|].
  - intros x Hx. rewrite Hvs in Hx. apply elem_of_cons in Hx as [->|[Hx|Hx]%elem_of_app].
    + eapply st_live; eauto. apply S.
    + eapply st_live; eauto.
    + by apply Hd.
  - intros h1 S1 Str. assert (Hk1 : trace_key k ⊆ X ++ trace_values vs) by set_solver.
    assert (Hd1 : trace_desc d ⊆ X ++ trace_values vs).
    { intros x Hx. apply elem_of_app. right. rewrite Hvs. set_solver. }
    pose proof S1 as S1'. revert S1. apply tri_at. apply (Hm h1 (X ++ trace_values vs)); auto.
    + rewrite <- (st_key _ _ _ _ _ _ S Hk). apply abs_key_ext. intros s Hs. apply Str. eapply st_live; [exact S1'|]. apply Hk1, trace_key_in, Hs.
    + apply abs_desc_ext. intros s Hs. apply Str. eapply st_live; [exact S1'|]. apply Hd1, trace_desc_in, Hs.
Qed.

(** ** Arrays *)
Lemma array_with_same v n w es : array_shape v n w es -> array_with v n w es = v.
Proof. intros [A B C D]. destruct v. unfold array_with. cbn in *. congruence. Qed.
Lemma array_with_shape v n w es m w' es' : array_shape v n w es -> m < 2 ^ 32 ->
  NoDup (map fst es') -> akey_length ∉ map fst es' -> array_shape (array_with v m w' es') m w' es'.
Proof. intros S Hm Hnd Hn. constructor; auto. cbn. by constructor. Qed.
Lemma array_with_with v n w es m w' es' : array_with (array_with v n w es) m w' es' = array_with v m w' es'.
Proof. done. Qed.

Lemma abs_set_len h b m w es x n : ao_array (abs_base h b) = Some n ->
  ao_props (abs_base h b) = (akey_length, ADesc false false (AData x w)) :: es -> m < 2 ^ 32 ->
  abs_base h (base_set_array_length b m) = array_with (abs_base h b) m w es.
Proof.
  intros Ha Hp Hm. apply (abs_of_N h) in Hm. unfold base_set_array_length, array_with. cbn in Ha, Hp |- *. destruct (ob_kind b); [done|]. cbn.
  destruct (ob_properties b) as [|[k [de dc [y w'|g s]]] ps]; cbn in Hp |- *; try done.
  unfold abs_base, abs_entry, abs_desc in *. cbn -[abs_value] in *. rewrite Hm. unfold alength. congruence.
Qed.
Lemma hd_key_set_len b m k' : hd_key b = Some k' -> hd_key (base_set_array_length b m) = Some k'.
Proof.
  unfold hd_key, base_set_array_length. destruct (ob_kind b); [done|]. cbn. destruct (ob_properties b) as [|e es] eqn:E; [done|].
  cbn. destruct (pd_kind (pe_desc e)); cbn; [done|]. by rewrite E.
Qed.
Lemma base_has_set_len b m s : base_has (base_set_array_length b m) s -> base_has b s.
Proof. rewrite <- !trace_base_in. apply trace_base_set_array_length. Qed.

Lemma tri_fix_len h0 o X v n x w es m : ao_array v = Some n -> ao_props v = (akey_length, ADesc false false (AData x w)) :: es -> m < 2 ^ 32 ->
  tri h0 o X v (update_base o (fun b => Ok (base_set_array_length b m))) (fun r v' => r = Ok tt /\ v' = array_with v m w es).
Proof.
  intros Ha Hp Hm. apply tri_update_base; [intros b b' [= <-]; apply base_like_set_array_length|done|].
  intros h b S Eb ->. split; [|split].
  - intros k. apply hd_key_set_len.
  - intros s Hs. left. by eapply base_has_set_len.
  - split; [done|]. by eapply abs_set_len.
Qed.
Lemma tri_heap_array_set_length h0 o X v n x w es m : ao_array v = Some n -> ao_props v = (akey_length, ADesc false false (AData x w)) :: es -> m < 2 ^ 32 ->
  tri h0 o X v (heap_array_set_length o m) (fun r v' => r = Ok tt /\ v' = array_with v m w es).
Proof.
  intros Ha Hp Hm. unfold heap_array_set_length. apply tri_update_base.
  - intros b b'. destruct (base_array_length b); [|done]. intros [= <-]; apply base_like_set_array_length.
  - intros b. by destruct (base_array_length b).
  - intros h b S Eb ->. cbn in Ha. unfold base_array_length. destruct (ob_kind b) eqn:Hk; [done|]. split; [intros k; apply hd_key_set_len|]. split.
    + intros s Hs. left. by eapply base_has_set_len.
    + split; [done|]. eapply abs_set_len; eauto. cbn. by rewrite Hk.
Qed.
Lemma tri_fix_index h0 o X v n w es i : ao_array v = Some n -> ao_props v = (akey_length, alength n w) :: es -> i < 2 ^ 32 - 1 ->
  tri h0 o X v (update_base o (fun b =>
          match base_array_length b with
          | Some cur =>
              let n := (i + 1) mod two32 in
              if cur <? n then Ok (base_set_array_length b n) else Ok b
          | None => Ok b
          end)) (fun r v' => r = Ok tt /\ v' = array_with v (N.max n (i + 1)) w es).
Proof.
  intros Ha Hp Hi. assert (Em : (i + 1) mod two32 = i + 1).
  { apply N.mod_small. change two32 with (2 ^ 32). assert (1 < 2 ^ 32) by done. lia. }
  apply tri_update_base.
  - intros b b'. destruct (base_array_length b); [|intros [= <-]; apply base_like_refl].
    cbv zeta. destruct (_ <? _); intros [= <-]; [apply base_like_set_array_length|apply base_like_refl].
  - intros b. destruct (base_array_length b); [|done]. cbv zeta. by destruct (_ <? _).
  - intros h b S Eb ->. pose proof Ha as Ha'. cbn in Ha'. unfold base_array_length. destruct (ob_kind b) eqn:Hk; [done|].
    simplify_eq. cbv zeta. rewrite Em. clear Em. destruct (N.ltb_spec n (i + 1)) as [L|L].
    + split; [intros k; apply hd_key_set_len|]. split; [intros s Hs; left; by eapply base_has_set_len|]. split; [done|]. rewrite N.max_r by lia.
      eapply abs_set_len; eauto. assert (1 < 2 ^ 32) by done. lia.
    + split; [auto|]. split; [auto|]. split; [done|]. rewrite N.max_l by lia. destruct (abs_base h b). unfold array_with. cbn in *. congruence.
Qed.

Definition adef (v : aobj) (n : N) (w : bool) (es : list (akey * adesc)) (ck : akey) (ad : adesc) (v' : aobj) : Prop :=
  (exists i, akey_index ck i /\ v' = array_with v (N.max n (i + 1)) w (aput ck ad es)) \/
  ((forall i, ~ akey_index ck i) /\ v' = array_with v n w (aput ck ad es)).

Lemma aput_cons_ne k k' d d' ps : k' <> k -> aput k d ((k', d') :: ps) = (k', d') :: aput k d ps.
Proof. intros. cbn. by rewrite decide_False. Qed.
Lemma aput_cons_eq k d d' ps : aput k d ((k, d') :: ps) = (k, d) :: ps.
Proof. cbn. by rewrite decide_True. Qed.

Lemma st_array_object h0 o X v h n b x : st h0 o X v h -> ao_array v = Some n -> live_as h o x -> base_of x = Some b -> x = HObject b.
Proof.
  intros S Ha Hx Hb. destruct (st_kind _ _ _ _ _ S) as (b' & Hb'); [congruence|].
  rewrite (live_as_fun _ _ _ _ Hx Hb') in *. by simplify_eq/=.
Qed.

Lemma tri_heap_define_elem h0 o X v n w es k d : array_shape v n w es -> trace_key k ⊆ X -> trace_desc d ⊆ X -> good_key (abs_key h0 k) ->
  abs_key h0 k <> akey_length ->
  tri h0 o X v (heap_define_property o k d) (fun r v' =>
    (r = Ok tt /\ adef v n w es (abs_key h0 k) (abs_desc h0 d) v') \/ (r = Err EOutOfMemory /\ v' = v)).
Proof.
  intros Sh Hk Hd Hg Hlen h h' r S E. rewrite heap_define_property_unfold in E.
  destruct (define_target_st _ _ _ _ _ k S) as (s & ob & b & Et & Hlo & Hb & Ev).
  rewrite Et in E. cbn [fst snd] in E.
  assert (Hta : target_array_len ob = Some n).
  { rewrite (st_array_object _ _ _ _ _ _ _ _ S (ar_len _ _ _ _ Sh) Hlo Hb). pose proof (ar_len _ _ _ _ Sh) as Ha.
    rewrite Ev in Ha. cbn in Ha |- *. by unfold base_array_length. }
  rewrite key_is_length_abs, (st_key _ _ _ _ _ _ S Hk), bool_decide_false in E by done.
  rewrite Hta in E. cbn [define_new_length] in E. unfold mbind at 1 in E.
  destruct (define_core o k d _ h) as [h1 r1] eqn:E1.
  destruct (tri_define_core _ _ _ _ _ _ _ _ _ _ S Et Hk Hd Hg E1) as (F & T & [[-> S1]|[-> S1]]).
  - rewrite (ar_props _ _ _ _ Sh), aput_cons_ne in S1 by done.
    unfold define_array_fixup in E. unfold mbind, mret in E.
    destruct (array_index h k) as [i|] eqn:Hi.
    + apply array_index_abs in Hi. rewrite (st_key _ _ _ _ _ _ S Hk) in Hi.
      edestruct (tri_fix_index h0 o X) as (F2 & T2 & v' & S2 & -> & ->); [| | |exact S1|exact E|]; [apply Sh|reflexivity|apply Hi|].
      split; [by eapply frame_trans|]. split; [by eapply stack_ext_trans|]. eexists. split; [exact S2|]. left. split; [done|].
      left. exists i. done.
    + simplify_eq. split; [done|]. split; [done|]. eexists. split; [exact S1|]. left. split; [done|]. right. split.
      * intros i. rewrite <- (st_key _ _ _ _ _ _ S Hk), <- array_index_abs. by rewrite Hi.
      * unfold with_props, array_with. by rewrite (ar_len _ _ _ _ Sh).
  - simplify_eq. eauto 10.
Qed.

Lemma length_not_index i : ~ akey_index akey_length i.
Proof.
  intros [E _]. injection E as E. pose proof (uint_units_digit (N.to_uint i)) as H. fold (decimal_units i) in H.
  rewrite <- E in H. apply Forall_cons_1 in H as [H _]. unfold digit in H. lia.
Qed.

Lemma tri_heap_define_length h0 o X v n w es k f w' m : array_shape v n w es -> trace_key k ⊆ X ->
  abs_key h0 k = akey_length -> array_length_from_f64 f = Some m ->
  tri h0 o X v (heap_define_property o k (PDesc false false (PData (VNumber f) w'))) (fun r v' =>
    (r = Ok tt /\ v' = array_with v m w' es) \/ (r = Err EOutOfMemory /\ v' = v)).
Proof.
  intros Sh Hk Hlen Hm h h' r S E. rewrite heap_define_property_unfold in E.
  destruct (define_target_st _ _ _ _ _ k S) as (s & ob & b & Et & Hlo & Hb & Ev).
  rewrite Et in E. cbn [fst snd] in E.
  assert (Hta : target_array_len ob = Some n).
  { rewrite (st_array_object _ _ _ _ _ _ _ _ S (ar_len _ _ _ _ Sh) Hlo Hb). pose proof (ar_len _ _ _ _ Sh) as Ha.
    rewrite Ev in Ha. cbn in Ha |- *. by unfold base_array_length. }
  assert (Ekey : abs_key h k = akey_length) by (by rewrite (st_key _ _ _ _ _ _ S Hk)).
  assert (Hpos : position h k (ob_properties b) = Some 0%nat).
  { pose proof (ar_props _ _ _ _ Sh) as Hp. rewrite Ev in Hp. cbn in Hp. destruct (ob_properties b) as [|e ps]; [done|].
    cbn in Hp |- *. rewrite key_eq_abs by (by rewrite Ekey). rewrite bool_decide_true; [done|]. rewrite Ekey. unfold abs_entry in Hp. congruence. }
  rewrite key_is_length_abs, bool_decide_true in E by done.
  rewrite Hta in E. rewrite Hpos in E, Et. cbn [define_new_length pd_kind] in E. rewrite bool_decide_true in E by done. cbn [negb] in E.
  rewrite Hm in E. unfold mbind at 1 in E.
  destruct (define_core o k _ _ h) as [h1 r1] eqn:E1.
  assert (Hg : good_key (abs_key h0 k)) by (by rewrite Hlen).
  assert (Hd : trace_desc (PDesc false false (PData (VNumber f) w')) ⊆ X) by (intros y Hy; by apply elem_of_nil in Hy).
  destruct (tri_define_core _ _ _ _ _ _ _ _ _ _ S Et Hk Hd Hg E1) as (F & T & [[-> S1]|[-> S1]]).
  - rewrite (ar_props _ _ _ _ Sh), Hlen, aput_cons_eq in S1.
    unfold define_array_fixup in E. unfold mbind, mret in E.
    assert (array_index h k = None) as Hi.
    { destruct (array_index h k) as [i|] eqn:Hi; [|done]. apply array_index_abs in Hi. rewrite Ekey in Hi.
      exfalso. by eapply length_not_index. }
    rewrite Hi in E. destruct (update_base o _ h1) as [h2 r2] eqn:E2.
    apply array_length_from_spec in Hm.
    assert (Hml : m < 2 ^ 32) by tauto. pose proof (ar_len _ _ _ _ Sh) as Ha.
    match type of S1 with st _ _ _ ?v1 _ =>
      destruct (tri_fix_len h0 o X v1 n _ w' es m Ha eq_refl Hml _ _ _ S1 E2) as (F2 & T2 & v' & S2 & -> & ->) end.
    simplify_eq. split; [by eapply frame_trans|]. split; [by eapply stack_ext_trans|]. eexists. split; [exact S2|]. left. done.
  - simplify_eq. eauto 10.
Qed.

(** ** Patches *)

Lemma patch_is_data_abs h p : patch_is_data p = bool_decide (ap_data (abs_patch h p)).
Proof.
  apply Bool.eq_iff_eq_true. rewrite bool_decide_eq_true. unfold patch_is_data, ap_data.
  destruct p as [e c [x|] [w|] g s]; cbn; intuition congruence.
Qed.
Lemma patch_is_accessor_abs h p : patch_is_accessor p = bool_decide (ap_accessor (abs_patch h p)).
Proof.
  apply Bool.eq_iff_eq_true. rewrite bool_decide_eq_true. unfold patch_is_accessor, ap_accessor.
  destruct p as [e c x w [g|] [s|]]; cbn; intuition congruence.
Qed.
Lemma patch_validate_abs h p : patch_validate p = if decide (patch_mixed (abs_patch h p)) then Err EInvalidPatch else Ok tt.
Proof.
  unfold patch_validate. rewrite (patch_is_data_abs h), (patch_is_accessor_abs h). unfold patch_mixed.
  destruct (decide (ap_data (abs_patch h p))), (decide (ap_accessor (abs_patch h p))), (decide _) as [[? ?]|]; try done;
    rewrite ?bool_decide_true, ?bool_decide_false by done; try done; tauto.
Qed.

Lemma or_else_default {A B} (f : A -> B) (x : option A) y : or_else (f <$> x) (f y) = f (default y x).
Proof. by destruct x. Qed.
Lemma or_else_id {A} (x : option A) y : or_else x y = default y x.
Proof. by destruct x. Qed.
Lemma fresh_merged h p : abs_desc h (fresh_descriptor p) = merged None (abs_patch h p).
Proof.
  unfold fresh_descriptor, merged. rewrite (patch_is_accessor_abs h). cbn [fmap option_fmap option_map].
  destruct (decide _) as [D|D]; [rewrite bool_decide_true by done|rewrite bool_decide_false by done];
    unfold abs_desc; cbn -[or_else default]; change AUndefined with (abs_value h VUndefined);
    by rewrite ?or_else_default, ?or_else_id.
Qed.
Lemma apply_merged h cur p : ~ patch_mixed (abs_patch h p) ->
  abs_desc h (apply_descriptor_patch cur p) = merged (Some (abs_desc h cur)) (abs_patch h p).
Proof.
  intros Hm. unfold apply_descriptor_patch, merged, patch_is_generic. rewrite (patch_is_data_abs h), (patch_is_accessor_abs h).
  destruct cur as [ce cc ck]. unfold patch_mixed in Hm. cbn [fmap option_fmap option_map a_kind abs_desc pd_kind pd_enumerable pd_configurable a_enumerable a_configurable].
  destruct ck as [v w|g s]; destruct (decide (ap_data (abs_patch h p))) as [D|D], (decide (ap_accessor (abs_patch h p))) as [A|A];
    try tauto; rewrite ?(bool_decide_true _ D), ?(bool_decide_true _ A), ?(bool_decide_false _ D), ?(bool_decide_false _ A);
    cbn [negb andb]; unfold abs_desc; cbn -[or_else default]; rewrite ?or_else_id; f_equal;
    change AUndefined with (abs_value h VUndefined); rewrite ?or_else_default; try done.
  all: unfold ap_data, ap_accessor in *; cbn in D, A; destruct (pp_value p), (pp_writable p), (pp_get p), (pp_set p); cbn in *; try done; exfalso; naive_solver.
Qed.

Lemma patch_rejected_spec h cur p ext : patch_good (abs_patch h p) -> ~ patch_mixed (abs_patch h p) ->
  patch_rejected h cur p = true <-> rejects ext (Some (abs_desc h cur)) (abs_patch h p).
Proof.
  intros (G1 & G2 & G3) Hm. unfold patch_mixed in Hm. unfold patch_rejected, patch_is_generic.
  destruct cur as [ce cc ck]. destruct p as [pe pc pv pw pg ps]. cbn -[same_value abs_desc abs_patch].
  assert (SV : forall x y, pv = Some x -> negb (same_value h x y) = true <-> abs_value h x <> abs_value h y).
  { intros x y ->. rewrite same_value_abs by (by apply (G1 (abs_value h x))). rewrite negb_true_iff, bool_decide_eq_false. done. }
  assert (SG : forall x y, pg = Some x -> negb (same_value h x y) = true <-> abs_value h x <> abs_value h y).
  { intros x y ->. rewrite same_value_abs by (by apply (G2 (abs_value h x))). rewrite negb_true_iff, bool_decide_eq_false. done. }
  assert (SS : forall x y, ps = Some x -> negb (same_value h x y) = true <-> abs_value h x <> abs_value h y).
  { intros x y ->. rewrite same_value_abs by (by apply (G3 (abs_value h x))). rewrite negb_true_iff, bool_decide_eq_false. done. }
  destruct cc; cbn [negb andb orb].
  { split.
    - intros H. exfalso. destruct ck; cbn in H; rewrite ?andb_false_r in H; done.
    - intros H. inversion H; simplify_eq/=. }
  split.
  - rewrite !orb_true_iff, !andb_true_iff. intros [[[H|H]|H]|H].
    + apply bool_decide_eq_true in H. subst. by apply rj_configurable.
    + destruct pe as [e|]; [|done]. eapply rj_enumerable; [done|done|]. cbn. intros ->. by rewrite eqb_reflx in H.
    + destruct H as [_ H]. destruct ck as [v w|g s].
      * eapply rj_to_accessor; [done|done|]. unfold ap_accessor. cbn. unfold patch_is_accessor in H. cbn in H.
        destruct pg, ps; naive_solver.
      * eapply rj_to_data; [done|done|]. unfold ap_data. cbn. unfold patch_is_data in H. cbn in H.
        destruct pv, pw; naive_solver.
    + destruct H as [_ H]. destruct ck as [v w|g s]; cbn in H.
      * apply andb_true_iff in H as [[_ H1]%andb_true_iff H2]. destruct w; [done|]. apply orb_true_iff in H2 as [H2|H2].
        -- apply bool_decide_eq_true in H2. subst. by eapply rj_writable.
        -- destruct pv as [x|]; [|done]. apply SV in H2; [|done]. by eapply rj_value.
      * apply andb_true_iff in H as [_ [H2|H2]%orb_true_iff].
        -- destruct pg as [x|]; [|done]. apply SG in H2; [|done]. by eapply rj_get.
        -- destruct ps as [x|]; [|done]. apply SS in H2; [|done]. by eapply rj_set.
  - intros H. rewrite !orb_true_iff, !andb_true_iff.
    assert (GD : forall v w, ck = PData v w -> is_Some pv \/ is_Some pw -> patch_is_data (PPatch pe pc pv pw pg ps) = true).
    { intros ? ? _ [[? ->]|[? ->]]; unfold patch_is_data; cbn; [done|by rewrite orb_true_r]. }
    inversion H; simplify_eq/=.
    + left. left. left. done.
    + left. left. right. destruct e, ce; done.
    + left. right. destruct ck as [v' w'|]; [|done]. unfold ap_accessor in *. cbn in *. unfold patch_is_accessor, patch_is_data. cbn.
      destruct pg, ps; cbn; rewrite ?andb_false_r; naive_solver.
    + left. right. destruct ck as [|g' s']; [done|]. unfold ap_data in *. cbn in *. unfold patch_is_accessor, patch_is_data. cbn.
      destruct pv, pw; cbn; naive_solver.
    + right. destruct ck as [|g' s']; [done|]. simplify_eq/=. destruct pg as [y|]; [|done]. simplify_eq/=.
      unfold patch_is_accessor, patch_is_data. cbn. rewrite (proj2 (SG _ _ eq_refl)) by done. by rewrite andb_false_r.
    + right. destruct ck as [|g' s']; [done|]. simplify_eq/=. destruct ps as [y|]; [|done]. simplify_eq/=.
      unfold patch_is_accessor, patch_is_data. cbn. rewrite (proj2 (SS _ _ eq_refl)) by done. rewrite !orb_true_r. by rewrite andb_false_r.
    + right. destruct ck as [v' w'|]; [|done]. simplify_eq/=.
      unfold patch_is_accessor, patch_is_data. cbn. rewrite orb_true_r. done.
    + right. destruct ck as [v' w'|]; [|done]. simplify_eq/=. destruct pv as [y|]; [|done]. simplify_eq/=.
      unfold patch_is_accessor, patch_is_data. cbn. rewrite (proj2 (SV _ _ eq_refl)) by done. by rewrite orb_true_r.
Qed.

Lemma patch_empty_abs h p d : patch_is_empty p = true -> merged (Some d) (abs_patch h p) = d /\ forall ext, ~ rejects ext (Some d) (abs_patch h p).
Proof.
  destruct p as [[e|] [c|] [x|] [w|] [g|] [s|]]; cbn; try done. intros _. split.
  - destruct d as [e c [x w|g s]]; unfold merged; cbn -[decide]; rewrite decide_False; try done; unfold ap_data, ap_accessor; cbn; tauto.
  - intros ext H. inversion H; simplify_eq/=; unfold ap_accessor, ap_data in *; cbn in *; tauto.
Qed.
Lemma aput_same k d ps : alookup k ps = Some d -> aput k d ps = ps.
Proof.
  induction ps as [|[k' d'] ps IH]; [done|]. cbn. destruct (decide (k' = k)); [by intros [= ->]|]. intros H. by rewrite IH.
Qed.
