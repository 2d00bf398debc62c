(** Proofs about array-index strings and the own-key order. *)
From stdpp Require Import base decidable list numbers sorting.
From Coq Require Import NArith Lia ZifyBool DecimalFacts DecimalN.
From Verif Require Import VmBase HeapModel HeapObjModel HeapSpec HeapGcProofs HeapInvProofs HeapObjProofs HeapApiProofs KeySpec KeyModel.

Open Scope N_scope.

Definition digit (u : N) : Prop := 48 <= u <= 57.
Definition dval (us : list N) (acc : N) : N := fold_left (fun n u => n * 10 + (u - 48)) us acc.
Definition canonical (us : list N) : Prop :=
  Forall digit us /\ match us with [] => False | [u] => True | u :: _ => u <> 48 end.

Fixpoint uint_of (us : list N) : Decimal.uint :=
  match us with
  | [] => Decimal.Nil
  | u :: us =>
      let d := uint_of us in
      match u with
      | 48 => Decimal.D0 d | 49 => Decimal.D1 d | 50 => Decimal.D2 d | 51 => Decimal.D3 d | 52 => Decimal.D4 d
      | 53 => Decimal.D5 d | 54 => Decimal.D6 d | 55 => Decimal.D7 d | 56 => Decimal.D8 d | _ => Decimal.D9 d
      end
  end.
Lemma digit_cases u : digit u -> u = 48 \/ u = 49 \/ u = 50 \/ u = 51 \/ u = 52 \/ u = 53 \/ u = 54 \/ u = 55 \/ u = 56 \/ u = 57.
Proof. unfold digit. lia. Qed.
Lemma uint_units_of us : Forall digit us -> uint_units (uint_of us) = us.
Proof.
  induction 1 as [|u us Hu _ IH]; [done|]. cbn.
  destruct (digit_cases u Hu) as [->|[->|[->|[->|[->|[->|[->|[->|[->| ->]]]]]]]]]; cbn; by rewrite IH.
Qed.
Lemma uint_units_digit d : Forall digit (uint_units d).
Proof. induction d; cbn; constructor; auto; unfold digit; lia. Qed.
Lemma pos_acc d p : Npos (Pos.of_uint_acc d p) = dval (uint_units d) (Npos p).
Proof. revert p. induction d; intros p; cbn [uint_units dval fold_left]; [done|cbn [Pos.of_uint_acc]; rewrite IHd; unfold dval; f_equal; lia..]. Qed.
Lemma of_uint_dval d : N.of_uint d = dval (uint_units d) 0.
Proof.
  unfold N.of_uint. induction d; cbn [uint_units dval fold_left Pos.of_uint]; [done|exact IHd|apply pos_acc..].
Qed.
Lemma canonical_unorm us : canonical us -> Decimal.unorm (uint_of us) = uint_of us.
Proof.
  intros [Hd Hc]. destruct us as [|u us]; [done|]. apply Forall_cons in Hd as [Hu Hd].
  destruct us as [|v us].
  - destruct (digit_cases u Hu) as [->|[->|[->|[->|[->|[->|[->|[->|[->| ->]]]]]]]]]; done.
  - cbn. destruct (digit_cases u Hu) as [->|[->|[->|[->|[->|[->|[->|[->|[->| ->]]]]]]]]]; done.
Qed.
Lemma canonical_decimal us : canonical us -> us = decimal_units (dval us 0).
Proof.
  intros Hc. unfold decimal_units. rewrite <- (uint_units_of us) at 2 by apply Hc. rewrite <- of_uint_dval.
  rewrite DecimalN.Unsigned.to_of, canonical_unorm by done. by rewrite uint_units_of by apply Hc.
Qed.
Lemma decimal_canonical n : canonical (decimal_units n) /\ dval (decimal_units n) 0 = n.
Proof.
  unfold decimal_units. split.
  - split; [apply uint_units_digit|].
    pose proof (DecimalN.Unsigned.to_of (N.to_uint n)) as E. rewrite DecimalN.Unsigned.of_to in E.
    rewrite E. unfold Decimal.unorm. pose proof (nzhead_nonzero (N.to_uint n)) as Hz.
    destruct (Decimal.nzhead (N.to_uint n)) as [| d | | | | | | | | |]; try done; try (cbn; by destruct (uint_units _)).
    by destruct (Hz d).
  - by rewrite <- of_uint_dval, DecimalN.Unsigned.of_to.
Qed.
Lemma decimal_inj n m : decimal_units n = decimal_units m -> n = m.
Proof. intros E. rewrite <- (proj2 (decimal_canonical n)), E. apply decimal_canonical. Qed.

Lemma dval_mono us acc : acc <= dval us acc.
Proof.
  revert acc. induction us as [|u us IH]; intros acc; cbn [dval fold_left]; [lia|].
  etransitivity; [|apply IH]. lia.
Qed.
Lemma digits_loop_spec us acc n : acc <= u32_max ->
  digits_loop us acc = Some n <-> Forall digit us /\ n = dval us acc /\ n <= u32_max.
Proof.
  revert acc. induction us as [|u us IH]; intros acc Ha; cbn [digits_loop dval fold_left].
  - split; [intros [= ->]; auto|intros (_ & -> & _); done].
  - destruct ((48 <=? u) && (u <=? 57)) eqn:Hd; cbn [negb].
    + assert (digit u) by (unfold digit; lia).
      destruct (u32_max <? acc * 10 + (u - 48)) eqn:Hm.
      * split; [done|]. intros (_ & Hn & Hl). pose proof (dval_mono us (acc * 10 + (u - 48))). fold (dval us (acc * 10 + (u - 48))) in Hn. lia.
      * rewrite IH by lia. rewrite Forall_cons. fold (dval us (acc * 10 + (u - 48))). tauto.
    + split; [done|]. rewrite Forall_cons. unfold digit. intros ((? & _) & _). lia.
Qed.
Lemma units_to_array_index_spec us n : units_to_array_index us = Some n <-> us = decimal_units n /\ n < 2 ^ 32 - 1.
Proof.
  change (2 ^ 32 - 1) with u32_max.
  transitivity (canonical us /\ n = dval us 0 /\ n < u32_max).
  - unfold units_to_array_index. destruct us as [|u us]; [split; [done|intros ((_ & []) & _)]|].
    destruct ((1 <? nlen (u :: us)) && (u =? 48)) eqn:Hz.
    + split; [done|]. intros ((_ & Hc) & _). destruct us as [|v us]; [done|]. lia.
    + assert (Hc : match us with [] => True | _ => u <> 48 end).
      { destruct us as [|v us]; [done|]. unfold nlen in Hz. cbn in Hz. lia. }
      pose proof (digits_loop_spec (u :: us) 0) as L. destruct (digits_loop (u :: us) 0) as [m|].
      * destruct (proj1 (L m ltac:(done)) eq_refl) as (L1 & L2 & L3).
        destruct (m =? u32_max) eqn:Hm.
        -- split; [done|]. intros (_ & -> & ?). lia.
        -- split.
           ++ intros [= ->]. split; [split; [done|by destruct us]|]. split; [done|lia].
           ++ intros (_ & -> & _). congruence.
      * split; [done|]. intros ((Hf & _) & Hn & Hl). assert (K : None = Some n) by (apply L; [done|split; [done|split; [done|lia]]]). done.
  - split.
    + intros (Hc & -> & Hl). split; [by apply canonical_decimal|done].
    + intros (-> & Hl). destruct (decimal_canonical n) as [A B]. split; [done|]. split; [done|lia].
Qed.

(** ** Reading strings *)
Lemma get_string_live h s u : get_string h s = Ok u <-> live_as h s (HString u).
Proof.
  unfold get_string. rewrite <- get_heap_object_Ok. destruct (get_heap_object h s) as [o| |]; cbn; [|done..].
  destruct o; split; congruence.
Qed.
Lemma array_index_spec h k n : array_index h k = Some n <-> index_key h k n.
Proof.
  unfold array_index, index_key. destruct k as [s|s].
  - unfold string_to_array_index. split.
    + destruct (get_string h s) as [u| |] eqn:E; [|done..]. intros Hu. apply units_to_array_index_spec in Hu as [-> Hn].
      exists s. split; [done|]. split; [by apply get_string_live|done].
    + intros (s' & [= <-] & Hl & Hn). apply get_string_live in Hl. rewrite Hl. by apply units_to_array_index_spec.
  - split; [done|]. by intros (? & ? & _).
Qed.

(** ** The order *)
Lemma insert_by_sorted {A} (key : A -> N) x l :
  StronglySorted (fun a b => key a <= key b) l -> StronglySorted (fun a b => key a <= key b) (insert_by key x l).
Proof.
  induction 1 as [|y l Hs IH Hf]; cbn; [repeat constructor|].
  destruct (key x <=? key y) eqn:E.
  - constructor; [by constructor|]. constructor; [lia|]. eapply Forall_impl; [exact Hf|]. cbn. intros. lia.
  - constructor; [done|]. rewrite insert_by_perm. constructor; [lia|done].
Qed.
Lemma sort_by_sorted {A} (key : A -> N) l : StronglySorted (fun a b => key a <= key b) (sort_by key l).
Proof. induction l as [|x l IH]; cbn; [constructor|by apply insert_by_sorted]. Qed.

Lemma filter_sublist {A} (P : A -> Prop) `{forall x, Decision (P x)} (l : list A) : filter P l `sublist_of` l.
Proof. induction l as [|x l IH]; [done|]. rewrite filter_cons. destruct (decide _); by constructor. Qed.

Lemma keys_of_props_order h ps : own_key_order h (map pe_key ps) (keys_of_props h ps).
Proof.
  unfold keys_of_props. generalize (map pe_key ps). intros keys. eexists _, _, _. split; [reflexivity|]. split.
  - rewrite sort_by_perm. induction keys as [|k keys IH]; [done|]. cbn [omap list_omap]. rewrite !filter_cons.
    destruct k as [s|s].
    + rewrite (decide_False (P := false = true)) by done.
      destruct (array_index h (PKString s)) as [n|] eqn:E; cbn [fmap option_fmap option_map].
      * rewrite decide_False by (by rewrite bool_decide_eq_true). cbn [map snd app]. constructor. exact IH.
      * rewrite decide_True by (by rewrite bool_decide_eq_true). cbn [app].
        rewrite <- Permutation_middle. constructor. exact IH.
    + rewrite decide_False by done. rewrite decide_True by done. cbn [array_index fmap option_fmap option_map].
      rewrite (assoc_L app), <- Permutation_middle, <- (assoc_L app). constructor. exact IH.
  - split; [|split; [apply sort_by_sorted|]].
    + apply Forall_forall. intros [n k]. rewrite sort_by_perm. rewrite elem_of_list_omap.
      intros (k' & _ & E). apply fmap_Some in E as (m & E & [= -> ->]). cbn. by apply array_index_spec.
    + split; [apply filter_sublist|]. split; [|split; [apply filter_sublist|]].
      * apply Forall_forall. intros k Hk. apply elem_of_list_filter in Hk as [Hk _]. destruct k as [s|s]; [|done].
        apply bool_decide_eq_true in Hk. split; [by eexists|]. intros n Hn. apply array_index_spec in Hn. congruence.
      * apply Forall_forall. intros k Hk. apply elem_of_list_filter in Hk as [Hk _]. destruct k as [s|s]; [done|]. by eexists.
Qed.

(** ** Keys made from integers *)
Lemma dval_app us vs acc : dval (us ++ vs) acc = dval vs (dval us acc).
Proof. apply fold_left_app. Qed.
Lemma dval_acc us acc : dval us acc = acc * 10 ^ nlen us + dval us 0.
Proof.
  revert acc. induction us as [|u us IH]; intros acc.
  - cbn. unfold nlen. cbn. lia.
  - cbn [dval fold_left]. fold (dval us (acc * 10 + (u - 48))). fold (dval us (0 * 10 + (u - 48))).
    rewrite (IH (acc * 10 + (u - 48))), (IH (0 * 10 + (u - 48))).
    replace (nlen (u :: us)) with (N.succ (nlen us)) by (unfold nlen; cbn; lia). rewrite N.pow_succ_r'. lia.
Qed.
Lemma index_digits_spec fuel n acc : n < 10 ^ N.of_nat fuel ->
  exists us, index_digits fuel n acc = Some (us ++ acc) /\ Forall digit us /\ dval us 0 = n /\
             (n = 0 -> us = []) /\ (n <> 0 -> exists u r, us = u :: r /\ u <> 48).
Proof.
  revert n acc. induction fuel as [|fuel IH]; intros n acc Hn; cbn [index_digits].
  - assert (n = 0) by (change (10 ^ N.of_nat 0) with 1 in Hn; lia). subst. exists []. repeat split; auto; done.
  - destruct (n =? 0) eqn:E.
    + assert (n = 0) by lia. subst. exists []. repeat split; auto; done.
    + assert (Hn' : n / 10 < 10 ^ N.of_nat fuel).
      { apply N.div_lt_upper_bound; [lia|]. rewrite Nat2N.inj_succ, N.pow_succ_r' in Hn. lia. }
      pose proof (N.div_mod' n 10) as Hdm. pose proof (N.mod_lt n 10 ltac:(lia)) as Hlt.
      destruct (IH (n / 10) (48 + n mod 10 :: acc) Hn') as (us & E1 & E2 & E3 & E4 & E5).
      exists (us ++ [48 + n mod 10]). rewrite E1. split; [by rewrite <- (assoc_L app)|]. split.
      { apply Forall_app. split; [done|]. apply Forall_singleton. unfold digit. clear - Hlt. revert Hlt. generalize (n mod 10). lia. }
      split. { rewrite dval_app, E3. cbn [dval fold_left]. revert Hdm Hlt. generalize (n mod 10) (n / 10). clear. lia. }
      split; [lia|]. intros _. destruct (decide (n / 10 = 0)) as [Z|Z].
      * rewrite (E4 Z). cbn. exists (48 + n mod 10), []. split; [done|]. revert Hdm Hlt Z E. generalize (n mod 10) (n / 10). clear. lia.
      * destruct (E5 Z) as (u & r & -> & Hu). exists u, (r ++ [48 + n mod 10]). done.
Qed.
Lemma index_key_units_spec n : n < 2 ^ 64 -> index_key_units n = Some (decimal_units n).
Proof.
  intros Hn. unfold index_key_units. destruct (n =? 0) eqn:E.
  - assert (n = 0) by lia. by subst.
  - destruct (index_digits_spec 20 n []) as (us & E1 & E2 & E3 & E4 & E5).
    { etransitivity; [exact Hn|]. vm_compute. done. }
    rewrite E1, (right_id_L [] app). f_equal. rewrite <- E3. apply canonical_decimal. split; [done|].
    destruct (E5 ltac:(lia)) as (u & r & -> & Hu). by destruct r.
Qed.
