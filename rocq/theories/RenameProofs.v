(** Proofs about RenameModel.v: generated names, rewriting. *)
From Coq Require Import NArith Lia ZifyBool.
From stdpp Require Import base decidable numbers gmap sets sorting list.
From Verif Require Import RustStr RustStrProofs RustOrd LineModel LineProofs RenameModel RenameSpec.
Local Open Scope N_scope.

(* ------------------------------------------------------------------ *)
(** * Names *)

Lemma first_nodup : NoDup FIRST_CHARS.
Proof. apply (bool_decide_unpack _). vm_compute. done. Qed.
Lemma non_first_nodup : NoDup NON_FIRST_CHARS.
Proof. apply (bool_decide_unpack _). vm_compute. done. Qed.
Lemma cons_inv {A} (x y : A) l k : x :: l = y :: k -> x = y /\ l = k.
Proof. by intros [= -> ->]. Qed.
Lemma nth_inj (l : list N) i j : NoDup l -> (i < length l)%nat -> (j < length l)%nat -> List.nth i l 0 = List.nth j l 0 -> i = j.
Proof. intros D A B E. apply NoDup_ListNoDup in D. by apply (proj1 (NoDup_nth l 0) D). Qed.

Lemma div_lt_pow n f : n < 2 ^ N.of_nat (S f) -> n / 64 < 2 ^ N.of_nat f.
Proof.
  intros H. apply N.div_lt_upper_bound; [done|]. rewrite Nat2N.inj_succ, N.pow_succ_r' in H. lia.
Qed.
Lemma div_mod_eq n m c : c <> 0 -> n mod c = m mod c -> n / c = m / c -> n = m.
Proof. intros C A B. rewrite (N.div_mod n c), (N.div_mod m c) by done. by rewrite A, B. Qed.

Lemma encode_rest_inj f : forall g n m, n < 2 ^ N.of_nat f -> m < 2 ^ N.of_nat g ->
  encode_rest f n = encode_rest g m -> n = m.
Proof.
  induction f as [|f IH]; intros g n m Hn Hm E.
  - cbn [encode_rest] in E. assert (n = 0) as -> by (cbn in Hn; lia). destruct g as [|g]; [cbn in Hm; lia|].
    cbn [encode_rest] in E. destruct (m =? 0) eqn:M; [by apply N.eqb_eq in M|done].
  - cbn [encode_rest] in E. destruct (N.eqb_spec n 0) as [->|N0].
    + destruct g as [|g]; [cbn in Hm; lia|]. cbn [encode_rest] in E.
      destruct (m =? 0) eqn:M; [by apply N.eqb_eq in M|done].
    + destruct g as [|g]; [done|]. cbn [encode_rest] in E. destruct (N.eqb_spec m 0) as [->|M0]; [done|].
      apply cons_inv in E as [E1 E2]. apply (div_mod_eq n m 64); [done| |].
      * apply nth_inj in E1; [by apply N2Nat.inj|apply non_first_nodup| |].
        -- pose proof (N.mod_lt n 64). change (length NON_FIRST_CHARS) with 64%nat. lia.
        -- pose proof (N.mod_lt m 64). change (length NON_FIRST_CHARS) with 64%nat. lia.
      * eapply IH; [by apply div_lt_pow|by apply div_lt_pow|exact E2].
Qed.
Lemma encode_inj n m : encode n = encode m -> n = m.
Proof.
  unfold encode. intros E. apply cons_inv in E as [E1 E2]. apply (div_mod_eq n m 54); [done| |].
  - apply nth_inj in E1; [by apply N2Nat.inj|apply first_nodup| |].
    -- pose proof (N.mod_lt n 54). change (length FIRST_CHARS) with 54%nat. lia.
    -- pose proof (N.mod_lt m 54). change (length FIRST_CHARS) with 54%nat. lia.
  - eapply encode_rest_inj; [| |exact E2]; rewrite N2Nat.id; apply N.size_gt.
Qed.

Definition start_b (c : N) : bool :=
  ((97 <=? c) && (c <=? 122)) || ((65 <=? c) && (c <=? 90)) || (c =? 36) || (c =? 95).
Lemma start_b_spec c : start_b c = true -> ident_start c.
Proof. unfold start_b, ident_start. lia. Qed.
Lemma encode_ident n : exists c cs, encode n = c :: cs /\ ident_start c /\ Forall ident_part cs.
Proof.
  assert (Forall ident_start FIRST_CHARS) as F.
  { apply Forall_forall. intros c C. apply start_b_spec.
    assert (forallb start_b FIRST_CHARS = true) as B by (vm_compute; reflexivity).
    rewrite forallb_forall in B. by apply B, elem_of_list_In. }
  assert (Forall ident_part NON_FIRST_CHARS) as F2.
  { apply Forall_forall. intros c C.
    assert (forallb (fun c => start_b c || ((48 <=? c) && (c <=? 57))) NON_FIRST_CHARS = true) as B by (vm_compute; reflexivity).
    rewrite forallb_forall in B. apply elem_of_list_In, B in C. apply orb_true_iff in C as [C|C].
    - left. by apply start_b_spec.
    - right. lia. }
  eexists _, _. split; [reflexivity|]. split.
  - rewrite Forall_forall in F. apply F. apply elem_of_list_In, nth_In.
    pose proof (N.mod_lt n 54). change (length FIRST_CHARS) with 54%nat. lia.
  - clear F. generalize (N.to_nat (N.size (n / 54))). generalize (n / 54). intros m f. revert m. induction f as [|f IH]; intros m; [constructor|].
    cbn [encode_rest]. destruct (m =? 0); constructor; [|apply IH].
    rewrite Forall_forall in F2. apply F2. apply elem_of_list_In, nth_In.
    pose proof (N.mod_lt m 64). change (length NON_FIRST_CHARS) with 64%nat. lia.
Qed.

Lemma next_name_spec tries c allowed n c' : next_name tries c allowed = Some (n, c') ->
  exists k, c <= k /\ n = encode k /\ c' = k + 1 /\ allowed n = true /\ (forall j, c <= j < k -> allowed (encode j) = false).
Proof.
  revert c. induction tries as [|t IH]; intros c; [done|]. cbn [next_name].
  destruct (allowed (encode c)) eqn:A.
  - intros [= <- <-]. exists c. repeat split; [lia|done|]. intros j J. lia.
  - intros E. apply IH in E as (k & K & -> & -> & B & C). exists k. repeat split; [lia|done|].
    intros j J. destruct (decide (j = c)) as [->|D]; [done|]. apply C. lia.
Qed.
Lemma next_name_none tries c allowed : next_name tries c allowed = None ->
  forall j, (j < tries)%nat -> allowed (encode (c + N.of_nat j)) = false.
Proof.
  revert c. induction tries as [|t IH]; intros c; cbn [next_name]; [intros _ j J; lia|].
  destruct (allowed (encode c)) eqn:A; [done|]. intros E j J. destruct j as [|j].
  - by rewrite N.add_0_r.
  - replace (c + N.of_nat (S j)) with (c + 1 + N.of_nat j) by lia. apply IH; [done|lia].
Qed.
Lemma next_name_total (avoid : gset rstr) c tries : (size avoid < tries)%nat ->
  exists n c', next_name tries c (fun x => negb (bool_decide (x ∈ avoid))) = Some (n, c').
Proof.
  intros T. destruct (next_name _ _ _) as [[n c']|] eqn:E; [by eauto|]. exfalso.
  pose proof (next_name_none _ _ _ E) as A.
  set (l := List.map (fun j => encode (c + N.of_nat j)) (seq 0 tries)).
  assert (NoDup l) as ND.
  { apply NoDup_fmap_2_strong; [|apply NoDup_seq]. intros x y _ _ X. apply encode_inj in X. lia. }
  assert (list_to_set l ⊆ avoid) as Sub.
  { intros x X. apply elem_of_list_to_set, elem_of_list_fmap in X as (j & -> & J).
    apply elem_of_list_In, in_seq in J. specialize (A j). cbv beta in A.
    apply negb_false_iff, bool_decide_eq_true in A; [done|lia]. }
  apply subseteq_size in Sub. rewrite size_list_to_set in Sub by done.
  unfold l in Sub. rewrite fmap_length, seq_length in Sub. lia.
Qed.

Lemma take_names_spec tries conds : forall c ns, take_names tries c conds = Some ns ->
  NoDup ns /\ Forall (fun n => exists k, c <= k /\ n = encode k) ns /\ Forall2 (fun n (p : rstr -> bool) => p n = true) ns conds.
Proof.
  induction conds as [|p conds IH]; intros c ns; cbn [take_names].
  - intros [= <-]. repeat constructor.
  - destruct (next_name tries c p) as [[n c']|] eqn:E; [|done]. cbn [mbind option_bind].
    destruct (take_names tries c' conds) as [ms|] eqn:T; [|done]. cbn [mbind option_bind]. intros [= <-].
    apply next_name_spec in E as (k & K & -> & -> & A & _). apply IH in T as (ND & F & F2).
    split; [|split].
    + constructor; [|done]. rewrite Forall_forall in F. intros X. apply F in X as (j & J & X).
      apply encode_inj in X. lia.
    + constructor; [by exists k|]. eapply Forall_impl; [exact F|]. intros x (j & J & ->). exists j. split; [lia|done].
    + by constructor.
Qed.

(* ------------------------------------------------------------------ *)
(** * Rewriting *)

Lemma slice_prefix (a m b : rstr) p : p = str_len a -> slice (a ++ m ++ b) p (p + str_len m) = Some m.
Proof. intros ->. apply slice_app. Qed.
Lemma slice_end (a m : rstr) : slice (a ++ m) (str_len a) (str_len (a ++ m)) = Some m.
Proof. rewrite str_len_app. rewrite <- (app_nil_r m) at 1. apply slice_app. Qed.

Lemma rewrite_loop_edited reps : forall pre suf out,
  edited (str_len pre) suf reps out -> rewrite_loop (pre ++ suf) (str_len pre) reps = Some out.
Proof.
  induction reps as [|r reps IH]; intros pre suf out E; inversion E as [|? kept old rest ? ? out' S1 S2 E']; subst; cbn [rewrite_loop].
  - apply slice_end.
  - rewrite S2, S1. replace (str_len pre <=? str_len pre + str_len kept) with true by (symmetry; apply N.leb_le; lia).
    replace (str_len pre + str_len kept <=? str_len pre + str_len kept + str_len old) with true by (symmetry; apply N.leb_le; lia).
    cbn [andb]. rewrite slice_app. cbn [mbind option_bind].
    specialize (IH (pre ++ kept ++ old) rest out'). rewrite !str_len_app in IH.
    rewrite S2, S1 in E'. rewrite N.add_assoc in IH. apply IH in E'. rewrite <- !app_assoc in E'. rewrite E'. done.
Qed.
Lemma slice_boundary s a b m : slice s a b = Some m -> is_char_boundary s a = true.
Proof.
  unfold slice. destruct (split_at a s) as [[x y]|] eqn:E; [|done]. intros _.
  apply split_at_Some in E as [-> <-]. apply is_char_boundary_iff. by eauto.
Qed.
Lemma rewrite_loop_boundary s cur reps out : rewrite_loop s cur reps = Some out -> is_char_boundary s cur = true.
Proof.
  destruct reps as [|r reps]; cbn [rewrite_loop]; [apply slice_boundary|].
  destruct (_ && _); [|done]. destruct (slice s cur (r_start r)) eqn:E; [|done]. intros _. by eapply slice_boundary.
Qed.
Lemma rewrite_loop_exact reps : forall pre suf out,
  rewrite_loop (pre ++ suf) (str_len pre) reps = Some out -> edited (str_len pre) suf reps out.
Proof.
  induction reps as [|r reps IH]; intros pre suf out; cbn [rewrite_loop].
  - rewrite slice_end. intros [= <-]. constructor.
  - destruct ((str_len pre <=? r_start r) && (r_start r <=? r_end r)) eqn:B; [|done].
    apply andb_true_iff in B as [B1 B2]. apply N.leb_le in B1, B2.
    intros E.
    destruct (slice (pre ++ suf) (str_len pre) (r_start r)) as [kept|] eqn:S; [|done]. cbn [mbind option_bind] in E.
    destruct (rewrite_loop (pre ++ suf) (r_end r) reps) as [rest|] eqn:R; [|done]. cbn [mbind option_bind] in E.
    injection E as <-.
    unfold slice in S. rewrite split_at_app in S. destruct (N.leb_spec (str_len pre) (r_start r)); [|done].
    destruct (split_at (r_start r - str_len pre) suf) as [[m q]|] eqn:Sp; [|done]. injection S as ->.
    apply split_at_Some in Sp as [-> L].
    pose proof (rewrite_loop_boundary _ _ _ _ R) as Be.
    apply is_char_boundary_iff in Be as (x & y & Exy & Lx).
    destruct (prefix_by_len (pre ++ kept) q x y) as [old ->].
    { by rewrite <- app_assoc. } { rewrite str_len_app. lia. }
    assert (q = old ++ y) as ->.
    { rewrite <- !app_assoc in Exy. by apply app_inv_head, app_inv_head in Exy. }
    apply (edited_step (str_len pre) kept old y r reps rest).
    + lia.
    + rewrite !str_len_app in Lx. lia.
    + rewrite <- Lx. apply IH. rewrite <- R, <- Lx, <- !app_assoc. done.
Qed.

Definition by_start (a b : replacement) : comparison := N.compare (r_start a) (r_start b).
Lemma edited_le pos s reps out : edited pos s reps out -> Forall (fun r => pos <= r_start r) reps.
Proof.
  induction 1; constructor; [lia|]. eapply Forall_impl; [exact IHedited|]. cbv beta. intros x X. lia.
Qed.
Lemma edited_sorted pos s reps out : edited pos s reps out -> StronglySorted (cle by_start) reps.
Proof.
  induction 1 as [|? ? ? ? ? ? ? ? ? E IH]; constructor; [done|]. apply edited_le in E. eapply Forall_impl; [exact E|].
  intros x X G. apply N.compare_gt_iff in G. cbv beta in X. lia.
Qed.
Lemma by_start_lawful : lawful by_start.
Proof. exact (lawful_on r_start N.compare lawful_N). Qed.
Lemma extend_start source r : r_start (extend source r) = r_start r.
Proof.
  unfold extend. destruct (split_at _ _) as [[? [|q body]]|]; [done| |done]. destruct (_ || _); [|done].
  destruct (literal_end _ _ _ _); [|done]. by destruct (_ <? _).
Qed.
Lemma rewrite_any reps source rs out : NoDup (List.map r_start reps) -> rs ≡ₚ List.map (extend source) reps ->
  edited 0 source rs out -> rewrite_source source reps = Some out.
Proof.
  intros ND Pm E. unfold rewrite_source. change (fun a b => N.compare (r_start a) (r_start b)) with by_start.
  assert (sort_by by_start (List.map (extend source) reps) = rs) as ->.
  { symmetry. apply (sorted_unique_on by_start (fun r => r ∈ rs)); [|by apply Forall_forall|by eapply edited_sorted| |].
    - assert (NoDup (List.map r_start rs)) as ND2.
      { rewrite Pm. rewrite map_map. erewrite map_ext; [exact ND|]. intros. apply extend_start. }
      intros x y X Y A B. assert (r_start x = r_start y) as Es.
      { unfold cle, by_start in A, B. destruct (N.compare_spec (r_start x) (r_start y)); [done| |done].
        exfalso. apply B, N.compare_gt_iff. done. }
      clear -ND2 X Y Es. induction rs as [|z l IH]; [by apply elem_of_nil in X|].
      cbn in ND2. apply NoDup_cons in ND2 as [H1 H2].
      apply elem_of_cons in Y as [->|Y]; apply elem_of_cons in X as [->|X]; [done| | |by apply IH].
      + destruct H1. rewrite <- Es. by apply elem_of_list_fmap_1.
      + destruct H1. rewrite Es. by apply elem_of_list_fmap_1.
    - apply sort_by_sorted; [apply (lawful_total _ by_start_lawful)|apply (lawful_trans _ by_start_lawful)].
    - by rewrite sort_by_perm. }
  by apply (rewrite_loop_edited rs [] source).
Qed.
Lemma rewrite_some reps source out : rewrite_source source reps = Some out ->
  exists rs, rs ≡ₚ List.map (extend source) reps /\ edited 0 source rs out.
Proof.
  unfold rewrite_source. intros E. eexists. split; [|exact (rewrite_loop_exact _ [] source out E)]. apply sort_by_perm.
Qed.

Lemma literal_end_spec q b : q <> 0x5C -> len_utf8 q = 1 -> forall rest pos, literal_body q b ->
  literal_end q (b ++ q :: rest) false pos = Some (pos + str_len b + 1).
Proof.
  intros Q L rest pos H. revert pos. induction H as [|c b C1 C2 _ IH|c b _ IH]; intros pos; cbn [app literal_end].
  - replace (q =? 0x5C) with false by (symmetry; by apply N.eqb_neq). rewrite N.eqb_refl, L, str_len_nil. f_equal. lia.
  - replace (c =? 0x5C) with false by (symmetry; by apply N.eqb_neq).
    replace (c =? q) with false by (symmetry; by apply N.eqb_neq). rewrite IH, str_len_cons. f_equal. lia.
  - change (0x5C =? 0x5C) with true. cbv iota. rewrite IH, !str_len_cons. f_equal. lia.
Qed.
Lemma literal_end_inv q : forall n s pos e, (length s <= n)%nat -> literal_end q s false pos = Some e ->
  exists b rest, s = b ++ q :: rest /\ literal_body q b /\ e = pos + str_len b + len_utf8 q.
Proof.
  induction n as [|n IH]; intros s pos e Ln; (destruct s as [|c s]; [done|]); cbn [length] in Ln; [lia|]. cbn [literal_end].
  destruct (N.eqb_spec c 0x5C) as [->|C].
  - destruct s as [|d s]; [done|]. cbn [literal_end]. intros E. apply IH in E as (b & rest & -> & B & ->); [|cbn in Ln; lia].
    exists (0x5C :: d :: b), rest. split; [done|]. split; [by constructor|]. rewrite !str_len_cons. lia.
  - destruct (N.eqb_spec c q) as [->|D].
    + intros [= <-]. exists [], s. split; [done|]. split; [constructor|]. rewrite str_len_nil. lia.
    + intros E. apply IH in E as (b & rest & -> & B & ->); [|lia].
      exists (c :: b), rest. split; [done|]. split; [by constructor|]. rewrite !str_len_cons. lia.
Qed.
Lemma extend_literal source r e : literal_at source (r_start r) e ->
  extend source r = Rep (r_start r) (N.max (r_end r) e) (r_text r).
Proof.
  intros (pre & q & body & rest & -> & L & Q & B & ->). unfold extend. rewrite <- L, split_at_app, L.
  assert (q <> 0x5C /\ len_utf8 q = 1 /\ (q =? 0x22) || (q =? 0x27) = true) as (Q1 & Q2 & ->) by (destruct Q as [->| ->]; done).
  rewrite literal_end_spec by done. destruct r as [s e t]. cbn [r_start r_end r_text].
  destruct (N.ltb_spec e (s + 1 + str_len body + 1)); f_equal; lia.
Qed.
Lemma extend_other source r : (forall e, ~ literal_at source (r_start r) e) -> extend source r = r.
Proof.
  intros N. unfold extend. destruct (split_at _ _) as [[pre [|q body]]|] eqn:E; [done| |done].
  destruct (_ || _) eqn:Q; [|done]. destruct (literal_end _ _ _ _) as [e|] eqn:L; [|done]. exfalso.
  apply split_at_Some in E as [-> E]. eapply literal_end_inv in L as (b & rest & -> & B & ->); [|done].
  apply (N (r_start r + 2 + str_len b)). exists pre, q, b, rest. repeat split; try done. lia.
Qed.
