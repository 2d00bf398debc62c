(** Proofs about lines and columns. *)
From Coq Require Import NArith Lia ZifyBool Sorting.Sorted.
From stdpp Require Import base decidable numbers sorting list.
From Verif Require Import RustStr LineModel LineSpec.

Local Open Scope N_scope.

Lemma len_utf8_pos c : 0 < len_utf8 c.
Proof. unfold len_utf8. repeat case_match; lia. Qed.
Lemma str_len_cons c s : str_len (c :: s) = len_utf8 c + str_len s.
Proof. reflexivity. Qed.
Lemma str_len_app a b : str_len (a ++ b) = str_len a + str_len b.
Proof. induction a as [|c a IH]; [reflexivity|]. cbn [app]. rewrite !str_len_cons, IH. lia. Qed.
Lemma str_len_nil : str_len [] = 0.
Proof. reflexivity. Qed.
Lemma nl_len : len_utf8 0x0A = 1.
Proof. reflexivity. Qed.
Lemma split_at_app a b : split_at (str_len a) (a ++ b) = Some (a, b).
Proof.
  induction a as [|c a IH]; [destruct b; reflexivity|].
  rewrite str_len_cons. cbn [app split_at]. pose proof (len_utf8_pos c).
  destruct (N.eqb_spec (len_utf8 c + str_len a) 0); [lia|].
  destruct (N.leb_spec (len_utf8 c) (len_utf8 c + str_len a)); [|lia].
  replace (len_utf8 c + str_len a - len_utf8 c) with (str_len a) by lia. rewrite IH. reflexivity.
Qed.
Lemma split_at_Some o s a b : split_at o s = Some (a, b) -> s = a ++ b /\ str_len a = o.
Proof.
  revert o a b. induction s as [|c s IH]; intros o a b; cbn [split_at].
  - destruct (N.eqb_spec o 0); [|discriminate]. intros [= <- <-]. subst. auto.
  - destruct (N.eqb_spec o 0); [intros [= <- <-]; subst; auto|].
    destruct (N.leb_spec (len_utf8 c) o); [|discriminate].
    destruct (split_at (o - len_utf8 c) s) as [[a' b']|] eqn:E; [|discriminate].
    intros [= <- <-]. apply IH in E as [-> E]. cbn [app]. rewrite str_len_cons. split; [reflexivity|lia].
Qed.
Lemma is_char_boundary_iff s o : is_char_boundary s o = true <-> exists a b, s = a ++ b /\ str_len a = o.
Proof.
  unfold is_char_boundary. split.
  - destruct (split_at o s) as [[a b]|] eqn:E; [|discriminate]. apply split_at_Some in E. eauto.
  - intros (a & b & -> & <-). rewrite split_at_app. reflexivity.
Qed.
Lemma slice_app a m b : slice (a ++ m ++ b) (str_len a) (str_len a + str_len m) = Some m.
Proof.
  unfold slice. rewrite split_at_app. destruct (N.leb_spec (str_len a) (str_len a + str_len m)); [|lia].
  replace (str_len a + str_len m - str_len a) with (str_len m) by lia. rewrite split_at_app. reflexivity.
Qed.

(** * Clamping *)
Lemma step_back_spec fuel s o : (N.to_nat o <= fuel)%nat ->
  let o' := step_back fuel s o in is_char_boundary s o' = true /\ o' <= o /\ forall p, is_char_boundary s p = true -> p <= o -> p <= o'.
Proof.
  revert o. induction fuel as [|fuel IH]; intros o Hf; cbn [step_back].
  - assert (o = 0) as -> by lia. repeat split; [destruct s; reflexivity|lia|lia].
  - destruct (N.ltb_spec 0 o); cbn [andb].
    2:{ assert (o = 0) as -> by lia. repeat split; [destruct s; reflexivity|lia|lia]. }
    destruct (is_char_boundary s o) eqn:B; cbn [negb]; [repeat split; [exact B|lia|lia]|].
    destruct (IH (o - 1)) as (B' & L & M); [lia|]. repeat split; [exact B'|lia|].
    intros p Hp Hle. apply M; [exact Hp|]. destruct (N.eq_dec p o) as [->|]; [congruence|lia].
Qed.
Lemma boundary_le s o : is_char_boundary s o = true -> o <= str_len s.
Proof. intros (a & b & -> & <-)%is_char_boundary_iff. rewrite str_len_app. lia. Qed.
Lemma clamp_offset_spec s o :
  let o' := clamp_offset s o in is_char_boundary s o' = true /\ o' <= o /\ forall p, is_char_boundary s p = true -> p <= o -> p <= o'.
Proof.
  unfold clamp_offset. set (q := if str_len s <? o then str_len s else o).
  destruct (step_back_spec (N.to_nat q) s q ltac:(lia)) as (B & L & M). cbn zeta.
  repeat split; [exact B| |].
  - unfold q in *. destruct (N.ltb_spec (str_len s) o); lia.
  - intros p Hp Hle. apply M; [exact Hp|]. pose proof (boundary_le s p Hp). unfold q. destruct (N.ltb_spec (str_len s) o); lia.
Qed.

(** * The starts of lines *)
Lemma starts_from_app a b p : starts_from (a ++ b) p = starts_from a p ++ starts_from b (p + str_len a).
Proof.
  revert p. induction a as [|c a IH]; intros p; cbn [app starts_from]; [rewrite str_len_nil, N.add_0_r; reflexivity|].
  rewrite IH, str_len_cons, N.add_assoc. destruct (c =? 10); reflexivity.
Qed.
Lemma starts_from_length a p : length (starts_from a p) = newlines a.
Proof.
  revert p. unfold newlines. induction a as [|c a IH]; intros p; cbn [starts_from]; [reflexivity|].
  rewrite filter_cons. destruct (N.eqb_spec c 10); case_decide; try contradiction; cbn [length]; rewrite IH; reflexivity.
Qed.
Lemma starts_from_bounds a p : Forall (fun x => p < x <= p + str_len a) (starts_from a p).
Proof.
  revert p. induction a as [|c a IH]; intros p; cbn [starts_from]; [constructor|].
  pose proof (len_utf8_pos c). rewrite str_len_cons.
  assert (Forall (fun x => p < x <= p + (len_utf8 c + str_len a)) (starts_from a (p + len_utf8 c))) as F.
  { apply Forall_forall. intros x Hx. pose proof (proj1 (Forall_forall _ _) (IH (p + len_utf8 c)) x Hx). cbn beta in *. lia. }
  destruct (N.eqb_spec c 10) as [->|]; [|exact F]. constructor; [|exact F]. rewrite nl_len in *. lia.
Qed.
Lemma starts_from_sorted a p : StronglySorted N.lt (starts_from a p).
Proof.
  revert p. induction a as [|c a IH]; intros p; cbn [starts_from]; [constructor|].
  destruct (N.eqb_spec c 10) as [->|]; [|apply IH]. constructor; [apply IH|].
  apply Forall_forall. intros x Hx. pose proof (proj1 (Forall_forall _ _) (starts_from_bounds a (p + len_utf8 10)) x Hx). cbn beta in *.
  rewrite nl_len in *. lia.
Qed.
Lemma starts_from_none a p : 10 ∉ a -> starts_from a p = [].
Proof.
  revert p. induction a as [|c a IH]; intros p H; cbn [starts_from]; [reflexivity|].
  apply not_elem_of_cons in H as [Hn H]. destruct (N.eqb_spec c 10); [congruence|]. apply IH, H.
Qed.
Lemma newlines_app a b : newlines (a ++ b) = (newlines a + newlines b)%nat.
Proof. unfold newlines. rewrite filter_app, app_length. reflexivity. Qed.
Lemma newlines_none a : 10 ∉ a -> newlines a = O.
Proof. intros H. rewrite <- (starts_from_length a 0), starts_from_none by exact H. reflexivity. Qed.
(** The start of the line after [before]. *)
Lemma starts_lookup before rest : (before = [] \/ last before = Some 10) -> line_starts (before ++ rest) !! newlines before = Some (str_len before).
Proof.
  intros [->|H]; [reflexivity|].
  apply last_Some in H as [b ->]. unfold line_starts. rewrite newlines_app. change (newlines [10]) with 1%nat.
  rewrite Nat.add_1_r. change (starts_from ((b ++ [10]) ++ rest) 0 !! newlines b = Some (str_len (b ++ [10]))). rewrite !starts_from_app, <- app_assoc.
  rewrite lookup_app_r by (rewrite starts_from_length; lia). rewrite starts_from_length, Nat.sub_diag.
  cbn. rewrite str_len_app. reflexivity.
Qed.
Lemma starts_next before line after : is_line (before ++ line ++ after) before line after ->
  line_starts (before ++ line ++ after) !! S (newlines before) = match after with [] => None | _ => Some (str_len before + str_len line + 1) end.
Proof.
  intros (_ & Hn & _ & Ha). change (starts_from (before ++ line ++ after) 0 !! newlines before = match after with [] => None | _ => Some (str_len before + str_len line + 1) end).
  rewrite starts_from_app, lookup_app_r by (rewrite starts_from_length; lia). rewrite starts_from_length, Nat.sub_diag.
  rewrite starts_from_app, starts_from_none by exact Hn. cbn [app].
  destruct after as [|c after]; [reflexivity|]. destruct Ha as [?|[= ->]]; [discriminate|].
  cbn. f_equal. 
Qed.
Lemma line_bounds_line s before line after : is_line s before line after ->
  line_bounds s (newlines before) = (str_len before, str_len before + str_len line).
Proof.
  intros H. pose proof (proj1 H) as E. subst s. unfold line_bounds.
  rewrite starts_lookup by apply H. rewrite starts_next by exact H.
  destruct after as [|c after].
  - rewrite app_nil_r, str_len_app. f_equal; lia.
  - f_equal; lia.
Qed.
Lemma line_slice s before line after : is_line s before line after ->
  let '(a, b) := line_bounds s (newlines before) in slice s a b = Some line.
Proof. intros H. rewrite (line_bounds_line s before line after H). rewrite (proj1 H). apply slice_app. Qed.

(** * Searching *)
Lemma binary_search_le x l1 l2 : StronglySorted N.lt l1 -> Forall (fun y => y <= x) l1 -> Forall (fun y => x < y) l2 -> l1 <> [] ->
  match binary_search x (l1 ++ l2) with inl k => S k = length l1 | inr k => k = length l1 end.
Proof.
  intros HS HF HF2. induction l1 as [|y l1 IH]; [congruence|]. intros _.
  apply StronglySorted_inv in HS as [HS Hlt]. apply Forall_cons_1 in HF as [Hy HF]. cbn [app binary_search length].
  destruct (N.eqb_spec y x) as [->|].
  - destruct l1 as [|z l1]; [reflexivity|]. apply Forall_cons_1 in Hlt as [Hz _]. apply Forall_cons_1 in HF as [Hz' _]. lia.
  - destruct (N.ltb_spec x y); [lia|]. destruct l1 as [|z l1].
    + cbn [app]. destruct l2 as [|w l2]; [reflexivity|]. apply Forall_cons_1 in HF2 as [Hw _]. cbn [binary_search].
      destruct (N.eqb_spec w x); [lia|]. destruct (N.ltb_spec x w); [reflexivity|lia].
    + specialize (IH HS HF ltac:(discriminate)). destruct (binary_search x ((z :: l1) ++ l2)); cbn [length] in *; lia.
Qed.
Lemma line_index_spec pre post : line_index_at_offset (pre ++ post) (str_len pre) = newlines pre.
Proof.
  unfold line_index_at_offset. rewrite str_len_app, N.min_l by lia. unfold line_starts. rewrite starts_from_app.
  change (0 :: starts_from pre 0 ++ starts_from post (0 + str_len pre)) with ((0 :: starts_from pre 0) ++ starts_from post (0 + str_len pre)).
  assert (L : length (0 :: starts_from pre 0) = S (newlines pre)) by (cbn [length]; rewrite starts_from_length; reflexivity).
  pose proof (binary_search_le (str_len pre) (0 :: starts_from pre 0) (starts_from post (0 + str_len pre))) as B.
  rewrite L in B.
  destruct (binary_search _ _) as [k|k].
  - assert (S k = S (newlines pre)) as [= ->].
    { apply B; try discriminate.
      - constructor; [apply starts_from_sorted|]. eapply Forall_impl; [apply starts_from_bounds|]. cbn. intros; lia.
      - constructor; [lia|]. eapply Forall_impl; [apply starts_from_bounds|]. cbn. intros; lia.
      - eapply Forall_impl; [apply starts_from_bounds|]. cbn. intros; lia. }
    rewrite app_length, L. lia.
  - assert (k = S (newlines pre)) as ->; [|reflexivity]. apply B; try discriminate.
      + constructor; [apply starts_from_sorted|]. eapply Forall_impl; [apply starts_from_bounds|]. cbn. intros; lia.
      + constructor; [lia|]. eapply Forall_impl; [apply starts_from_bounds|]. cbn. intros; lia.
      + eapply Forall_impl; [apply starts_from_bounds|]. cbn. intros; lia.
Qed.

(** * Columns *)
Lemma column_loop_spec seg rest idx tab col :
  column_loop (seg ++ rest) idx (idx + str_len seg) tab col = col + width tab seg.
Proof.
  revert idx col. induction seg as [|c seg IH]; intros idx col.
  - rewrite str_len_nil, N.add_0_r. cbn [app]. unfold width. cbn [fold_right]. rewrite N.add_0_r.
    destruct rest as [|c rest]; cbn [column_loop]; [reflexivity|]. destruct (N.ltb_spec idx idx); [lia|reflexivity].
  - cbn [app column_loop]. rewrite str_len_cons. pose proof (len_utf8_pos c).
    destruct (N.ltb_spec idx (idx + (len_utf8 c + str_len seg))); [|lia].
    destruct (N.ltb_spec (idx + (len_utf8 c + str_len seg)) (idx + len_utf8 c)); [lia|].
    rewrite N.add_assoc, IH. unfold width. cbn [fold_right]. lia.
Qed.
Lemma display_column_spec seg rest tab : display_column (seg ++ rest) (str_len seg) tab = width (N.max tab 1) seg.
Proof.
  unfold display_column. rewrite str_len_app, N.min_l by lia. rewrite <- (N.add_0_l (str_len seg)), column_loop_spec. apply N.add_0_l.
Qed.

Lemma split_line (post : rstr) : exists rest after, post = rest ++ after /\ 10 ∉ rest /\ (after = [] \/ head after = Some 10).
Proof.
  induction post as [|c post (rest & after & -> & Hn & Ha)].
  - exists [], []. split; [reflexivity|]. split; [apply not_elem_of_nil|auto].
  - destruct (decide (c = 10)) as [->|].
    + exists [], (10 :: rest ++ after). split; [reflexivity|]. split; [apply not_elem_of_nil|auto].
    + exists (c :: rest), after. split; [reflexivity|]. split; [apply not_elem_of_cons; auto|exact Ha].
Qed.
Lemma line_and_column_spec before seg post tab :
  (before = [] \/ last before = Some 10) -> 10 ∉ seg ->
  line_and_column (before ++ seg ++ post) (str_len (before ++ seg)) tab = Some (N.of_nat (newlines before) + 1, width (N.max tab 1) seg + 1).
Proof.
  intros Hb Hs. unfold line_and_column. rewrite app_assoc, line_index_spec, newlines_app, (newlines_none seg) by exact Hs.
  rewrite Nat.add_0_r. destruct (split_line post) as (rest & after & -> & Hr & Ha).
  assert (IL : is_line ((before ++ seg) ++ rest ++ after) before (seg ++ rest) after).
  { split; [rewrite <- !app_assoc; reflexivity|]. split; [rewrite elem_of_app; tauto|]. auto. }
  pose proof (line_slice _ _ _ _ IL) as SL. rewrite (line_bounds_line _ _ _ _ IL) in *. rewrite SL.
  rewrite str_len_app. replace (str_len before + str_len seg - str_len before) with (str_len seg) by lia.
  rewrite display_column_spec. reflexivity.
Qed.

(** * Visible lines *)
Lemma dedup_sorted l : StronglySorted lt l -> dedup l = l.
Proof.
  induction l as [|x l IH]; intros H; [reflexivity|]. apply StronglySorted_inv in H as [H F]. cbn [dedup]. rewrite IH by exact H.
  destruct l as [|y l]; [reflexivity|]. apply Forall_cons_1 in F as [F _]. destruct (Nat.eqb_spec x y); [lia|reflexivity].
Qed.
Lemma sorted_app (l1 l2 : list nat) : StronglySorted lt l1 -> StronglySorted lt l2 -> (forall x y, x ∈ l1 -> y ∈ l2 -> x < y)%nat -> StronglySorted lt (l1 ++ l2).
Proof.
  induction l1 as [|x l1 IH]; intros H1 H2 H; [exact H2|]. apply StronglySorted_inv in H1 as [H1 F]. cbn [app]. constructor.
  - apply IH; [exact H1|exact H2|]. intros a b Ha Hb. apply H; [right; exact Ha|exact Hb].
  - apply Forall_app. split; [exact F|]. apply Forall_forall. intros y Hy. apply H; [left|exact Hy].
Qed.
Lemma in_seq' a n x : x ∈ seq a n <-> (a <= x < a + n)%nat.
Proof. rewrite elem_of_list_In. apply in_seq. Qed.
Lemma seq_sorted a n : StronglySorted lt (seq a n).
Proof.
  revert a. induction n as [|n IH]; intros a; cbn [seq]; constructor; [apply IH|]. apply Forall_forall. intros x Hx.
  apply in_seq' in Hx. lia.
Qed.
Lemma sort_lt_id (l : list nat) : StronglySorted lt l -> merge_sort le l = l.
Proof.
  intros H. apply (StronglySorted_unique le).
  - apply StronglySorted_merge_sort; apply _.
  - induction H as [|x l H IH F]; constructor; [exact IH|]. eapply Forall_impl; [exact F|]. cbn. intros; lia.
  - apply merge_sort_Permutation.
Qed.
Lemma visible_spec a b n : (a <= b)%nat ->
  StronglySorted lt (visible_lines a b n) /\ length (visible_lines a b n) = Nat.min n (b - a + 1) /\
  (forall k, k ∈ visible_lines a b n -> a <= k <= b)%nat /\
  (1 <= n -> a ∈ visible_lines a b n)%nat /\ (2 <= n -> b ∈ visible_lines a b n)%nat.
Proof.
  intros Hab. unfold visible_lines. destruct (Nat.eqb_spec n 0) as [->|Hn].
  - split; [constructor|]. split; [reflexivity|]. split; [intros k Hk; inversion Hk|]. split; lia.
  - destruct (Nat.leb_spec (b - a + 1) n) as [L|L].
    + split; [apply seq_sorted|]. rewrite seq_length. split; [lia|]. split; [intros k Hk; apply in_seq' in Hk; lia|].
      split; intros; apply in_seq'; lia.
    + pose proof (Nat.div_mod_eq (n + 1) 2) as D. pose proof (Nat.mod_upper_bound (n + 1) 2 ltac:(lia)) as M.
      set (h := ((n + 1) / 2)%nat) in *. rewrite (Nat.min_l h) by lia.
      set (t := if Nat.ltb 0 (n - h) then _ else _).
      assert (Ht : t = seq (b + 1 - (n - h)) (n - h)).
      { unfold t. destruct (Nat.ltb_spec 0 (n - h)); [|replace (n - h)%nat with O by lia; reflexivity]. f_equal; lia. }
      assert (HS : StronglySorted lt (seq a h ++ t)).
      { rewrite Ht. apply sorted_app; [apply seq_sorted|apply seq_sorted|]. intros x y Hx Hy. apply in_seq' in Hx, Hy. lia. }
      rewrite sort_lt_id, dedup_sorted by exact HS. split; [exact HS|]. rewrite Ht, app_length, !seq_length. split; [lia|].
      split; [intros k Hk; apply elem_of_app in Hk as [Hk|Hk]; apply in_seq' in Hk; lia|].
      split; intros; apply elem_of_app; rewrite !in_seq'; lia.
Qed.

(** * Underlines *)
Lemma prefix_by_len (a1 b1 a2 b2 : rstr) : a1 ++ b1 = a2 ++ b2 -> str_len a1 <= str_len a2 -> exists m, a2 = a1 ++ m.
Proof.
  revert a2. induction a1 as [|c a1 IH]; intros a2 E L; [exists a2; reflexivity|].
  destruct a2 as [|d a2]; [rewrite str_len_cons, str_len_nil in L; pose proof (len_utf8_pos c); lia|].
  cbn [app] in E. injection E as -> E. rewrite !str_len_cons in L. destruct (IH a2 E ltac:(lia)) as [m ->]. exists m. reflexivity.
Qed.
Lemma longest_of_clamp s o : exists p q, s = p ++ q /\ str_len p = clamp_offset s o /\ longest_prefix s p o.
Proof.
  destruct (clamp_offset_spec s o) as (B & L & M). apply is_char_boundary_iff in B as (p & q & E & Ep).
  exists p, q. split; [exact E|]. split; [exact Ep|]. split; [exists q; exact E|]. split; [lia|].
  intros p' [q' E'] Lp'. assert (str_len p' <= clamp_offset s o) as Lc.
  { apply M; [|exact Lp']. apply is_char_boundary_iff. exists p', q'. split; [exact E'|reflexivity]. }
  destruct (prefix_by_len p' q' p q) as [m ->]; [congruence|lia|]. exists m. reflexivity.
Qed.
Lemma clamp_mono s a b : a <= b -> clamp_offset s a <= clamp_offset s b.
Proof.
  intros H. destruct (clamp_offset_spec s a) as (B & L & _). destruct (clamp_offset_spec s b) as (_ & _ & M). apply M; [exact B|lia].
Qed.
Lemma clamp_min s a : clamp_offset s (if str_len s <? a then str_len s else a) = clamp_offset s a.
Proof.
  unfold clamp_offset. destruct (N.ltb_spec (str_len s) a) as [L|L]; [destruct (N.ltb_spec (str_len s) (str_len s)); [lia|reflexivity]|].
  destruct (N.ltb_spec (str_len s) a); [lia|reflexivity].
Qed.
Lemma clamp_range_spec s a b : clamp_range s a b = (clamp_offset s a, clamp_offset s (N.max a b)).
Proof.
  unfold clamp_range. f_equal; [apply clamp_min|].
  rewrite <- (clamp_min s (N.max a b)). f_equal.
  destruct (N.ltb_spec (str_len s) a), (N.ltb_spec (str_len s) b), (N.ltb_spec (str_len s) (N.max a b)); try lia;
    repeat match goal with |- context [?x <? ?y] => destruct (N.ltb_spec x y) end; lia.
Qed.
Lemma line_index_inside x c y o : str_len x <= o < str_len x + len_utf8 c -> line_index_at_offset (x ++ c :: y) o = newlines x.
Proof.
  intros Ho. unfold line_index_at_offset. rewrite str_len_app, str_len_cons, N.min_l by lia. unfold line_starts. rewrite starts_from_app.
  change (0 :: starts_from x 0 ++ starts_from (c :: y) (0 + str_len x)) with ((0 :: starts_from x 0) ++ starts_from (c :: y) (0 + str_len x)).
  assert (L : length (0 :: starts_from x 0) = S (newlines x)) by (cbn [length]; rewrite starts_from_length; reflexivity).
  pose proof (binary_search_le o (0 :: starts_from x 0) (starts_from (c :: y) (0 + str_len x))) as B. rewrite L in B.
  assert (H1 : StronglySorted N.lt (0 :: starts_from x 0)).
  { constructor; [apply starts_from_sorted|]. eapply Forall_impl; [apply starts_from_bounds|]. cbn. intros; lia. }
  assert (H2 : Forall (fun z => z <= o) (0 :: starts_from x 0)).
  { constructor; [lia|]. eapply Forall_impl; [apply starts_from_bounds|]. cbn. intros; lia. }
  assert (H3 : Forall (fun z => o < z) (starts_from (c :: y) (0 + str_len x))).
  { cbn [starts_from]. assert (Forall (fun z => o < z) (starts_from y (0 + str_len x + len_utf8 c))).
    { eapply Forall_impl; [apply starts_from_bounds|]. cbn. intros; lia. }
    destruct (N.eqb_spec c 10) as [->|]; [|assumption]. constructor; [rewrite nl_len in Ho; lia|assumption]. }
  specialize (B H1 H2 H3 ltac:(discriminate)). destruct (binary_search _ _) as [k|k].
  - injection B as ->. rewrite app_length, L. lia.
  - subst k. reflexivity.
Qed.
Lemma end_line_spec p m q : let e := str_len (p ++ m) in let el := line_index_at_offset (p ++ m ++ q) (if 0 <? e then e - 1 else e) in
  (if Nat.ltb el (newlines p) then newlines p else el) = last_line p m.
Proof.
  cbn zeta. unfold last_line. destruct (decide (m = [])) as [->|Hm].
  - rewrite app_nil_r. cbn [app removelast]. rewrite app_nil_r. destruct (decide (p = [])) as [->|Hp].
    + rewrite str_len_nil. cbn [app]. change (0 <? 0) with false. cbn iota. change 0 with (str_len []) at 1 2. change q with ([] ++ q). rewrite (line_index_spec [] q). reflexivity.
    + destruct (exists_last Hp) as (p' & c & ->). rewrite str_len_app, str_len_cons, str_len_nil, N.add_0_r. pose proof (len_utf8_pos c).
      destruct (N.ltb_spec 0 (str_len p' + len_utf8 c)); [|lia]. rewrite <- app_assoc. cbn [app]. rewrite line_index_inside by lia.
      rewrite newlines_app. destruct (Nat.ltb_spec (newlines p') (newlines p' + newlines [c])); [reflexivity|lia].
  - destruct (exists_last Hm) as (m' & c & ->). rewrite removelast_last. pose proof (len_utf8_pos c).
    rewrite !str_len_app, str_len_cons, str_len_nil, N.add_0_r.
    destruct (N.ltb_spec 0 (str_len p + (str_len m' + len_utf8 c))); [|lia].
    rewrite <- app_assoc. cbn [app]. rewrite app_assoc, line_index_inside by (rewrite str_len_app; lia).
    rewrite newlines_app. destruct (Nat.ltb_spec (newlines p + newlines m') (newlines p)); [lia|reflexivity].
Qed.
Lemma str_len_0 m : str_len m = 0 -> m = [].
Proof. destruct m as [|c m]; [reflexivity|]. rewrite str_len_cons. pose proof (len_utf8_pos c). lia. Qed.
Lemma prefix_le (x x' y y' s : rstr) : s = x ++ x' -> s = y ++ y' -> (length x <= length y)%nat <-> str_len x <= str_len y.
Proof.
  intros E1 E2. destruct (N.le_gt_cases (str_len x) (str_len y)) as [L|L].
  - destruct (prefix_by_len x x' y y') as [m ->]; [congruence|exact L|]. rewrite app_length. split; [auto|lia].
  - destruct (prefix_by_len y y' x x') as [m ->]; [congruence|lia|]. rewrite app_length. rewrite str_len_app in L.
    split; [|rewrite str_len_app; lia]. intros H. assert (m = []) as -> by (destruct m; [reflexivity|cbn [length] in H; lia]).
    rewrite str_len_nil in L. lia.
Qed.
Lemma prefix_same (x x' y y' s : rstr) : s = x ++ x' -> s = y ++ y' -> str_len x = str_len y -> x = y.
Proof.
  intros E1 E2 L. destruct (prefix_by_len x x' y y') as [m ->]; [congruence|lia|]. rewrite str_len_app in L.
  rewrite (str_len_0 m) by lia. rewrite app_nil_r. reflexivity.
Qed.
Lemma newlines_last x : last x = Some 10 -> forall p t, x = p ++ t -> t <> [] -> (newlines p < newlines x)%nat.
Proof.
  intros H p t -> Ht. destruct (exists_last Ht) as (t' & c & ->). rewrite app_assoc, last_snoc in H. injection H as ->.
  rewrite !newlines_app. change (newlines [10]) with 1%nat. lia.
Qed.
Lemma line_le s before line after p q : is_line s before line after -> s = p ++ q ->
  (newlines before <= newlines p)%nat <-> str_len before <= str_len p.
Proof.
  intros (E & _ & Hb & _) Ep. split.
  - intros H. destruct (N.le_gt_cases (str_len before) (str_len p)) as [L|L]; [exact L|].
    destruct (prefix_by_len p q before (line ++ after)) as [t E']; [congruence|lia|].
    assert (t <> []). { intros ->. rewrite app_nil_r in E'. subst. lia. }
    destruct Hb as [->|Hb]; [rewrite str_len_nil in L; lia|].
    pose proof (newlines_last _ Hb p t E' H0). lia.
  - intros L. destruct (prefix_by_len before (line ++ after) p q) as [t ->]; [congruence|exact L|]. rewrite newlines_app. lia.
Qed.
Lemma line_ge s before line after p q : is_line s before line after -> s = p ++ q ->
  (newlines p <= newlines before)%nat <-> str_len p <= str_len before + str_len line.
Proof.
  intros (E & Hn & _ & Ha) Ep. split.
  - intros H. destruct (N.le_gt_cases (str_len p) (str_len before + str_len line)) as [L|L]; [exact L|].
    destruct (prefix_by_len (before ++ line) after p q) as [t E']; [rewrite <- app_assoc; congruence|rewrite str_len_app; lia|].
    subst p. rewrite !newlines_app, (newlines_none line Hn) in H. rewrite !str_len_app in L.
    destruct t as [|c t]; [rewrite str_len_nil in L; lia|].
    rewrite Ep, <- !app_assoc in E. apply app_inv_head in E. apply app_inv_head in E. destruct Ha as [->|Ha]; [discriminate|].
    rewrite <- E in Ha. injection Ha as ->. change (10 :: t) with ([10] ++ t) in H. rewrite newlines_app in H. change (newlines [10]) with 1%nat in H. lia.
  - intros L. destruct (prefix_by_len p q (before ++ line) after) as [t E']; [rewrite <- app_assoc; congruence|rewrite str_len_app; lia|].
    pose proof (f_equal newlines E') as F. rewrite !newlines_app, (newlines_none line Hn) in F. lia.
Qed.
Lemma line_of (s : rstr) k : (k <= newlines s)%nat -> exists before line after, is_line s before line after /\ newlines before = k.
Proof.
  revert k. induction s as [|c s IH]; intros k Hk.
  - cbn in Hk. assert (k = O) as -> by lia. exists [], [], []. split; [|reflexivity]. split; [reflexivity|]. split; [apply not_elem_of_nil|auto].
  - unfold newlines in Hk. rewrite filter_cons in Hk. case_decide as Hc; cbn [length] in Hk.
    + destruct k as [|k].
      * exists [], [], (c :: s). split; [|reflexivity]. split; [reflexivity|]. split; [apply not_elem_of_nil|]. subst. auto.
      * destruct (IH k) as (b & l & a & (E & Hn & Hb & Ha) & Hk'); [unfold newlines; lia|].
        exists (c :: b), l, a. split.
        -- split; [cbn [app]; congruence|]. split; [exact Hn|]. split; [|exact Ha]. right. destruct Hb as [->|Hb]; [subst; reflexivity|].
           destruct b as [|x b]; [discriminate|exact Hb].
        -- unfold newlines in *. rewrite filter_cons_True by exact Hc. cbn [length]. congruence.
    + destruct (IH k Hk) as (b & l & a & (E & Hn & Hb & Ha) & Hk').
      destruct b as [|x b].
      * exists [], (c :: l), a. split; [|exact Hk']. split; [cbn [app] in *; congruence|]. split; [apply not_elem_of_cons; auto|]. auto.
      * exists (c :: x :: b), l, a. split; [|unfold newlines in *; rewrite filter_cons_False by exact Hc; exact Hk'].
        split; [cbn [app] in *; congruence|]. split; [exact Hn|]. split; [|exact Ha]. right. destruct Hb as [?|Hb]; [discriminate|exact Hb].
Qed.
Lemma inside_line s before line after p q : is_line s before line after -> s = p ++ q ->
  exists a b, line = a ++ b /\ str_len before + str_len a = N.max (str_len before) (N.min (str_len p) (str_len before + str_len line)).
Proof.
  intros H E. pose proof (proj1 H) as E'. destruct (N.le_gt_cases (str_len p) (str_len before)) as [L|L].
  - exists [], line. split; [reflexivity|]. rewrite str_len_nil. lia.
  - destruct (N.le_gt_cases (str_len before + str_len line) (str_len p)) as [L2|L2].
    + exists line, []. split; [rewrite app_nil_r; reflexivity|]. lia.
    + destruct (prefix_by_len before (line ++ after) p q) as [a ->]; [congruence|lia|].
      rewrite E', <- app_assoc in E. apply app_inv_head in E. rewrite str_len_app in *.
      destruct (prefix_by_len a q line after) as [b Hb]; [congruence|lia|]. exists a, b. split; [exact Hb|]. lia.
Qed.
Lemma line_highlight_spec s p m q before line after tab k : s = p ++ m ++ q -> is_line s before line after -> newlines before = k ->
  (newlines p <= k <= last_line p m)%nat ->
  exists col len, line_highlight s (str_len p) (str_len (p ++ m)) (newlines p) (last_line p m) tab k = Some (k, col, len) /\
    marks (N.max tab 1) p m before line col len.
Proof.
  intros E HL Hk Hr. unfold line_highlight. pose proof (line_bounds_line s before line after HL) as B.
  pose proof (line_slice s before line after HL) as SL. rewrite Hk in B, SL. rewrite B in SL |- *. rewrite SL.
  assert (E2 : s = (p ++ m) ++ q) by (rewrite <- app_assoc; exact E).
  set (ls := str_len before) in *. set (st := str_len p). set (en := str_len (p ++ m)). set (le := ls + str_len line) in *.
  assert (H1 : (k = newlines p -> ls <= st)). { intros ->. apply (line_le _ _ _ _ _ _ HL E). lia. }
  assert (H2 : (newlines p < k)%nat -> st <= ls).
  { intros Hlt. destruct (N.le_gt_cases st ls) as [|L]; [assumption|]. assert (ls <= st) as L' by lia. apply (line_le _ _ _ _ _ _ HL E) in L'. lia. }
  assert (H3 : (k < last_line p m)%nat -> le <= en).
  { intros Hlt. destruct (decide (m = [])) as [->|Hm]; [unfold last_line in Hlt; cbn in Hlt; rewrite app_nil_r in Hlt; lia|].
    destruct (exists_last Hm) as (m' & c & ->). unfold last_line in Hlt. rewrite removelast_last in Hlt.
    destruct (N.le_gt_cases le en) as [|L]; [assumption|].
    assert (E3 : s = (p ++ m') ++ [c] ++ q) by (rewrite E2, <- !app_assoc; reflexivity).
    assert (str_len (p ++ m') <= ls + str_len line) as L2. { unfold en in L. rewrite app_assoc, str_len_app in L. unfold le in L. lia. }
    apply (line_ge _ _ _ _ _ _ HL E3) in L2. lia. }
  set (cs := N.max ls (N.min st le)). set (ce := N.max cs (N.min en le)).
  assert (Hle : ls <= le) by (unfold le; lia). assert (Hse : st <= en) by (unfold en; rewrite str_len_app; fold st; lia).
  assert (C1 : clamp (if Nat.eqb k (newlines p) then st else ls) ls le = Some cs).
  { unfold clamp. destruct (N.ltb_spec le ls); [lia|]. f_equal. unfold cs. destruct (Nat.eqb_spec k (newlines p)) as [->|];
      repeat match goal with |- context [?x <? ?y] => destruct (N.ltb_spec x y) end; lia. }
  rewrite C1.
  assert (C2 : clamp (if Nat.eqb k (last_line p m) then en else le) cs le = Some ce).
  { unfold clamp. destruct (N.ltb_spec le cs); [unfold cs in *; lia|]. f_equal. unfold ce. destruct (Nat.eqb_spec k (last_line p m)) as [->|];
      repeat match goal with |- context [?x <? ?y] => destruct (N.ltb_spec x y) end; unfold cs in *; lia. }
  rewrite C2.
  destruct (inside_line _ _ _ _ _ _ HL E) as (a & ar & Ea & La). destruct (inside_line _ _ _ _ _ _ HL E2) as (x & b & Ex & Lx).
  fold ls st in La. fold le in La. fold ls en in Lx. fold le in Lx.
  destruct (prefix_by_len a ar x b) as [sel ->]; [congruence|lia|].
  rewrite str_len_app in Lx.
  replace (cs - ls) with (str_len a) by (unfold cs; lia). replace (ce - ls) with (str_len (a ++ sel)) by (rewrite str_len_app; unfold ce, cs; lia).
  assert (D1 : display_column line (str_len a) tab = width (N.max tab 1) a) by (rewrite Ea; apply display_column_spec).
  assert (D2 : display_column line (str_len (a ++ sel)) tab = width (N.max tab 1) (a ++ sel)) by (rewrite Ex; apply display_column_spec).
  assert (W : width (N.max tab 1) (a ++ sel) = width (N.max tab 1) a + width (N.max tab 1) sel).
  { clear. induction a as [|c a IH]; [reflexivity|]. unfold width in *. cbn [app fold_right]. rewrite IH. lia. }
  rewrite D1, D2, W. eexists _, _. split; [reflexivity|].
  exists a, sel, b. split; [rewrite Ex, <- app_assoc; reflexivity|]. split; [reflexivity|]. split; [f_equal; lia|]. split.
  - intros y c z El.
    assert (Es : s = (before ++ y) ++ c :: z ++ after) by (rewrite (proj1 HL), El, <- !app_assoc; reflexivity).
    pose proof (prefix_le _ _ _ _ _ E Es) as P1. pose proof (prefix_le _ _ _ _ _ E2 Es) as P2.
    pose proof (prefix_le _ _ _ _ _ Ea El) as P3. pose proof (prefix_le _ _ _ _ _ Ex El) as P4.
    fold st in P1. fold en in P2. rewrite str_len_app in P1, P2, P4. fold ls in P1, P2.
    assert (ls + str_len y < le). { unfold le. rewrite El, str_len_app, str_len_cons. pose proof (len_utf8_pos c). lia. }
    assert (str_len a <= str_len y <-> st <= ls + str_len y) as Q1 by lia.
    assert (str_len a + str_len sel <= str_len y <-> en <= ls + str_len y) as Q2 by lia.
    clear - P1 P2 P3 P4 Q1 Q2. lia.
  - intros [L1 L2].
    assert (Eb : s = before ++ line ++ after) by apply HL.
    assert (Ebl : s = (before ++ line) ++ after) by (rewrite <- app_assoc; exact Eb).
    apply (prefix_le _ _ _ _ _ Eb E) in L1. apply (prefix_le _ _ _ _ _ E Ebl) in L2. rewrite str_len_app in L2. fold ls st in L1, L2. fold le in L2.
    apply (prefix_same (before ++ a) (ar ++ after) p (m ++ q) s); [rewrite Eb, Ea, <- !app_assoc; reflexivity|exact E|].
    rewrite str_len_app. fold ls st. lia.
Qed.
Lemma mapM_option {A B} (f : A -> option B) l : (forall x, x ∈ l -> exists y, f x = Some y) -> exists r, mapM f l = Some r /\ Forall2 (fun x y => f x = Some y) l r.
Proof.
  intros H. assert (exists r, Forall2 (fun x y => f x = Some y) l r) as [r Hr].
  { induction l as [|x l IH]; [exists []; constructor|]. destruct (H x) as [y Hy]; [left|]. destruct IH as [r Hr]; [intros z Hz; apply H; right; exact Hz|].
    exists (y :: r). constructor; assumption. }
  exists r. split; [apply mapM_Some; exact Hr|exact Hr].
Qed.
Lemma label_highlights_spec s a b tab n : exists p m q hs,
  s = p ++ m ++ q /\ longest_prefix s p a /\ longest_prefix s (p ++ m) (N.max a b) /\
  label_highlights s a b tab n = Some hs /\
  hs.*1.*1 = visible_lines (newlines p) (last_line p m) n /\
  forall k col len, (k, col, len) ∈ hs -> exists before line after, is_line s before line after /\ newlines before = k /\ marks (N.max tab 1) p m before line col len.
Proof.
  destruct (longest_of_clamp s a) as (p & q1 & E1 & L1 & P1). destruct (longest_of_clamp s (N.max a b)) as (pm & q & E2 & L2 & P2).
  destruct (prefix_by_len p q1 pm q) as [m ->]; [congruence| |].
  { rewrite L1, L2. apply clamp_mono. lia. }
  assert (E : s = p ++ m ++ q) by (rewrite app_assoc; exact E2).
  exists p, m, q.
  assert (Q : (newlines p <= last_line p m <= newlines s)%nat).
  { unfold last_line. rewrite E, !newlines_app. assert ((newlines (removelast m) <= newlines m)%nat); [|lia].
    destruct (decide (m = [])) as [->|Hm]; [reflexivity|]. destruct (exists_last Hm) as (m' & c & ->). rewrite removelast_last, newlines_app. lia. }
  assert (EL : line_index_at_offset s (str_len p) = newlines p) by (rewrite E1; apply line_index_spec).
  pose proof (end_line_spec p m q) as EN. cbn zeta in EN. rewrite <- E in EN.
  unfold label_highlights. rewrite clamp_range_spec, <- L1, <- L2, EL, EN.
  destruct (visible_spec (newlines p) (last_line p m) n (proj1 Q)) as (_ & _ & V & _).
  assert (H : forall k, k ∈ visible_lines (newlines p) (last_line p m) n -> exists before line after col len, is_line s before line after /\ newlines before = k /\
      line_highlight s (str_len p) (str_len (p ++ m)) (newlines p) (last_line p m) tab k = Some (k, col, len) /\ marks (N.max tab 1) p m before line col len).
  { intros k Hk. apply V in Hk. destruct (line_of s k) as (before & line & after & HL & Hb); [lia|].
    destruct (line_highlight_spec s p m q before line after tab k E HL Hb Hk) as (col & len & A & B). exists before, line, after, col, len. auto. }
  destruct (mapM_option (line_highlight s (str_len p) (str_len (p ++ m)) (newlines p) (last_line p m) tab) (visible_lines (newlines p) (last_line p m) n)) as (hs & Eh & Fh).
  { intros k Hk. destruct (H k Hk) as (b' & l & af & col & len & _ & _ & A & _). eauto. }
  exists hs. split; [exact E|]. split; [exact P1|]. split; [exact P2|]. split; [exact Eh|]. split.
  - revert Fh H. clear. generalize (visible_lines (newlines p) (last_line p m) n). intros vs F. induction F as [|k y vs hs Ey F IH]; intros H; [reflexivity|].
    cbn [fmap list_fmap]. destruct (H k) as (b' & l & af & col & len & _ & _ & A & _); [left|]. rewrite A in Ey. injection Ey as <-. cbn. f_equal. apply IH.
    intros z Hz. apply H. right. exact Hz.
  - intros k col len Hin. apply elem_of_list_lookup in Hin as [i Hi]. destruct (Forall2_lookup_r _ _ _ _ _ Fh Hi) as (k' & Hk' & A').
    apply elem_of_list_lookup_2 in Hk'. destruct (H k' Hk') as (b' & l & af & col' & len' & HL & Hb & A & M). rewrite A in A'. injection A' as -> -> ->.
    exists b', l, af. auto.
Qed.
