(** Proofs about path normalisation. *)
From Coq Require Import NArith Lia ZifyBool.
From stdpp Require Import base decidable numbers list.
From Verif Require Import RustStr PathModel PathSpec.

Local Open Scope N_scope.

Lemma is_slash_iff c : is_slash c = true <-> slash c.
Proof. unfold is_slash, slash. lia. Qed.
Lemma is_slash_false c : is_slash c = false <-> ~ slash c.
Proof. unfold is_slash, slash. lia. Qed.
Lemma is_alpha_iff c : is_alpha c = true <-> letter c.
Proof. unfold is_alpha, letter. lia. Qed.
Lemma to_lower_lower c : letter c -> lower c (to_lower c).
Proof. unfold letter, lower, to_lower. intros H. destruct ((65 <=? c) && (c <=? 90)) eqn:E; lia. Qed.
Lemma lower_to_lower c d : lower c d -> letter c /\ d = to_lower c.
Proof. unfold letter, lower, to_lower. intros H. destruct ((65 <=? c) && (c <=? 90)) eqn:E; lia. Qed.

Definition no_slash (p : rstr) : Prop := forall c, c ∈ p -> ~ slash c.

(** * Splitting *)
Lemma split_parts_pieces s cur : no_slash cur -> pieces (cur ++ s) (split_parts s cur).
Proof.
  revert cur. induction s as [|c s IH]; intros cur H; cbn [split_parts].
  - rewrite app_nil_r. constructor. exact H.
  - destruct (is_slash c) eqn:E.
    + constructor; [exact H|apply is_slash_iff, E|]. apply (IH []). intros x Hx. inversion Hx.
    + replace (cur ++ c :: s) with ((cur ++ [c]) ++ s) by (rewrite <- app_assoc; reflexivity). apply IH.
      intros x Hx. apply elem_of_app in Hx as [Hx|Hx]; [apply H, Hx|]. apply elem_of_list_singleton in Hx as ->. apply is_slash_false, E.
Qed.
Lemma split_parts_cur p s cur : no_slash p -> split_parts (p ++ s) cur = split_parts s (cur ++ p).
Proof.
  revert cur. induction p as [|c p IH]; intros cur H; cbn [app split_parts]; [rewrite app_nil_r; reflexivity|].
  assert (is_slash c = false) as -> by (apply is_slash_false, H; left). rewrite IH by (intros x Hx; apply H; right; exact Hx).
  rewrite <- app_assoc. reflexivity.
Qed.
Lemma pieces_split s parts : pieces s parts -> split_parts s [] = parts.
Proof.
  induction 1 as [p H|p c s parts H Hc P IH].
  - rewrite <- (app_nil_r p) at 1. rewrite split_parts_cur by exact H. reflexivity.
  - rewrite split_parts_cur by exact H. cbn [app split_parts]. apply is_slash_iff in Hc. rewrite Hc, IH. reflexivity.
Qed.
Lemma pieces_no_slash s parts : pieces s parts -> Forall no_slash parts.
Proof. induction 1; repeat constructor; assumption. Qed.
Lemma pieces_joined (segs : list rstr) : segs <> [] -> Forall no_slash segs -> pieces (joined segs) segs.
Proof.
  induction segs as [|p segs IH]; [congruence|]. intros _ H. apply Forall_cons_1 in H as [Hp H]. destruct segs as [|p' segs].
  - constructor. exact Hp.
  - change (joined (p :: p' :: segs)) with (p ++ 0x2F :: joined (p' :: segs)). constructor; [exact Hp|left; reflexivity|].
    apply IH; [discriminate|exact H].
Qed.
(** Slashes before the pieces only add empty pieces. *)
Lemma resolve_app_gen parts at_ :
  foldl (fun (at_ : list rstr) (part : rstr) =>
    if decide (part = [] \/ part = [0x2E]) then at_
    else if decide (part = [0x2E; 0x2E]) then removelast at_
    else at_ ++ [part]) at_ ([] :: parts) =
  foldl (fun (at_ : list rstr) (part : rstr) =>
    if decide (part = [] \/ part = [0x2E]) then at_
    else if decide (part = [0x2E; 0x2E]) then removelast at_
    else at_ ++ [part]) at_ parts.
Proof. cbn [foldl]. rewrite decide_True by auto. reflexivity. Qed.
Lemma resolve_skip s : resolve (split_parts (skip_slashes s) []) = resolve (split_parts s []).
Proof.
  induction s as [|c s IH]; [reflexivity|]. cbn [skip_slashes]. destruct (is_slash c) eqn:E; [|reflexivity].
  cbn [split_parts]. rewrite E, IH. unfold resolve. rewrite resolve_app_gen. reflexivity.
Qed.
Lemma skip_slashes_spec s : exists lead, s = lead ++ skip_slashes s /\ (forall c, c ∈ lead -> slash c) /\ (forall c r, skip_slashes s = c :: r -> ~ slash c).
Proof.
  induction s as [|c s (lead & E & H1 & H2)]; [exists []; cbn; split; [reflexivity|split; [intros c Hc; inversion Hc|discriminate]]|].
  cbn [skip_slashes]. destruct (is_slash c) eqn:Ec.
  - exists (c :: lead). cbn [app]. rewrite <- E. split; [reflexivity|]. split; [|exact H2]. intros x Hx. apply elem_of_cons in Hx as [->|Hx]; [apply is_slash_iff, Ec|apply H1, Hx].
  - exists []. split; [reflexivity|]. split; [intros x Hx; inversion Hx|]. intros x r [= <- <-]. apply is_slash_false, Ec.
Qed.
Lemma skip_slashes_app lead rest : (forall c, c ∈ lead -> slash c) -> (forall c r, rest = c :: r -> ~ slash c) -> skip_slashes (lead ++ rest) = rest.
Proof.
  intros H1 H2. induction lead as [|c lead IH]; cbn [app].
  - destruct rest as [|c rest]; [reflexivity|]. cbn [skip_slashes]. specialize (H2 c rest eq_refl). apply is_slash_false in H2. rewrite H2. reflexivity.
  - cbn [skip_slashes]. assert (is_slash c = true) as -> by (apply is_slash_iff, H1; left). apply IH. intros x Hx. apply H1. right. exact Hx.
Qed.
Lemma strip_prefix_Some p s r : strip_prefix p s = Some r <-> s = p ++ r.
Proof.
  revert s. induction p as [|a p IH]; intros s; cbn [strip_prefix app]; [split; [intros [= ->]; reflexivity|intros ->; reflexivity]|].
  destruct s as [|b s]; [split; discriminate|]. destruct (N.eqb_spec a b) as [->|].
  - rewrite IH. split; [intros ->; reflexivity|intros [= ->]; reflexivity].
  - split; [discriminate|]. intros [= -> ->]. congruence.
Qed.
Lemma strip_prefix_None p s : strip_prefix p s = None -> ~ p `prefix_of` s.
Proof. intros H [r ->]. pose proof (proj2 (strip_prefix_Some p (p ++ r) r) eq_refl). congruence. Qed.
Lemma strip_extended_iff raw s : unextended raw s <-> strip_extended raw = s.
Proof.
  unfold strip_extended, unextended. destruct (strip_prefix [92; 92; 63; 92] raw) as [r|] eqn:E1.
  { apply strip_prefix_Some in E1 as ->. split.
    - intros [H|[H|[H [N _]]]].
      + apply app_inv_head in H. exact H.
      + discriminate H.
      + exfalso. apply N. exists r. reflexivity.
    - intros ->. auto. }
  pose proof (strip_prefix_None _ _ E1) as N1.
  destruct (strip_prefix [47; 47; 63; 47] raw) as [r|] eqn:E2.
  { apply strip_prefix_Some in E2 as ->. split.
    - intros [H|[H|[H [_ N]]]].
      + discriminate H.
      + apply app_inv_head in H. exact H.
      + exfalso. apply N. exists r. reflexivity.
    - intros ->. auto. }
  pose proof (strip_prefix_None _ _ E2) as N2. split.
  - intros [H|[H|[H _]]]; [exfalso; apply N1; exists s; exact H|exfalso; apply N2; exists s; exact H|exact H].
  - intros ->. auto.
Qed.

(** * The buffer *)
Lemma joined_snoc segs p : joined (segs ++ [p]) = match segs with [] => p | _ => joined segs ++ 0x2F :: p end.
Proof.
  induction segs as [|q segs IH]; [reflexivity|]. destruct segs as [|q' segs]; [reflexivity|].
  change (joined ((q :: q' :: segs) ++ [p])) with (q ++ 0x2F :: joined ((q' :: segs) ++ [p])). rewrite IH.
  change (joined (q :: q' :: segs)) with (q ++ 0x2F :: joined (q' :: segs)). rewrite <- app_assoc. reflexivity.
Qed.
Lemma rfind_slash_app a b : no_slash b -> rfind_slash (a ++ 0x2F :: b) = Some (length a).
Proof.
  intros H. assert (Hb : rfind_slash b = None).
  { induction b as [|c b IH]; [reflexivity|]. cbn [rfind_slash]. rewrite IH by (intros x Hx; apply H; right; exact Hx).
    assert (~ slash c) as Hc by (apply H; left). destruct (N.eqb_spec c 47); [|reflexivity]. exfalso. apply Hc. left. assumption. }
  induction a as [|c a IH]; cbn [app rfind_slash length]; [rewrite Hb; reflexivity|]. rewrite IH. reflexivity.
Qed.
Lemma good_no_slash p : good_segment p -> no_slash p.
Proof. intros (_ & _ & _ & H). exact H. Qed.
Lemma ends_with_slash_app a p : good_segment p -> ends_with_slash (a ++ p) = false.
Proof.
  intros (Hp & _ & _ & H). destruct (exists_last Hp) as (p' & c & ->). unfold ends_with_slash. rewrite app_assoc, last_snoc.
  assert (~ slash c) as Hc by (apply H, elem_of_app; right; left). destruct (N.eqb_spec c 47); [|reflexivity]. exfalso. apply Hc. left. assumption.
Qed.
Definition root_shape (root : rstr) : Prop := exists r, root = r ++ [0x2F].
Lemma step_part_spec root segs part : root_shape root -> Forall good_segment segs -> no_slash part ->
  let at' := if decide (part = [] \/ part = [0x2E]) then segs else if decide (part = [0x2E; 0x2E]) then removelast segs else segs ++ [part] in
  step_part (length root) (root ++ joined segs) part = root ++ joined at' /\ Forall good_segment at'.
Proof.
  intros [r0 Er] HG Hp. cbn zeta. unfold step_part.
  destruct (decide (part = [] \/ part = [0x2E])) as [Hd|Hd].
  { assert (bool_decide (part = []) || bool_decide (part = [46]) = true) as ->; [|auto].
    destruct Hd as [->| ->]; reflexivity. }
  assert (bool_decide (part = []) || bool_decide (part = [46]) = false) as ->.
  { rewrite !bool_decide_eq_false_2 by tauto. reflexivity. }
  destruct (decide (part = [46; 46])) as [->|Hdd].
  - rewrite (bool_decide_eq_true_2 _ eq_refl). destruct (decide (segs = [])) as [->|Hs].
    { cbn [joined removelast]. rewrite app_nil_r, Nat.leb_refl. auto. }
    destruct (exists_last Hs) as (init & p & ->). rewrite removelast_last. apply Forall_app in HG as [HGi HGp]. apply Forall_cons_1 in HGp as [HGp _].
    split; [|exact HGi].
    assert (Hlen : (length root < length (root ++ joined (init ++ [p])))%nat).
    { rewrite app_length, joined_snoc. destruct HGp as (Hp0 & _). destruct p as [|c p]; [congruence|]. destruct init; [cbn [length]; lia|rewrite app_length; cbn [length]; lia]. }
    assert (Hend : ends_with_slash (root ++ joined (init ++ [p])) = false).
    { rewrite joined_snoc. destruct init as [|q init]; [apply ends_with_slash_app, HGp|].
      replace (root ++ joined (q :: init) ++ 47 :: p) with ((root ++ joined (q :: init) ++ [47]) ++ p) by (rewrite <- !app_assoc; reflexivity).
      apply ends_with_slash_app, HGp. }
    rewrite Hend, andb_false_r. destruct (Nat.leb_spec (length (root ++ joined (init ++ [p]))) (length root)); [lia|].
    rewrite take_ge by lia. rewrite joined_snoc. destruct init as [|q init].
    + rewrite Er. rewrite <- app_assoc. cbn [app]. rewrite rfind_slash_app by (apply good_no_slash, HGp).
      rewrite app_length. cbn [length]. destruct (Nat.ltb_spec (length r0) (length r0 + 1)); [|lia].
      replace (r0 ++ 47 :: p) with ((r0 ++ [47]) ++ p) by (rewrite <- app_assoc; reflexivity).
      rewrite take_app_alt by (rewrite app_length; reflexivity). cbn [joined]. rewrite app_nil_r. reflexivity.
    + replace (root ++ joined (q :: init) ++ 47 :: p) with ((root ++ joined (q :: init)) ++ 47 :: p) by (rewrite <- app_assoc; reflexivity).
      rewrite rfind_slash_app by (apply good_no_slash, HGp). rewrite app_length.
      destruct (Nat.ltb_spec (length root + length (joined (q :: init))) (length root)); [lia|].
      rewrite take_app_alt by (rewrite app_length; reflexivity). reflexivity.
  - rewrite (bool_decide_eq_false_2 _ Hdd).
    assert (Hg : good_segment part). { split; [intros ->; tauto|]. split; [intros ->; tauto|]. split; [exact Hdd|exact Hp]. }
    split; [|apply Forall_app; split; [exact HG|apply Forall_singleton, Hg]].
    rewrite joined_snoc. destruct (decide (segs = [])) as [->|Hs].
    + cbn [joined]. rewrite app_nil_r. assert (ends_with_slash root = true) as ->; [|reflexivity].
      rewrite Er. unfold ends_with_slash. rewrite last_snoc. reflexivity.
    + assert (ends_with_slash (root ++ joined segs) = false) as ->.
      { destruct (exists_last Hs) as (init & p & ->). apply Forall_app in HG as [_ HGp]. apply Forall_cons_1 in HGp as [HGp _]. rewrite joined_snoc.
        destruct init as [|q init]; [apply ends_with_slash_app, HGp|].
        replace (root ++ joined (q :: init) ++ 47 :: p) with ((root ++ joined (q :: init) ++ [47]) ++ p) by (rewrite <- !app_assoc; reflexivity).
        apply ends_with_slash_app, HGp. }
      cbn [negb]. destruct segs; [congruence|]. rewrite <- !app_assoc. reflexivity.
Qed.
Lemma fold_parts root parts : root_shape root -> Forall no_slash parts ->
  foldl (step_part (length root)) root parts = root ++ joined (resolve parts) /\ Forall good_segment (resolve parts).
Proof.
  intros Hr HP. unfold resolve.
  assert (G : forall segs, Forall good_segment segs ->
    foldl (step_part (length root)) (root ++ joined segs) parts = root ++ joined (foldl (fun (at_ : list rstr) (part : rstr) =>
    if decide (part = [] \/ part = [0x2E]) then at_
    else if decide (part = [0x2E; 0x2E]) then removelast at_
    else at_ ++ [part]) segs parts) /\ Forall good_segment (foldl (fun (at_ : list rstr) (part : rstr) =>
    if decide (part = [] \/ part = [0x2E]) then at_
    else if decide (part = [0x2E; 0x2E]) then removelast at_
    else at_ ++ [part]) segs parts)).
  { induction HP as [|part parts Hp HP IH]; intros segs HG; cbn [foldl]; [auto|].
    destruct (step_part_spec root segs part Hr HG Hp) as [E HG']. rewrite E. apply IH, HG'. }
  specialize (G []). cbn [joined] in G. rewrite app_nil_r in G. apply G. constructor.
Qed.
Lemma root_of_shape d : root_shape (root_of d).
Proof. destruct d as [d|]; [exists [d; 58]; reflexivity|exists []; reflexivity]. Qed.

(** * The whole function *)
Lemma normalize_names raw root parts : names raw root parts -> normalize_ts_path raw = root ++ joined (resolve parts) /\ Forall good_segment (resolve parts).
Proof.
  intros (s & lead & rest & U & E & H1 & H2 & H). apply strip_extended_iff in U. unfold normalize_ts_path. rewrite U, E, skip_slashes_app by assumption.
  destruct H as [(c & d & rest' & -> & L & -> & P)|(N & -> & P)].
  - apply lower_to_lower in L as [L ->]. cbn [take_drive]. assert (is_alpha c = true) as -> by (apply is_alpha_iff, L).
    change (58 =? 58) with true. cbn [andb].
    rewrite <- (pieces_split _ _ P), <- resolve_skip. apply (fold_parts (root_of (Some (to_lower c)))); [apply root_of_shape|].
    eapply pieces_no_slash, (split_parts_pieces _ []). intros x Hx. inversion Hx.
  - assert (take_drive rest = (None, rest)) as ->.
    { unfold take_drive. destruct rest as [|a [|b rest]]; try reflexivity. destruct (is_alpha a) eqn:A; [|reflexivity]. destruct (N.eqb_spec b 58) as [->|]; [|reflexivity].
      exfalso. apply N. exists a, rest. split; [apply is_alpha_iff, A|reflexivity]. }
    rewrite (pieces_split _ _ P). apply (fold_parts (root_of None)); [apply root_of_shape|]. eapply pieces_no_slash, P.
Qed.
Lemma names_total raw : exists root parts, names raw root parts.
Proof.
  destruct (skip_slashes_spec (strip_extended raw)) as (lead & E & H1 & H2). set (rest := skip_slashes (strip_extended raw)) in *.
  assert (NS : no_slash []) by (intros x Hx; inversion Hx).
  assert (D : drive_like rest \/ ~ drive_like rest).
  { destruct rest as [|a [|b r]]; try (right; intros (? & ? & _ & ?); discriminate). destruct (is_alpha a) eqn:A.
    - destruct (N.eqb_spec b 58) as [->|]; [left; exists a, r; split; [apply is_alpha_iff, A|reflexivity]|]. right. intros (? & ? & _ & [= -> -> _]). congruence.
    - right. intros (? & ? & L & [= -> -> _]). apply is_alpha_iff in L. congruence. }
  destruct D as [(c & r & L & Er)|D].
  - exists [to_lower c; 58; 47], (split_parts r []), (strip_extended raw), lead, rest. split; [apply strip_extended_iff; reflexivity|]. split; [exact E|].
    split; [exact H1|]. split; [exact H2|]. left. exists c, (to_lower c), r. split; [exact Er|]. split; [apply to_lower_lower, L|]. split; [reflexivity|].
    apply (split_parts_pieces r []), NS.
  - exists [47], (split_parts rest []), (strip_extended raw), lead, rest. split; [apply strip_extended_iff; reflexivity|]. split; [exact E|].
    split; [exact H1|]. split; [exact H2|]. right. split; [exact D|]. split; [reflexivity|]. apply (split_parts_pieces rest []), NS.
Qed.
Lemma resolve_good (segs : list rstr) : Forall good_segment segs -> resolve segs = segs.
Proof.
  intros H. unfold resolve.
  assert (G : forall done, foldl (fun (at_ : list rstr) (part : rstr) =>
    if decide (part = [] \/ part = [0x2E]) then at_
    else if decide (part = [0x2E; 0x2E]) then removelast at_
    else at_ ++ [part]) done segs = done ++ segs).
  { induction H as [|p segs (P1 & P2 & P3 & _) H IH]; intros done; cbn [foldl]; [rewrite app_nil_r; reflexivity|].
    rewrite decide_False by tauto. rewrite decide_False by assumption. rewrite IH, <- app_assoc. reflexivity. }
  apply G.
Qed.
Definition stable_root (root : rstr) (segs : list rstr) : Prop :=
  (exists d, 0x61 <= d <= 0x7A /\ root = [d; 0x3A; 0x2F]) \/ (root = [0x2F] /\ forall p ps, segs = p :: ps -> ~ drive_like p).
Lemma joined_head p ps : p <> [] -> exists c r, joined (p :: ps) = c :: r /\ head p = Some c.
Proof. destruct p as [|c p]; [congruence|]. intros _. destruct ps as [|q ps]; [exists c, p|exists c, (p ++ 47 :: joined (q :: ps))]; split; reflexivity. Qed.
Lemma joined_drive p ps : drive_like (joined (p :: ps)) -> good_segment p -> drive_like p.
Proof.
  intros (c & r & L & E) (Hp & _ & _ & Hs). destruct p as [|a p]; [congruence|]. destruct p as [|b p].
  - destruct ps as [|q ps]; [discriminate|]. cbn in E. discriminate.
  - exists a, p. assert (a = c /\ b = 58) as [-> ->]; [|split; [exact L|reflexivity]].
    destruct ps as [|q ps]; cbn in E; injection E as -> -> _; auto.
Qed.
Lemma names_self root segs : Forall good_segment segs -> stable_root root segs ->
  exists parts, names (root ++ joined segs) root parts /\ resolve parts = segs.
Proof.
  intros HG [(d & Ld & ->)|(-> & Hd)].
  - exists (match segs with [] => [[]; []] | _ => [] :: segs end). split.
    + exists ([d; 58; 47] ++ joined segs), [], ([d; 58; 47] ++ joined segs). split.
      { right. right. split; [reflexivity|]. split; intros [k [= -> E]]; lia. }
      split; [reflexivity|]. split; [intros c Hc; inversion Hc|]. split; [intros c r [= <- _] [|]; lia|]. left.
      exists d, d, (47 :: joined segs). split; [reflexivity|]. split; [right; auto|]. split; [reflexivity|].
      destruct segs as [|p segs].
      * apply (pieces_cons [] 47 [] [[]]); [intros c Hc; inversion Hc|left; reflexivity|]. constructor. intros c Hc; inversion Hc.
      * apply (pieces_cons [] 47); [intros c Hc; inversion Hc|left; reflexivity|]. apply pieces_joined; [discriminate|].
        eapply Forall_impl; [exact HG|]. intros. apply good_no_slash. assumption.
    + destruct segs as [|p segs]; [reflexivity|]. unfold resolve. rewrite resolve_app_gen. apply (resolve_good (p :: segs)), HG.
  - destruct segs as [|p segs].
    + exists [[]]. split; [|reflexivity]. exists [47], [47], []. split; [right; right; split; [reflexivity|split; intros [k [=]]]|]. split; [reflexivity|].
      split; [intros c Hc; apply elem_of_list_singleton in Hc as ->; left; reflexivity|]. split; [discriminate|]. right.
      split; [intros (c & r & _ & [=])|]. split; [reflexivity|]. constructor. intros c Hc; inversion Hc.
    + exists (p :: segs). split; [|apply resolve_good, HG]. pose proof (Forall_cons_1 _ _ _ HG) as [Gp _].
      destruct (joined_head p segs (proj1 Gp)) as (h & t & Ej & Eh).
      assert (Hh : ~ slash h). { apply Gp. destruct p; [discriminate|]. injection Eh as ->. left. }
      exists ([47] ++ joined (p :: segs)), [47], (joined (p :: segs)). split.
      { assert (Hl : [47] ++ joined (p :: segs) = 47 :: h :: t) by (cbn [app]; f_equal; exact Ej).
        right. right. split; [reflexivity|]. split; intros [k E]; pose proof (eq_trans (eq_sym Hl) E) as E'; injection E'; [discriminate|].
        intros _ Eh'. apply Hh. left. exact Eh'. }
      split; [reflexivity|]. split; [intros c Hc; apply elem_of_list_singleton in Hc as ->; left; reflexivity|].
      split; [intros c r E; pose proof (eq_trans (eq_sym Ej) E) as E'; injection E' as <- _; exact Hh|]. right.
      split; [intros D; apply (Hd p segs eq_refl), (joined_drive p segs D Gp)|]. split; [reflexivity|].
      apply pieces_joined; [discriminate|]. eapply Forall_impl; [exact HG|]. intros. apply good_no_slash. assumption.
Qed.
