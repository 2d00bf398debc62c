From stdpp Require Import base decidable list numbers gmap relations sets sorting.
From Coq Require Import NArith Lia.
From Verif Require Import RustStr ILModel CfgSpec CfgProofs ILSpec LiveModel LiveSpec.

Local Open Scope N_scope.

(** ** The data flow engine *)
Lemma backward_stays_bottom {S} `{EqDecision S} (a : analysis S) sinks c fuel : a_dir a = Backward -> a_boundary a = a_bottom a ->
  run_dataflow a sinks c VirtualExit (Datatypes.S fuel) =
  Some (Some (gset_to_gmap (BlockState (a_bottom a) (a_bottom a)) (flow_labels c (Some (next_unused_label (c_graph c)))))).
Proof.
  intros Hd Hb. unfold run_dataflow. cbn [flow_loop fmap option_fmap option_map fst]. unfold flow_step. rewrite N.eqb_refl. unfold flow_block. rewrite N.eqb_refl.
  set (B := gset_to_gmap _ _). assert (E : B !! next_unused_label (c_graph c) = Some (BlockState (a_bottom a) (a_bottom a))).
  { apply lookup_gset_to_gmap_Some. split; [|done]. unfold flow_labels. apply elem_of_union_r, elem_of_singleton_2. done. }
  rewrite E, Hb, Hd. unfold apply_to_block. rewrite Hd. cbn [imap rev fold_left b_entry b_exit]. rewrite bool_decide_eq_true_2 by done. by destruct fuel.
Qed.

(** ** Live-in sets *)
Lemma live_apply_spec i s x : x ∈ live_apply i s <-> AVar x ∈ i_args i \/ (x ∉ i_tgts i /\ x ∈ s).
Proof.
  unfold live_apply. rewrite elem_of_union, elem_of_difference, !elem_of_list_to_set, elem_of_list_omap.
  assert (X : (exists a, a ∈ i_args i /\ match a with AVar y => Some y | _ => None end = Some x) <-> AVar x ∈ i_args i).
  { split; [intros ([| | |y] & Hy & [=]); by subst|intros H; by exists (AVar x)]. }
  rewrite X. tauto.
Qed.
Lemma live_ins_of_spec is : forall k, (k < length is)%nat -> exists s, (live_ins_of is ∅).1 !! k = Some s /\
  forall x, x ∈ s <-> exists k' i, (k <= k')%nat /\ is !! k' = Some i /\ AVar x ∈ i_args i /\ forall j i', (k <= j < k')%nat -> is !! j = Some i' -> x ∉ i_tgts i'.
Proof.
  assert (L : forall is, length (live_ins_of is ∅).1 = length is). { induction is0 as [|i is0 IH]; [done|]. cbn. destruct (live_ins_of is0 ∅); cbn in *. by rewrite IH. }
  assert (Hd : forall is, (live_ins_of is ∅).2 = match (live_ins_of is ∅).1 with s :: _ => s | [] => ∅ end). { intros [|i is0]; [done|]. cbn. by destruct (live_ins_of is0 ∅). }
  induction is as [|i is IH]; intros k Hk; [cbn in Hk; lia|]. cbn [live_ins_of]. destruct (live_ins_of is ∅) as [ls s] eqn:E. specialize (Hd is). rewrite E in Hd. cbn [fst snd] in *. destruct k as [|k].
  - exists (live_apply i s). split; [done|]. intros x. rewrite live_apply_spec. split.
    + intros [H|[Hn Hx]]; [exists 0%nat, i; split; [lia|]; split; [done|]; split; [done|]; intros; lia|].
      rewrite Hd in Hx. destruct ls as [|s0 ls]; [by apply not_elem_of_empty in Hx|]. assert (L' := L is). rewrite E in L'. cbn in L'. destruct (IH 0%nat ltac:(lia)) as (s1 & [= <-] & Hs). apply Hs in Hx as (k' & i' & _ & Hi & Ha & Hw).
      exists (S k'), i'. split; [lia|]. split; [done|]. split; [done|]. intros [|j] j' Hj; cbn; [by intros [= <-]|]. apply Hw. lia.
    + intros ([|k'] & i' & _ & Hi & Ha & Hw); [injection Hi as ->; auto|]. right. split; [apply (Hw 0%nat); [lia|done]|]. cbn in Hi.
      assert (L' := L is). rewrite E in L'. cbn in L'. assert (k' < length is)%nat by (by eapply lookup_lt_Some). rewrite Hd. destruct ls as [|s0 ls]; [cbn in L'; lia|]. destruct (IH 0%nat ltac:(lia)) as (s1 & [= <-] & Hs).
      apply Hs. exists k', i'. split; [lia|]. split; [done|]. split; [done|]. intros j j' Hj. apply (Hw (S j)). lia.
  - destruct (IH k ltac:(cbn in Hk; lia)) as (s1 & Hs1 & Hs). exists s1. split; [done|]. intros x. rewrite Hs. split.
    + intros (k' & i' & Hk' & Hi & Ha & Hw). exists (S k'), i'. split; [lia|]. split; [done|]. split; [done|]. intros [|j] j' Hj; [lia|]. apply Hw. lia.
    + intros ([|k'] & i' & Hk' & Hi & Ha & Hw); [lia|]. exists k', i'. split; [lia|]. split; [done|]. split; [done|]. intros j j' Hj. apply (Hw (S j)). lia.
Qed.
Lemma live_ins_length is exit : length (live_ins_of is exit).1 = length is.
Proof. induction is as [|i is IH]; [done|]. cbn. destruct (live_ins_of is exit); cbn in *. by rewrite IH. Qed.
Lemma live_map_lookup (l : N) (ls : list (gset N)) l' (k : nat) : (list_to_map (imap (fun k s => ((l, k), s)) ls) : gmap (N * nat) (gset N)) !! (l', k) = if decide (l' = l) then ls !! k else None.
Proof.
  destruct (decide (l' = l)) as [->|Hl].
  - destruct (ls !! k) as [s|] eqn:E.
    + apply elem_of_list_to_map_1.
      * assert (Q : forall (f : nat -> nat), (forall a b, f a = f b -> a = b) -> NoDup (imap (fun k s => ((l, f k), s)) ls).*1).
        { clear E. induction ls as [|x ls IH]; intros f Hf; cbn; constructor.
          - rewrite elem_of_list_fmap. intros ([p s'] & Hp & Hin). apply elem_of_lookup_imap in Hin as (j & y & [= -> ->] & _). cbn in Hp. injection Hp as Hp. apply Hf in Hp. discriminate.
          - apply (IH (fun k => f (S k))). intros a b H. apply Hf in H. by injection H. }
        apply (Q (fun k => k)). auto.
      * apply elem_of_lookup_imap. by exists k, s.
    + apply not_elem_of_list_to_map_1. rewrite elem_of_list_fmap. intros ([p s'] & Hp & Hin). apply elem_of_lookup_imap in Hin as (j & y & [= -> ->] & Hj). cbn in Hp. injection Hp as ->. congruence.
  - apply not_elem_of_list_to_map_1. rewrite elem_of_list_fmap. intros ([p s'] & Hp & Hin). apply elem_of_lookup_imap in Hin as (j & y & [= -> ->] & Hj). cbn in Hp. injection Hp as ->. done.
Qed.
Lemma live_ins_all_spec blocks c ls : (forall l b, blocks !! l = Some b -> b_exit b = ∅) -> (forall l, l ∈ ls -> is_Some (c_blocks c !! l)) ->
  exists m, live_ins_all blocks c ls = Some m /\
  forall l k, m !! (l, k) = if decide (l ∈ ls) then (live_ins_of (block_of (c_blocks c) l) ∅).1 !! k else None.
Proof.
  intros Hb. induction ls as [|l ls IH]; intros Hl; cbn [live_ins_all]; [exists ∅; done|]. destruct (Hl l ltac:(constructor)) as [is Eis]. rewrite Eis.
  destruct IH as (m & -> & Hm); [intros l' H; apply Hl; by constructor|]. assert (Ex : match blocks !! l with Some b => b_exit b | None => ∅ end = ∅) by (destruct (blocks !! l) eqn:E; [by eapply Hb|done]). rewrite Ex.
  eexists. split; [done|]. intros l' k. rewrite lookup_union, live_map_lookup, Hm. destruct (decide (l' = l)) as [->|Hne].
  - assert (Ebl : block_of (c_blocks c) l = is) by (unfold block_of; by rewrite Eis). rewrite Ebl. rewrite (decide_True (P := l ∈ l :: ls)) by constructor.
    destruct ((live_ins_of is ∅).1 !! k) as [s|]; destruct (decide (l ∈ ls)); done.
  - destruct (decide (l' ∈ ls)) as [Hin|Hin]; [rewrite decide_True by (by constructor)|rewrite decide_False by (rewrite elem_of_cons; tauto)]; by rewrite (left_id_L None _).
Qed.
Lemma live_ins_exact sinks c fuel : (forall l, l ∈ labels (c_graph c) -> is_Some (c_blocks c !! l)) ->
  exists m, calculate_live_ins sinks c (S fuel) = Some (Some m) /\
  (forall l k i, in_prog c l k i -> l ∈ labels (c_graph c) -> exists s, m !! (l, k) = Some s /\ forall x, x ∈ s <-> live_locally c x l k) /\
  (forall l k, is_Some (m !! (l, k)) -> l ∈ labels (c_graph c) /\ exists i, in_prog c l k i).
Proof.
  intros Hl. unfold calculate_live_ins. rewrite backward_stays_bottom by done. set (B := gset_to_gmap _ _).
  destruct (live_ins_all_spec B c (labels_sorted (c_graph c))) as (m & -> & Hm).
  { intros l b H%lookup_gset_to_gmap_Some. destruct H as [_ <-]. done. }
  { intros l. unfold labels_sorted. rewrite elem_of_sorted. apply Hl. }
  exists m. split; [done|]. assert (Q : forall l, l ∈ labels_sorted (c_graph c) <-> l ∈ labels (c_graph c)) by (intros; unfold labels_sorted; apply elem_of_sorted). split.
  - intros l k i Hi Hin. rewrite Hm, decide_True by (by apply Q). destruct (live_ins_of_spec (block_of (c_blocks c) l) k) as (s & Hs & Hx); [by eapply lookup_lt_Some|]. exists s. split; [done|]. intros x. rewrite Hx. done.
  - intros l k. rewrite Hm. case_decide as E; [|by intros []]. intros Hk. split; [by apply Q|]. apply lookup_lt_is_Some in Hk. rewrite live_ins_length in Hk. apply lookup_lt_is_Some in Hk as [i Hi]. by exists i.
Qed.

(** ** Interference *)
Definition near (g : igraph) (a b : N) : Prop := b ∈ default ∅ (g !! a).
Lemma near_half g a b x y : near (add_half g a b) x y <-> near g x y \/ (x = a /\ y = b).
Proof.
  unfold near, add_half. destruct (decide (x = a)) as [->|Hne].
  - rewrite lookup_insert. cbn. rewrite elem_of_union, elem_of_singleton. naive_solver.
  - rewrite lookup_insert_ne by done. naive_solver.
Qed.
Lemma near_touch g a x y : near (touch g a) x y <-> near g x y.
Proof. unfold near, touch. destruct (decide (x = a)) as [->|Hne]; [by rewrite lookup_insert|by rewrite lookup_insert_ne]. Qed.
Lemma dom_half g a b : dom (add_half g a b) = dom g ∪ {[ a ]}.
Proof. unfold add_half. rewrite dom_insert_L. set_solver. Qed.
Lemma dom_touch g a : dom (touch g a) = dom g ∪ {[ a ]}.
Proof. unfold touch. rewrite dom_insert_L. set_solver. Qed.
Lemma fold_half lives a : forall g, let g' := fold_left (fun g b => add_half (add_half g a b) b a) lives g in
  (forall x y, near g' x y <-> near g x y \/ (x = a /\ y ∈ lives) \/ (y = a /\ x ∈ lives)) /\
  (a ∈ dom g -> forall x, x ∈ dom g' <-> x ∈ dom g \/ x ∈ lives).
Proof.
  induction lives as [|b lives IH]; intros g; cbn [fold_left].
  - split; [intros x y; rewrite !elem_of_nil; tauto|intros _ x; rewrite elem_of_nil; tauto].
  - destruct (IH (add_half (add_half g a b) b a)) as [H1 H2]. split.
    + intros x y. rewrite H1, !near_half, !elem_of_cons. naive_solver.
    + intros Ha x. rewrite H2 by (rewrite !dom_half; set_solver). rewrite !dom_half, elem_of_cons. set_solver.
Qed.
Lemma add_pairs_spec lives : NoDup lives -> forall g,
  (forall x y, near (add_pairs g lives) x y <-> near g x y \/ (x <> y /\ x ∈ lives /\ y ∈ lives)) /\
  (forall x, x ∈ dom (add_pairs g lives) <-> x ∈ dom g \/ x ∈ lives).
Proof.
  induction 1 as [|a lives Ha Nd IH]; intros g; cbn [add_pairs].
  - split; [intros x y; rewrite !elem_of_nil; tauto|intros x; rewrite elem_of_nil; tauto].
  - destruct (IH (fold_left (fun g b => add_half (add_half g a b) b a) lives (touch g a))) as [H1 H2]. destruct (fold_half lives a (touch g a)) as [K1 K2]. split.
    + intros x y. rewrite H1, K1, near_touch, !elem_of_cons. split.
      * intros [[H|[[-> H]|[-> H]]]|H]; try tauto; right; (split; [intros ->; done|]); tauto.
      * intros [H|(Hn & [->|Hx] & [->|Hy])]; try tauto.
    + intros x. rewrite H2, K2, elem_of_cons by (rewrite dom_touch; set_solver). rewrite dom_touch. set_solver.
Qed.
Lemma interference_exact (sets : list (gset N)) : let g := calculate_interference_graph sets in
  (forall x y, near g x y <-> x <> y /\ exists s, s ∈ sets /\ x ∈ s /\ y ∈ s) /\
  (forall x, x ∈ dom g <-> exists s, s ∈ sets /\ x ∈ s).
Proof.
  unfold calculate_interference_graph.
  assert (H : forall sets (g : igraph), let g' := fold_left (fun g (s : gset N) => add_pairs g (elements s)) sets g in
    (forall x y, near g' x y <-> near g x y \/ (x <> y /\ exists s, s ∈ sets /\ x ∈ s /\ y ∈ s)) /\
    (forall x, x ∈ dom g' <-> x ∈ dom g \/ exists s, s ∈ sets /\ x ∈ s)).
  { clear. induction sets as [|s sets IH]; intros g; cbn [fold_left].
    - split; [intros x y|intros x]; (split; [auto|]); [intros [H|(_ & s & H & _)]|intros [H|(s & H & _)]]; try done; by apply elem_of_nil in H.
    - destruct (IH (add_pairs g (elements s))) as [H1 H2]. destruct (add_pairs_spec (elements s) (NoDup_elements s) g) as [K1 K2]. split.
      + intros x y. rewrite H1, K1, !elem_of_elements. setoid_rewrite elem_of_cons. naive_solver.
      + intros x. rewrite H2, K2, elem_of_elements. setoid_rewrite elem_of_cons. naive_solver. }
  destruct (H sets ∅) as [H1 H2]. split.
  - intros x y. rewrite H1. unfold near. rewrite lookup_empty. cbn. set_solver.
  - intros x. rewrite H2. set_solver.
Qed.

(** ** Colouring *)
Definition undirected (g : igraph) : Prop := forall a b, near g a b -> near g b a /\ a <> b.
Lemma near_dom g a b : near g a b -> a ∈ dom g.
Proof. unfold near. intros H. apply elem_of_dom. destruct (g !! a); [eauto|]. cbn in H. by apply not_elem_of_empty in H. Qed.
Lemma min_node_spec g : match min_node g with Some t => t ∈ dom g | None => g = ∅ end.
Proof.
  unfold min_node. destruct (map_to_list g) as [|x xs] eqn:E; [by apply map_to_list_empty_iff in E|].
  assert (H : forall xs x, (forall y, y ∈ x :: xs -> y ∈ map_to_list g) -> fold_left (fun best y => if less_node y best then y else best) xs x ∈ map_to_list g).
  { clear. induction xs as [|y xs IH]; intros x H; cbn; [apply H; constructor|]. apply IH. intros z Hz. apply H. destruct (less_node y x); set_solver. }
  specialize (H xs x). rewrite <- E in H. specialize (H ltac:(auto)). destruct (fold_left _ xs x) as [t s]. apply elem_of_map_to_list in H. apply elem_of_dom. eauto.
Qed.
Lemma drop_from_spec t cs : NoDup cs -> forall g, (forall x, x ∈ cs -> x ∈ dom g) -> exists g', drop_from t cs g = Some g' /\ dom g' = dom g /\
  forall x, g' !! x = if decide (x ∈ cs) then (fun s => s ∖ {[ t ]}) <$> g !! x else g !! x.
Proof.
  induction 1 as [|c cs Hc Nd IH]; intros g Hg; cbn [drop_from]; [by exists g|]. destruct (proj1 (elem_of_dom g c) (Hg c ltac:(constructor))) as [s Es]. rewrite Es.
  destruct (IH (<[c := s ∖ {[ t ]}]> g)) as (g' & -> & D & H). { intros x Hx. rewrite dom_insert_L. apply elem_of_union_r, Hg. by constructor. }
  exists g'. split; [done|]. split; [rewrite D, dom_insert_L; assert (c ∈ dom g) by (apply Hg; constructor); set_solver|].
  intros x. rewrite H. destruct (decide (x = c)) as [->|Hx].
  - rewrite decide_False by done. rewrite lookup_insert, decide_True by constructor. by rewrite Es.
  - rewrite lookup_insert_ne by done. destruct (decide (x ∈ cs)); [rewrite decide_True by (by constructor)|rewrite decide_False by (rewrite elem_of_cons; tauto)]; done.
Qed.
Lemma simplify_spec fuel : forall g stack, undirected g -> (size g <= fuel)%nat -> exists order, simplify fuel g stack = Some (order ++ stack) /\ NoDup order /\ forall x, x ∈ order <-> x ∈ dom g.
Proof.
  induction fuel as [|fuel IH]; intros g stack U Hs.
  - assert (g = ∅) as -> by (apply map_size_empty_inv; lia). exists []. split; [done|]. split; [constructor|]. intros x. set_solver.
  - cbn [simplify]. assert (M := min_node_spec g). destruct (min_node g) as [t|]; [|subst g; exists []; split; [done|]; split; [constructor|set_solver]].
    destruct (proj1 (elem_of_dom g t) M) as [cs Ec]. rewrite Ec. destruct (drop_from_spec t (elements cs) (NoDup_elements cs) (delete t g)) as (g' & -> & D & H).
    { intros x Hx%elem_of_elements. assert (X : near g t x) by (unfold near; by rewrite Ec). apply U in X as [X Hne]. rewrite dom_delete_L. apply elem_of_difference. split; [by eapply near_dom|set_solver]. }
    assert (Nr : forall a b, near g' a b <-> near g a b /\ a <> t /\ b <> t).
    { intros a b. unfold near. rewrite H. destruct (decide (a = t)) as [->|Ha]; [rewrite lookup_delete; case_decide; cbn; set_solver|]. rewrite lookup_delete_ne by done. case_decide as Hin.
      - destruct (g !! a) as [s|]; cbn; [|set_solver]. rewrite elem_of_difference, elem_of_singleton. tauto.
      - split; [|tauto]. intros Hb. split; [done|]. split; [done|]. intros ->. apply Hin. apply elem_of_elements. assert (X : near g a t) by done. apply U in X as [X _]. unfold near in X. by rewrite Ec in X. }
    destruct (IH g' (t :: stack)) as (order & E & Nd & Ho).
    + intros a b (Hab & Ha & Hb)%Nr. apply U in Hab as [Hba Hne]. split; [|done]. by apply Nr.
    + rewrite <- size_dom, D, size_dom. rewrite map_size_delete_Some by eauto. lia.
    + exists (order ++ [t]). rewrite <- app_assoc. split; [done|]. assert (Dt : forall x, x ∈ order <-> x ∈ dom g /\ x <> t) by (intros x; rewrite Ho, D, dom_delete_L; set_solver). split.
      * apply NoDup_app. split; [done|]. split; [|repeat constructor; set_solver]. intros x Hx ->%elem_of_list_singleton. by apply Dt in Hx as [_ ?].
      * intros x. rewrite elem_of_app, elem_of_list_singleton, Dt. split; [naive_solver|]. intros Hx. destruct (decide (x = t)); auto.
Qed.
Lemma first_free_None n : forall c used, first_free n c used = None -> forall k, (k < n)%nat -> (c + N.of_nat k) ∈ used.
Proof.
  induction n as [|n IH]; intros c used H k Hk; [lia|]. cbn in H. case_bool_decide as Hc; [|done]. destruct k as [|k]; [by rewrite N.add_0_r|].
  replace (c + N.of_nat (S k)) with (c + 1 + N.of_nat k) by lia. apply IH; [done|lia].
Qed.
Lemma first_free_Some n : forall c used r, first_free n c used = Some r -> r ∉ used /\ c <= r < c + N.of_nat n /\ forall k, c <= k < r -> k ∈ used.
Proof.
  induction n as [|n IH]; intros c used r H; [done|]. cbn in H. case_bool_decide as Hc.
  - apply IH in H as (H1 & H2 & H3). split; [done|]. split; [lia|]. intros k Hk. destruct (decide (k = c)) as [->|]; [done|]. apply H3. lia.
  - injection H as ->. split; [done|]. split; [lia|]. intros; lia.
Qed.
Lemma first_free_enough n used : (size (used : gset N) < n)%nat -> is_Some (first_free n 0 used).
Proof.
  intros Hs. destruct (first_free n 0 used) eqn:E; [eauto|]. exfalso. assert (H := first_free_None n 0 used E).
  assert (S : list_to_set (map N.of_nat (seq 0 n)) ⊆ used). { intros x Hx. apply elem_of_list_to_set, elem_of_list_fmap in Hx as (k & -> & Hk). apply elem_of_seq in Hk. apply (H k). lia. }
  apply subseteq_size in S. rewrite size_list_to_set, map_length, seq_length in S; [lia|]. apply NoDup_fmap_2; [intros a b; lia|apply NoDup_seq].
Qed.
Lemma colour_spec g : undirected g -> forall stack alloc, NoDup stack -> (forall x, x ∈ stack -> x ∈ dom g) -> (forall x, x ∈ stack -> alloc !! x = None) -> dom alloc ⊆ dom g ->
  (forall a b ca cb, near g a b -> alloc !! a = Some ca -> alloc !! b = Some cb -> ca <> cb) ->
  (forall a ca, alloc !! a = Some ca -> ca < N.of_nat (size g)) ->
  exists alloc', colour g stack alloc = Some alloc' /\ (forall x, x ∈ dom alloc' <-> x ∈ dom alloc \/ x ∈ stack) /\
  (forall a b ca cb, near g a b -> alloc' !! a = Some ca -> alloc' !! b = Some cb -> ca <> cb) /\ (forall a ca, alloc' !! a = Some ca -> ca < N.of_nat (size g)).
Proof.
  intros U. induction stack as [|t stack IH]; intros alloc Nd Hd Hn Ha Hc Hs; cbn [colour]; [exists alloc; split; [done|]; split; [set_solver|done]|].
  destruct (proj1 (elem_of_dom g t) (Hd t ltac:(constructor))) as [ns En]. rewrite En. set (used := list_to_set (omap (fun n => alloc !! n) (elements ns)) : gset N).
  assert (Hu : forall c, c ∈ used <-> exists n, near g t n /\ alloc !! n = Some c).
  { intros c. unfold used. rewrite elem_of_list_to_set, elem_of_list_omap. unfold near. rewrite En. cbn. by setoid_rewrite elem_of_elements. }
  assert (Nt : alloc !! t = None) by (apply Hn; constructor).
  destruct (first_free_enough (size g) used) as [c Ec].
  { apply Nat.le_lt_trans with (size alloc).
    - transitivity (size (list_to_set (map snd (map_to_list alloc)) : gset N)).
      + apply subseteq_size. intros x (n & _ & Hx)%Hu. apply elem_of_list_to_set, elem_of_list_fmap. exists (n, x). split; [done|]. by apply elem_of_map_to_list.
      + assert (Q : forall l : list N, (size (list_to_set l : gset N) <= length l)%nat). { induction l as [|x l IHl]; cbn; [by rewrite size_empty|]. rewrite size_union_alt, size_singleton. assert (size (list_to_set l ∖ {[x]} : gset N) <= size (list_to_set l : gset N))%nat by (apply subseteq_size; set_solver). lia. }
        etrans; [apply Q|]. by rewrite map_length.
    - rewrite <- !size_dom. apply subset_size. split; [done|]. intros H. assert (t ∈ dom alloc) by (apply H, Hd; constructor). by apply not_elem_of_dom in Nt. }
  rewrite Ec, Nt. apply first_free_Some in Ec as (E1 & E2 & _). apply NoDup_cons in Nd as [Nd1 Nd].
  destruct (IH (<[t := c]> alloc)) as (alloc' & -> & H1 & H2).
  - done.
  - intros x Hx. apply Hd. by constructor.
  - intros x Hx. rewrite lookup_insert_ne by (intros ->; done). apply Hn. by constructor.
  - rewrite dom_insert_L. assert (t ∈ dom g) by (apply Hd; constructor). set_solver.
  - intros a b ca cb Hab. destruct (decide (a = t)) as [->|Hat].
    + rewrite lookup_insert. destruct (U _ _ Hab) as [_ Hne]. rewrite lookup_insert_ne by done. intros [= <-] Hb ->. apply E1, Hu. eauto.
    + rewrite lookup_insert_ne by done. destruct (decide (b = t)) as [->|Hbt]; [|rewrite lookup_insert_ne by done; by apply Hc].
      rewrite lookup_insert. intros Hca [= <-] ->. apply E1, Hu. exists a. split; [|done]. by apply U.
  - intros a ca. destruct (decide (a = t)) as [->|]; [rewrite lookup_insert; intros [= <-]; lia|rewrite lookup_insert_ne by done; apply Hs].
  - exists alloc'. split; [done|]. split; [|done]. intros x. rewrite H1, dom_insert_L, elem_of_cons. set_solver.
Qed.
Lemma allocate_spec g : undirected g -> exists alloc, allocate_registers g = Some alloc /\ (forall x, is_Some (alloc !! x) <-> x ∈ dom g) /\
  (forall a b ca cb, near g a b -> alloc !! a = Some ca -> alloc !! b = Some cb -> ca <> cb) /\ (forall a ca, alloc !! a = Some ca -> ca < N.of_nat (size g)).
Proof.
  intros U. unfold allocate_registers. destruct (simplify_spec (size g) g [] U) as (order & -> & Nd & Ho); [done|]. rewrite app_nil_r.
  destruct (colour_spec g U order ∅) as (alloc & -> & H1 & H2); try done.
  - intros x. apply Ho.
  - exists alloc. split; [done|]. split; [|done]. intros x. rewrite <- elem_of_dom, H1, Ho. set_solver.
Qed.
