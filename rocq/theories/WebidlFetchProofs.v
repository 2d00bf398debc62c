(** How often iterator methods are looked up. *)
From stdpp Require Import base decidable numbers sets list.
From Verif Require Import WebidlModel WebidlSpec WebidlProofs.

Definition hit (p : place) (s : symbol) (x : place * event) : bool :=
  bool_decide (x.1 = p) &&
  match x.2 with AskMethod _ s' => bool_decide (s' = s) | _ => false end.

Definition cnt (p : place) (s : symbol) (l : log) : nat := length (List.filter (hit p s) l).

Lemma fetches_cnt i s l : fetches i s l = cnt (i, 0) s l.
Proof.
  unfold fetches, cnt. f_equal. apply List.filter_ext. intros [[i' d] e]. unfold hit. cbn.
  f_equal. destruct (i' =? i) eqn:E1; destruct (d =? 0) eqn:E2; cbn; symmetry;
    rewrite ?Nat.eqb_eq, ?Nat.eqb_neq in *; subst;
    [by apply bool_decide_eq_true|apply bool_decide_eq_false; congruence..].
Qed.

Lemma cnt_app p s l1 l2 : cnt p s (l1 ++ l2) = cnt p s l1 + cnt p s l2.
Proof. unfold cnt. by rewrite List.filter_app, app_length. Qed.

Definition cost {A} (m : M A) (p : place) (s : symbol) (k : nat) : Prop :=
  forall l, cnt p s (snd (m l)) <= cnt p s l + k.

Lemma cost_ret {A} (a : A) p s k : cost (ret a) p s k.
Proof. intros l. cbn [ret snd]. lia. Qed.
Lemma cost_fail {A} e p s k : cost (fail e : M A) p s k.
Proof. intros l. cbn [fail snd]. lia. Qed.
Lemma cost_bind {A B} (m : M A) (f : A -> M B) p s k1 k2 :
  cost m p s k1 -> (forall a, cost (f a) p s k2) -> cost (bind m f) p s (k1 + k2).
Proof.
  intros H1 H2 l. specialize (H1 l). unfold bind. destruct (m l) as [[a|e] l']; cbn [snd] in *.
  - specialize (H2 a l'). lia.
  - lia.
Qed.
Lemma cost_bind0 {A B} (m : M A) (f : A -> M B) p s k :
  cost m p s 0 -> (forall a, cost (f a) p s k) -> cost (bind m f) p s k.
Proof. intros H1 H2. by apply (cost_bind m f p s 0 k). Qed.
Lemma cost_weaken {A} (m : M A) p s k k' : cost m p s k -> k <= k' -> cost m p s k'.
Proof. intros H Hk l. specialize (H l). lia. Qed.
Lemma cost_ask {A} at_ e (f : log -> A + N) p s k :
  (if hit p s (at_, e) then 1 else 0) <= k -> cost (ask at_ e f) p s k.
Proof.
  intros H l. unfold ask. destruct (f _); cbn [snd]; rewrite cnt_app; unfold cnt; cbn [List.filter];
    destruct (hit p s (at_, e)); cbn in *; lia.
Qed.
Lemma cost_ask0 {A} at_ e (f : log -> A + N) p s k :
  match e with AskMethod _ _ => False | _ => True end -> cost (ask at_ e f) p s k.
Proof.
  intros H. apply cost_ask. unfold hit. destruct e; try done; cbn; rewrite andb_false_r; lia.
Qed.

Lemma cost_mapM {A B} (f : A -> M B) p s l :
  Forall (fun a => cost (f a) p s 0) l -> cost (mapM f l) p s 0.
Proof.
  induction 1 as [|a l Ha _ IH]; cbn [mapM]; [apply cost_ret|].
  apply cost_bind0; [done|]. intros b. apply cost_bind0; [done|]. intros. apply cost_ret.
Qed.
Lemma cost_fill rt at_ obj i vs p s : cost (fill_array rt at_ obj i vs) p s 0.
Proof.
  revert i. induction vs as [|v vs IH]; intros i; cbn [fill_array]; [apply cost_ret|].
  apply cost_bind0; [by apply cost_ask0|]. intros _.
  apply cost_bind0; [by apply cost_ask0|]. intros _. apply IH.
Qed.
Lemma cost_to_js rt at_ v p s : forall t, cost (to_js rt at_ v t) p s 0.
Proof.
  induction v as [v IH] using (induction_ltof1 _ (fix size (v : ival) : nat :=
    match v with
    | VSeq vs => S (foldr Nat.add 0 (map size vs))
    | VUnion _ v => S (size v)
    | _ => 1
    end)). unfold ltof in IH.
  intros t. destruct t, v; cbn [to_js]; try (by apply cost_fail); try by apply cost_ret.
  - apply cost_bind0.
    { apply cost_mapM, Forall_forall. intros v Hv. apply IH.
      cbn. clear -Hv. induction Hv; cbn; lia. }
    intros js. apply cost_bind0; [by apply cost_ask0|].
    intros obj. apply cost_bind0; [apply cost_fill|]. intros _. apply cost_ret.
  - apply IH. cbn. lia.
Qed.
Lemma cost_create_frozen rt at_ t vs p s : cost (create_frozen rt at_ t vs) p s 0.
Proof.
  unfold create_frozen. apply cost_bind0.
  { apply cost_mapM, Forall_forall. intros v _. apply cost_to_js. }
  intros js. destruct (_ <? _); [apply cost_fail|].
  apply cost_bind0; [by apply cost_ask0|]. intros obj.
  apply cost_bind0; [apply cost_fill|]. intros _.
  apply cost_bind0; [by apply cost_ask0|]. intros _. apply cost_ret.
Qed.
Lemma cost_create_sequence rt at_ v m f p s :
  (forall x, cost (f x) p s 0) -> cost (create_sequence rt at_ v m f) p s 0.
Proof.
  intros Hf. unfold create_sequence. destruct (as_object v); [|apply cost_fail].
  apply cost_bind0; [by apply cost_ask0|]. intros it.
  induction (rt_limit rt) as [|room IH]; cbn [collect];
    (apply cost_bind0; [by apply cost_ask0|]); (intros [x|]; [|apply cost_ret]).
  - apply cost_fail.
  - apply cost_bind0; [apply Hf|]. intros y. apply cost_bind0; [exact IH|].
    intros ys. apply cost_ret.
Qed.
Lemma cost_union t m p s k : cost m p s k -> cost (union_of t m) p s k.
Proof.
  intros H. unfold union_of. eapply cost_weaken; [eapply cost_bind; [exact H|]|].
  - intros v. apply (cost_ret _ _ _ 0).
  - lia.
Qed.
Lemma cost_attempt {A B} (m : M (option A)) (f : A -> M B) g p s k1 k2 :
  cost m p s k1 -> (forall a, cost (f a) p s k2) -> cost g p s k2 ->
  cost (attempt m f g) p s (k1 + k2).
Proof. intros H1 H2 H3. apply cost_bind; [done|]. intros [a|]; [apply H2|apply H3]. Qed.

Definition asked (at_ p : place) (s s' : symbol) : nat :=
  if bool_decide (at_ = p) && bool_decide (s' = s) then 1 else 0.

Lemma cost_get rt at_ obj s' p s : cost (get_method rt at_ obj s') p s (asked at_ p s s').
Proof. apply cost_ask. unfold hit, asked. cbn. lia. Qed.

Lemma asked_same p s : asked p p s SIterator + asked p p s SAsyncIterator = 1.
Proof.
  unfold asked. rewrite bool_decide_eq_true_2 by done. by destruct s.
Qed.
Lemma asked_ne at_ p s s' : at_ <> p -> asked at_ p s s' = 0.
Proof. intros H. unfold asked. by rewrite bool_decide_eq_false_2. Qed.
Lemma asked_le at_ p s s' : asked at_ p s s' <= 1.
Proof. unfold asked. destruct (_ && _); lia. Qed.

Lemma cost_method rt at_ v hint p s :
  cost (iterator_method rt at_ v hint) p s (if hint then 0 else asked at_ p s SIterator).
Proof.
  unfold iterator_method. destruct hint; [apply cost_ret|].
  destruct (as_object v); [|apply cost_fail].
  eapply cost_weaken; [apply cost_bind with (k2 := 0); [apply cost_get|]|lia].
  intros [m|]; [apply cost_ret|apply cost_fail].
Qed.
Lemma cost_async rt at_ v hint p s :
  cost (async_method rt at_ v hint) p s
    (if hint then 0 else asked at_ p s SAsyncIterator + asked at_ p s SIterator).
Proof.
  unfold async_method. destruct (as_object v); [|apply cost_fail].
  destruct hint; [apply cost_ret|]. apply cost_bind; [apply cost_get|].
  intros [m|]; [apply cost_ret|].
  eapply cost_weaken; [apply cost_bind with (k2 := 0); [apply cost_get|]|lia].
  intros [m|]; [apply cost_ret|apply cost_fail].
Qed.

(** The union rules, with the costs of their parts. *)
Lemma cost_convert_union n rt at_ ts v hint ahint p s :
  (forall t, t ∈ flattened (TUnion ts) -> is_string_type t = true ->
     cost (convert n rt at_ t v None None) p s 0) ->
  (forall t m, t ∈ flattened (TUnion ts) -> is_seq t || is_frozen t = true ->
     cost (convert n rt at_ t v (Some m) None) p s 0) ->
  (forall t m, t ∈ flattened (TUnion ts) -> is_async t = true ->
     cost (convert n rt at_ t v None (Some m)) p s 0) ->
  cost (convert (S n) rt at_ (TUnion ts) v hint ahint) p s
    ((if existsb is_async (flattened (TUnion ts))
      then asked at_ p s SAsyncIterator + asked at_ p s SIterator else 0) +
     ((if existsb is_seq (flattened (TUnion ts)) then asked at_ p s SIterator else 0) +
      (if existsb is_frozen (flattened (TUnion ts)) then asked at_ p s SIterator else 0))).
Proof.
  intros Hst Hsf Has. cbn [convert].
  set (types := flattened (TUnion ts)) in *.
  assert (Hfind : forall f t, List.find f types = Some t -> t ∈ types /\ f t = true /\
                    existsb f types = true).
  { intros f t H. pose proof H as H'. apply find_member in H as [H1 H2].
    split; [done|]. split; [done|]. apply existsb_exists. exists t.
    split; [by apply elem_of_list_In|done]. }
  destruct (includes_undefined (TUnion ts) && is_undefined v); [apply cost_ret|].
  destruct (if is_null v || is_undefined v then _ else None); [apply cost_ret|].
  match goal with |- cost (match as_object v with Some _ => _ | None => ?g end) _ _ _ =>
    assert (Hs : cost g p s 0); [|set (fallback := g) in *] end.
  { destruct (List.find is_string_type types) as [t|] eqn:E; [|apply cost_fail].
    apply Hfind in E as (E1 & E2 & _). by apply cost_union, Hst. }
  clearbody fallback.
  destruct (as_object v) as [obj|]; [|eapply cost_weaken; [exact Hs|lia]].
  assert (Hf : cost match List.find is_frozen types with
                    | Some ft => attempt (get_method rt at_ obj SIterator)
                        (fun m => union_of ft (convert n rt at_ ft v (Some m) None)) fallback
                    | None => fallback
                    end p s (if existsb is_frozen types then asked at_ p s SIterator else 0)).
  { destruct (List.find is_frozen types) as [t|] eqn:E.
    - apply Hfind in E as (E1 & E2 & ->).
      eapply cost_weaken; [apply cost_attempt with (k2 := 0);
        [apply cost_get|intros m; apply cost_union, Hsf; [done|by rewrite E2, orb_true_r]|exact Hs]|lia].
    - eapply cost_weaken; [exact Hs|lia]. }
  match type of Hf with cost ?g _ _ _ => set (frozen := g) in * end. clearbody frozen.
  assert (Hq : cost match List.find is_seq types with
                    | Some st => attempt (get_method rt at_ obj SIterator)
                        (fun m => union_of st (convert n rt at_ st v (Some m) None)) frozen
                    | None => frozen
                    end p s ((if existsb is_seq types then asked at_ p s SIterator else 0) +
                             (if existsb is_frozen types then asked at_ p s SIterator else 0))).
  { destruct (List.find is_seq types) as [t|] eqn:E.
    - apply Hfind in E as (E1 & E2 & ->).
      apply cost_attempt; [apply cost_get| |exact Hf].
      intros m. eapply cost_weaken; [apply cost_union, Hsf; [done|by rewrite E2]|lia].
    - eapply cost_weaken; [exact Hf|lia]. }
  match type of Hq with cost ?g _ _ _ => set (sequence := g) in * end. clearbody sequence.
  destruct (List.find is_async types) as [t|] eqn:E.
  - apply Hfind in E as (E1 & E2 & ->).
    destruct (negb _ || negb _); [|eapply cost_weaken; [exact Hq|lia]].
    rewrite <- Nat.add_assoc. apply cost_attempt; [apply cost_get| |].
    { intros m. eapply cost_weaken; [apply cost_union, Has; done|lia]. }
    apply cost_attempt; [apply cost_get| |exact Hq].
    intros m. eapply cost_weaken; [apply cost_union, Has; done|lia].
  - eapply cost_weaken; [exact Hq|lia].
Qed.

Lemma cost_hinted_seq n rt at_ t v m p s :
  (forall n elem x, cost (convert n rt (at_.1, S at_.2) elem x None None) p s 0) ->
  is_seq t || is_frozen t = true -> cost (convert n rt at_ t v (Some m) None) p s 0.
Proof.
  intros He Ht. destruct n as [|n]; [apply cost_fail|].
  destruct t; try done; cbn [convert].
  - apply cost_bind0; [apply cost_method with (hint := Some m)|]. intros mm.
    apply cost_bind0; [apply cost_create_sequence; intros x; apply He|]. intros. apply cost_ret.
  - apply cost_bind0; [apply cost_method with (hint := Some m)|]. intros mm.
    apply cost_bind0; [apply cost_create_sequence; intros x; apply He|]. intros vs.
    apply cost_bind0; [apply cost_create_frozen|]. intros. apply cost_ret.
Qed.

Lemma cost_hinted_async n rt at_ t v m p s :
  is_async t = true -> cost (convert n rt at_ t v None (Some m)) p s 0.
Proof.
  intros Ht. destruct n as [|n]; [apply cost_fail|].
  destruct t; try done; cbn [convert].
  apply cost_bind0; [apply cost_async with (hint := Some m)|]. intros [mm k]. apply cost_ret.
Qed.

(** Requests made for other arguments and for elements of sequences. *)
Lemma cost_away n rt p s : forall at_ t v hint ahint,
  at_.1 <> p.1 \/ p.2 < at_.2 ->
  cost (convert n rt at_ t v hint ahint) p s 0.
Proof.
  induction n as [|n IH]; intros at_ t v hint ahint Haway; [apply cost_fail|].
  assert (Hne : at_ <> p). { intros ->. destruct Haway; [done|lia]. }
  assert (Haway' : (at_.1, S at_.2).1 <> p.1 \/ p.2 < (at_.1, S at_.2).2).
  { cbn. destruct Haway; [by left|right; lia]. }
  assert (Hget : forall s', asked at_ p s s' = 0) by (intros; by apply asked_ne).
  destruct t as [| | | | |elem|elem|elem|ts|inner].
  - cbn [convert]. destruct (is_undefined v); [apply cost_ret|apply cost_fail].
  - cbn [convert]. apply cost_bind0; [by apply cost_ask0|]. intros. apply cost_ret.
  - cbn [convert]. apply cost_bind0; [by apply cost_ask0|]. intros. apply cost_ret.
  - cbn [convert]. apply cost_bind0; [by apply cost_ask0|]. intros. apply cost_ret.
  - cbn [convert]. destruct (is_object v); [apply cost_ret|apply cost_fail].
  - cbn [convert]. apply cost_bind0.
    { eapply cost_weaken; [apply cost_method|]. rewrite Hget. by destruct hint. }
    intros mm. apply cost_bind0; [apply cost_create_sequence; intros x; by apply IH|].
    intros. apply cost_ret.
  - cbn [convert]. apply cost_bind0.
    { eapply cost_weaken; [apply cost_async|]. rewrite !Hget. by destruct ahint. }
    intros [mm k]. apply cost_ret.
  - cbn [convert]. apply cost_bind0.
    { eapply cost_weaken; [apply cost_method|]. rewrite Hget. by destruct hint. }
    intros mm. apply cost_bind0; [apply cost_create_sequence; intros x; by apply IH|].
    intros vs. apply cost_bind0; [apply cost_create_frozen|]. intros. apply cost_ret.
  - eapply cost_weaken; [apply cost_convert_union; intros; by apply IH|].
    rewrite !Hget. destruct (existsb is_async _), (existsb is_seq _), (existsb is_frozen _); cbn; lia.
  - cbn [convert]. destruct (is_null v || is_undefined v); [apply cost_ret|by apply IH].
Qed.

Lemma cost_union_at n rt at_ ts v hint ahint s :
  cost (convert (S n) rt at_ (TUnion ts) v hint ahint) at_ s
    ((if existsb is_async (flattened (TUnion ts))
      then asked at_ at_ s SAsyncIterator + asked at_ at_ s SIterator else 0) +
     ((if existsb is_seq (flattened (TUnion ts)) then asked at_ at_ s SIterator else 0) +
      (if existsb is_frozen (flattened (TUnion ts)) then asked at_ at_ s SIterator else 0))).
Proof.
  apply cost_convert_union.
  - intros t _ Ht. destruct t; try done. destruct n as [|n]; [apply cost_fail|]. cbn [convert].
    apply cost_bind0; [by apply cost_ask0|]. intros. apply cost_ret.
  - intros t m _ Ht. apply cost_hinted_seq; [|done].
    intros n' elem x. apply cost_away. right. cbn. lia.
  - intros t m _ Ht. by apply cost_hinted_async.
Qed.

(** Types without iterables. *)
Lemma flattened_not f g t :
  (forall t, f t = true -> match t with TUnion _ => False | _ => True end) ->
  (forall t, f t = true -> g t = true) ->
  (forall ts, g (TUnion ts) = existsb g ts) ->
  g t = false -> existsb f (flattened t) = false.
Proof.
  intros Hf Hfg Hg Ht. destruct (existsb f (flattened t)) eqn:E; [|done].
  exfalso. apply existsb_exists in E as (m & Hm & Em).
  apply elem_of_list_In in Hm. revert Ht.
  assert (g t = true); [|congruence]. revert m Hm Em.
  induction t as [t IH] using idl_height_ind. intros m Hm Em.
  destruct t as [| | | | | | | |ts|]; cbn [flattened] in Hm;
    try (apply elem_of_list_singleton in Hm as ->; by apply Hfg).
  rewrite Hg. apply elem_of_list_In, in_flat_map in Hm as (u & Hu & Hm).
  apply existsb_exists. exists u. split; [done|].
  apply (IH u) with (m := m); [by apply in_height|by apply elem_of_list_In|done].
Qed.

Lemma union_plain ts :
  iterable (TUnion ts) = false ->
  existsb is_async (flattened (TUnion ts)) = false /\
  existsb is_seq (flattened (TUnion ts)) = false /\
  existsb is_frozen (flattened (TUnion ts)) = false.
Proof.
  unfold iterable. intros H. apply orb_false_iff in H as [H H3].
  apply orb_false_iff in H as [H1 H2]. split; [|split].
  - apply (flattened_not is_async contains_async); try done; by intros [].
  - apply (flattened_not is_seq contains_seq); try done; by intros [].
  - apply (flattened_not is_frozen contains_frozen); try done; by intros [].
Qed.

Lemma cost_plain n rt at_ s : forall t v hint ahint,
  iterable t = false -> cost (convert n rt at_ t v hint ahint) at_ s 0.
Proof.
  induction n as [|n IH]; intros t v hint ahint Ht; [apply cost_fail|].
  destruct t as [| | | | |elem|elem|elem|ts|inner]; try done.
  - cbn [convert]. destruct (is_undefined v); [apply cost_ret|apply cost_fail].
  - cbn [convert]. apply cost_bind0; [by apply cost_ask0|]. intros. apply cost_ret.
  - cbn [convert]. apply cost_bind0; [by apply cost_ask0|]. intros. apply cost_ret.
  - cbn [convert]. apply cost_bind0; [by apply cost_ask0|]. intros. apply cost_ret.
  - cbn [convert]. destruct (is_object v); [apply cost_ret|apply cost_fail].
  - destruct (union_plain ts Ht) as (H1 & H2 & H3).
    eapply cost_weaken; [apply cost_union_at|]. by rewrite H1, H2, H3.
  - cbn [convert]. destruct (is_null v || is_undefined v); [apply cost_ret|by apply IH].
Qed.

Lemma cost_once n rt at_ s : forall t v,
  single t = true -> cost (convert n rt at_ t v None None) at_ s 1.
Proof.
  induction n as [|n IH]; intros t v Ht; [apply cost_fail|].
  pose proof (asked_same at_ s) as Hsum.
  assert (He : forall n' elem x s, cost (convert n' rt (at_.1, S at_.2) elem x None None) at_ s 0).
  { intros. apply cost_away. right. cbn. lia. }
  destruct t as [| | | | |elem|elem|elem|ts|inner].
  - cbn [convert]. destruct (is_undefined v); [apply cost_ret|apply cost_fail].
  - cbn [convert]. apply cost_bind0; [by apply cost_ask0|]. intros. apply cost_ret.
  - cbn [convert]. apply cost_bind0; [by apply cost_ask0|]. intros. apply cost_ret.
  - cbn [convert]. apply cost_bind0; [by apply cost_ask0|]. intros. apply cost_ret.
  - cbn [convert]. destruct (is_object v); [apply cost_ret|apply cost_fail].
  - cbn [convert]. eapply cost_weaken; [apply cost_bind with (k2 := 0); [apply cost_method|]|].
    + intros mm. apply cost_bind0; [apply cost_create_sequence; intros x; apply He|].
      intros. apply cost_ret.
    + cbn [fst snd]. lia.
  - cbn [convert]. eapply cost_weaken; [apply cost_bind with (k2 := 0); [apply cost_async|]|].
    + intros [mm k]. apply cost_ret.
    + cbn [fst snd]. lia.
  - cbn [convert]. eapply cost_weaken; [apply cost_bind with (k2 := 0); [apply cost_method|]|].
    + intros mm. apply cost_bind0; [apply cost_create_sequence; intros x; apply He|].
      intros vs. apply cost_bind0; [apply cost_create_frozen|]. intros. apply cost_ret.
    + cbn [fst snd]. lia.
  - eapply cost_weaken; [apply cost_union_at|]. cbn [single] in Ht.
    destruct (existsb is_async _), (existsb is_seq _), (existsb is_frozen _); cbn in Ht |- *;
      try done; lia.
  - cbn [convert]. cbn [single] in Ht.
    destruct (is_null v || is_undefined v); [apply cost_ret|by apply IH].
Qed.

(** *** Overload resolution *)

Section resolve.
Context (rt : runtime) (args : list jsval) (i : nat) (s : symbol).

Lemma cost_arg o j :
  (forall t, t ∈ o_types o -> single t = true) ->
  cost (convert_arg rt o args j) (i, 0) s (if j =? i then 1 else 0).
Proof.
  intros Ho. unfold convert_arg. destruct (args !! j) as [v|]; [|apply cost_fail].
  destruct (o_types o !! j) as [t|] eqn:Et; [|apply cost_fail].
  destruct (_ && _); [apply cost_ret|].
  eapply cost_weaken; [apply cost_bind with (k2 := 0) (k1 := if j =? i then 1 else 0)|lia].
  - unfold convert_js_to_idl. destruct (j =? i) eqn:E.
    + apply Nat.eqb_eq in E as ->. apply cost_once, Ho. by eapply elem_of_list_lookup_2.
    + apply Nat.eqb_neq in E. apply cost_away. left. done.
  - intros x. apply cost_ret.
Qed.

Lemma cost_args o n from :
  (forall t, t ∈ o_types o -> single t = true) ->
  cost (convert_args rt o args (seq from n)) (i, 0) s
    (if (from <=? i) && (i <? from + n) then 1 else 0).
Proof.
  intros Ho. unfold convert_args. revert from.
  induction n as [|n IH]; intros from; cbn [seq mapM]; [apply cost_ret|].
  eapply cost_weaken.
  - apply cost_bind; [by apply cost_arg|]. intros b.
    apply cost_bind; [apply IH|]. intros bs. apply (cost_ret _ _ _ 0).
  - destruct (from =? i) eqn:E1, (S from <=? i) eqn:E2, (i <? S from + n) eqn:E3,
      (from <=? i) eqn:E4, (i <? from + S n) eqn:E5; cbn [andb];
      rewrite ?Nat.eqb_eq, ?Nat.eqb_neq, ?Nat.leb_le, ?Nat.leb_gt, ?Nat.ltb_lt, ?Nat.ltb_ge in *;
      lia.
Qed.

Lemma cost_finish o argcount from values :
  (forall t, t ∈ o_types o -> single t = true) ->
  cost (finish rt o args argcount from values) (i, 0) s (if from <=? i then 1 else 0).
Proof.
  intros Ho. unfold finish. eapply cost_weaken.
  - apply cost_bind; [by apply cost_args|]. intros more. apply (cost_ret _ _ _ 0).
  - destruct (from <=? i); cbn [andb]; [|lia]. destruct (_ <? _); lia.
Qed.

Section set.
Context (set : list overload) (argcount d : nat).
Context (Hsingle : forall o t, o ∈ set -> t ∈ o_types o -> single t = true).
Context (Hdirect : forall o t, o ∈ set -> t ∈ o_types o -> direct t = true).
Context (Hmixed : forall o1 o2 j t1 t2, o1 ∈ set -> o2 ∈ set ->
      o_types o1 !! j = Some t1 -> o_types o2 !! j = Some t2 ->
      is_async t1 = true -> is_seq t2 || is_frozen t2 = false).
Context (Hd : forall o, o ∈ set -> d < length (o_types o)).
Context (Hmany : 1 < length set).

Lemma type_at_in o : o ∈ set -> o_types o !! d = Some (type_at d o) /\ type_at d o ∈ o_types o.
Proof.
  intros Ho. destruct (lookup_lt_is_Some_2 (o_types o) d) as [t Ht]; [by apply Hd|].
  unfold type_at. rewrite Ht. split; [done|]. by eapply elem_of_list_lookup_2.
Qed.

Lemma direct_kind t : direct t = true ->
  (contains_async t = true -> is_async t = true) /\
  (contains_seq t = true -> is_seq t = true) /\
  (contains_frozen t = true -> is_frozen t = true) /\
  (contains_string t = true -> iterable t = false).
Proof.
  unfold direct. intros H. destruct (is_async t) eqn:E1; [by destruct t|].
  destruct (is_seq t) eqn:E2; [by destruct t|]. destruct (is_frozen t) eqn:E3; [by destruct t|].
  cbn in H. apply negb_true_iff in H. rewrite H. unfold iterable in H.
  apply orb_false_iff in H as [H H3]. apply orb_false_iff in H as [H1 H2].
  rewrite H1, H2, H3. done.
Qed.

(** With a hint, the argument's method is not looked up again. *)
Lemma cost_select keep v hint ahint values :
  (forall o, o ∈ set -> keep (type_at d o) = true ->
     cost (convert (height (type_at d o)) rt (d, 0) (type_at d o) v hint ahint) (d, 0) s 0) ->
  cost (select_with rt set keep args argcount d v hint ahint values) (i, 0) s
    (if d <? i then 1 else 0).
Proof.
  intros Hk. unfold select_with.
  destruct (List.filter _ set) as [|o [|? ?]] eqn:E; try apply cost_fail.
  assert (Ho : o ∈ set /\ keep (type_at d o) = true).
  { assert (H : In o (List.filter (fun o => keep (type_at d o)) set)) by (rewrite E; by left).
    apply filter_In in H as [H1 H2]. split; [by apply elem_of_list_In|done]. }
  destruct Ho as [Ho Hko].
  apply cost_bind0.
  - unfold convert_with_hints. destruct (decide (d = i)) as [<-|Hne]; [by apply Hk|].
    apply cost_away. left. done.
  - intros x. apply cost_finish. intros t. by apply Hsingle.
Qed.

Lemma cost_distinguish values :
  cost (distinguish rt set args argcount d values) (i, 0) s (if d <=? i then 1 else 0).
Proof.
  unfold distinguish. destruct (args !! d) as [v|]; [|apply cost_fail]. cbv zeta.
  set (any := fun p : idl -> bool => existsb (fun o => p (type_at d o)) set).
  match goal with |- cost (match as_object v with Some _ => _ | None => ?g end) _ _ _ =>
    set (by_string := g) in * end.
  (* after a failed lookup only overloads with a string type are left *)
  assert (Hs : cost by_string (i, 0) s (if d <? i then 1 else 0)).
  { unfold by_string. destruct (1 <? length set) eqn:El; [|apply Nat.ltb_ge in El; lia].
    cbn [andb]. destruct (existsb (fun o => contains_string (type_at d o)) set) eqn:Ea.
    - destruct (List.filter _ set) as [|o [|? ?]] eqn:E; try apply cost_fail.
      assert (Ho : o ∈ set /\ contains_string (type_at d o) = true).
      { assert (H : In o (List.filter (fun o => contains_string (type_at d o)) set))
          by (rewrite E; by left).
        apply filter_In in H as [H1 H2]. split; [by apply elem_of_list_In|done]. }
      destruct Ho as [Ho Hc]. destruct (type_at_in o Ho) as [Hat Hin].
      assert (Hp : iterable (type_at d o) = false).
      { by apply (direct_kind (type_at d o)), Hc; eapply Hdirect. }
      unfold finish. destruct (decide (d = i)) as [Hdi|Hne].
      + replace (d <? i) with false by (symmetry; apply Nat.ltb_ge; lia). apply cost_bind0; [|intros; apply cost_ret].
        destruct (argcount - d) as [|k] eqn:Ek; [apply cost_ret|].
        unfold convert_args. cbn [seq mapM]. apply cost_bind0.
        * unfold convert_arg. destruct (args !! d); [|apply cost_fail]. rewrite Hat.
          match goal with |- cost (if ?b then _ else _) _ _ _ => destruct b end;
            [apply cost_ret|]. apply cost_bind0; [|intros; apply cost_ret].
          replace (i, 0) with (d, 0) by congruence. by apply cost_plain.
        * intros b. apply cost_bind0; [|intros; apply cost_ret].
          apply cost_mapM, Forall_forall. intros j Hj. apply elem_of_list_In, in_seq in Hj.
          eapply cost_weaken; [apply cost_arg; intros t; by apply Hsingle|].
          destruct (j =? i) eqn:E2; [apply Nat.eqb_eq in E2; lia|done].
      + eapply cost_weaken; [apply (cost_finish o argcount d values); intros t; by apply Hsingle|].
        destruct (d <=? i) eqn:E1, (d <? i) eqn:E2; try lia.
        rewrite ?Nat.leb_le, ?Nat.ltb_ge in *. lia.
    - destruct set as [|o [|? ?]]; [cbn in Hmany; lia|cbn in Hmany; lia|apply cost_fail]. }
  clearbody by_string.
  assert (Hle : (if d <? i then 1 else 0) <= (if d <=? i then 1 else 0)).
  { destruct (d <? i) eqn:E1, (d <=? i) eqn:E2; try lia.
    rewrite ?Nat.ltb_lt, ?Nat.leb_gt in *. lia. }
  assert (Hasked : forall s', asked (d, 0) (i, 0) s s' + (if d <? i then 1 else 0)
                     <= (if d <=? i then 1 else 0)).
  { intros s'. destruct (decide (d = i)) as [->|Hne].
    - rewrite Nat.ltb_irrefl, Nat.leb_refl. pose proof (asked_le (i, 0) (i, 0) s s'). lia.
    - rewrite asked_ne by congruence. lia. }
  destruct (as_object v) as [obj|]; [|eapply cost_weaken; [exact Hs|done]].
  assert (Helem : forall n elem x, cost (convert n rt (d, 1) elem x None None) (d, 0) s 0).
  { intros. apply cost_away. right. cbn. lia. }
  assert (Hany : forall f, any f = true -> exists o, o ∈ set /\ f (type_at d o) = true).
  { intros f H. apply existsb_exists in H as (o & H1 & H2). exists o.
    split; [by apply elem_of_list_In|done]. }
  assert (Hkind : forall o, o ∈ set -> direct (type_at d o) = true).
  { intros o Ho. destruct (type_at_in o Ho). by eapply Hdirect. }
  destruct (any contains_async) eqn:Easync.
  - (* no sequence types beside asynchronous ones *)
    assert (Hnone : any contains_seq || any contains_frozen = false).
    { destruct (Hany _ Easync) as (o1 & Ho1 & E1).
      apply (direct_kind _ (Hkind _ Ho1)) in E1.
      apply orb_false_iff. split.
      - destruct (any contains_seq) eqn:E; [|done]. destruct (Hany _ E) as (o2 & Ho2 & E2).
        apply (direct_kind _ (Hkind _ Ho2)) in E2.
        pose proof (Hmixed o1 o2 d _ _ Ho1 Ho2 (proj1 (type_at_in _ Ho1))
                      (proj1 (type_at_in _ Ho2)) E1) as Hm. by rewrite E2 in Hm.
      - destruct (any contains_frozen) eqn:E; [|done]. destruct (Hany _ E) as (o2 & Ho2 & E2).
        apply (direct_kind _ (Hkind _ Ho2)) in E2.
        pose proof (Hmixed o1 o2 d _ _ Ho1 Ho2 (proj1 (type_at_in _ Ho1))
                      (proj1 (type_at_in _ Ho2)) E1) as Hm. by rewrite E2, orb_true_r in Hm. }
    unfold any in Hnone, Easync. cbv beta in Hnone, Easync. rewrite Hnone, Easync.
    assert (Hsel : forall m values', cost (select_with rt set contains_async args argcount d v None
               (Some m) values') (i, 0) s (if d <? i then 1 else 0)).
    { intros m values'. apply cost_select. intros o Ho Hc.
      apply (direct_kind _ (Hkind _ Ho)) in Hc. by apply cost_hinted_async. }
    match goal with |- cost (if ?b then _ else _) _ _ _ => destruct b end;
      [|eapply cost_weaken; [exact Hs|done]].
    eapply cost_weaken.
    + apply cost_attempt; [apply cost_get| |].
      * intros m. eapply cost_weaken; [apply Hsel|]. apply Nat.le_add_l.
      * apply cost_attempt; [apply cost_get|intros m; apply Hsel|exact Hs].
    + destruct (decide (d = i)) as [->|Hne].
      * pose proof (asked_same (i, 0) s). rewrite Nat.ltb_irrefl, Nat.leb_refl. lia.
      * rewrite !asked_ne by congruence. lia.
  - unfold any in Easync. cbv beta in Easync. rewrite Easync. cbn [andb].
    match goal with |- cost (if ?b then _ else _) _ _ _ => destruct b eqn:Eb end;
      [|eapply cost_weaken; [exact Hs|done]].
    eapply cost_weaken; [apply cost_attempt; [apply cost_get| |exact Hs]|apply Hasked].
    intros m. apply cost_select. intros o Ho Hc.
    apply cost_hinted_seq; [exact Helem|].
    destruct (direct_kind _ (Hkind _ Ho)) as (_ & K2 & K3 & _).
    destruct (existsb (fun o => contains_seq (type_at d o)) set).
    + by rewrite K2.
    + by rewrite K3, orb_true_r.
Qed.
End set.

Lemma cost_resolve os :
  fetch_safe os -> cost (resolve_overload rt os args) (i, 0) s 1.
Proof.
  intros [Hsingle Hset]. unfold resolve_overload. fold (maxarg os).
  set (argcount := Nat.min _ _). cbv zeta.
  specialize (Hset argcount). cbv zeta in Hset.
  set (set := List.filter _ os) in *.
  assert (Hin : forall o, o ∈ set -> o ∈ os /\ length (o_types o) = argcount).
  { intros o Ho. apply elem_of_list_In, filter_In in Ho as [Ho1 Ho2].
    split; [by apply elem_of_list_In|by apply Nat.eqb_eq]. }
  destruct set as [|o [|o2 s2]] eqn:Es; [apply cost_fail| |].
  - eapply cost_weaken; [apply cost_finish; intros t; apply Hsingle, Hin; set_solver|]. done.
  - rewrite <- Es in *. destruct Hset as [Hdirect Hmixed]; [rewrite Es; cbn; lia|].
    destruct (distinguishing_index set) as [d|] eqn:Ed; [|apply cost_fail].
    destruct (pairwise_before _ _ 0 Ed) as [Hd _]. rewrite Es in Hd. cbn [hd] in Hd.
    assert (Ho : o ∈ set) by (rewrite Es; set_solver).
    assert (Hsingle' : forall o t, o ∈ set -> t ∈ o_types o -> single t = true).
    { intros o' t Ho'. apply Hsingle. by apply Hin. }
    eapply cost_weaken.
    + apply cost_bind; [apply cost_args; intros t; by apply Hsingle'|]. intros values.
      apply cost_distinguish; [done|done|done| |rewrite Es; cbn; lia].
      intros o' Ho'. destruct (Hin o' Ho') as [_ ->]. destruct (Hin o Ho) as [_ <-]. done.
    + cbn [Nat.add]. destruct (0 <=? i), (i <? d) eqn:E1, (d <=? i) eqn:E2; cbn [andb]; try lia.
      rewrite ?Nat.ltb_lt, ?Nat.leb_le in *. lia.
Qed.
End resolve.

Lemma resolve_fetches rt os args i s r l :
  fetch_safe os -> resolve_overload rt os args [] = (r, l) -> fetches i s l <= 1.
Proof.
  intros H E. rewrite fetches_cnt. pose proof (cost_resolve rt args i s os H []) as Hc.
  rewrite E in Hc. exact Hc.
Qed.

Lemma convert_fetches rt i t v s r l :
  single t = true -> convert_js_to_idl rt (i, 0) t v [] = (r, l) -> fetches i s l <= 1.
Proof.
  intros H E. rewrite fetches_cnt. pose proof (cost_once (height t) rt (i, 0) s t v H []) as Hc.
  unfold convert_js_to_idl in E. rewrite E in Hc. exact Hc.
Qed.
