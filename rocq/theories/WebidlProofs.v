(** Results of conversions and overload resolution. *)
From stdpp Require Import base decidable numbers sets list.
From Verif Require Import WebidlModel WebidlSpec.

(** *** Results *)

Definition real (e : err) : Prop := e <> Fuel /\ e <> Panic.

Definition tri {A} (m : M A) (Q : A -> Prop) : Prop :=
  forall l, match fst (m l) with Ok a => Q a | Err e => real e end.

Lemma tri_ret {A} (a : A) (Q : A -> Prop) : Q a -> tri (ret a) Q.
Proof. intros H l. exact H. Qed.
Lemma tri_fail {A} e (Q : A -> Prop) : real e -> tri (fail e) Q.
Proof. intros H l. exact H. Qed.
Lemma tri_bind {A B} (m : M A) (k : A -> M B) (P : A -> Prop) (Q : B -> Prop) :
  tri m P -> (forall a, P a -> tri (k a) Q) -> tri (bind m k) Q.
Proof.
  intros Hm Hk l. specialize (Hm l). unfold bind.
  destruct (m l) as [[a|e] l']; cbn in *; [by apply Hk|done].
Qed.
Lemma tri_ask {A} at_ e (f : log -> A + N) (Q : A -> Prop) : (forall a, Q a) -> tri (ask at_ e f) Q.
Proof. intros H l. unfold ask. destruct (f _); cbn; [apply H|split; discriminate]. Qed.
Lemma tri_weaken {A} (m : M A) (P Q : A -> Prop) :
  tri m P -> (forall a, P a -> Q a) -> tri m Q.
Proof. intros Hm H l. specialize (Hm l). destruct (fst (m l)); [by apply H|done]. Qed.
Lemma tri_ok {A} (m : M A) Q l a l' : tri m Q -> m l = (Ok a, l') -> Q a.
Proof. intros H E. specialize (H l). by rewrite E in H. Qed.

Ltac real := solve [split; discriminate].

Lemma tri_mapM {A B} (f : A -> M B) (Q : B -> Prop) l :
  Forall (fun a => tri (f a) Q) l ->
  tri (mapM f l) (fun bs => Forall Q bs /\ length bs = length l).
Proof.
  induction 1 as [|a l Ha _ IH]; cbn [mapM]; [by apply tri_ret|].
  eapply tri_bind; [exact Ha|]. intros b Hb. eapply tri_bind; [exact IH|].
  intros bs [H1 H2]. apply tri_ret. cbn. by rewrite H2, Forall_cons.
Qed.

Lemma tri_fill rt at_ obj i vs : tri (fill_array rt at_ obj i vs) (fun _ => True).
Proof.
  revert i. induction vs as [|v vs IH]; intros i; cbn [fill_array]; [by apply tri_ret|].
  eapply tri_bind; [by apply tri_ask with (Q := fun _ => True)|]. intros _ _.
  eapply tri_bind; [by apply tri_ask with (Q := fun _ => True)|]. intros _ _. apply IH.
Qed.

Lemma tri_to_js rt at_ v : forall t, tri (to_js rt at_ v t) (fun _ => True).
Proof.
  induction v as [v IH] using (induction_ltof1 _ (fix size (v : ival) : nat :=
    match v with
    | VSeq vs => S (foldr Nat.add 0 (map size vs))
    | VUnion _ v => S (size v)
    | _ => 1
    end)). unfold ltof in IH.
  intros t. destruct t, v; cbn [to_js]; try (by apply tri_fail; real); try by apply tri_ret.
  - eapply tri_bind.
    { apply tri_mapM with (Q := fun _ => True). apply Forall_forall. intros v Hv. apply IH.
      cbn. clear -Hv. induction Hv; cbn; lia. }
    intros js _. eapply tri_bind; [by apply tri_ask with (Q := fun _ => True)|].
    intros obj _. eapply tri_bind; [apply tri_fill|]. intros _ _. by apply tri_ret.
  - apply IH. cbn. lia.
Qed.

Lemma tri_create_frozen rt at_ t vs :
  tri (create_frozen rt at_ t vs) (fun o => exists n, o = JObj n).
Proof.
  unfold create_frozen. eapply tri_bind.
  { apply tri_mapM with (Q := fun _ => True). apply Forall_forall. intros v _. apply tri_to_js. }
  intros js _. destruct (_ <? _); [by apply tri_fail; real|].
  eapply tri_bind; [by apply tri_ask with (Q := fun _ => True)|]. intros obj _.
  eapply tri_bind; [apply tri_fill|]. intros _ _.
  eapply tri_bind; [by apply tri_ask with (Q := fun _ => True)|]. intros _ _.
  apply tri_ret. by exists obj.
Qed.

Lemma tri_collect rt at_ f it room Q :
  (forall x, tri (f x) Q) ->
  tri (collect rt at_ f it room) (fun vs => length vs <= room /\ Forall Q vs).
Proof.
  intros Hf. induction room as [|room IH]; cbn [collect].
  - eapply tri_bind; [by apply tri_ask with (Q := fun _ => True)|].
    intros [v|] _; [by apply tri_fail; real|by apply tri_ret].
  - eapply tri_bind; [by apply tri_ask with (Q := fun _ => True)|].
    intros [v|] _; [|apply tri_ret; cbn; split; [lia|done]].
    eapply tri_bind; [apply Hf|]. intros x Hx. eapply tri_bind; [exact IH|].
    intros xs [H1 H2]. apply tri_ret. cbn. split; [lia|by constructor].
Qed.

Lemma tri_create_sequence rt at_ v m f Q :
  (forall x, tri (f x) Q) ->
  tri (create_sequence rt at_ v m f)
    (fun vs => is_object v = true /\ length vs <= rt_limit rt /\ Forall Q vs).
Proof.
  intros Hf. unfold create_sequence.
  destruct v; cbn [as_object]; try (by apply tri_fail; real).
  eapply tri_bind; [by apply tri_ask with (Q := fun _ => True)|]. intros it _.
  eapply tri_weaken; [by apply tri_collect|]. intros vs [H1 H2]. done.
Qed.

Lemma tri_method rt at_ v hint : tri (iterator_method rt at_ v hint) (fun _ => True).
Proof.
  unfold iterator_method. destruct hint; [by apply tri_ret|].
  destruct (as_object v); [|by apply tri_fail; real].
  eapply tri_bind; [by apply tri_ask with (Q := fun _ => True)|].
  intros [m|] _; [by apply tri_ret|by apply tri_fail; real].
Qed.

Lemma tri_async rt at_ v hint :
  tri (async_method rt at_ v hint) (fun _ => exists n, v = JObj n).
Proof.
  unfold async_method. destruct v; cbn [as_object]; try (by apply tri_fail; real).
  destruct hint; [apply tri_ret; by eexists|].
  eapply tri_bind; [by apply tri_ask with (Q := fun _ => True)|].
  intros [m|] _; [apply tri_ret; by eexists|].
  eapply tri_bind; [by apply tri_ask with (Q := fun _ => True)|].
  intros [m|] _; [apply tri_ret; by eexists|by apply tri_fail; real].
Qed.

Lemma tri_attempt {A B} (m : M (option A)) (f : A -> M B) g Q :
  tri m (fun _ => True) -> (forall a, tri (f a) Q) -> tri g Q -> tri (attempt m f g) Q.
Proof. intros H1 H2 H3. eapply tri_bind; [exact H1|]. intros [a|] _; [apply H2|apply H3]. Qed.

Lemma tri_union t m Q : tri m (fun v => Q (VUnion t v)) -> tri (union_of t m) Q.
Proof. intros H. eapply tri_bind; [exact H|]. intros v Hv. by apply tri_ret. Qed.

(** *** Types *)

Lemma in_height t ts : In t ts -> height t < height (TUnion ts).
Proof.
  cbn [height]. induction ts as [|u ts IH]; [done|]. cbn. intros [->|H]; [lia|].
  specialize (IH H). lia.
Qed.

Lemma idl_height_ind (P : idl -> Prop) :
  (forall t, (forall u, height u < height t -> P u) -> P t) -> forall t, P t.
Proof.
  intros H t. remember (height t) as n eqn:E. revert t E.
  induction n as [n IH] using lt_wf_ind. intros t ->. apply H. intros u Hu. by eapply IH.
Qed.

Lemma flattened_member t : forall m, m ∈ flattened t -> member m t.
Proof.
  induction t as [t IH] using idl_height_ind.
  destruct t as [| | | | | | | |ts|]; cbn [flattened]; intros m Hm;
    try (apply elem_of_list_singleton in Hm as ->; by constructor).
  apply elem_of_list_In, in_flat_map in Hm as (t & Ht & Hm).
  apply (member_union _ t); [by apply elem_of_list_In|].
  apply IH; [by apply in_height|by apply elem_of_list_In].
Qed.

Lemma flattened_height t : forall m, m ∈ flattened t -> height m <= height t.
Proof.
  induction t as [t IH] using idl_height_ind.
  destruct t as [| | | | | | | |ts|]; cbn [flattened]; intros m Hm;
    try (apply elem_of_list_singleton in Hm as ->; done).
  apply elem_of_list_In, in_flat_map in Hm as (t & Ht & Hm).
  pose proof (in_height _ _ Ht) as H.
  pose proof (IH t H m ltac:(by apply elem_of_list_In)). lia.
Qed.

Lemma union_height ts m : m ∈ flattened (TUnion ts) -> height m < height (TUnion ts).
Proof.
  cbn [flattened]. intros Hm. apply elem_of_list_In, in_flat_map in Hm as (t & Ht & Hm).
  apply elem_of_list_In in Hm. pose proof (flattened_height _ _ Hm) as H.
  pose proof (in_height _ _ Ht). lia.
Qed.

Lemma undefined_member t : includes_undefined t = true -> member TUndef t.
Proof.
  induction t as [t IH] using idl_height_ind.
  destruct t as [| | | | | | | |ts|]; cbn [includes_undefined]; intros H; try done.
  - by constructor.
  - apply existsb_exists in H as (t & Ht & H).
    apply (member_union _ t); [by apply elem_of_list_In|].
    apply IH; [by apply in_height|done].
Qed.

Lemma find_member f t m : List.find f (flattened t) = Some m ->
  m ∈ flattened t /\ f m = true.
Proof. intros H. apply find_some in H as [H1 H2]. split; [by apply elem_of_list_In|done]. Qed.

(** *** Conversions give values of the type asked for *)

Lemma convert_typed n rt : forall at_ t v hint ahint,
  height t <= n -> tri (convert n rt at_ t v hint ahint) (has_type (rt_limit rt) t).
Proof.
  induction n as [|n IH]; intros at_ t v hint ahint Hn.
  { exfalso. destruct t; cbn in Hn; lia. }
  destruct t as [| | | | |elem|elem|elem|ts|inner].
  - cbn [convert]. destruct (is_undefined v); [apply tri_ret; constructor|by apply tri_fail; real].
  - cbn [convert]. eapply tri_bind; [by apply tri_ask with (Q := fun _ => True)|].
    intros b _. apply tri_ret. constructor.
  - cbn [convert]. eapply tri_bind; [by apply tri_ask with (Q := fun _ => True)|].
    intros b _. apply tri_ret. constructor.
  - cbn [convert]. eapply tri_bind; [by apply tri_ask with (Q := fun _ => True)|].
    intros b _. apply tri_ret. constructor.
  - cbn [convert]. destruct v; cbn [is_object]; try (by apply tri_fail; real).
    apply tri_ret. constructor.
  - cbn [convert]. cbn [height] in Hn. eapply tri_bind; [apply tri_method|]. intros m _.
    eapply tri_bind.
    { apply tri_create_sequence with (Q := has_type (rt_limit rt) elem).
      intros x. apply IH. lia. }
    intros vs (_ & H1 & H2). apply tri_ret. by constructor.
  - cbn [convert]. eapply tri_bind; [apply tri_async|]. intros [m k] [o ->].
    apply tri_ret. constructor.
  - cbn [convert]. cbn [height] in Hn. eapply tri_bind; [apply tri_method|]. intros m _.
    eapply tri_bind.
    { apply tri_create_sequence with (Q := has_type (rt_limit rt) elem).
      intros x. apply IH. lia. }
    intros vs (_ & H1 & H2). eapply tri_bind; [apply tri_create_frozen|].
    intros o [k ->]. apply tri_ret. constructor.
  - assert (Hm : forall m hint ahint, m ∈ flattened (TUnion ts) ->
      tri (union_of m (convert n rt at_ m v hint ahint)) (has_type (rt_limit rt) (TUnion ts))).
    { intros m h1 h2 Hm. apply tri_union. eapply tri_weaken.
      - apply IH. pose proof (union_height _ _ Hm). lia.
      - intros x Hx. constructor; [by apply flattened_member|done]. }
    cbn [convert].
    destruct (includes_undefined (TUnion ts) && is_undefined v) eqn:Eu.
    { apply andb_true_iff in Eu as [Eu _]. apply tri_ret.
      constructor; [by apply undefined_member|constructor]. }
    clear Eu.
    destruct (if is_null v || is_undefined v then List.find is_nullable _ else None)
      as [nt|] eqn:En.
    { destruct (is_null v || is_undefined v); [|done].
      apply find_member in En as [H1 H2]. apply tri_ret.
      destruct nt; try done. constructor; [by apply flattened_member|constructor]. }
    clear En.
    set (types := flattened (TUnion ts)) in *.
    assert (Hs : tri match List.find is_string_type types with
                     | Some s => union_of s (convert n rt at_ s v None None)
                     | None => fail TypeErr
                     end (has_type (rt_limit rt) (TUnion ts))).
    { destruct (List.find is_string_type types) as [s|] eqn:E; [|by apply tri_fail; real].
      apply find_member in E as [E _]. by apply Hm. }
    destruct (as_object v) as [obj|]; [|exact Hs].
    assert (Hget : forall s, tri (get_method rt at_ obj s) (fun _ => True)).
    { intros s. by apply tri_ask. }
    assert (Hf : tri match List.find is_frozen types with
                     | Some ft => attempt (get_method rt at_ obj SIterator)
                         (fun m => union_of ft (convert n rt at_ ft v (Some m) None))
                         (match List.find is_string_type types with
                          | Some s => union_of s (convert n rt at_ s v None None)
                          | None => fail TypeErr
                          end)
                     | None => match List.find is_string_type types with
                          | Some s => union_of s (convert n rt at_ s v None None)
                          | None => fail TypeErr
                          end
                     end (has_type (rt_limit rt) (TUnion ts))).
    { destruct (List.find is_frozen types) as [s|] eqn:E; [|exact Hs].
      apply find_member in E as [E _]. apply tri_attempt; [done| |exact Hs].
      intros m. by apply Hm. }
    assert (Hq : forall g, tri g (has_type (rt_limit rt) (TUnion ts)) ->
      tri match List.find is_seq types with
          | Some st => attempt (get_method rt at_ obj SIterator)
              (fun m => union_of st (convert n rt at_ st v (Some m) None)) g
          | None => g
          end (has_type (rt_limit rt) (TUnion ts))).
    { intros g Hg. destruct (List.find is_seq types) as [s|] eqn:E; [|exact Hg].
      apply find_member in E as [E _]. apply tri_attempt; [done| |exact Hg].
      intros m. by apply Hm. }
    specialize (Hq _ Hf).
    destruct (List.find is_async types) as [s|] eqn:E; [|exact Hq].
    apply find_member in E as [E _].
    destruct (negb _ || negb _); [|exact Hq].
    apply tri_attempt; [done|intros m; by apply Hm|].
    apply tri_attempt; [done|intros m; by apply Hm|exact Hq].
  - cbn [convert]. cbn [height] in Hn. destruct (is_null v || is_undefined v).
    + apply tri_ret. constructor.
    + eapply tri_weaken; [apply IH; lia|]. intros x Hx. by constructor.
Qed.

Lemma convert_js_to_idl_typed rt at_ t v :
  tri (convert_js_to_idl rt at_ t v) (has_type (rt_limit rt) t).
Proof. by apply convert_typed. Qed.

(** *** Overloads *)

Section resolve.
Context (rt : runtime) (args : list jsval).

Definition goods (o : overload) (vs : list arg) : Prop :=
  forall i x, vs !! i = Some x -> good_value (rt_limit rt) o args i x.

Lemma convert_arg_good o i :
  i < length args -> i < length (o_types o) ->
  tri (convert_arg rt o args i) (good_value (rt_limit rt) o args i).
Proof.
  intros H1 H2. unfold convert_arg.
  apply lookup_lt_is_Some in H1 as [v Hv]. apply lookup_lt_is_Some in H2 as [t Ht].
  rewrite Hv, Ht. destruct (_ && _) eqn:E.
  - apply andb_true_iff in E as [E1 E2]. apply tri_ret. cbn.
    destruct (o_optional o !! i) as [[]|]; try done. split; [done|]. by destruct v.
  - eapply tri_bind; [apply convert_js_to_idl_typed|]. intros x Hx. apply tri_ret.
    exists t. done.
Qed.

Lemma convert_args_good o n from :
  from + n <= length args -> from + n <= length (o_types o) ->
  tri (convert_args rt o args (seq from n))
    (fun xs => length xs = n /\
       forall k x, xs !! k = Some x -> good_value (rt_limit rt) o args (from + k) x).
Proof.
  unfold convert_args. revert from. induction n as [|n IH]; intros from H1 H2; cbn [seq mapM].
  - apply tri_ret. split; [done|]. intros k x Hk. by rewrite lookup_nil in Hk.
  - eapply tri_bind; [apply convert_arg_good; lia|]. intros b Hb.
    eapply tri_bind; [apply IH; lia|]. intros bs [H3 H4]. apply tri_ret. split; [cbn; lia|].
    intros [|k] x Hk; cbn in Hk.
    + injection Hk as <-. by rewrite Nat.add_0_r.
    + specialize (H4 _ _ Hk). by rewrite Nat.add_succ_r.
Qed.

Lemma finish_good o argcount from values (P : Prop) :
  argcount <= length args -> length (o_types o) = argcount -> from <= argcount ->
  length values = from -> (P -> goods o values) ->
  tri (finish rt o args argcount from values)
    (fun '(id, vs) => id = o_id o /\ length vs = argcount /\ (P -> goods o vs)).
Proof.
  intros H1 H2 H3 H4 H5. unfold finish.
  eapply tri_bind; [apply convert_args_good; lia|]. intros more [H6 H7]. apply tri_ret.
  split; [done|]. split; [rewrite app_length; lia|]. intros HP i x Hx.
  apply lookup_app_Some in Hx as [Hx|[Hi Hx]]; [by apply H5|].
  specialize (H7 _ _ Hx). by replace i with (from + (i - length values)) by lia.
Qed.

Definition selected (s : list overload) (argcount : nat) (P : Prop) (r : N * list arg) : Prop :=
  exists o, o ∈ s /\ r.1 = o_id o /\ length r.2 = argcount /\ (P -> goods o r.2).

Section set.
Context (s : list overload) (argcount d : nat) (P : Prop) (values : list arg).
Context (Hargs : argcount <= length args).
Context (Hlen : forall o, o ∈ s -> length (o_types o) = argcount).
Context (Hd : d < argcount) (Hv : length values = d).
Context (Hgood : P -> forall o, o ∈ s -> goods o values).

Lemma finish_selected o :
  o ∈ s -> tri (finish rt o args argcount d values) (selected s argcount P).
Proof.
  intros Ho. eapply tri_weaken.
  - apply finish_good with (P := P); [done|by apply Hlen|lia|done|]. intros HP. by apply Hgood.
  - intros [id vs] (-> & H1 & H2). by exists o.
Qed.

Lemma select_selected keep v hint ahint :
  args !! d = Some v ->
  tri (select_with rt s keep args argcount d v hint ahint values) (selected s argcount P).
Proof.
  intros Hav. unfold select_with.
  destruct (List.filter _ s) as [|o [|? ?]] eqn:E; try (by apply tri_fail; real).
  assert (Ho : o ∈ s).
  { apply elem_of_list_In. eapply (proj1 (filter_In _ _ _)). rewrite E. by left. }
  pose proof (Hlen o Ho) as Hl.
  destruct (lookup_lt_is_Some_2 (o_types o) d) as [t Ht]; [lia|].
  assert (Et : type_at d o = t) by (unfold type_at; by rewrite Ht).
  eapply tri_bind; [apply convert_typed; reflexivity|]. intros x Hx. rewrite Et in Hx.
  eapply tri_weaken.
  - apply finish_good with (P := P); [done|done|lia|rewrite app_length; cbn; lia|].
    intros HP i y Hy. apply lookup_app_Some in Hy as [Hy|[Hi Hy]].
    + by apply (Hgood HP o Ho).
    + apply list_lookup_singleton_Some in Hy as [Hi' <-].
      replace i with d by lia. exists t. done.
  - intros [id vs] (-> & H1 & H2). by exists o.
Qed.

Lemma distinguish_selected : tri (distinguish rt s args argcount d values) (selected s argcount P).
Proof.
  unfold distinguish. destruct (lookup_lt_is_Some_2 args d) as [v Hav]; [lia|]. rewrite Hav.
  set (any := fun p : idl -> bool => existsb (fun o => p (type_at d o)) s). cbv zeta.
  assert (Hs : tri match (if (1 <? length s) && any contains_string
                          then List.filter (fun o => contains_string (type_at d o)) s else s) with
                   | [o] => finish rt o args argcount d values
                   | _ => fail TypeErr
                   end (selected s argcount P)).
  { destruct (if _ && _ then _ else _) as [|o [|? ?]] eqn:E; try (by apply tri_fail; real).
    apply finish_selected. destruct (_ && _).
    - apply elem_of_list_In. eapply (proj1 (filter_In _ _ _)). rewrite E. by left.
    - rewrite E. by apply elem_of_list_singleton. }
  destruct (as_object v) as [obj|]; [|exact Hs].
  assert (Hget : forall s, tri (get_method rt (d, 0) obj s) (fun _ => True)).
  { intros sy. by apply tri_ask. }
  assert (Hi : tri (if any contains_seq || any contains_frozen then
              attempt (get_method rt (d, 0) obj SIterator)
                (fun m => select_with rt s
                     (if any contains_seq then contains_seq else contains_frozen)
                     args argcount d v (Some m) None values)
                match (if (1 <? length s) && any contains_string
                          then List.filter (fun o => contains_string (type_at d o)) s else s) with
                   | [o] => finish rt o args argcount d values
                   | _ => fail TypeErr
                   end
            else match (if (1 <? length s) && any contains_string
                          then List.filter (fun o => contains_string (type_at d o)) s else s) with
                   | [o] => finish rt o args argcount d values
                   | _ => fail TypeErr
                   end) (selected s argcount P)).
  { destruct (_ || _); [|exact Hs]. apply tri_attempt; [done| |exact Hs].
    intros m. by apply select_selected. }
  match goal with |- tri (if ?b then _ else _) _ => destruct b end; [|exact Hi].
  apply tri_attempt; [done|intros m; by apply select_selected|].
  apply tri_attempt; [done|intros m; by apply select_selected|exact Hi].
Qed.
End set.

Definition maxarg (os : list overload) : nat :=
  foldr Nat.max 0 (map (fun o => length (o_types o)) os).

Lemma pairwise_before s d i :
  distinguishing_index s = Some d ->
  d < length (o_types (hd (Overload 0 [] []) s)) /\
  (i < d -> pairwise distinguishable (map (type_at i) s) = false).
Proof.
  unfold distinguishing_index. destruct s as [|o s]; [done|]. cbn [hd].
  intros H. split.
  - apply find_some in H as [H _]. apply in_seq in H. lia.
  - revert H. generalize (o :: s) as s'. intros s' H Hi.
    assert (Hg : forall n from, List.find (fun i => pairwise distinguishable (map (type_at i) s'))
              (seq from n) = Some d -> from <= i ->
              pairwise distinguishable (map (type_at i) s') = false).
    { induction n as [|n IH]; intros from Hf Hle; cbn in Hf; [done|].
      destruct (pairwise _ (map (type_at from) s')) eqn:E.
      { assert (from = d) by congruence. lia. }
      destruct (decide (from = i)) as [->|Hne]; [done|]. apply (IH (S from)); [done|lia]. }
    eapply Hg; [exact H|lia].
Qed.

Lemma resolve_selected os :
  tri (resolve_overload rt os args)
    (fun r => selected (List.filter (fun o => length (o_types o) =? Nat.min (maxarg os) (length args)) os)
                (Nat.min (maxarg os) (length args)) (agree_before os) r).
Proof.
  unfold resolve_overload. fold (maxarg os). set (argcount := Nat.min _ _). cbv zeta.
  set (s := List.filter _ os).
  assert (Hlen : forall o, o ∈ s -> length (o_types o) = argcount).
  { intros o Ho. apply elem_of_list_In, filter_In in Ho as [_ Ho]. by apply Nat.eqb_eq. }
  assert (Hargs : argcount <= length args) by lia.
  destruct s as [|o [|o2 s2]] eqn:Es; [by apply tri_fail; real| |].
  - eapply tri_weaken.
    + apply finish_good with (P := agree_before os); [done|apply Hlen; set_solver|lia|done|].
      intros _ i x Hx. by rewrite lookup_nil in Hx.
    + intros [id vs] (-> & H1 & H2). exists o. split; [set_solver|done].
  - rewrite <- Es in *. clearbody argcount.
    destruct (distinguishing_index s) as [d|] eqn:Ed; [|by apply tri_fail; real].
    pose proof (fun i => pairwise_before _ _ i Ed) as Hp.
    destruct (Hp 0) as [Hd _]. rewrite Es in Hd. cbn [hd] in Hd.
    assert (Ho : o ∈ s) by (rewrite Es; set_solver).
    rewrite (Hlen o) in Hd by done.
    eapply tri_bind; [apply convert_args_good; [lia|rewrite (Hlen o) by done; lia]|].
    intros values [Hv Hg]. apply distinguish_selected; try done.
    intros HP o' Ho' i x Hx.
    assert (Hi : i < d). { apply lookup_lt_Some in Hx. lia. }
    specialize (Hg _ _ Hx). cbn in Hg.
    destruct (HP argcount i) with (o1 := o) (o2 := o') as [E1 E2].
    { apply Hp. done. }
    { done. }
    { done. }
    destruct x as [|y]; cbn in Hg |- *; [by rewrite <- E2|by rewrite <- E1].
Qed.
End resolve.

Lemma maxarg_bound os o : o ∈ os -> length (o_types o) <= maxarg os.
Proof.
  unfold maxarg. induction os as [|o' os IH]; [by intros ?%elem_of_nil|].
  intros [->|H]%elem_of_cons; cbn; [lia|]. specialize (IH H). lia.
Qed.

Lemma maxarg_reached os : maxarg os = 0 \/ exists o, o ∈ os /\ length (o_types o) = maxarg os.
Proof.
  unfold maxarg. induction os as [|o os IH]; [by left|]. cbn.
  set (m := foldr _ _ _) in *.
  destruct (decide (m <= length (o_types o))) as [H|H].
  - right. exists o. split; [set_solver|lia].
  - destruct IH as [IH|(o' & H1 & H2)]; [lia|]. right. exists o'. split; [set_solver|lia].
Qed.

Lemma effective_min os args : effective_count os args (Nat.min (maxarg os) (length args)).
Proof.
  split; [lia|]. split.
  - intros o Ho. apply maxarg_bound in Ho. lia.
  - destruct (maxarg_reached os) as [H|(o & H1 & H2)]; [left; lia|].
    right. exists o. split; [done|lia].
Qed.

Lemma resolve_result rt os args l id vs l' :
  resolve_overload rt os args l = (Ok (id, vs), l') ->
  exists o n, o ∈ os /\ id = o_id o /\ effective_count os args n /\
  length (o_types o) = n /\ length vs = n /\
  (agree_before os -> forall i x, vs !! i = Some x -> good_value (rt_limit rt) o args i x).
Proof.
  intros H. apply (tri_ok _ _ _ _ _ (resolve_selected rt args os)) in H.
  destruct H as (o & Ho & H1 & H2 & H3). cbn [fst snd] in *.
  apply elem_of_list_In, filter_In in Ho as [Ho He]. apply Nat.eqb_eq in He.
  exists o, (Nat.min (maxarg os) (length args)).
  split; [by apply elem_of_list_In|]. split; [done|]. split; [apply effective_min|]. done.
Qed.

(** *** Back to JavaScript *)

Definition thrown_only {A} (m : M A) : Prop :=
  forall l e, fst (m l) = Err e -> exists n, e = Thrown n.

Lemma thrown_ret {A} (a : A) : thrown_only (ret a).
Proof. by intros l e. Qed.
Lemma thrown_ask {A} at_ e (f : log -> A + N) : thrown_only (ask at_ e f).
Proof.
  intros l e'. unfold ask. destruct (f _) as [a|n]; cbn; [done|]. intros [= <-]. by exists n.
Qed.
Lemma thrown_bind {A B} (m : M A) (k : A -> M B) :
  thrown_only m -> (forall a, thrown_only (k a)) -> thrown_only (bind m k).
Proof.
  intros Hm Hk l e. specialize (Hm l). unfold bind. destruct (m l) as [[a|e'] l']; cbn in *.
  - apply Hk.
  - intros [= <-]. by apply Hm.
Qed.
Lemma thrown_mapM {A B} (f : A -> M B) l :
  Forall (fun a => thrown_only (f a)) l -> thrown_only (mapM f l).
Proof.
  induction 1 as [|a l Ha _ IH]; cbn [mapM]; [apply thrown_ret|].
  apply thrown_bind; [done|]. intros b. apply thrown_bind; [done|]. intros. apply thrown_ret.
Qed.
Lemma thrown_fill rt at_ obj i vs : thrown_only (fill_array rt at_ obj i vs).
Proof.
  revert i. induction vs as [|v vs IH]; intros i; cbn [fill_array]; [apply thrown_ret|].
  apply thrown_bind; [apply thrown_ask|]. intros _.
  apply thrown_bind; [apply thrown_ask|]. intros _. apply IH.
Qed.

Lemma member_no_nullable m t : member m t -> no_nullable t = true -> no_nullable m = true.
Proof.
  induction 1 as [|t ts Ht _ IH]; [done|]. cbn. intros H. apply IH.
  rewrite forallb_forall in H. apply H. by apply elem_of_list_In.
Qed.

Lemma to_js_accepts k rt at_ x : forall t,
  has_type k t x -> no_nullable t = true -> thrown_only (to_js rt at_ x t).
Proof.
  induction x as [x IH] using (induction_ltof1 _ (fix size (v : ival) : nat :=
    match v with
    | VSeq vs => S (foldr Nat.add 0 (map size vs))
    | VUnion _ v => S (size v)
    | _ => 1
    end)). unfold ltof in IH.
  intros t Ht Hn. inversion Ht as [| | | | |t' vs Hl Hvs| | | |t' v Hv|ts m v Hm Hv]; subst;
    cbn [to_js]; try apply thrown_ret; try done.
  - apply thrown_bind.
    { apply thrown_mapM, Forall_forall. intros v Hv. apply IH.
      - cbn. clear -Hv. induction Hv; cbn; lia.
      - rewrite Forall_forall in Hvs. by apply Hvs.
      - done. }
    intros js. apply thrown_bind; [apply thrown_ask|]. intros obj.
    apply thrown_bind; [apply thrown_fill|]. intros _. apply thrown_ret.
  - apply IH; [cbn; lia|done|]. by eapply member_no_nullable.
Qed.

(** *** Iterators that do not end *)

Lemma collect_endless rt at_ f it room l xs l' :
  (forall l, exists v, rt_step rt l it = inl (Some v)) ->
  collect rt at_ f it room l <> (Ok xs, l').
Proof.
  intros He. revert l xs l'.
  induction room as [|room IH]; intros l xs l'; cbn [collect]; unfold bind, ask;
    destruct (He (l ++ [(at_, AskStep it)])) as [v ->]; [done|].
  destruct (f v _) as [[x|e] l1]; [|done].
  destruct (collect rt at_ f it room l1) as [[ys|e] l2] eqn:E; [|done].
  by apply IH in E.
Qed.

Lemma convert_endless rt at_ t elem v l x l' :
  (forall l it, exists v, rt_step rt l it = inl (Some v)) ->
  t = TSeq elem \/ t = TFrozen elem ->
  convert_js_to_idl rt at_ t v l <> (Ok x, l').
Proof.
  intros He Ht H.
  assert (Hc : forall f l vs l', create_sequence rt at_ v f
     (fun x => convert (height elem) rt (fst at_, S (snd at_)) elem x None None) l
       <> (Ok vs, l')).
  { intros m l1 vs l2. unfold create_sequence. destruct (as_object v); [|done].
    unfold bind at 1. destruct (ask _ _ _ l1) as [[it|e] l3]; [|done].
    by apply collect_endless. }
  destruct Ht as [->| ->]; unfold convert_js_to_idl in H; cbn [height convert] in H;
    unfold bind at 1 in H; destruct (iterator_method _ _ _ _ _) as [[m|e] l1]; try done;
    unfold bind at 1 in H; destruct (create_sequence _ _ _ _ _ l1) as [[vs|e] l2] eqn:E; try done;
    by apply Hc in E.
Qed.
