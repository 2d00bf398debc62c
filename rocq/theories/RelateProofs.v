(** Proofs about [RelateModel]: trees of questions, the engine. *)
From Coq Require Import ZArith Lia.
From stdpp Require Import base decidable numbers sets list.
From Verif Require Import RelateModel RelateSpec.

(** ** Trees *)
Fixpoint holds (G : key -> Prop) (t : tree) : Prop :=
  match t with
  | Ret b => b = true
  | Ask _ k f => (G k /\ holds G (f true)) \/ holds G (f false)
  end.

Fixpoint mono (t : tree) : Prop :=
  match t with
  | Ret _ => True
  | Ask _ _ f =>
      (forall G, holds G (f false) -> holds G (f true)) /\ mono (f true) /\ mono (f false)
  end.

Fixpoint sem (G : key -> Prop) (t : tree) (b : bool) : Prop :=
  match t with
  | Ret b' => b = b'
  | Ask _ k f => (G k /\ sem G (f true) b) \/ (~ G k /\ sem G (f false) b)
  end.

Fixpoint asks (P : nat -> key -> Prop) (t : tree) : Prop :=
  match t with
  | Ret _ => True
  | Ask e k f => P e k /\ asks P (f true) /\ asks P (f false)
  end.

Lemma sem_holds G t b : mono t -> sem G t b -> (b = true <-> holds G t).
Proof.
  induction t as [b'|e k f IH]; cbn [mono sem holds]; intros Hm Hs.
  - by subst b'.
  - destruct Hm as (Hft & Hmt & Hmf). destruct Hs as [[Hg Hs]|[Hg Hs]].
    + rewrite (IH true Hmt Hs). split; [auto|]. intros [[_ H]|H]; [done|by apply Hft].
    + rewrite (IH false Hmf Hs). split; [auto|]. intros [[H _]|H]; [by destruct (Hg H)|done].
Qed.

Lemma sem_bind G t f b : sem G (bind t f) b <-> exists b', sem G t b' /\ sem G (f b') b.
Proof.
  induction t as [b'|e k g IH]; cbn [bind sem].
  - split; [by exists b'|]. by intros (? & -> & ?).
  - rewrite (IH true), (IH false). split.
    + intros [[Hg (b' & Hs & Hf)]|[Hg (b' & Hs & Hf)]]; exists b'; split; auto.
    + intros (b' & [[Hg Hs]|[Hg Hs]] & Hf); [left|right]; split; eauto.
Qed.

Lemma asks_bind P t f : asks P t -> (forall b, asks P (f b)) -> asks P (bind t f).
Proof.
  induction t as [b|e k g IH]; cbn [bind asks]; intros Ht Hf; [by apply Hf|].
  destruct Ht as (? & ? & ?). split_and!; auto.
Qed.

Lemma asks_impl (P Q : nat -> key -> Prop) t :
  (forall e k, P e k -> Q e k) -> asks P t -> asks Q t.
Proof.
  intros Hpq. induction t as [b|e k g IH]; cbn [asks]; [done|].
  intros (? & ? & ?). split_and!; auto.
Qed.

Lemma holds_both G t u : holds G (both t u) <-> holds G t /\ holds G u.
Proof.
  induction t as [b|e k g IH]; unfold both in *; cbn [bind holds].
  - destruct b; cbn [holds]; naive_solver.
  - rewrite (IH true), (IH false). tauto.
Qed.

Lemma holds_either G t u : holds G (either t u) <-> holds G t \/ holds G u.
Proof.
  induction t as [b|e k g IH]; unfold either in *; cbn [bind holds].
  - destruct b; cbn [holds]; naive_solver.
  - rewrite (IH true), (IH false). tauto.
Qed.

Lemma holds_every {A} G (f : A -> tree) l :
  holds G (every f l) <-> forall x, x ∈ l -> holds G (f x).
Proof.
  induction l as [|x r IH]; cbn [every].
  - cbn [holds]. split; [intros _ x Hx; by apply elem_of_nil in Hx|done].
  - rewrite holds_both, IH. split.
    + intros [H1 H2] y [->|Hy]%elem_of_cons; auto.
    + intros H. split; [apply H; left|intros y Hy; apply H; by right].
Qed.

Lemma holds_some {A} G (f : A -> tree) l :
  holds G (some f l) <-> exists x, x ∈ l /\ holds G (f x).
Proof.
  induction l as [|x r IH]; cbn [some].
  - cbn [holds]. split; [done|]. intros (x & Hx & _). by apply elem_of_nil in Hx.
  - rewrite holds_either, IH. split.
    + intros [H|(y & Hy & H)]; [exists x|exists y]; (split; [|done]); [left|by right].
    + intros (y & [->|Hy]%elem_of_cons & H); eauto.
Qed.

Lemma holds_ask G e m s d : holds G (ask e m s d) <-> G (Key s d Assignable m).
Proof. unfold ask. cbn [holds]. naive_solver. Qed.

Lemma mono_both t u : mono t -> mono u -> mono (both t u).
Proof.
  induction t as [b|e k g IH]; unfold both in *; cbn [bind mono].
  - by destruct b.
  - intros (Hf & H1 & H2) Hu. split_and!; [|by apply (IH true)|by apply (IH false)].
    intros G. pose proof (holds_both G (g false) u) as E1.
    pose proof (holds_both G (g true) u) as E2. unfold both in E1, E2.
    rewrite E1, E2. intros [? ?]. split; auto.
Qed.

Lemma mono_either t u : mono t -> mono u -> mono (either t u).
Proof.
  induction t as [b|e k g IH]; unfold either in *; cbn [bind mono].
  - by destruct b.
  - intros (Hf & H1 & H2) Hu. split_and!; [|by apply (IH true)|by apply (IH false)].
    intros G. pose proof (holds_either G (g false) u) as E1.
    pose proof (holds_either G (g true) u) as E2. unfold either in E1, E2.
    rewrite E1, E2. intros [?|?]; auto.
Qed.

Lemma mono_every {A} (f : A -> tree) l : (forall x, mono (f x)) -> mono (every f l).
Proof. intros H. induction l as [|x r IH]; cbn [every]; [done|by apply mono_both]. Qed.
Lemma mono_some {A} (f : A -> tree) l : (forall x, mono (f x)) -> mono (some f l).
Proof. intros H. induction l as [|x r IH]; cbn [some]; [done|by apply mono_either]. Qed.
Lemma mono_ask e m s d : mono (ask e m s d).
Proof. unfold ask. cbn [mono holds]. naive_solver. Qed.
Lemma mono_ret b : mono (Ret b).
Proof. done. Qed.

Ltac mono_tac :=
  repeat match goal with
    | |- mono (ask _ _ _ _) => apply mono_ask
    | |- mono (Ret _) => apply mono_ret
    | |- mono (both _ _) => apply mono_both
    | |- mono (either _ _) => apply mono_either
    | |- mono (every _ _) => apply mono_every; intros ?
    | |- mono (some _ _) => apply mono_some; intros ?
    | |- mono (match ?x with _ => _ end) => destruct x
    | |- _ => progress cbv zeta
    end.

Section Mono.
  Context (E : env).
  Lemma mono_signature off m s d : mono (relate_signature E off m s d).
  Proof. unfold relate_signature. mono_tac. Qed.
  Lemma mono_callable off m ss ds : mono (relate_callable E off m ss ds).
  Proof. unfold relate_callable. mono_tac. apply mono_signature. Qed.
  Lemma mono_object off m s d : mono (relate_object E off m s d).
  Proof.
    unfold relate_object. repeat apply mono_both; try apply mono_callable.
    - apply mono_every. intros p. unfold relate_property. mono_tac.
    - apply mono_every. intros i. unfold relate_indexer. mono_tac.
  Qed.
  Lemma mono_tuple_from off m ss ds : mono (tuple_from E off m ss ds).
  Proof.
    revert ss. induction ds as [|d ds IH]; intros ss; cbn [tuple_from]; [done|].
    destruct ss as [|s ss]; mono_tac; apply IH.
  Qed.
  Lemma mono_structural off m sk dk : mono (structural E off m sk dk).
  Proof.
    destruct sk, dk; cbn [structural]; try apply mono_ret; try apply mono_callable;
      try apply mono_object.
    - unfold relate_array. mono_tac.
    - unfold relate_array_to_tuple. mono_tac.
    - unfold relate_array_to_object. mono_tac.
    - unfold relate_tuple_to_array. mono_tac.
    - unfold relate_tuple. mono_tac. apply mono_tuple_from.
    - unfold relate_object_to_callable. mono_tac. apply mono_callable.
    - unfold relate_callable_to_object. mono_tac. apply mono_callable.
  Qed.
  Lemma mono_compound off m s d : mono (compound E off m s d).
  Proof.
    unfold compound. destruct (st_kind E s), (st_kind E d); mono_tac;
      try apply mono_structural; try apply mono_object.
  Qed.
  Lemma mono_assignable off m s d : mono (assignable E off m s d).
  Proof. unfold assignable. mono_tac. apply mono_compound. Qed.
  Lemma mono_plan k : k_kind k <> StrictSubtype -> mono (plan E k).
  Proof.
    unfold plan. destruct (k_kind k); intros H; [| |done]; mono_tac;
      apply mono_assignable.
  Qed.
End Mono.

(** ** The engine *)
Section Engine.
  Context (E : env) (keep : list (key * bool) -> list (key * bool)).
  Context (Hkeep : forgetful keep).

  Lemma lookup_key_in k l b : lookup_key k l = Some b -> (k, b) ∈ l.
  Proof.
    unfold lookup_key. destruct (List.find _ l) as [[k' b']|] eqn:Hf; [|done].
    cbn [snd]. intros [= <-]. apply find_some in Hf as [Hin Hk].
    apply bool_decide_eq_true in Hk. cbn [fst] in Hk. subst k'.
    by apply elem_of_list_In.
  Qed.

  (** A false answer is never one of [G]. *)
  Definition upper (G : key -> Prop) (st : state) : Prop :=
    forall k, (k, false) ∈ c_cache st -> ~ G k.

  Lemma run_upper (G : key -> Prop) rel t st b st' :
    (forall e k s, upper G s ->
       upper G (snd (rel e k s)) /\ (fst (rel e k s) = false -> ~ G k)) ->
    upper G st -> run rel t st = (b, st') ->
    upper G st' /\ (mono t -> b = false -> ~ holds G t).
  Proof.
    intros Hrel. revert st. induction t as [b0|e k f IH]; intros st Hst; cbn [run].
    - intros [= <- <-]. split; [done|]. intros _ ->. by cbn [holds].
    - destruct (rel e k st) as [a st1] eqn:Ha.
      pose proof (Hrel e k st Hst) as [Hup Hfalse]. rewrite Ha in Hup, Hfalse.
      cbn [fst snd] in Hup, Hfalse.
      intros Hrun. destruct (IH a st1 Hup Hrun) as [Hup' Hf]. split; [done|].
      cbn [mono holds]. intros (Hft & Hmt & Hmf) Hb.
      destruct a.
      + specialize (Hf Hmt Hb). intros [[_ H]|H]; [done|]. by apply Hf, Hft.
      + specialize (Hf Hmf Hb). specialize (Hfalse eq_refl).
        intros [[H _]|H]; done.
  Qed.

  Lemma relate_upper (G : key -> Prop) :
    (forall k, G k -> k_kind k <> StrictSubtype /\ holds G (plan E k)) ->
    forall n opened k st, upper G st ->
      upper G (snd (relate E keep n opened k st))
      /\ (fst (relate E keep n opened k st) = false -> ~ G k).
  Proof.
    intros HG n. induction n as [n IH] using lt_wf_ind. intros opened k st Hst.
    destruct n as [|n]; cbn [relate]; [done|].
    destruct (lookup_key k (c_cache st)) as [b|] eqn:Hl.
    { cbn [fst snd]. split; [done|]. intros ->. apply Hst. by apply lookup_key_in. }
    destruct (bool_decide (k ∈ opened)); [done|].
    destruct (match l_steps (st_limits E) with
              | Some limit => Nat.leb limit (c_steps st) | None => false end); [done|].
    set (st1 := match l_steps (st_limits E) with
                | Some _ => State (c_cache st) (S (c_steps st)) | None => st end).
    assert (upper G st1) as Hst1.
    { unfold st1. by destruct (l_steps (st_limits E)). }
    destruct (Nat.leb _ _); [done|].
    destruct (run _ (plan E k) st1) as [b st2] eqn:Hrun.
    apply (run_upper G) in Hrun as [Hup Hf];
      [|intros e k' s Hs; apply IH; [lia|done]|done].
    cbn [fst snd].
    assert (b = false -> ~ G k) as Hk.
    { intros Hb Hg. destruct (HG k Hg) as [Hs Hh].
      by apply (Hf (mono_plan E k Hs) Hb). }
    split; [|done]. intros k' Hin. cbn [c_cache] in Hin. apply Hkeep in Hin.
    apply elem_of_cons in Hin as [[= -> Hb]|Hin]; [by apply Hk|by apply Hup].
  Qed.

  Lemma query_upper (G : key -> Prop) cache k :
    (forall k, G k -> k_kind k <> StrictSubtype /\ holds G (plan E k)) ->
    (forall k, (k, false) ∈ cache -> ~ G k) ->
    (forall k', (k', false) ∈ snd (query E keep k cache) -> ~ G k')
    /\ (fst (query E keep k cache) = false -> ~ G k).
  Proof.
    intros HG Hc. unfold query.
    destruct (relate_upper G HG (l_depth (st_limits E)) [] k (State cache 0) Hc) as [H1 H2].
    by destruct (relate E keep (l_depth (st_limits E)) [] k (State cache 0)) as [b st].
  Qed.

  Lemma after_upper (G : key -> Prop) qs :
    (forall k, G k -> k_kind k <> StrictSubtype /\ holds G (plan E k)) ->
    forall cache, (forall k, (k, false) ∈ cache -> ~ G k) ->
    forall k, (k, false) ∈ after E keep qs cache -> ~ G k.
  Proof.
    intros HG. induction qs as [|q qs IH]; intros cache Hc; cbn [after]; [done|].
    apply IH. apply query_upper; done.
  Qed.

  (** Exact answers, for types that are not recursive. *)
  Context (h : tid -> nat).
  Definition weight (k : key) : nat := h (k_src k) + h (k_dst k).
  Definition exact (G : key -> Prop) (st : state) : Prop :=
    forall k b, (k, b) ∈ c_cache st -> (b = true <-> G k).

  Lemma run_exact (G : key -> Prop) (P : nat -> key -> Prop) rel t st b st' :
    (forall e k s, P e k -> exact G s ->
       exact G (snd (rel e k s)) /\ (fst (rel e k s) = true <-> G k)) ->
    asks P t -> exact G st -> run rel t st = (b, st') ->
    exact G st' /\ sem G t b.
  Proof.
    intros Hrel. revert st. induction t as [b0|e k f IH]; intros st Hp Hst; cbn [run].
    - by intros [= <- <-].
    - cbn [asks] in Hp. destruct Hp as (Hek & Ht & Hf).
      destruct (rel e k st) as [a st1] eqn:Ha.
      pose proof (Hrel e k st Hek Hst) as [Hup Hiff]. rewrite Ha in Hup, Hiff.
      cbn [fst snd] in Hup, Hiff. intros Hrun.
      assert (asks P (f a)) as Hpa by (by destruct a).
      destruct (IH a st1 Hpa Hup Hrun) as [Hex Hs]. split; [done|]. cbn [sem].
      destruct a.
      + left. split; [by apply Hiff|done].
      + right. split; [|done]. intros Hg. apply Hiff in Hg. done.
  Qed.

  Definition slack (k : key) : nat := match k_kind k with Assignable => 1 | _ => 2 end.

  Lemma relate_exact (G : key -> Prop) :
    unlimited E ->
    (forall k, asks (fun e k' => k_kind k' = Assignable /\ weight k' < weight k
                      /\ e + 1 <= 4 + pred (slack k)) (plan E k)) ->
    (forall k b, sem G (plan E k) b -> (b = true <-> G k)) ->
    forall n opened k st,
      4 * weight k + slack k <= n -> length opened + n <= l_depth (st_limits E) ->
      (forall k', k' ∈ opened -> weight k < weight k' \/ k_kind k' <> Assignable) ->
      (opened = [] \/ k_kind k = Assignable) ->
      exact G st ->
      exact G (snd (relate E keep n opened k st))
      /\ (fst (relate E keep n opened k st) = true <-> G k).
  Proof.
    intros [Hsteps Hroom] Hasks HG n. induction n as [n IH] using lt_wf_ind.
    intros opened k st Hn Hlen Hop Hkind Hst.
    destruct n as [|n]; [unfold slack in Hn; destruct (k_kind k); lia|].
    cbn [relate]. rewrite Hsteps.
    destruct (lookup_key k (c_cache st)) as [b|] eqn:Hl.
    { cbn [fst snd]. split; [done|]. apply Hst. by apply lookup_key_in. }
    rewrite bool_decide_eq_false_2.
    2:{ intros Hin. destruct (Hop k Hin) as [H|H]; [lia|].
        destruct Hkind as [->|?]; [by apply elem_of_nil in Hin|done]. }
    destruct (Nat.leb_spec (l_in_progress (st_limits E)) (length opened)) as [H|_]; [lia|].
    destruct (run _ (plan E k) st) as [b st2] eqn:Hrun.
    apply (run_exact G _ _ _ _ _ _) with (2 := Hasks k) in Hrun; [|clear Hrun|done].
    - destruct Hrun as [Hex Hs]. cbn [fst snd]. pose proof (HG k b Hs) as Hk.
      split; [|done]. intros k' b' Hin. cbn [c_cache] in Hin. apply Hkeep in Hin.
      apply elem_of_cons in Hin as [[= -> ->]|Hin]; [done|by apply Hex].
    - intros e k' s (Hk' & Hw & He) Hs.
      assert (e + 1 <= 4 + pred (slack k)) as He' by done.
      apply IH; try done.
      + lia.
      + unfold slack in *. rewrite Hk'. destruct (k_kind k); cbn [pred] in *; lia.
      + cbn [length]. lia.
      + intros k0 [->|Hk0]%elem_of_cons; [left; done|].
        destruct (Hop k0 Hk0); [left; lia|by right].
      + by right.
  Qed.

  Lemma query_exact (G : key -> Prop) cache k :
    unlimited E ->
    (forall k, asks (fun e k' => k_kind k' = Assignable /\ weight k' < weight k
                      /\ e + 1 <= 4 + pred (slack k)) (plan E k)) ->
    (forall k b, sem G (plan E k) b -> (b = true <-> G k)) ->
    roomy E h k ->
    (forall k b, (k, b) ∈ cache -> (b = true <-> G k)) ->
    (forall k' b, (k', b) ∈ snd (query E keep k cache) -> (b = true <-> G k'))
    /\ (fst (query E keep k cache) = true <-> G k).
  Proof.
    intros Hu Ha HG Hr Hc. unfold query.
    destruct (relate_exact G Hu Ha HG (l_depth (st_limits E)) [] k (State cache 0))
      as [H1 H2].
    - unfold roomy in Hr. unfold weight, slack. destruct (k_kind k); lia.
    - done.
    - intros k' Hk'. by apply elem_of_nil in Hk'.
    - by left.
    - done.
    - by destruct (relate E keep (l_depth (st_limits E)) [] k (State cache 0)) as [b st].
  Qed.

  Lemma after_exact (G : key -> Prop) qs :
    unlimited E ->
    (forall k, asks (fun e k' => k_kind k' = Assignable /\ weight k' < weight k
                      /\ e + 1 <= 4 + pred (slack k)) (plan E k)) ->
    (forall k b, sem G (plan E k) b -> (b = true <-> G k)) ->
    Forall (roomy E h) qs ->
    forall cache, (forall k b, (k, b) ∈ cache -> (b = true <-> G k)) ->
    forall k b, (k, b) ∈ after E keep qs cache -> (b = true <-> G k).
  Proof.
    intros Hu Ha HG. induction qs as [|q qs IH]; intros Hq cache Hc; cbn [after]; [done|].
    apply Forall_cons in Hq as [Hq Hqs].
    apply (IH Hqs). by apply query_exact.
  Qed.
End Engine.
