(** Proofs about module requests and export resolution. *)
From stdpp Require Import base decidable list numbers sets sorting relations.
From Coq Require Import NArith Lia.
From Verif Require Import RustStr RustStrProofs ModuleModel ModuleSpec.

(** ** Searching *)
Lemma find_Some_split {A} (f : A -> bool) l x : List.find f l = Some x ->
  exists a b, l = a ++ x :: b /\ f x = true /\ Forall (fun y => f y = false) a.
Proof.
  induction l as [|y l IH]; cbn; [done|]. destruct (f y) eqn:E.
  - intros [= ->]. exists [], l. done.
  - intros X. destruct (IH X) as (a & b & -> & F & G). exists (y :: a), b. split; [done|]. split; [done|]. by constructor.
Qed.
Lemma find_split {A} (f : A -> bool) a x b : f x = true -> Forall (fun y => f y = false) a -> List.find f (a ++ x :: b) = Some x.
Proof. intros H. induction 1 as [|y a E F IH]; cbn; [by rewrite H|]. by rewrite E. Qed.
Lemma find_None_iff {A} (f : A -> bool) l : List.find f l = None <-> Forall (fun y => f y = false) l.
Proof.
  induction l as [|y l IH]; cbn; [by split; [constructor|]|]. destruct (f y) eqn:E.
  - split; [done|]. intros X. inversion X. congruence.
  - rewrite IH. split; [by constructor|]. by inversion 1.
Qed.

(** ** The graph of (module, name) pairs *)
Local Notation node := (nat * rstr)%type.
Definition view (g : graph) (x : node) : option binding * list node :=
  match g !! fst x with
  | None => (None, [])
  | Some r =>
      match List.find (fun e => bool_decide (fst e = snd x)) (mr_local r) with
      | Some e => (Some (Binding (fst x) (BnName (snd e))), [])
      | None =>
          match List.find (fun e => bool_decide (ie_name e = snd x)) (mr_indirect r) with
          | Some e =>
              match imported r (ie_request e) with
              | None => (None, [])
              | Some m' => match ie_import e with ImAll => (Some (Binding m' BnNamespace), []) | ImName n' => (None, [(m', n')]) end
              end
          | None => if bool_decide (snd x = default_name) then (None, []) else (None, map (fun m' => (m', snd x)) (omap (imported r) (mr_star r)))
          end
      end
  end.
Definition term g x := fst (view g x).
Definition succs g x := snd (view g x).

(** The same search on that graph. *)
Definition gloop (rec : node -> list node -> mres (resolution * list node)) :=
  fix go (ys : list node) (star : option binding) (set : list node) : mres (resolution * list node) :=
    match ys with
    | [] => MOk (match star with Some b => Resolved b | None => NotFound end, set)
    | y :: ys =>
        match rec y set with
        | MOk (Ambiguous, set) => MOk (Ambiguous, set)
        | MOk (NotFound, set) => go ys star set
        | MOk (Resolved b, set) =>
            match star with
            | None => go ys (Some b) set
            | Some b' => if bool_decide (b' = b) then go ys star set else MOk (Ambiguous, set)
            end
        | MPanic => MPanic
        | MFuel => MFuel
        end
    end.
Fixpoint gresolve (fuel : nat) (g : graph) (x : node) (set : list node) : mres (resolution * list node) :=
  match g !! fst x with
  | None => MPanic
  | Some _ =>
      if bool_decide (x ∈ set) then MOk (NotFound, set)
      else match fuel with
      | O => MFuel
      | S fuel =>
          match term g x with
          | Some b => MOk (Resolved b, set ++ [x])
          | None => gloop (gresolve fuel g) (succs g x) None (set ++ [x])
          end
      end
  end.
Lemma resolve_with_eq fuel g : forall m n set, resolve_with fuel g m n set = gresolve fuel g (m, n) set.
Proof.
  induction fuel as [|fuel IH]; intros m n set; cbn [resolve_with gresolve fst snd]; destruct (g !! m) as [r|] eqn:Er; try done.
  destruct (bool_decide ((m, n) ∈ set)); [done|]. unfold term, succs, view. cbn [fst snd]. rewrite Er.
  destruct (List.find _ (mr_local r)) as [e|]; [done|].
  destruct (List.find _ (mr_indirect r)) as [e|].
  - destruct (imported r (ie_request e)) as [m'|]; [|done]. destruct (ie_import e) as [n'|]; [|done]. cbn. rewrite IH.
    destruct (gresolve fuel g (m', n') (set ++ [(m, n)])) as [[[b| |] s]| |]; done.
  - case_bool_decide; [done|]. cbn [fst snd]. generalize (set ++ [(m, n)]). generalize (@None binding).
    induction (mr_star r) as [|e stars IHs]; intros star s; cbn; [done|].
    destruct (imported r e) as [m'|]; [|apply IHs]. cbn. rewrite IH.
    destruct (gresolve fuel g (m', n) s) as [[[b| |] s']| |]; try done.
    + destruct star as [b'|]; [|apply IHs]. case_bool_decide; [apply IHs|done].

Qed.

Definition edge g (x y : node) : Prop := y ∈ succs g x.
Definition reach g := rtc (edge g).
Definition closed_in g (new all : list node) : Prop := forall y z, y ∈ new -> edge g y z -> z ∈ all.

Definition res_ok g (x : node) (new set' : list node) (r : resolution) : Prop :=
  match r with
  | Ambiguous => exists y1 y2 b1 b2, reach g x y1 /\ reach g x y2 /\ term g y1 = Some b1 /\ term g y2 = Some b2 /\ b1 <> b2
  | NotFound => x ∈ set' /\ closed_in g new set' /\ (forall y, y ∈ new -> term g y = None)
  | Resolved b => x ∈ set' /\ closed_in g new set' /\ (forall y b', y ∈ new -> term g y = Some b' -> b' = b) /\
      (exists y, y ∈ new /\ term g y = Some b)
  end.
Definition loop_ok g (P : node -> Prop) (ys : list node) (star : option binding) (new set' : list node) (r : resolution) : Prop :=
  match r with
  | Ambiguous => exists y2 b1 b2, P y2 /\ term g y2 = Some b2 /\ b1 <> b2 /\
      (star = Some b1 \/ exists y1, P y1 /\ term g y1 = Some b1)
  | NotFound => star = None /\ (forall y, y ∈ ys -> y ∈ set') /\ closed_in g new set' /\ (forall y, y ∈ new -> term g y = None)
  | Resolved b => (forall y, y ∈ ys -> y ∈ set') /\ closed_in g new set' /\ (forall y b', y ∈ new -> term g y = Some b' -> b' = b) /\
      (star = Some b \/ (star = None /\ exists y, y ∈ new /\ term g y = Some b))
  end.
Lemma term_no_succs g x b : term g x = Some b -> succs g x = [].
Proof.
  unfold term, succs, view. destruct (g !! fst x) as [r|]; [|done]. destruct (List.find _ (mr_local r)); [done|].
  destruct (List.find _ (mr_indirect r)) as [e|]; [|by case_bool_decide]. destruct (imported r (ie_request e)); [|done]. by destruct (ie_import e).
Qed.

Lemma gloop_spec g rec (P : node -> Prop) :
  (forall y s r s', P y -> rec y s = MOk (r, s') -> exists new, s' = s ++ new /\ (forall z, z ∈ new -> reach g y z) /\ res_ok g y new s' r) ->
  (forall y z, P y -> reach g y z -> P z) ->
  forall ys star s r s', Forall P ys -> gloop rec ys star s = MOk (r, s') ->
  exists new, s' = s ++ new /\ (forall z, z ∈ new -> P z) /\ loop_ok g P ys star new s' r.
Proof.
  intros Hrec HP ys. induction ys as [|y ys IH]; intros star s r s' Hys E; cbn [gloop] in E.
  - injection E as <- <-. exists []. rewrite (right_id_L [] app). split; [done|]. split; [by intros ? ?%elem_of_nil|].
    assert (closed_in g [] s) by (intros ? ? ?%elem_of_nil; done).
    destruct star as [b|]; cbn.
    + split; [by intros ? ?%elem_of_nil|]. split; [done|]. split; [by intros ? ? ?%elem_of_nil|]. by left.
    + split; [done|]. split; [by intros ? ?%elem_of_nil|]. split; [done|]. by intros ? ?%elem_of_nil.
  - apply Forall_cons in Hys as [Hy Hys]. destruct (rec y s) as [[r1 s1]| |] eqn:E1; try done.
    destruct (Hrec _ _ _ _ Hy E1) as (n1 & -> & R1 & K1). destruct r1 as [b| |]; cbn [res_ok] in K1.
    + destruct K1 as (A1 & A2 & A3 & (y1 & A4 & A5)).
      assert (Cont : forall star', gloop rec ys star' (s ++ n1) = MOk (r, s') -> star' = Some b -> (star = Some b \/ star = None) ->
        exists new, s' = s ++ new /\ (forall z, z ∈ new -> P z) /\ loop_ok g P (y :: ys) star new s' r).
      { intros star' E2 Es Hs. destruct (IH _ _ _ _ Hys E2) as (n2 & -> & R2 & K2). exists (n1 ++ n2). split; [by rewrite (assoc_L app)|].
        split; [intros z; rewrite elem_of_app; intros [Z|Z]; [eapply HP; eauto|auto]|].
        destruct r as [b'| |]; cbn [loop_ok] in *.
        - destruct K2 as (B1 & B2 & B3 & B4). rewrite Es in B4. assert (b' = b) as -> by (destruct B4 as [B4|[B4 _]]; congruence).
          split; [intros z; rewrite elem_of_cons; intros [->|Z]; [apply elem_of_app; by left|auto]|].
          split; [intros u v; rewrite elem_of_app; intros [U|U] V; [rewrite elem_of_app; left; eauto|eauto]|].
          split; [intros u v; rewrite elem_of_app; intros [U|U] V; eauto|].
          destruct Hs as [Hs|Hs]; [by left|]. right. split; [done|]. exists y1. split; [apply elem_of_app; by left|done].
        - destruct K2 as (B1 & _). congruence.
        - destruct K2 as (y2 & b1 & b2 & B1 & B2 & B3 & B4). exists y2, b1, b2. split; [done|]. split; [done|]. split; [done|].
          rewrite Es in B4. destruct B4 as [[= ->]|B4]; [|by right]. right. exists y1. split; [apply (HP y y1 Hy); auto|done]. }
      destruct star as [b'|].
      * case_bool_decide as D.
        -- subst b'. apply (Cont _ E eq_refl). by left.
        -- injection E as <- <-. exists n1. split; [done|]. split; [intros z Z; eapply HP; eauto|]. cbn.
           exists y1, b', b. split; [eapply (HP y); eauto|]. split; [done|]. split; [done|]. by left.
      * apply (Cont _ E eq_refl). by right.
    + destruct K1 as (A1 & A2 & A3). destruct (IH _ _ _ _ Hys E) as (n2 & -> & R2 & K2). exists (n1 ++ n2). split; [by rewrite (assoc_L app)|].
      split; [intros z; rewrite elem_of_app; intros [Z|Z]; [eapply HP; eauto|auto]|].
      assert (In : forall z, z ∈ y :: ys -> (forall w, w ∈ ys -> w ∈ (s ++ n1) ++ n2) -> z ∈ (s ++ n1) ++ n2).
      { intros z. rewrite elem_of_cons. intros [->|Z] K; [apply elem_of_app; by left|auto]. }
      assert (Cl : closed_in g n2 ((s ++ n1) ++ n2) -> closed_in g (n1 ++ n2) ((s ++ n1) ++ n2)).
      { intros K u v. rewrite elem_of_app. intros [U|U] V; [rewrite elem_of_app; left; eauto|eauto]. }
      destruct r as [b'| |]; cbn [loop_ok] in *.
      * destruct K2 as (B1 & B2 & B3 & B4). split; [intros z Z; by apply In|]. split; [auto|].
        split; [intros u v; rewrite elem_of_app; intros [U|U] V; [rewrite A3 in V by done; done|eauto]|].
        destruct B4 as [B4|(B4 & u & U & V)]; [by left|]. right. split; [done|]. exists u. split; [apply elem_of_app; by right|done].
      * destruct K2 as (B0 & B1 & B2 & B3). split; [done|]. split; [intros z Z; by apply In|]. split; [auto|].
        intros u. rewrite elem_of_app. intros [U|U]; auto.
      * exact K2.
    + injection E as <- <-. exists n1. split; [done|]. split; [intros z Z; eapply HP; eauto|]. cbn.
      destruct K1 as (y1 & y2 & b1 & b2 & B1 & B2 & B3 & B4 & B5). exists y2, b1, b2. split; [eapply (HP y); eauto|]. split; [done|]. split; [done|].
      right. exists y1. split; [apply (HP y y1 Hy); auto|done].
Qed.

Lemma gresolve_spec g fuel : forall x s r s', gresolve fuel g x s = MOk (r, s') ->
  exists new, s' = s ++ new /\ (forall z, z ∈ new -> reach g x z) /\ res_ok g x new s' r.
Proof.
  induction fuel as [|fuel IH]; intros x s r s' E; cbn [gresolve] in E; destruct (g !! fst x) as [rec|]; try done; case_bool_decide as D; try done.
  - injection E as <- <-. exists []. rewrite (right_id_L [] app). split; [done|]. split; [by intros ? ?%elem_of_nil|].
    split; [done|]. split; [by intros ? ? ?%elem_of_nil|]. by intros ? ?%elem_of_nil.
  - injection E as <- <-. exists []. rewrite (right_id_L [] app). split; [done|]. split; [by intros ? ?%elem_of_nil|].
    split; [done|]. split; [by intros ? ? ?%elem_of_nil|]. by intros ? ?%elem_of_nil.
  - destruct (term g x) as [b|] eqn:Et.
    + injection E as <- <-. exists [x]. split; [done|]. split; [intros z ->%elem_of_list_singleton; apply rtc_refl|].
      split; [apply elem_of_app; right; by apply elem_of_list_singleton|].
      split; [intros u v ->%elem_of_list_singleton V; unfold edge in V; rewrite (term_no_succs _ _ _ Et) in V; by apply elem_of_nil in V|].
      split; [intros u b' ->%elem_of_list_singleton V; congruence|]. exists x. split; [by apply elem_of_list_singleton|done].
    + destruct (gloop_spec g (gresolve fuel g) (fun z => exists y, edge g x y /\ reach g y z)) with (ys := succs g x) (star := @None binding) (s := s ++ [x]) (r := r) (s' := s') as (new & -> & R & K).
      * intros y s0 r0 s1 Hy E0. by apply IH.
      * intros y z (u & U & V) W. exists u. split; [done|]. unfold reach in *. by etrans.
      * apply Forall_forall. intros y Hy. exists y. split; [done|]. apply rtc_refl.
      * exact E.
      * assert (RP : forall z, (exists y, edge g x y /\ reach g y z) -> reach g x z) by (intros z (y & A & B); by eapply rtc_l).
        exists (x :: new). rewrite <- (assoc_L app). split; [done|].
        split; [intros z; rewrite elem_of_cons; intros [->|Z]; [apply rtc_refl|auto]|].
        assert (Cl : forall set', (forall y, y ∈ succs g x -> y ∈ set') -> closed_in g new set' -> closed_in g (x :: new) set').
        { intros set' A B u v. rewrite elem_of_cons. intros [->|U] V; [by apply A|by eapply B]. }
        rewrite <- (assoc_L app) in K. cbn [app] in K.
        assert (Ix : x ∈ s ++ [x] ++ new) by (apply elem_of_app; right; by constructor).
        destruct r as [b| |]; cbn [loop_ok res_ok] in *.
        -- destruct K as (A1 & A2 & A3 & [A4|(_ & u & U & V)]); [done|]. split; [done|]. split; [by apply Cl|].
           split; [intros y b'; rewrite elem_of_cons; intros [->|Y] Hb; [congruence|eauto]|]. exists u. split; [by constructor|done].
        -- destruct K as (_ & A1 & A2 & A3). split; [done|]. split; [by apply Cl|]. intros y. rewrite elem_of_cons. intros [->|Y]; auto.
        -- destruct K as (y2 & b1 & b2 & B1 & B2 & B3 & [B4|(y1 & B4 & B5)]); [done|]. exists y1, y2, b1, b2. auto.
Qed.

(** ** Enough fuel, and no panic on a closed graph *)
Section fuel.
Context (g : graph) (U : list node).
Hypothesis HU : forall x y, x ∈ U -> edge g x y -> y ∈ U.
Hypothesis HM : forall x, x ∈ U -> is_Some (g !! fst x).
Definition in_U (s : list node) : Prop := NoDup s /\ forall x, x ∈ s -> x ∈ U.
Lemma in_U_len s : in_U s -> length s <= length U.
Proof. intros [N S]. by apply submseteq_length, NoDup_submseteq. Qed.

Lemma gloop_total rec k : 
  (forall y s, y ∈ U -> in_U s -> k <= length s -> exists r s', rec y s = MOk (r, s') /\ in_U s' /\ length s <= length s') ->
  forall ys star s, (forall y, y ∈ ys -> y ∈ U) -> in_U s -> k <= length s ->
  exists r s', gloop rec ys star s = MOk (r, s') /\ in_U s' /\ length s <= length s'.
Proof.
  intros Hrec ys. induction ys as [|y ys IH]; intros star s Hys Hs Hk; cbn [gloop]; [eauto|].
  destruct (Hrec y s) as (r1 & s1 & E1 & I1 & L1); [apply Hys; constructor|done|done|]. rewrite E1.
  assert (C : forall star', exists r s', gloop rec ys star' s1 = MOk (r, s') /\ in_U s' /\ length s <= length s').
  { intros star'. destruct (IH star' s1) as (r2 & s2 & E2 & I2 & L2); [intros; apply Hys; by constructor|done|lia|]. exists r2, s2. split; [done|]. split; [done|lia]. }
  destruct r1 as [b| |]; [|apply C|eauto]. destruct star as [b'|]; [|apply C]. case_bool_decide; [apply C|eauto].
Qed.
Lemma gresolve_total fuel : forall x s, x ∈ U -> in_U s -> length U <= length s + fuel ->
  exists r s', gresolve fuel g x s = MOk (r, s') /\ in_U s' /\ length s <= length s'.
Proof.
  induction fuel as [|fuel IH]; intros x s Hx Hs Hl; cbn [gresolve]; destruct (HM x Hx) as [rec Er]; rewrite Er; case_bool_decide as D; [by eauto| |by eauto|].
  - exfalso. assert (I : in_U (x :: s)).
    { split; [constructor; [done|apply Hs]|]. intros y. rewrite elem_of_cons. intros [->|Y]; [done|by apply Hs]. }
    apply in_U_len in I. cbn in I. lia.
  - assert (I : in_U (s ++ [x])).
    { split; [apply NoDup_app; split; [apply Hs|]; split; [intros y Y ->%elem_of_list_singleton; done|apply NoDup_singleton]|].
      intros y. rewrite elem_of_app, elem_of_list_singleton. intros [Y| ->]; [by apply Hs|done]. }
    destruct (term g x) as [b|]; [eexists _, _; split; [done|]; split; [done|]; rewrite app_length; lia|].
    destruct (gloop_total (gresolve fuel g) (length (s ++ [x]))) with (ys := succs g x) (star := @None binding) (s := s ++ [x]) as (r & s' & E & I' & L); auto.
    + intros y s0 Hy Hs0 L0. apply IH; auto. rewrite app_length in L0. cbn in L0. lia.
    + intros y Hy. by apply (HU x).
    + exists r, s'. split; [done|]. split; [done|]. rewrite app_length in L. lia.
Qed.
End fuel.

Definition universe (g : graph) (n : rstr) : list node :=
  flat_map (fun m => map (fun n => (m, n)) (n :: import_names g)) (seq 0 (length g)).
Lemma universe_in g n m n' : (m, n') ∈ universe g n <-> m < length g /\ (n' = n \/ n' ∈ import_names g).
Proof.
  unfold universe. rewrite elem_of_list_In, in_flat_map. setoid_rewrite <- elem_of_list_In. split.
  - intros (k & K & X). apply elem_of_seq in K. apply elem_of_list_fmap in X as (y & [= -> ->] & Y). apply elem_of_cons in Y. split; [lia|done].
  - intros [K Y]. exists m. split; [apply elem_of_seq; lia|]. apply elem_of_list_fmap. exists n'. split; [done|]. by apply elem_of_cons.
Qed.
Lemma universe_length g n : length (universe g n) = length g * S (length (import_names g)).
Proof.
  unfold universe. generalize (import_names g). intros l. generalize (length g). intros k. generalize 0. induction k as [|k IH]; intros a; cbn; [done|].
  rewrite app_length, map_length, IH. done.
Qed.
Lemma imported_in r q m : imported r q = Some m -> exists l, l ∈ mr_loaded r /\ snd l = m.
Proof.
  unfold imported. destruct (List.find _ (mr_loaded r)) as [l|] eqn:E; [|done]. intros [= <-]. exists l. split; [|done].
  apply find_Some_split in E as (a & b & -> & _). apply elem_of_app. right. by constructor.
Qed.
Lemma imported_closed g m r q m' : closed g -> g !! m = Some r -> imported r q = Some m' -> m' < length g.
Proof. intros C E I. destruct (imported_in _ _ _ I) as (l & L & <-). by eapply C. Qed.
Lemma universe_closed g n x y : closed g -> x ∈ universe g n -> edge g x y -> y ∈ universe g n.
Proof.
  intros C. destruct x as [m n1], y as [m' n']. rewrite !universe_in. intros [Hm Hn] E. unfold edge, succs, view in E. cbn [fst snd] in E.
  destruct (g !! m) as [r|] eqn:Er; [|by apply elem_of_nil in E].
  destruct (List.find _ (mr_local r)); [by apply elem_of_nil in E|].
  destruct (List.find _ (mr_indirect r)) as [e|] eqn:Ei.
  - destruct (imported r (ie_request e)) as [m1|] eqn:Em; [|by apply elem_of_nil in E]. destruct (ie_import e) as [n2|] eqn:En; [|by apply elem_of_nil in E].
    apply elem_of_list_singleton in E. injection E as -> ->. split; [by eapply imported_closed|]. right.
    unfold import_names. rewrite elem_of_list_In, in_flat_map. exists r. split; [apply elem_of_list_In; by eapply elem_of_list_lookup_2|].
    rewrite in_flat_map. apply find_Some_split in Ei as (a & b & -> & _). exists e. split; [apply elem_of_list_In, elem_of_app; right; by constructor|].
    rewrite En. by left.
  - case_bool_decide; [by apply elem_of_nil in E|]. apply elem_of_list_fmap in E as (k & [= -> ->] & K). apply elem_of_list_omap in K as (q & Q & K).
    split; [by eapply imported_closed|done].
Qed.

Lemma resolve_export_total g m n : closed g -> m < length g -> exists r s, resolve_export g m n = MOk r /\ gresolve (S (length g * S (length (import_names g)))) g (m, n) [] = MOk (r, s).
Proof.
  intros C Hm. unfold resolve_export. rewrite resolve_with_eq.
  destruct (gresolve_total g (universe g n)) with (fuel := S (length g * S (length (import_names g)))) (x := (m, n)) (s := @nil node) as (r & s & E & _).
  - intros x y. by apply universe_closed.
  - intros [k ?] K. apply universe_in in K as [K _]. by apply lookup_lt_is_Some.
  - apply universe_in. auto.
  - split; [constructor|]. by intros ? ?%elem_of_nil.
  - rewrite universe_length. cbn. lia.
  - rewrite E. by exists r, s.
Qed.

(** ** Provided bindings are the terminals reached *)
Lemma term_local g m r n l : g !! m = Some r -> local_export r n l -> term g (m, n) = Some (Binding m (BnName l)).
Proof.
  intros E (a & b & El & N). unfold term, view. cbn [fst snd]. rewrite E, El.
  rewrite (find_split (fun e => bool_decide (fst e = n))); [done|by apply bool_decide_true|]. apply Forall_forall. intros y Y. apply bool_decide_false.
  intros <-. apply N, elem_of_list_fmap. by exists y.
Qed.
Lemma no_local_find r n : no_local r n <-> List.find (fun e => bool_decide (fst e = n)) (mr_local r) = None.
Proof.
  rewrite find_None_iff, Forall_forall. unfold no_local. rewrite elem_of_list_fmap. setoid_rewrite bool_decide_eq_false. split.
  - intros H x X Y. apply H. by exists x.
  - intros H (x & -> & X). by apply (H x X).
Qed.
Lemma no_indirect_find r n : no_indirect r n <-> List.find (fun e => bool_decide (ie_name e = n)) (mr_indirect r) = None.
Proof.
  rewrite find_None_iff, Forall_forall. unfold no_indirect. rewrite elem_of_list_fmap. setoid_rewrite bool_decide_eq_false. split.
  - intros H x X Y. apply H. by exists x.
  - intros H (x & -> & X). by apply (H x X).
Qed.
Lemma indirect_find r e : indirect_export r e <-> List.find (fun x => bool_decide (ie_name x = ie_name e)) (mr_indirect r) = Some e.
Proof.
  split.
  - intros (a & b & Eq & N). rewrite Eq. apply (find_split (fun x => bool_decide (ie_name x = ie_name e))); [by apply bool_decide_true|]. apply Forall_forall. intros y Y. apply bool_decide_false.
    intros Z. apply N, elem_of_list_fmap. exists y. by rewrite Z.
  - intros X. apply find_Some_split in X as (a & b & Eq & _ & F). exists a, b. split; [done|]. rewrite elem_of_list_fmap. intros (y & Y & Z).
    rewrite Forall_forall in F. specialize (F y Z). apply bool_decide_eq_false in F. congruence.
Qed.
Lemma provides_reach g m n b : provides g m n b <-> exists y, reach g (m, n) y /\ term g y = Some b.
Proof.
  split.
  - induction 1 as [m r n l E L|m r e m' E L I Im Ie|m r e m' n' b E L I Im Ie P IH|m r n q m' b E L I D Q Im P IH].
    + exists (m, n). split; [apply rtc_refl|]. by eapply term_local.
    + exists (m, ie_name e). split; [apply rtc_refl|]. unfold term, view. cbn [fst snd]. apply no_local_find in L. apply indirect_find in I.
      by rewrite E, L, I, Im, Ie.
    + destruct IH as (y & Y & T). exists y. split; [|done]. eapply rtc_l; [|exact Y]. unfold edge, succs, view. cbn [fst snd].
      apply no_local_find in L. apply indirect_find in I. rewrite E, L, I, Im, Ie. by apply elem_of_list_singleton.
    + destruct IH as (y & Y & T). exists y. split; [|done]. eapply rtc_l; [|exact Y]. unfold edge, succs, view. cbn [fst snd].
      apply no_local_find in L. apply no_indirect_find in I. rewrite E, L, I, bool_decide_false by done. cbn. apply elem_of_list_fmap.
      exists m'. split; [done|]. apply elem_of_list_omap. by exists q.
  - intros (y & R & T). remember (m, n) as x eqn:Ex. revert m n Ex. induction R as [x|x z y E R IH]; intros m n ->.
    + unfold term, view in T. cbn [fst snd] in T. destruct (g !! m) as [r|] eqn:Er; [|done].
      destruct (List.find _ (mr_local r)) as [e|] eqn:El.
      * injection T as <-. apply find_Some_split in El as (a & c & El & B & F). apply bool_decide_eq_true in B. eapply prov_local; [done|]. exists a, c. split.
        -- rewrite El. destruct e. cbn in *. by subst.
        -- rewrite elem_of_list_fmap. intros (u & -> & X). rewrite Forall_forall in F. specialize (F u X). by apply bool_decide_eq_false in F.
      * destruct (List.find _ (mr_indirect r)) as [e|] eqn:Ei; [|by case_bool_decide].
        destruct (imported r (ie_request e)) as [m'|] eqn:Em; [|done]. destruct (ie_import e) eqn:En; [done|]. injection T as <-.
        pose proof (find_some _ _ Ei) as [_ X]. apply bool_decide_eq_true in X. subst n. eapply prov_namespace; eauto; [by apply no_local_find|by apply indirect_find].
    + specialize (IH T). destruct z as [m1 n1]. unfold edge, succs, view in E. cbn [fst snd] in E. destruct (g !! m) as [r|] eqn:Er; [|by apply elem_of_nil in E].
      destruct (List.find _ (mr_local r)) as [e|] eqn:El; [by apply elem_of_nil in E|].
      destruct (List.find _ (mr_indirect r)) as [e|] eqn:Ei.
      * destruct (imported r (ie_request e)) as [m'|] eqn:Em; [|by apply elem_of_nil in E]. destruct (ie_import e) eqn:En; [|by apply elem_of_nil in E].
        apply elem_of_list_singleton in E. injection E as -> ->.
        pose proof (find_some _ _ Ei) as [_ X]. apply bool_decide_eq_true in X. subst n. eapply prov_indirect; eauto; [by apply no_local_find|by apply indirect_find].
      * case_bool_decide; [by apply elem_of_nil in E|]. apply elem_of_list_fmap in E as (k & [= -> ->] & K). apply elem_of_list_omap in K as (q & Q & K).
        eapply prov_star; eauto; [by apply no_local_find|by apply no_indirect_find].
Qed.
Lemma closed_reach g new x y : closed_in g new new -> x ∈ new -> reach g x y -> y ∈ new.
Proof. intros C X R. induction R as [x|x z y E R IH]; [done|]. apply IH. by eapply C. Qed.

Lemma resolve_export_exact g m n r : closed g -> m < length g -> resolve_export g m n = MOk r ->
  match r with
  | Resolved b => provides g m n b /\ forall b', provides g m n b' -> b' = b
  | NotFound => forall b, ~ provides g m n b
  | Ambiguous => exists b b', provides g m n b /\ provides g m n b' /\ b <> b'
  end.
Proof.
  intros C Hm E. destruct (resolve_export_total g m n C Hm) as (r' & s & E1 & E2). assert (r' = r) by congruence. subst r'.
  destruct (gresolve_spec _ _ _ _ _ _ E2) as (new & -> & R & K). cbn [app] in K. destruct r as [b| |]; cbn [res_ok] in K.
  - destruct K as (A & B & D & (y & Y & T)). split; [apply provides_reach; exists y; auto|]. intros b' (z & Z & T')%provides_reach. eapply D; [|exact T']. by apply (closed_reach g new (m, n)).
  - destruct K as (A & B & D). intros b' (z & Z & T')%provides_reach. rewrite D in T'; [done|]. by apply (closed_reach g new (m, n)).
  - destruct K as (y1 & y2 & b1 & b2 & B1 & B2 & B3 & B4 & B5). exists b1, b2. rewrite !provides_reach. eauto 10.
Qed.

(** ** Exported names *)
Definition star_edge (g : graph) (m m' : nat) : Prop :=
  exists r q, g !! m = Some r /\ q ∈ mr_star r /\ imported r q = Some m'.
Lemma star_reaches_rtc g m m' : star_reaches g m m' <-> rtc (star_edge g) m m'.
Proof.
  split.
  - induction 1 as [|m r q m' m'' E Q I S IH]; [apply rtc_refl|]. eapply rtc_l; [|exact IH]. by exists r, q.
  - induction 1 as [|m m' m'' (r & q & E & Q & I) S IH]; [constructor|]. by eapply star_step.
Qed.
Definition nloop (rec : nat -> list nat -> mres (list rstr * list nat)) (r : module_record) :=
  fix go (stars : list request) (names : list rstr) (set : list nat) : mres (list rstr * list nat) :=
    match stars with
    | [] => MOk (names, set)
    | e :: stars =>
        match imported r e with
        | None => go stars names set
        | Some m' =>
            match rec m' set with
            | MOk (star, set) => go stars (merge_names names star) set
            | MPanic => MPanic
            | MFuel => MFuel
            end
        end
    end.
Lemma exported_names_with_S fuel g m set : exported_names_with (S fuel) g m set =
  match g !! m with
  | None => MPanic
  | Some r => if bool_decide (m ∈ set) then MOk ([], set) else nloop (exported_names_with fuel g) r (mr_star r) (own_names r) (set ++ [m])
  end.
Proof. reflexivity. Qed.
Lemma merge_names_in star names n : n ∈ merge_names names star <-> n ∈ names \/ (n <> default_name /\ n ∈ star).
Proof.
  revert names. induction star as [|x star IH]; intros names; cbn; [rewrite elem_of_nil; naive_solver|]. rewrite IH, elem_of_cons.
  case_bool_decide; [naive_solver|]. case_bool_decide; [naive_solver|]. rewrite elem_of_app, elem_of_list_singleton. naive_solver.
Qed.
Lemma merge_names_nodup star names : NoDup names -> NoDup (merge_names names star).
Proof.
  revert names. induction star as [|x star IH]; intros names N; cbn; [done|]. apply IH. case_bool_decide; [done|]. case_bool_decide; [done|].
  apply NoDup_app. split; [done|]. split; [|apply NoDup_singleton]. intros y Y ->%elem_of_list_singleton. done.
Qed.
Definition star_closed g (new all : list nat) : Prop := forall y z, y ∈ new -> star_edge g y z -> z ∈ all.
Lemma exported_spec g fuel : forall m s names s', exported_names_with fuel g m s = MOk (names, s') ->
  exists new, s' = s ++ new /\ (forall z, z ∈ new -> rtc (star_edge g) m z) /\ m ∈ s' /\ star_closed g new s' /\
    (m ∉ s -> m ∈ new) /\
    (forall n, n ∈ names <-> (m ∉ s /\ declares g m n) \/ (n <> default_name /\ exists y, y ∈ new /\ declares g y n)) /\
    ((forall r, g !! m = Some r -> NoDup (own_names r)) -> NoDup names).
Proof.
  induction fuel as [|fuel IH]; intros m s names s' E; [cbn in E|rewrite exported_names_with_S in E]; destruct (g !! m) as [r|] eqn:Er; try done; case_bool_decide as D; try done.
  1,2: injection E as <- <-; exists []; rewrite (right_id_L [] app); split; [done|]; split; [by intros ? ?%elem_of_nil|]; split; [done|];
    split; [by intros ? ? ?%elem_of_nil|]; split; [done|]; split; [|intros _; constructor];
    intros n; rewrite elem_of_nil; split; [done|]; intros [[? _]|(_ & y & ?%elem_of_nil & _)]; done.
  assert (Loop : forall stars names0 s0, (forall q, q ∈ stars -> q ∈ mr_star r) ->
    nloop (exported_names_with fuel g) r stars names0 s0 = MOk (names, s') ->
    exists new, s' = s0 ++ new /\ (forall z, z ∈ new -> rtc (star_edge g) m z) /\
      (forall q m', q ∈ stars -> imported r q = Some m' -> m' ∈ s') /\ star_closed g new s' /\
      (forall n, n ∈ names <-> n ∈ names0 \/ (n <> default_name /\ exists y, y ∈ new /\ declares g y n)) /\
      (NoDup names0 -> NoDup names)).
  { clear E D. induction stars as [|q stars IHs]; intros names0 s0 Hq E; cbn [nloop] in E.
    - injection E as <- <-. exists []. rewrite (right_id_L [] app). split; [done|]. split; [by intros ? ?%elem_of_nil|]. split; [by intros ? ? ?%elem_of_nil|].
      split; [by intros ? ? ?%elem_of_nil|]. split; [|done]. intros n. split; [by left|]. intros [?|(_ & y & ?%elem_of_nil & _)]; done.
    - destruct (imported r q) as [m'|] eqn:Ei.
      + destruct (exported_names_with fuel g m' s0) as [[star s1]| |] eqn:E1; try done.
        destruct (IH _ _ _ _ E1) as (n1 & -> & A1 & A2 & A3 & A4 & A5 & _).
        destruct (IHs _ _ ltac:(intros; apply Hq; by constructor) E) as (n2 & -> & B1 & B2 & B3 & B4 & B5). exists (n1 ++ n2). split; [by rewrite (assoc_L app)|].
        assert (Hm' : star_edge g m m') by (exists r, q; split; [done|]; split; [apply Hq; constructor|done]).
        split; [intros z; rewrite elem_of_app; intros [Z|Z]; [eapply rtc_l; eauto|auto]|].
        split; [intros q' m2; rewrite elem_of_cons; intros [->|Q] I; [assert (m2 = m') as -> by congruence; rewrite elem_of_app; by left|eauto]|].
        split; [intros y z; rewrite elem_of_app; intros [Y|Y] Z; [rewrite elem_of_app; left; eauto|eauto]|].
        split; [|intros N; apply B5, merge_names_nodup, N].
        intros n. rewrite B4, merge_names_in, A5. setoid_rewrite elem_of_app. split.
        * intros [[?|[Nd [[M Dm]|(_ & y & Y & Dy)]]]|(Nd & y & Y & Dy)]; [by left|right; split; [done|]; exists m'; auto|right; split; [done|]; exists y; auto|right; split; [done|]; exists y; auto].
        * intros [?|(Nd & y & [Y|Y] & Dy)]; [by left; left|left; right; split; [done|]; right; eauto|right; eauto].
      + destruct (IHs _ _ ltac:(intros; apply Hq; by constructor) E) as (n2 & -> & B1 & B2 & B3 & B4 & B5). exists n2. split; [done|]. split; [done|].
        split; [intros q' m2; rewrite elem_of_cons; intros [->|Q] I; [congruence|eauto]|]. auto. }
  destruct (Loop _ _ _ ltac:(done) E) as (new & -> & B1 & B2 & B3 & B4 & B5). exists (m :: new).
  rewrite <- (assoc_L app). cbn [app]. rewrite <- (assoc_L app) in B2, B3. cbn [app] in B2, B3.
  split; [done|]. split; [intros z; rewrite elem_of_cons; intros [->|Z]; [apply rtc_refl|auto]|].
  split; [apply elem_of_app; right; constructor|].
  split; [intros y z; rewrite elem_of_cons; intros [->|Y] Z; [destruct Z as (r' & q & Er' & Q & I); assert (r' = r) as -> by congruence; eauto|eauto]|].
  split; [intros _; constructor|]. split; [|intros N; apply B5, N; done].
  assert (Dm : forall n, n ∈ own_names r <-> declares g m n).
  { intros n. unfold declares. split; [eauto|]. intros (r' & ? & ?). assert (r' = r) as -> by congruence. done. }
  intros n. rewrite B4, Dm. setoid_rewrite elem_of_cons. split; [naive_solver|]. intros [[_ ?]|(Nd & y & [->|Y] & Dy)]; [by left|by left|right; eauto].
Qed.
Lemma star_reach_closed g new x y : star_closed g new new -> x ∈ new -> rtc (star_edge g) x y -> y ∈ new.
Proof. intros C X R. induction R as [x|x z y E R IH]; [done|]. apply IH. by eapply C. Qed.

Lemma exported_total g fuel : closed g -> forall m s, m < length g -> NoDup s -> (forall x, x ∈ s -> x < length g) -> length g <= length s + fuel ->
  exists names s', exported_names_with fuel g m s = MOk (names, s') /\ NoDup s' /\ (forall x, x ∈ s' -> x < length g) /\ length s <= length s'.
Proof.
  intros C. assert (Len : forall s, NoDup s -> (forall x, x ∈ s -> x < length g) -> length s <= length g).
  { intros s N S. rewrite <- (seq_length (length g) 0). apply submseteq_length, NoDup_submseteq; [done|]. intros x X. apply elem_of_seq. specialize (S x X). lia. }
  induction fuel as [|fuel IH]; intros m s Hm N S L; [cbn [exported_names_with]|rewrite exported_names_with_S]; assert (is_Some (g !! m)) as [r Er] by (by apply lookup_lt_is_Some_2); rewrite Er; case_bool_decide as D; [by eauto 10| |by eauto 10|].
  - exfalso. assert (I : length (m :: s) <= length g).
    { apply Len; [by constructor|]. intros y. rewrite elem_of_cons. intros [->|Y]; [done|by apply S]. } cbn in I. lia.
  - assert (N1 : NoDup (s ++ [m])).
    { apply NoDup_app. split; [done|]. split; [intros y Y ->%elem_of_list_singleton; done|apply NoDup_singleton]. }
    assert (S1 : forall x, x ∈ s ++ [m] -> x < length g) by (intros x; rewrite elem_of_app, elem_of_list_singleton; intros [X| ->]; auto).
    assert (L1 : length g <= length (s ++ [m]) + fuel) by (rewrite app_length; cbn; lia).
    assert (L2 : length s <= length (s ++ [m])) by (rewrite app_length; lia).
    revert N1 S1 L1 L2. generalize (s ++ [m]) (own_names r). induction (mr_star r) as [|q stars IHs]; intros s1 names N1 S1 L1 L2; cbn [nloop]; [eauto 10|].
    destruct (imported r q) as [m'|] eqn:Ei; [|by apply IHs].
    destruct (IH m' s1) as (n2 & s2 & E2 & N2 & S2 & L3); auto; [by eapply imported_closed|]. rewrite E2. apply IHs; auto; lia.
Qed.
Lemma exported_names_total g m : closed g -> m < length g -> exists l, exported_names g m = MOk l.
Proof.
  intros C Hm. unfold exported_names. destruct (exported_total g (S (length g)) C m []) as (l & s & E & _); auto; [constructor|by intros ? ?%elem_of_nil|cbn; lia|].
  rewrite E. by exists l.
Qed.
Lemma exported_names_exact g m l : exported_names g m = MOk l ->
  forall n, n ∈ l <-> declares g m n \/ (n <> default_name /\ exists m', star_reaches g m m' /\ declares g m' n).
Proof.
  unfold exported_names. destruct (exported_names_with (S (length g)) g m []) as [[l' s]| |] eqn:E; try done. intros [= ->].
  destruct (exported_spec _ _ _ _ _ _ E) as (new & -> & A1 & A2 & A3 & A4 & A5 & _). cbn [app] in *. intros n. rewrite A5. split.
  - intros [[_ ?]|(Nd & y & Y & Dy)]; [by left|]. right. split; [done|]. exists y. rewrite star_reaches_rtc. auto.
  - intros [?|(Nd & y & Y & Dy)]; [left; split; [apply not_elem_of_nil|done]|]. right. split; [done|]. exists y. split; [|done].
    apply star_reaches_rtc in Y. by apply (star_reach_closed g new m).
Qed.
Lemma exported_names_nodup g m l r : exported_names g m = MOk l -> g !! m = Some r -> NoDup (own_names r) -> NoDup l.
Proof.
  unfold exported_names. destruct (exported_names_with (S (length g)) g m []) as [[l' s]| |] eqn:E; try done. intros [= ->] Er N.
  destruct (exported_spec _ _ _ _ _ _ E) as (new & -> & _ & _ & _ & _ & _ & A6). apply A6. intros r' Er'. assert (r' = r) as -> by congruence. done.
Qed.

(** ** Namespaces *)
Lemma keep_resolved_spec g m names l : keep_resolved g m names = MOk l ->
  (forall n, n ∈ l <-> n ∈ names /\ exists b, resolve_export g m n = MOk (Resolved b)) /\ (NoDup names -> NoDup l).
Proof.
  revert l. induction names as [|n names IH]; intros l E; cbn [keep_resolved] in E.
  - injection E as <-. split; [|done]. intros n. rewrite elem_of_nil. naive_solver.
  - destruct (resolve_export g m n) as [[b| |]| |] eqn:R; destruct (keep_resolved g m names) as [l'| |] eqn:K; try done; injection E as <-; destruct (IH l' eq_refl) as [A B].
    + split.
      * intros x. rewrite !elem_of_cons, A. split; [intros [->|X]; [eauto|naive_solver]|]. intros [[->|X] Y]; auto.
      * intros N. inversion N; subst. constructor; [|auto]. rewrite A. naive_solver.
    + split; [|inversion 1; auto]. intros x. rewrite elem_of_cons, A. split; [naive_solver|]. intros [[->|X] [b Y]]; [congruence|naive_solver].
    + split; [|inversion 1; auto]. intros x. rewrite elem_of_cons, A. split; [naive_solver|]. intros [[->|X] [b Y]]; [congruence|naive_solver].
Qed.
Lemma keep_resolved_total g m names : closed g -> m < length g -> exists l, keep_resolved g m names = MOk l.
Proof.
  intros C Hm. induction names as [|n names [l IH]]; cbn [keep_resolved]; [eauto|]. destruct (resolve_export_total g m n C Hm) as (r & s & E & _). rewrite E, IH. destruct r; eauto.
Qed.
(** Whatever is provided is declared by some module and listed. *)
Lemma provides_listed g m n b : provides g m n b -> declares g m n \/ (n <> default_name /\ exists m', star_reaches g m m' /\ declares g m' n).
Proof.
  induction 1 as [m r n l E (a & c & El & N)|m r e m' E L (a & c & El & N) Im Ie|m r e m' n' b E L (a & c & El & N) Im Ie P IH|m r n q m' b E L I D Q Im P IH].
  1-3: left; exists r; split; [done|]; unfold own_names; rewrite El, ?map_app, !elem_of_app; cbn; rewrite ?elem_of_cons; naive_solver.
  right. split; [done|]. assert (St : forall m'', star_reaches g m' m'' -> star_reaches g m m'') by (intros; by eapply star_step).
  destruct IH as [D1|(_ & m'' & S & D1)]; [exists m'; split; [apply St; constructor|done]|exists m''; auto].
Qed.

(** ** Orders *)
Lemma cmp_utf16_total x y : cle cmp_utf16 x y \/ cle cmp_utf16 y x.
Proof. unfold cle, cmp_utf16. rewrite (lex_cmp_antisym (utf16 x) (utf16 y)). destruct (lex_cmp _ _); cbn; naive_solver. Qed.
Lemma lex_le_trans x y z : lex_cmp x y <> Gt -> lex_cmp y z <> Gt -> lex_cmp x z <> Gt.
Proof.
  intros A B. destruct (lex_cmp x y) eqn:E1; [apply lex_cmp_eq in E1; by subst| |done].
  destruct (lex_cmp y z) eqn:E2; [apply lex_cmp_eq in E2; subst; by rewrite E1| |done]. by rewrite (lex_cmp_trans _ _ _ E1 E2).
Qed.
Lemma cmp_utf16_trans x y z : cle cmp_utf16 x y -> cle cmp_utf16 y z -> cle cmp_utf16 x z.
Proof. apply lex_le_trans. Qed.
Lemma lex_le_anti x y : lex_cmp x y <> Gt -> lex_cmp y x <> Gt -> x = y.
Proof. rewrite (lex_cmp_antisym x y). intros A B. apply lex_cmp_eq. by destruct (lex_cmp x y). Qed.
Lemma cmp_utf16_anti x y : valid_str x -> valid_str y -> cle cmp_utf16 x y -> cle cmp_utf16 y x -> x = y.
Proof. intros Vx Vy A B. apply utf16_inj; [done|done|]. by apply lex_le_anti. Qed.

Definition valid_attribute (a : attribute) : Prop := valid_str (at_key a) /\ valid_str (at_value a).
Lemma cmp_attribute_opp x y : cmp_attribute y x = CompOpp (cmp_attribute x y).
Proof.
  unfold cmp_attribute, cmp_utf16. rewrite (lex_cmp_antisym (utf16 (at_key x)) (utf16 (at_key y))).
  destruct (lex_cmp (utf16 (at_key x)) (utf16 (at_key y))); cbn; [apply lex_cmp_antisym|done|done].
Qed.
Lemma cmp_attribute_total x y : cle cmp_attribute x y \/ cle cmp_attribute y x.
Proof. unfold cle. rewrite (cmp_attribute_opp x y). destruct (cmp_attribute x y); cbn; naive_solver. Qed.
Lemma cmp_attribute_trans x y z : cle cmp_attribute x y -> cle cmp_attribute y z -> cle cmp_attribute x z.
Proof.
  unfold cle, cmp_attribute, cmp_utf16. intros A B.
  destruct (lex_cmp (utf16 (at_key x)) (utf16 (at_key y))) eqn:E1; [| |done].
  - apply lex_cmp_eq in E1. rewrite E1. destruct (lex_cmp (utf16 (at_key y)) (utf16 (at_key z))) eqn:E2; [|done|done]. by eapply lex_le_trans.
  - destruct (lex_cmp (utf16 (at_key y)) (utf16 (at_key z))) eqn:E2; [| |done].
    + apply lex_cmp_eq in E2. rewrite <- E2, E1. done.
    + by rewrite (lex_cmp_trans _ _ _ E1 E2).
Qed.
Lemma cmp_attribute_anti x y : valid_attribute x -> valid_attribute y -> cle cmp_attribute x y -> cle cmp_attribute y x -> x = y.
Proof.
  intros [Kx Vx] [Ky Vy]. unfold cle. rewrite (cmp_attribute_opp x y). unfold cmp_attribute, cmp_utf16. intros A B.
  destruct (lex_cmp (utf16 (at_key x)) (utf16 (at_key y))) eqn:E1; try done. apply lex_cmp_eq, utf16_inj in E1; [|done|done].
  assert (E2 : lex_cmp (utf16 (at_value x)) (utf16 (at_value y)) = Eq) by (by destruct (lex_cmp (utf16 (at_value x)) (utf16 (at_value y)))).
  apply lex_cmp_eq, utf16_inj in E2; [|done|done]. destruct x, y. cbn in *. congruence.
Qed.

(** ** Requests *)
Lemma request_new_eq s t a b : Forall valid_attribute a -> request_new s a = request_new t b <-> s = t /\ a ≡ₚ b.
Proof.
  intros V. unfold request_new, canonicalize. cbn [rq_specifier rq_attributes]. split.
  - intros E. pose proof (f_equal rq_specifier E) as E1. apply (f_equal rq_attributes) in E. cbn [rq_specifier rq_attributes] in E, E1. split; [done|].
    rewrite <- (sort_by_perm cmp_attribute a), E. apply sort_by_perm.
  - intros [-> P]. f_equal. apply (sorted_unique_on cmp_attribute valid_attribute).
    + intros x y. apply cmp_attribute_anti.
    + by rewrite sort_by_perm.
    + apply sort_by_sorted; [apply cmp_attribute_total|apply cmp_attribute_trans].
    + apply sort_by_sorted; [apply cmp_attribute_total|apply cmp_attribute_trans].
    + by rewrite !sort_by_perm.
Qed.
Lemma with_attribute_order s a k v : Forall valid_attribute a -> valid_str k -> valid_str v -> with_import_attribute (request_new s a) k v = request_new s (Attr k v :: a).
Proof.
  intros V K W. transitivity (request_new s (rq_attributes (request_new s a) ++ [Attr k v])); [done|].
  apply request_new_eq.
  - apply Forall_app. split; [|by repeat constructor]. unfold request_new, canonicalize. cbn [rq_attributes]. by rewrite sort_by_perm.
  - split; [done|]. unfold request_new, canonicalize. cbn [rq_attributes]. rewrite sort_by_perm, Permutation_app_comm. done.
Qed.
Lemma requests_equal_iff l r : requests_equal l r = true <->
  rq_specifier l = rq_specifier r /\ length (rq_attributes l) = length (rq_attributes r) /\ (forall x, x ∈ rq_attributes l -> x ∈ rq_attributes r).
Proof.
  unfold requests_equal. rewrite !andb_true_iff, !bool_decide_eq_true, forallb_forall. setoid_rewrite existsb_exists. setoid_rewrite <- elem_of_list_In. split.
  - intros [[A B] C]. split; [done|]. split; [done|]. intros x X. destruct (C x X) as (y & Y & E). apply andb_true_iff in E as [E1%bool_decide_eq_true E2%bool_decide_eq_true].
    destruct x, y. cbn in *. by subst.
  - intros (A & B & C). split; [done|]. intros x X. exists x. split; [auto|]. by rewrite !bool_decide_true.
Qed.
Lemma requests_equal_perm l r : NoDup (rq_attributes l) ->
  requests_equal l r = true <-> rq_specifier l = rq_specifier r /\ rq_attributes l ≡ₚ rq_attributes r.
Proof.
  intros N. rewrite requests_equal_iff. split.
  - intros (A & B & C). split; [done|]. apply submseteq_Permutation_length_eq; [done|by apply NoDup_submseteq].
  - intros (A & B). split; [done|]. split; [by apply Permutation_length|]. intros x. by rewrite B.
Qed.

(** ** Namespace export lists *)
Lemma sorted_strict l : Forall valid_str l -> NoDup l -> StronglySorted (cle cmp_utf16) l -> StronglySorted utf16_lt l.
Proof.
  intros V N. induction 1 as [|x l S IH F]; [constructor|]. apply NoDup_cons in N as [Nx N]. apply list.Forall_cons in V as [Vx V]. constructor; [auto|].
  rewrite Forall_forall in *. intros y Y. specialize (F y Y). unfold utf16_lt, cle in *. destruct (cmp_utf16 x y) eqn:E; [|done|done].
  apply lex_cmp_eq, utf16_inj in E; [by subst|done|by apply V].
Qed.
Definition valid_names (g : graph) : Prop := forall m r n, g !! m = Some r -> n ∈ own_names r -> valid_str n.
Lemma namespace_total g m : closed g -> m < length g -> exists l, namespace_exports g m = MOk l.
Proof.
  intros C Hm. unfold namespace_exports. destruct (exported_names_total g m C Hm) as [l E]. rewrite E. destruct (keep_resolved_total g m l C Hm) as [k K]. rewrite K. eauto.
Qed.
Lemma namespace_in g m l : closed g -> m < length g -> namespace_exports g m = MOk l ->
  forall n, n ∈ l <-> exists b, provides g m n b /\ forall b', provides g m n b' -> b' = b.
Proof.
  intros C Hm. unfold namespace_exports. destruct (exported_names g m) as [names| |] eqn:E; try done. destruct (keep_resolved g m names) as [k| |] eqn:K; try done.
  intros [= <-] n. rewrite sort_by_perm. destruct (keep_resolved_spec _ _ _ _ K) as [A _]. rewrite A, (exported_names_exact _ _ _ E). split.
  - intros [_ [b R]]. exists b. by apply (resolve_export_exact _ _ _ _ C Hm) in R.
  - intros (b & P & U). split; [by eapply provides_listed|]. destruct (resolve_export_total g m n C Hm) as (r & _ & R & _). pose proof (resolve_export_exact _ _ _ _ C Hm R) as X.
    destruct r as [b'| |]; [eauto|by apply X in P|]. destruct X as (b1 & b2 & P1 & P2 & Ne). apply U in P1, P2. congruence.
Qed.
Lemma namespace_sorted g m r l : valid_names g -> g !! m = Some r -> NoDup (own_names r) -> namespace_exports g m = MOk l -> StronglySorted utf16_lt l.
Proof.
  intros V Er N. unfold namespace_exports. destruct (exported_names g m) as [names| |] eqn:E; try done. destruct (keep_resolved g m names) as [k| |] eqn:K; try done.
  intros [= <-]. destruct (keep_resolved_spec _ _ _ _ K) as [A B]. apply sorted_strict.
  - rewrite sort_by_perm. apply Forall_forall. intros n [X _]%A. apply (exported_names_exact _ _ _ E) in X as [(r' & R & X)|(_ & m' & _ & r' & R & X)]; by eapply V.
  - rewrite sort_by_perm. eapply B, exported_names_nodup; eauto.
  - apply sort_by_sorted; [apply cmp_utf16_total|apply cmp_utf16_trans].
Qed.

(** ** A graph for the examples: two modules star-exporting each other, both also
    star-exporting a third; names a, b, c are 97, 98, 99. *)
Definition demo_req (c : N) : request := Request [c] [].
Definition demo_graph : graph :=
  [ MRecord [demo_req 1; demo_req 2] StUnlinked [([97%N], [120%N])] [Indirect [98%N] (demo_req 2) (ImName [99%N])] [demo_req 1; demo_req 2] [(demo_req 1, 1); (demo_req 2, 2)];
    MRecord [demo_req 0; demo_req 2] StUnlinked [([100%N], [121%N]); ([101%N], [121%N])] [] [demo_req 0; demo_req 2] [(demo_req 0, 0); (demo_req 2, 2)];
    MRecord [demo_req 2] StUnlinked [([99%N], [122%N]); ([100%N], [122%N]); (default_name, [122%N])] [Indirect [102%N] (demo_req 2) (ImName [102%N])] [] [(demo_req 2, 2)] ].
Lemma demo_graph_closed : closed demo_graph.
Proof.
  assert (H : Forall (fun r => Forall (fun l => snd l < length demo_graph) (mr_loaded r)) demo_graph) by (repeat constructor; cbn; lia).
  intros m r l E L. rewrite Forall_forall in H. apply elem_of_list_lookup_2 in E. specialize (H r E). rewrite Forall_forall in H. auto.
Qed.
