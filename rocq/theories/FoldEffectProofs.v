(** * Expressions judged free of side effects have none *)
From Coq Require Import String Ascii ZArith NArith Bool List Lia.
From stdpp Require Import base decidable numbers list.
From Verif Require Import VmBase RustStr RustStrProofs PrimModel PrimSpec ConvModel ConvSpec.
From Verif Require Import FoldModel FoldSpec FoldProofs.
Local Open Scope N_scope.

Local Instance binop_dec : EqDecision binop.
Proof. solve_decision. Defined.

Section effects.
Context {W : Type} (h : host W) (same : W -> W -> Prop) (young : W -> val -> Prop) (U : unseen h same young).

Definition is_big (v : val) : bool := match v with VBig _ => true | _ => false end.
Definition has_sign (s : bigint_sign) (v : val) : Prop :=
  match v with
  | VBig z => match s with SNegative => (z < 0)%Z | SZero => z = 0%Z | SPositive => (0 < z)%Z end
  | _ => False
  end.
Record fits (e : expr) (v : val) : Prop := Fits {
  f_prim : may_be_object e = false -> primitive v = true;
  f_string : expr_definitely_string e = true -> is_string v = true;
  f_big : expr_bigint_kind e = KBig -> is_big v = true;
  f_not : expr_bigint_kind e = KNotBig -> is_big v = false;
  f_sign s : expr_bigint_sign e = Some s -> has_sign s v }.
Definition quiet {A} (m : comp W A) (p : A -> Prop) : Prop :=
  forall w, exists a w', m w = (Ret a, w') /\ same w w' /\ p a.
Definition quiet_from {A} (w0 : W) (m : comp W A) (p : A -> Prop) : Prop :=
  forall w, same w0 w -> exists a w', m w = (Ret a, w') /\ same w0 w' /\ p a.

Lemma quiet_ret {A} (a : A) (p : A -> Prop) : p a -> quiet (ret a) p.
Proof. intros P w. exists a, w. split; [done|]. split; [apply U|done]. Qed.
Lemma quiet_bind {A B} (m : comp W A) (k : A -> comp W B) p q :
  quiet m p -> (forall a, p a -> quiet (k a) q) -> quiet (bind m k) q.
Proof.
  intros M K w. destruct (M w) as (a&w1&E&S&P). destruct (K a P w1) as (b&w2&E'&S'&Q).
  exists b, w2. unfold bind. rewrite E. split; [done|]. split; [by eapply (un_trans _ _ _ U)|done].
Qed.
Lemma quiet_meq {A} (m n : comp W A) p : m ≈ n -> quiet n p -> quiet m p.
Proof. intros E Q w. rewrite E. apply Q. Qed.
Lemma quiet_weaken {A} (m : comp W A) (p q : A -> Prop) : quiet m p -> (forall a, p a -> q a) -> quiet m q.
Proof. intros Q I w. destruct (Q w) as (a&w'&E&S&P). exists a, w'. auto. Qed.
Lemma quiet_plain e m p : eval_link h e = plain m -> quiet m p -> quiet (eval h e) p.
Proof. intros E. apply quiet_meq, eval_plain. by rewrite E. Qed.
Lemma link_quiet e p : quiet (eval h e) p -> quiet (eval_link h e) (fun l => p (link_value l)).
Proof.
  intros Q w. destruct (Q w) as (a&w'&E&S&P). unfold eval, bind in E.
  destruct (eval_link h e w) as [[l|] w1]; [|done]. injection E as <- <-. by exists l, w1.
Qed.
Lemma from_quiet {A} w0 (m : comp W A) p : quiet m p -> quiet_from w0 m p.
Proof. intros Q w S. destruct (Q w) as (a&w'&E&S'&P). exists a, w'. split; [done|]. split; [by eapply (un_trans _ _ _ U)|done]. Qed.
Lemma from_bind {A B} w0 (m : comp W A) (k : A -> comp W B) p q :
  quiet_from w0 m p -> (forall a, p a -> quiet_from w0 (k a) q) -> quiet_from w0 (bind m k) q.
Proof.
  intros M K w S0. destruct (M w S0) as (a&w1&E&S&P). destruct (K a P w1 S) as (b&w2&E'&S'&Q).
  exists b, w2. unfold bind. by rewrite E.
Qed.

Lemma fits_const e v : may_be_object e = false -> primitive v = true ->
  (expr_definitely_string e = true -> is_string v = true) ->
  (expr_bigint_kind e = if is_big v then KBig else KNotBig) -> (forall s, expr_bigint_sign e = Some s -> has_sign s v) -> fits e v.
Proof. intros O P S K G. constructor; [done|done| | |done]; rewrite K; by destruct (is_big v). Qed.

Lemma numeric_big v : match numeric h v with inl _ => is_big v = false | inr z => v = VBig z end.
Proof. by destruct v. Qed.

Lemma un_fits op a va :
  is_side_effect_free (EUn op a) = true -> no_object_converted (EUn op a) -> fits a va ->
  exists v, unary h op va = ret v /\ fits (EUn op a) v.
Proof.
  intros F N [Fp Fs Fb Fn Fg]. destruct op; cbn [is_side_effect_free] in F; try done; cbn [no_object_converted no_object_operand] in N.
  - eexists. split; [reflexivity|]. by constructor.
  - eexists. split; [reflexivity|]. by constructor.
  - specialize (Fp N). cbn [unary]. rewrite Fp. eexists. split; [reflexivity|].
    pose proof (numeric_big va) as B. destruct (numeric h va) as [x|z].
    + constructor; [done|done| | |].
      * cbn [expr_bigint_kind]. intros K%Fb. congruence.
      * done.
      * cbn [expr_bigint_sign]. intros s. destruct (expr_bigint_sign a) as [s'|]; [|done]. specialize (Fg s' eq_refl).
        by destruct va.
    + subst va. constructor; [done|done|done| |].
      * cbn [expr_bigint_kind]. intros K%Fn. done.
      * cbn [expr_bigint_sign]. intros s. destruct (expr_bigint_sign a) as [s'|]; [|done]. specialize (Fg s' eq_refl).
        cbn [has_sign] in *. destruct s'; intros [= <-]; cbn; lia.
  - apply andb_prop in F as [F K%bool_decide_eq_true]. specialize (Fp N). specialize (Fn K). cbn [unary]. rewrite Fp.
    pose proof (numeric_big va) as B. destruct (numeric h va) as [x|z]; [|by subst va].
    eexists. split; [reflexivity|]. constructor; [done|done| |done|done]. cbn [expr_bigint_kind]. by rewrite K.
  - specialize (Fp N). cbn [unary]. rewrite Fp. eexists. split; [reflexivity|].
    pose proof (numeric_big va) as B. destruct (numeric h va) as [x|z].
    + constructor; [done|done| |done|done]. cbn [expr_bigint_kind]. intros K%Fb. congruence.
    + subst va. constructor; [done|done|done| |done]. cbn [expr_bigint_kind]. intros K%Fn. done.
Qed.

Lemma same_kind_is a b k : k <> KUnknown -> same_kind a b = k -> a = k /\ b = k.
Proof. unfold same_kind. case_bool_decide; [|congruence]. intros _ <-. by subst. Qed.

(** Numbers and BigInts. *)
Lemma arithmetic_ok op a b :
  (is_big a = false -> is_big b = false -> (exists x, arithmetic h op a b = Some (VNum x)) \/
     match op with BAdd | BSub | BMul | BDiv | BRem | BPow | BAnd | BOr | BXor | BShl | BShr | BUshr => False | _ => True end) /\
  (is_big a = true -> is_big b = true -> match op with
     | BAdd | BSub | BMul | BAnd | BOr | BXor | BShl | BShr => True
     | BDiv | BRem => has_sign SNegative b \/ has_sign SPositive b
     | BPow => has_sign SZero b \/ has_sign SPositive b
     | _ => False end -> exists z, arithmetic h op a b = Some (VBig z)).
Proof.
  unfold arithmetic. pose proof (numeric_big a) as A. pose proof (numeric_big b) as B.
  destruct (numeric h a) as [x|x], (numeric h b) as [y|y]; split; intros Ha Hb; try congruence; subst; try done.
  - destruct op; try (right; done); left; eexists; reflexivity.
  - destruct op; try done; intros S; try (eexists; reflexivity); cbn [has_sign] in S; cbn [on_bigints].
    + destruct (Z.eqb_spec y 0); [lia|]. by eexists.
    + destruct (Z.eqb_spec y 0); [lia|]. by eexists.
    + destruct (Z.ltb_spec y 0); [lia|]. by eexists.
Qed.

Definition arith (op : binop) : bool :=
  match op with BAdd | BSub | BMul | BDiv | BRem | BPow | BAnd | BOr | BXor | BShl | BShr | BUshr => true | _ => false end.
Lemma bin_fits op l r a b :
  strict_op op = true -> is_side_effect_free (EBin op l r) = true -> no_object_converted (EBin op l r) ->
  fits l a -> fits r b -> exists v, binary h op a b = ret v /\ fits (EBin op l r) v.
Proof.
  intros S F N Fl Fr. cbn [is_side_effect_free] in F.
  destruct (is_side_effect_free l) eqn:El; [|done]. destruct (is_side_effect_free r) eqn:Er; [|done]. cbn [negb orb] in F.
  assert (forall c, (op = BSeq \/ op = BSne) -> binary h op a b = ret (VBool c) -> 
    exists v, binary h op a b = ret v /\ fits (EBin op l r) v) as Strict.
  { intros c O E. exists (VBool c). split; [done|]. by destruct O as [->| ->]. }
  destruct (decide (op = BSeq)) as [->|N1]; [by eapply Strict; [left|]|].
  destruct (decide (op = BSne)) as [->|N2]; [by eapply Strict; [right|]|]. clear Strict.
  assert (may_be_object l = false /\ may_be_object r = false) as [Ml Mr] by (by destruct op).
  pose proof (f_prim l a Fl Ml) as Pa. pose proof (f_prim r b Fr Mr) as Pb.
  assert (forall v, on_primitives h op a b = Some v -> binary h op a b = ret v) as Bin.
  { intros v E. unfold binary. rewrite Pa, Pb. cbn [andb]. rewrite E. by destruct op. }
  destruct (arith op) eqn:Ar.
  - (* arithmetic *)
    destruct (decide (op = BAdd /\ expr_definitely_string l || expr_definitely_string r = true)) as [[-> D]|D].
    { exists (VStr (text_of h a ++ text_of h b)).
      assert (is_string a || is_string b = true) as I.
      { apply orb_true_iff in D as [D|D]; [rewrite (f_string l a Fl D)|rewrite (f_string r b Fr D), orb_true_r]; done. }
      split; [apply Bin; cbn [on_primitives]; by rewrite I|].
      constructor; try done; cbn [expr_bigint_kind]; by rewrite D. }
    assert (forall v, (is_string a || is_string b = true -> op = BAdd -> False) -> arithmetic h op a b = Some v -> on_primitives h op a b = Some v) as Ap.
    { intros v I E. destruct op; try done. cbn [on_primitives]. destruct (is_string a || is_string b); [by destruct I|done]. }
    assert ((expr_bigint_kind l = KBig /\ expr_bigint_kind r = KBig) \/ (expr_bigint_kind l = KNotBig /\ expr_bigint_kind r = KNotBig)) as [[Kl Kr]|[Kl Kr]].
    { clear -F D Ar. destruct (expr_bigint_kind l), (expr_bigint_kind r); auto; exfalso; destruct op; try done;
        (destruct (expr_definitely_string l || expr_definitely_string r); [by apply D|done]). }
    + destruct (arithmetic_ok op a b) as [_ Ok].
      pose proof (f_big l a Fl Kl) as Ba. pose proof (f_big r b Fr Kr) as Bb.
      destruct Ok as [z Ez]; [done|done| |].
      { rewrite Kl, Kr in F. pose proof (f_sign r b Fr) as Sg. clear -F Sg Ar.
        destruct op; try done; destruct (expr_bigint_sign r) as [[]|]; try done; specialize (Sg _ eq_refl); auto. }
      exists (VBig z). split.
      * apply Bin, Ap; [|done]. intros I _. by destruct a, b.
      * constructor; try done.
        -- intros Q. destruct op; try done. by destruct D.
        -- destruct op; try done; cbn [expr_bigint_kind]; rewrite ?Kl, ?Kr; try done.
           destruct (expr_definitely_string l || expr_definitely_string r) eqn:Q; [by destruct D|done].
    + pose proof (f_not l a Fl Kl) as Ba. pose proof (f_not r b Fr Kr) as Bb.
      assert (exists v, on_primitives h op a b = Some v /\ primitive v = true /\ is_big v = false) as (v&E&Pv&Bv).
      { destruct (arithmetic_ok op a b) as [Ok _]. destruct (Ok Ba Bb) as [[x Ex]|O]; [|by destruct op].
        destruct (decide (op = BAdd)) as [->|]; [|exists (VNum x); split; [by apply Ap|done]].
        cbn [on_primitives]. destruct (is_string a || is_string b); by eexists. }
      exists v. split; [by apply Bin|]. constructor; try done.
      * intros Q. destruct op; try done. by destruct D.
      * destruct op; try done; cbn [expr_bigint_kind]; rewrite ?Kl, ?Kr; try done.
        by destruct (expr_definitely_string l || expr_definitely_string r).
  - assert (exists c, on_primitives h op a b = Some (VBool c)) as [c E].
    { destruct op; try done; by eexists. }
    exists (VBool c). split; [by apply Bin|]. by constructor; destruct op.
Qed.

Lemma same_kind_split a b (p q : Prop) k : k <> KUnknown -> (a = k -> p) -> (b = k -> q) -> same_kind a b = k -> p /\ q.
Proof. intros N P Q E. destruct (same_kind_is a b k N E). auto. Qed.

Lemma value_of (m : comp W val) p : quiet m p -> quiet (plain m) (fun l => p (link_value l)).
Proof. intros Q. eapply quiet_bind; [exact Q|]. intros v P. by apply quiet_ret. Qed.

Definition named_as (x : option rstr) (e : expr) : comp W val :=
  match e with
  | EFun k => new_function h k x
  | EClass k _ => new_class h k x
  | _ => eval h e
  end.

Theorem free_quiet :
  (forall e, is_side_effect_free e = true -> everywhere no_object_converted (fun _ => True) e -> quiet (eval h e) (fits e)) /\
  (forall l, everywhere_items no_object_converted (fun _ => True) l ->
    (free_elements l = true -> quiet (eval_elements h l) (fun _ => True)) /\
    (free_members l = true -> forall w0 o, young w0 o -> quiet_from w0 (eval_members h o l) (fun _ => True)) /\
    (free_parts l = true -> no_object_part l -> quiet (eval_parts h l) (fun _ => True))).
Proof.
  apply expr_items_ind; cbn [everywhere everywhere_items].
  - intros. eapply quiet_plain; [reflexivity|]. apply quiet_ret. by apply fits_const.
  - intros. eapply quiet_plain; [reflexivity|]. apply quiet_ret. by apply fits_const.
  - intros. eapply quiet_plain; [reflexivity|]. apply quiet_ret. by apply fits_const.
  - intros. eapply quiet_plain; [reflexivity|]. apply quiet_ret. by apply fits_const.
  - intros n _ _. eapply quiet_plain; [reflexivity|]. apply quiet_ret. apply fits_const; try done.
    intros s. cbn [expr_bigint_sign has_sign]. destruct (N.eqb_spec n 0) as [->|]; intros [= <-]; [done|lia].
  - intros k _ _. eapply quiet_plain; [reflexivity|]. intros w. destruct (un_regex _ _ _ U k w) as (o&w'&E&S).
    exists (VObj o), w'. split; [done|]. split; [done|]. by constructor.
  - done.
  - intros k _ _. eapply quiet_plain; [reflexivity|]. intros w. destruct (un_function _ _ _ U k None w) as (o&w'&E&S).
    exists (VObj o), w'. split; [done|]. split; [done|]. by constructor.
  - intros k b _ [N _]. done.
  - done.
  - intros op a IH F [N G].
    assert (is_side_effect_free a = true) as Fa by (destruct op; try done; cbn [is_side_effect_free] in F; by apply andb_prop in F as [? _]).
    eapply (quiet_plain _ (bind (eval h a) (unary h op))); [destruct op; try done; by destruct a|].
    eapply quiet_bind; [by apply IH|]. intros v Fv. destruct (un_fits op a v F N Fv) as (u&->&Fu). by apply quiet_ret.
  - intros op l IHl r IHr F [N [Gl Gr]].
    assert (is_side_effect_free l = true /\ is_side_effect_free r = true) as [El Er].
    { cbn [is_side_effect_free] in F. by destruct (is_side_effect_free l), (is_side_effect_free r). }
    specialize (IHl El Gl). specialize (IHr Er Gr).
    destruct (strict_op op) eqn:S.
    + eapply quiet_plain; [by apply link_strict|]. eapply quiet_bind; [exact IHl|]. intros a Fa.
      eapply quiet_bind; [exact IHr|]. intros b Fb.
      destruct (bin_fits op l r a b S F N Fa Fb) as (v&->&Fv). by apply quiet_ret.
    + assert (op = BLand \/ op = BLor \/ op = BNullish) as O.
      { destruct op; try done; auto. cbn [is_side_effect_free] in F. by rewrite El, Er in F. }
      assert (forall v, fits l v -> fits (EBin op l r) v) as FL.
      { intros v [Fp Fs Fb Fn Fg]. destruct O as [->|[->| ->]]; (constructor; [|done| | |done]);
          cbn [may_be_object expr_bigint_kind];
          [intros [? ?]%orb_false_iff; auto|intros [? _]%same_kind_is; auto|intros [? _]%same_kind_is; auto
          |intros [? ?]%orb_false_iff; auto|intros [? _]%same_kind_is; auto|intros [? _]%same_kind_is; auto
          |intros [? ?]%orb_false_iff; auto|intros [? _]%same_kind_is; auto|intros [? _]%same_kind_is; auto]. }
      assert (forall v, fits r v -> fits (EBin op l r) v) as FR.
      { intros v [Fp Fs Fb Fn Fg]. destruct O as [->|[->| ->]]; (constructor; [|done| | |done]);
          cbn [may_be_object expr_bigint_kind];
          [intros [? ?]%orb_false_iff; auto|intros [_ ?]%same_kind_is; auto|intros [_ ?]%same_kind_is; auto
          |intros [? ?]%orb_false_iff; auto|intros [_ ?]%same_kind_is; auto|intros [_ ?]%same_kind_is; auto
          |intros [? ?]%orb_false_iff; auto|intros [_ ?]%same_kind_is; auto|intros [_ ?]%same_kind_is; auto]. }
      pose proof (quiet_weaken _ _ _ IHr FR) as Qr.
      destruct O as [->|[->| ->]].
      * eapply quiet_meq; [apply eval_land|]. eapply quiet_bind; [exact IHl|]. intros v Fv.
        destruct (truthy v); [done|]. by apply quiet_ret, FL.
      * eapply quiet_meq; [apply eval_lor|]. eapply quiet_bind; [exact IHl|]. intros v Fv.
        destruct (truthy v); [|done]. by apply quiet_ret, FL.
      * eapply quiet_meq; [apply eval_nullish|]. eapply quiet_bind; [exact IHl|]. intros v Fv.
        destruct (nullish v); [done|]. by apply quiet_ret, FL.
  - intros t IHt a IHa b IHb F [N (Gt&Ga&Gb)]. cbn [is_side_effect_free] in F.
    apply andb_prop in F as [[Ft Fa]%andb_prop Fb].
    eapply quiet_plain; [reflexivity|]. eapply (quiet_bind (eval h t)); [by apply IHt|]. intros v _.
    assert (quiet (eval h a) (fits (ECond t a b))) as Qa.
    { eapply quiet_weaken; [by apply IHa|]. intros u [Fp Fs Fbg Fn Fg]. constructor; [| | | |done]; cbn [may_be_object expr_definitely_string expr_bigint_kind].
      - intros [? ?]%orb_false_iff. auto.
      - intros [? ?]%andb_prop. auto.
      - intros [? _]%same_kind_is; auto.
      - intros [? _]%same_kind_is; auto. }
    assert (quiet (eval h b) (fits (ECond t a b))) as Qb.
    { eapply quiet_weaken; [by apply IHb|]. intros u [Fp Fs Fbg Fn Fg]. constructor; [| | | |done]; cbn [may_be_object expr_definitely_string expr_bigint_kind].
      - intros [? ?]%orb_false_iff. auto.
      - intros [? ?]%andb_prop. auto.
      - intros [_ ?]%same_kind_is; auto.
      - intros [_ ?]%same_kind_is; auto. }
    by destruct (truthy v).
  - done.
  - done.
  - done.
  - done.
  - (* templates *) intros l IH F [N G]. destruct (IH G) as (_&_&IHp).
    eapply quiet_plain; [reflexivity|]. eapply (quiet_bind (eval_parts h l)); [by apply IHp|]. intros u _. apply quiet_ret. by constructor.
  - done.
  - intros l IH F [N G]. destruct (IH G) as (IHe&_&_).
    eapply quiet_plain; [reflexivity|]. eapply (quiet_bind (eval_elements h l)); [by apply IHe|]. intros vs _ w.
    destruct (un_array _ _ _ U vs w) as (o&w'&E&S). exists (VObj o), w'. split; [done|]. split; [done|]. by constructor.
  - intros l IH F [N G]. destruct (IH G) as (_&IHm&_).
    eapply quiet_plain; [reflexivity|]. intros w. destruct (un_object _ _ _ U w) as (o&w1&E&S&Y).
    destruct (IHm F w (VObj o) Y w1 S) as (?&w2&E2&S2&_). exists (VObj o), w2.
    split; [|split; [done|by constructor]]. unfold bind at 1. rewrite E. unfold bind.
    change (match eval_members h (VObj o) l w1 with (Ret _, w0) => ret (VObj o) w0 | (Throw v, w0) => (Throw v, w0) end = (Ret (VObj o), w2)).
    by rewrite E2.
  - (* items *) intros _. split; [intros _; by apply quiet_ret|]. split; [|intros _ _; by apply quiet_ret].
    intros _ w0 o Y w S. by exists tt, w.
  - intros r IH [_ G]. destruct (IH G) as (IHe&IHm&IHp). split; [|by split].
    intros F. eapply (quiet_bind (eval_elements h r)); [by apply IHe|]. intros vs _. by apply quiet_ret.
  - intros s r IH [_ G]. destruct (IH G) as (IHe&IHm&IHp). split; [done|]. split; [done|].
    intros F N. eapply (quiet_bind (eval_parts h r)); [by apply IHp|]. intros vs _. by apply quiet_ret.
  - intros e IHe r IH [_ [Ge G]]. destruct (IH G) as (IHl&IHm&IHp). split; [|split; [done|]].
    + intros [Fe Fr]%andb_prop. eapply (quiet_bind (eval_link h e)); [by apply link_quiet, IHe|]. intros x _.
      eapply (quiet_bind (eval_elements h r)); [by apply IHl|]. intros vs _. by apply quiet_ret.
    + intros [Fe Fr]%andb_prop [Ne Nr]. eapply (quiet_bind (eval_link h e)); [by apply link_quiet, IHe|]. intros x Fx.
      rewrite (f_prim e _ Fx Ne). eapply (quiet_bind (ret _) _ (fun _ => True)); [by apply quiet_ret|]. intros u _.
      eapply (quiet_bind (eval_parts h r)); [by apply IHp|]. intros vs _. by apply quiet_ret.
  - done.
  - intros key e IHe r IH [_ [Ge G]]. destruct (IH G) as (IHl&IHm&IHp). split; [done|]. split; [|done].
    intros [Fe Fr]%andb_prop w0 o Y.
    change (quiet_from w0 (bind (named_as (Some key) e) (fun v => bind (define h o (str key) v) (fun _ => eval_members h o r))) (fun _ => True)).
    eapply (from_bind _ _ _ (fun _ => True)).
    + apply from_quiet. specialize (IHe Fe Ge).
      assert (quiet (eval h e) (fun _ => True)) as Q by (by eapply quiet_weaken).
      destruct e; try exact Q; cbn [named_as].
      * intros w. destruct (un_function _ _ _ U k (Some key) w) as (o'&w'&E&S). by exists (VObj o'), w'.
      * by destruct Ge.
    + intros v _. eapply (from_bind _ _ _ (fun _ => True)); [|intros _ _; by apply IHm].
      intros w S. destruct (un_define _ _ _ U w0 w o (str key) v S Y) as (w2&E&S2). by exists tt, w2.
  - done.
  - done.
  - intros key k r IH [_ G]. destruct (IH G) as (IHl&IHm&IHp). split; [done|]. split; [|done].
    intros F w0 o Y. eapply (from_bind _ (define_method h o key k) _ (fun _ => True)); [|intros _ _; by apply IHm].
    intros w S. destruct (un_method _ _ _ U w0 w o key k S Y) as (w2&E&S2). by exists tt, w2.
Qed.

Theorem free_has_no_effect e w :
  is_side_effect_free e = true -> everywhere no_object_converted (fun _ => True) e ->
  exists v w', eval h e w = (Ret v, w') /\ same w w'.
Proof. intros F N. destruct (proj1 free_quiet e F N w) as (v&w'&E&S&_). by exists v, w'. Qed.
End effects.
