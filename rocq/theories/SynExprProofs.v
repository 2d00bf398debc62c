(** Facts about the expression parser the statement parser relies on. *)
From stdpp Require Import base decidable numbers sets list.
From Verif Require Import PrintModel PrattModel PrintSpec PrattProofs PrintProofs
  GrammarSpec GrammarProofs SynModel SynSpec.

Lemma bind_ok {A B} (m : res A) (k : A -> res B) r :
  bind m k = Ok r -> exists a, m = Ok a /\ k a = Ok r.
Proof. destruct m as [a| |]; cbn; try done. by exists a. Qed.

Ltac inv_bind H :=
  let a := fresh "a" in let E := fresh "E" in
  apply bind_ok in H as (a & E & H);
  cbn beta iota in H;
  repeat match type of H with (match ?p with pair _ _ => _ end) = _ =>
    is_var p; let x := fresh "x" in let y := fresh "y" in
    destruct p as [x y]; cbn beta iota in H
  end.

(** ** What the expression parser takes off the input is balanced *)

Definition ordinary (t : token) : bool :=
  match t with TStm _ | TEnd => false | _ => negb (opens t) && negb (closes t) end.

Inductive balanced : list token -> Prop :=
  | bal_nil : balanced []
  | bal_tok t c : ordinary t = true -> balanced c -> balanced (t :: c)
  | bal_pair o c1 k c2 :
      opens o = true -> closes k = true -> balanced c1 -> balanced c2 ->
      balanced (o :: c1 ++ k :: c2).

Lemma balanced_app c1 c2 : balanced c1 -> balanced c2 -> balanced (c1 ++ c2).
Proof.
  intros H1 H2. induction H1 as [|t c Ht Hc IH|o a k b Ho Hk Ha _ Hb IH]; [done| |].
  - by apply bal_tok.
  - cbn. rewrite <- app_assoc. cbn. by apply bal_pair.
Qed.

Definition eats (toks rest : list token) : Prop :=
  exists c, toks = c ++ rest /\ balanced c.

Lemma eats_refl toks : eats toks toks.
Proof. exists []. split; [done|constructor]. Qed.

Lemma eats_trans a b c : eats a b -> eats b c -> eats a c.
Proof.
  intros (x & -> & Hx) (y & -> & Hy). exists (x ++ y).
  split; [by rewrite app_assoc|by apply balanced_app].
Qed.

Lemma eats_tok t r r' : ordinary t = true -> eats r r' -> eats (t :: r) r'.
Proof. intros Ht (c & -> & Hc). exists (t :: c). split; [done|by apply bal_tok]. Qed.

Lemma eats_pair o k r r1 r2 :
  opens o = true -> closes k = true -> eats r (k :: r1) -> eats r1 r2 -> eats (o :: r) r2.
Proof.
  intros Ho Hk (c & -> & Hc) (d & -> & Hd). exists (o :: c ++ k :: d). split.
  - by rewrite <- app_comm_cons, <- app_assoc.
  - by apply bal_pair.
Qed.

Lemma require_ok t toks rest : require t toks = Ok rest -> toks = t :: rest.
Proof.
  unfold require, consume_if. destruct toks as [|u toks]; [done|].
  destruct (decide (u = t)) as [->|]; [|done]. by intros [= ->].
Qed.

Lemma consume_some t toks rest : consume_if t toks = Some rest -> toks = t :: rest.
Proof.
  unfold consume_if. destruct toks as [|u toks]; [done|].
  destruct (decide (u = t)) as [->|]; [|done]. by intros [= ->].
Qed.

Lemma take_name_some toks m rest : take_name toks = Some (m, rest) -> toks = TId m :: rest.
Proof. destruct toks as [|[] ?]; try done. by intros [= -> ->]. Qed.

Lemma take_spread_eats toks b rest : take_spread toks = (b, rest) -> eats toks rest.
Proof.
  unfold take_spread. destruct (consume_if TDots toks) as [r|] eqn:E; intros [= <- <-].
  - apply consume_some in E as ->. apply eats_tok; [done|apply eats_refl].
  - apply eats_refl.
Qed.

Lemma unary_op_eats op toks op' rest : unary_op op toks = (op', rest) -> eats toks rest.
Proof.
  unfold unary_op. intros H. destruct op; try (injection H as <- <-; apply eats_refl).
  destruct (consume_if (TOp BMul) toks) as [r|] eqn:E; injection H as <- <-.
  - apply consume_some in E as ->. apply eats_tok; [done|apply eats_refl].
  - apply eats_refl.
Qed.

Definition eats3 (toks : list token) (r : expr * bool * list token) : Prop := eats toks r.2.
Definition eats2 {A} (toks : list token) (r : A * list token) : Prop := eats toks r.2.

Definition eating_at (n : nat) : Prop :=
  (forall terms toks r, operand n false terms toks = Ok r -> eats3 toks r) /\
  (forall c toks r, new_chain n false c toks = Ok r -> eats2 toks r) /\
  (forall q terms toks r, expr_min n false q terms toks = Ok r -> eats3 toks r) /\
  (forall q terms l par toks r, loop n false q terms l par toks = Ok r -> eats3 toks r) /\
  (forall toks r, call_args n false toks = Ok r -> eats2 toks r) /\
  (forall toks r, array_items n false toks = Ok r -> eats2 toks r).

Lemma start_ordinary t :
  (forall e, start_of t = SName e -> ordinary t = true) /\
  (start_of t = SNew -> ordinary t = true) /\
  (forall op, start_of t = SUnary op -> ordinary t = true) /\
  (start_of t = SArray -> t = TLBr) /\ (start_of t = SGroup -> t = TLPar).
Proof. destruct t as [| | |op| | | | | | | | | | | | | | | | | | | | | | |]; try done. by destruct op. Qed.

Lemma eating n : eating_at n.
Proof.
  induction n as [|n (IH1 & IH2 & IH3 & IH4 & IH5 & IH6)]; [done|].
  unfold eating_at, eats3, eats2. split; [|split; [|split; [|split; [|split]]]].
  - intros terms toks r H. cbn [operand] in H. destruct toks as [|t toks]; [done|].
    destruct (start_ordinary t) as (S1 & S2 & S3 & S4 & S5).
    destruct (start_of t) as [e| | | |op|] eqn:E; [| | | | |done].
    + injection H as <-. cbn. apply eats_tok; [by eapply S1|apply eats_refl].
    + destruct (consume_if TDot toks); [done|].
      inv_bind H. apply IH1 in E0. inv_bind H. apply IH2 in E1.
      unfold eats3, eats2 in E0, E1. cbn [snd] in *.
      apply eats_tok; [by apply S2|]. eapply eats_trans; [done|]. eapply eats_trans; [done|].
      destruct (consume_if TLPar y1) as [r3|] eqn:E3.
      * apply consume_some in E3 as ->.
        inv_bind H. apply IH5 in E2. unfold eats2 in E2. cbn [snd] in E2.
        inv_bind H. apply require_ok in E3 as ->. injection H as <-. cbn [snd].
        by eapply (eats_pair TLPar TRPar); [..|apply eats_refl].
      * injection H as <-. apply eats_refl.
    + rewrite (S4 eq_refl). inv_bind H. apply IH6 in E0. unfold eats2 in E0. cbn [snd] in E0.
      inv_bind H. apply require_ok in E1 as ->. injection H as <-. cbn [snd].
      by eapply (eats_pair TLBr TRBr); [..|apply eats_refl].
    + rewrite (S5 eq_refl). inv_bind H. apply IH3 in E0. unfold eats3 in E0. cbn [snd] in E0.
      inv_bind H. apply require_ok in E1 as ->. injection H as <-. cbn [snd].
      by eapply (eats_pair TLPar TRPar); [..|apply eats_refl].
    + apply eats_tok; [by eapply S3|]. destruct (unary_op op toks) as [op' r1] eqn:Eu.
      apply unary_op_eats in Eu. eapply eats_trans; [done|].
      destruct (has_operand op' terms r1).
      * inv_bind H. apply IH3 in E0. injection H as <-. done.
      * destruct (decide (op' = UYield)); [|done]. injection H as <-. apply eats_refl.
  - intros c toks r H. cbn [new_chain] in H.
    assert (Hm : forall opt rest, (toks = TDot :: rest \/ toks = TQDot :: rest) ->
      match take_name rest with
      | Some (m, rest) => new_chain n false (EMember opt c m) rest
      | None => Err
      end = Ok r -> eats toks r.2).
    { intros opt rest Ht Hr. destruct (take_name rest) as [[m r1]|] eqn:E; [|done].
      apply take_name_some in E as ->. apply IH2 in Hr.
      destruct Ht as [-> | ->]; (apply eats_tok; [done|]); by apply eats_tok. }
    assert (Hi : forall opt rest, (toks = TLBr :: rest \/ toks = TQLBr :: rest) ->
      bind (expr_min n false 1 [TRBr] rest) (fun '(i, _, rest) =>
      bind (require TRBr rest) (fun rest => new_chain n false (EIndex opt c i) rest)) = Ok r ->
      eats toks r.2).
    { intros opt rest Ht Hr. inv_bind Hr. apply IH3 in E. inv_bind Hr.
      apply require_ok in E0 as ->. apply IH2 in Hr.
      destruct Ht as [-> | ->]; by eapply (eats_pair _ TRBr). }
    destruct toks as [|t toks]; [injection H as <-; apply eats_refl|].
    destruct t; cbn [link_of] in H; try (injection H as <-; apply eats_refl).
    + eapply Hi; [by left|done].
    + eapply Hi; [by right|done].
    + eapply Hm; [by left|done].
    + eapply Hm; [by right|done].
  - intros q terms toks r H. cbn [expr_min] in H. inv_bind H. apply IH1 in E.
    destruct ((3 <? q) && bare_yield x0 y0); [done|]. apply IH4 in H. by eapply eats_trans.
  - intros q terms l par toks r H. cbn [loop] in H. destruct toks as [|t toks]; [done|].
    destruct (is_term terms t); [injection H as <-; apply eats_refl|].
    assert (Hf : match follow_of false t toks with
      | FPostfix _ => ordinary t = true
      | FInfix (MBin _) | FInfix (MMember _) => ordinary t = true
      | FInfix _ => opens t = true
      | FNonNull | FAgain | FAs _ => False
      | FNone => True end) by (destruct t; done).
    destruct (follow_of false t toks) as [d| | | |m|]; [| | | | |done].
    + destruct (postfix_prec <? q); [injection H as <-; apply eats_refl|].
      apply IH4 in H. by apply eats_tok.
    + done.
    + done.
    + done.
    + destruct (multary_prec m <? q); [injection H as <-; apply eats_refl|].
      destruct (bare_yield l par && (3 <? multary_prec m)); [done|].
      destruct m as [op|opt|opt|opt|].
      * destruct (bool_decide (op = BExp) && bad_exp_base l par); [done|].
        destruct (is_assignment op && negb (good_target l par)); [done|].
        inv_bind H. apply IH3 in E. apply IH4 in H. apply eats_tok; [done|].
        by eapply eats_trans.
      * inv_bind H. apply IH5 in E. inv_bind H. apply require_ok in E0 as ->. apply IH4 in H.
        by eapply (eats_pair _ TRPar).
      * inv_bind H. apply IH3 in E. inv_bind H. apply require_ok in E0 as ->. apply IH4 in H.
        by eapply (eats_pair _ TRBr).
      * destruct (take_name toks) as [[m r1]|] eqn:E; [|done].
        apply take_name_some in E as ->. apply IH4 in H. apply eats_tok; [done|].
        by apply eats_tok.
      * inv_bind H. apply IH3 in E. inv_bind H. apply require_ok in E0 as ->.
        inv_bind H. apply IH3 in E0. apply IH4 in H.
        eapply (eats_pair _ TColon); [done|done|done|]. by eapply eats_trans.
  - intros toks r H. cbn [call_args] in H.
    destruct (consume_if TRPar toks); [injection H as <-; apply eats_refl|].
    destruct (take_spread toks) as [sp r1] eqn:Es. apply take_spread_eats in Es.
    eapply eats_trans; [done|]. inv_bind H. apply IH3 in E. eapply eats_trans; [done|].
    cbn [snd]. destruct (consume_if (TOp BComma) y) as [r2|] eqn:Ec.
    + apply consume_some in Ec as ->. inv_bind H. apply IH5 in E0. injection H as <-.
      by apply eats_tok.
    + injection H as <-. apply eats_refl.
  - intros toks r H. cbn [array_items] in H.
    destruct (consume_if (TOp BComma) toks) as [r1|] eqn:Ec.
    { apply consume_some in Ec as ->. inv_bind H. apply IH6 in E. injection H as <-.
      by apply eats_tok. }
    destruct (consume_if TRBr toks); [injection H as <-; apply eats_refl|].
    destruct (take_spread toks) as [sp r1] eqn:Es. apply take_spread_eats in Es.
    eapply eats_trans; [done|]. inv_bind H. apply IH3 in E. eapply eats_trans; [done|].
    cbn [snd]. destruct (consume_if TRBr y); [injection H as <-; apply eats_refl|].
    inv_bind H. apply require_ok in E0 as ->. inv_bind H. apply IH6 in E0.
    injection H as <-. by apply eats_tok.
Qed.

(** ** More terminators *)

Lemma sheltered_app d c r :
  balanced c -> sheltered d (c ++ r) = sheltered d c && sheltered d r.
Proof.
  intros H. revert d r.
  induction H as [|t c Ht Hc IH|o a k b Ho Hk Ha IHa Hb IHb]; intros d r; [done| |].
  - cbn [app sheltered].
    destruct (opens t) eqn:E1; [by destruct t|]. destruct (closes t) eqn:E2; [by destruct t|].
    rewrite IH. by rewrite andb_assoc.
  - cbn [app sheltered]. rewrite Ho, <- app_assoc, !IHa. cbn [app sheltered].
    assert (opens k = false) as -> by (by destruct k). rewrite Hk. cbn [Nat.pred].
    rewrite IHb. by rewrite andb_assoc.
Qed.

Lemma sheltered_deep d c : balanced c -> sheltered (S d) c = true.
Proof.
  intros H. revert d.
  induction H as [|t c Ht Hc IH|o a k b Ho Hk Ha IHa Hb IHb]; intros d; [done| |].
  - cbn [sheltered].
    destruct (opens t) eqn:E1; [by destruct t|]. destruct (closes t) eqn:E2; [by destruct t|].
    rewrite IH. by rewrite orb_true_r.
  - cbn [sheltered]. rewrite Ho, sheltered_app, IHa by done. cbn [sheltered].
    assert (opens k = false) as -> by (by destruct k). rewrite Hk. apply IHb.
Qed.

Definition shel (toks rest : list token) : Prop :=
  forall c, toks = c ++ rest -> sheltered 0 c = true.

Lemma shel_split a b c : eats a b -> eats b c -> shel a c -> shel a b /\ shel b c.
Proof.
  intros (x & -> & Hx) (y & -> & Hy) H.
  specialize (H (x ++ y) ltac:(by rewrite app_assoc)).
  rewrite sheltered_app in H by done. apply andb_prop in H as [H1 H2].
  split; intros z Hz; by apply app_inv_tail in Hz as <-.
Qed.

Lemma shel_tok t r r' :
  ordinary t = true -> eats r r' -> shel (t :: r) r' -> t <> TOp BIn /\ shel r r'.
Proof.
  intros Ht (x & -> & Hx) H. specialize (H (t :: x) eq_refl). cbn [sheltered] in H.
  destruct (opens t) eqn:E1; [by destruct t|]. destruct (closes t) eqn:E2; [by destruct t|].
  apply andb_prop in H as [H1 H2]. split.
  - intros ->. done.
  - intros z Hz. by apply app_inv_tail in Hz as <-.
Qed.

Lemma shel_pair o k r r1 r2 :
  opens o = true -> closes k = true -> eats r (k :: r1) -> eats r1 r2 ->
  shel (o :: r) r2 -> shel r1 r2.
Proof.
  intros Ho Hk (x & -> & Hx) (y & -> & Hy) H.
  specialize (H (o :: x ++ k :: y)
    ltac:(by rewrite <- app_comm_cons, <- app_assoc)).
  cbn [sheltered] in H. rewrite Ho, sheltered_app in H by done.
  apply andb_prop in H as [_ H]. cbn [sheltered] in H.
  assert (opens k = false) as Hok by (by destruct k). rewrite Hok, Hk in H.
  intros z Hz. by apply app_inv_tail in Hz as <-.
Qed.

Section terms.
  Context (T T' : list token).
  Hypothesis Tsub : forall t, is_term T t = true -> is_term T' t = true.
  Hypothesis Tsup : forall t, is_term T' t = true ->
    is_term T t = true \/ t = TOp BIn \/ t = TStm WOf.

  Definition more_at (n : nat) : Prop :=
    (forall toks r, operand n false T toks = Ok r -> shel toks r.2 ->
       operand n false T' toks = Ok r) /\
    (forall q toks r, expr_min n false q T toks = Ok r -> shel toks r.2 ->
       expr_min n false q T' toks = Ok r) /\
    (forall q l par toks r, loop n false q T l par toks = Ok r -> shel toks r.2 ->
       loop n false q T' l par toks = Ok r).

  Lemma more_terms n : more_at n.
  Proof.
    induction n as [|n (IH1 & IH3 & IH4)]; [done|].
    destruct (eating n) as (X1 & X2 & X3 & X4 & X5 & X6).
    unfold eats3, eats2 in *.
    unfold more_at. split; [|split].
    - intros toks r H Hs. cbn [operand] in *. destruct toks as [|t toks]; [done|].
      destruct (start_ordinary t) as (S1 & S2 & S3 & S4 & S5).
      destruct (start_of t) as [e| | | |op|] eqn:E; try done.
      + destruct (consume_if TDot toks); [done|].
        inv_bind H. inv_bind H. 
        assert (Hr : eats y1 r.2).
        { destruct (consume_if TLPar y1) as [r3|] eqn:E3.
          - apply consume_some in E3 as ->.
            inv_bind H. apply X5 in E2. cbn [snd] in E2.
            inv_bind H. apply require_ok in E3 as ->. injection H as <-. cbn [snd].
            by eapply (eats_pair TLPar TRPar); [..|apply eats_refl].
          - injection H as <-. apply eats_refl. }
        pose proof (X1 _ _ _ E0) as Y1. pose proof (X2 _ _ _ E1) as Y2. cbn [snd] in *.
        apply shel_tok in Hs as [_ Hs]; [|by apply S2|by eapply eats_trans, eats_trans].
        eapply (shel_split _ y) in Hs as [Hs _]; [|done|by eapply eats_trans].
        rewrite (IH1 _ _ E0 Hs). cbn [bind]. rewrite E1. cbn [bind]. done.
      + destruct (unary_op op toks) as [op' r1] eqn:Eu.
        pose proof (unary_op_eats _ _ _ _ Eu) as Y1.
        assert (Hh : has_operand op' T' r1 = has_operand op' T r1).
        { unfold has_operand. destruct r1 as [|u r1]; [done|].
          assert (Hu : negb (is_term T' u) && starts_operand u
                     = negb (is_term T u) && starts_operand u).
          { destruct (starts_operand u) eqn:Es; [|by rewrite !andb_false_r].
            f_equal. f_equal. destruct (is_term T u) eqn:E1; [by apply Tsub|].
            destruct (is_term T' u) eqn:E2; [|done].
            apply Tsup in E2 as [E2|[-> | ->]]; [congruence|done|done]. }
          by destruct op'. }
        rewrite Hh. destruct (has_operand op' T r1); [|done].
        inv_bind H. injection H as <-. cbn [snd] in Hs.
        pose proof (X3 _ _ _ _ E0) as Y3. cbn [snd] in Y3.
        apply shel_tok in Hs as [_ Hs]; [|by eapply S3|by eapply eats_trans].
        eapply shel_split in Hs as [_ Hs]; [|done|done].
        by rewrite (IH3 _ _ _ E0 Hs).
    - intros q toks r H Hs. cbn [expr_min] in *. inv_bind H.
      pose proof (X1 _ _ _ E) as Y1. cbn [snd] in Y1.
      destruct ((3 <? q) && bare_yield x0 y0) eqn:Eb; [done|].
      pose proof (X4 _ _ _ _ _ _ H) as Y4.
      eapply shel_split in Hs as [Hs1 Hs2]; [|done|done].
      rewrite (IH1 _ _ E Hs1). cbn [bind]. rewrite Eb. by apply IH4.
    - intros q l par toks r H Hs. cbn [loop] in *. destruct toks as [|t toks]; [done|].
      destruct (is_term T t) eqn:Et.
      { by rewrite (Tsub _ Et). }
      assert (Hf : match follow_of false t toks with
        | FPostfix _ => ordinary t = true
        | FInfix (MBin _) | FInfix (MMember _) => ordinary t = true
        | FInfix _ => opens t = true
        | FNonNull | FAgain | FAs _ => False
        | FNone => True end) by (destruct t; done).
      (* [in], the only new terminator that could have been an operator *)
      assert (Ht' : is_term T' t = false \/
        (t = TOp BIn /\ 11 < q)).
      { destruct (is_term T' t) eqn:E'; [|by left].
        apply Tsup in E' as [E'|[-> | ->]]; [congruence| |done]. right. split; [done|].
        cbn [follow_of multary_of multary_prec bin_prec] in H.
        destruct (11 <? q) eqn:Eq; [by apply Nat.ltb_lt|]. exfalso.
        destruct (bare_yield l par && (3 <? 11)); [done|]. cbn in H.
        inv_bind H. pose proof (X3 _ _ _ _ E) as Y3. pose proof (X4 _ _ _ _ _ _ H) as Y4.
        apply shel_tok in Hs as [Hs _]; [done|done|by eapply eats_trans]. }
      destruct Ht' as [-> | [-> Hq]].
      2:{ cbn [follow_of multary_of multary_prec bin_prec] in H.
          apply Nat.ltb_lt in Hq. rewrite Hq in H. cbn [follow_of multary_of multary_prec bin_prec].
          rewrite Hq. by destruct (is_term T' (TOp BIn)). }
      destruct (follow_of false t toks) as [d| | | |m|]; try done.
      + destruct (postfix_prec <? q); [done|]. pose proof (X4 _ _ _ _ _ _ H) as Y4.
        apply shel_tok in Hs as [_ Hs]; [|done|done]. by apply IH4.
      + destruct (multary_prec m <? q); [done|].
        destruct (bare_yield l par && (3 <? multary_prec m)); [done|].
        destruct m as [op|opt|opt|opt|].
        * destruct (bool_decide (op = BExp) && bad_exp_base l par); [done|].
          destruct (is_assignment op && negb (good_target l par)); [done|].
          inv_bind H. pose proof (X3 _ _ _ _ E) as Y3. pose proof (X4 _ _ _ _ _ _ H) as Y4.
          apply shel_tok in Hs as [_ Hs]; [|done|by eapply eats_trans].
          eapply shel_split in Hs as [Hs1 Hs2]; [|done|done].
          rewrite (IH3 _ _ _ E Hs1). cbn [bind]. by apply IH4.
        * inv_bind H. pose proof (X5 _ _ E) as Y. inv_bind H.
          pose proof (require_ok _ _ _ E0) as ->. pose proof (X4 _ _ _ _ _ _ H) as Y4.
          rewrite E. cbn [bind]. cbn [snd] in *. rewrite E0. cbn [bind]. apply IH4; [done|].
          by eapply (shel_pair t TRPar).
        * inv_bind H. pose proof (X3 _ _ _ _ E) as Y. inv_bind H.
          pose proof (require_ok _ _ _ E0) as ->. pose proof (X4 _ _ _ _ _ _ H) as Y4.
          rewrite E. cbn [bind]. cbn [snd] in *. rewrite E0. cbn [bind]. apply IH4; [done|].
          by eapply (shel_pair t TRBr).
        * destruct (take_name toks) as [[m r1]|] eqn:E; [|done].
          apply take_name_some in E as ->. pose proof (X4 _ _ _ _ _ _ H) as Y4.
          apply shel_tok in Hs as [_ Hs]; [|done|by apply eats_tok].
          apply shel_tok in Hs as [_ Hs]; [|done|done]. by apply IH4.
        * inv_bind H. pose proof (X3 _ _ _ _ E) as Y. inv_bind H.
          pose proof (require_ok _ _ _ E0) as ->.
          inv_bind H. pose proof (X3 _ _ _ _ E1) as Y3.
          pose proof (X4 _ _ _ _ _ _ H) as Y4. cbn [snd] in *.
          rewrite E. cbn [bind]. rewrite E0. cbn [bind].
          eapply (shel_pair t TColon) in Hs; [|done|done|done|by eapply eats_trans].
          eapply shel_split in Hs as [Hs1 Hs2]; [|done|done].
          rewrite (IH3 _ _ _ E1 Hs1). cbn [bind]. by apply IH4.
  Qed.
End terms.

(** ** Reading a phrase *)

Lemma expression_of terms toks e par rest :
  pe false 1 terms toks (e, par, rest) -> expression terms toks = Ok (e, rest) /\
  expr_min (4 * length toks + 8) false 1 terms toks = Ok (e, par, rest).
Proof.
  intros [n H]. set (m := 4 * length toks + 8).
  destruct (total m) as (_ & _ & Ht & _). specialize (Ht 1 terms toks ltac:(lia)).
  destruct (mono n (n `max` m) ltac:(lia)) as (_ & _ & M1 & _).
  destruct (mono m (n `max` m) ltac:(lia)) as (_ & _ & M2 & _).
  specialize (M1 false 1 terms toks). specialize (M2 false 1 terms toks).
  rewrite H in M1. specialize (M1 ltac:(done)). rewrite M1 in M2.
  assert (E : expr_min m false 1 terms toks = Ok (e, par, rest)).
  { destruct (expr_min m false 1 terms toks) as [y| |]; [|by specialize (M2 ltac:(done))|done].
    specialize (M2 ltac:(done)). by injection M2 as <-. }
  unfold expression. fold m. rewrite E. done.
Qed.

Lemma expression_fin terms toks : fin (left2 (length toks - 1)) (expression terms toks).
Proof.
  unfold expression. destruct (total (4 * length toks + 8)) as (_ & _ & H & _).
  specialize (H 1 terms toks ltac:(lia)).
  by destruct (expr_min _ false 1 terms toks) as [[[e b] r]| |].
Qed.

Lemma phrase_heads n ts e : phrase false n ts e -> heads ts.
Proof. intros H. by apply (proj1 grammar_read) in H as [H _]. Qed.

Lemma phrase_balanced n ts e : phrase false n ts e -> balanced ts.
Proof.
  intros H. apply (proj1 grammar_read) in H.
  destruct (G_until n ts e TEnd [] H ltac:(set_solver)) as (par & m & Hm).
  destruct (eating m) as (_ & _ & He & _). apply He in Hm as (c & Hc & Hb).
  cbn in Hc. apply app_inv_tail in Hc as ->. done.
Qed.

Lemma read_expr ts e terms t rest :
  phrase false Expression ts e -> terms_ok terms -> TOp BComma ∉ terms -> t ∈ terms ->
  expression terms (ts ++ t :: rest) = Ok (e, t :: rest).
Proof.
  intros H Ht Hc Hin. apply (proj1 grammar_read) in H as (_ & (par & _ & _ & _ & HR) & _).
  assert (Hterm : is_term terms t = true) by (by apply bool_decide_eq_true).
  apply (expression_of terms (ts ++ t :: rest) e par (t :: rest)). 
  apply HR; [done|cbn; lia|done|by left|]. apply loop_stop; [lia|]. by left.
Qed.

Lemma read_assign_pe ts e terms t rest :
  phrase false AssignmentExpression ts e -> terms_ok terms -> t ∈ terms ->
  exists par, pe false 1 terms (ts ++ t :: rest) (e, par, t :: rest).
Proof.
  intros H Ht Hin. apply (proj1 grammar_read) in H as (_ & (par & _ & _ & _ & HR) & _).
  assert (Hterm : is_term terms t = true) by (by apply bool_decide_eq_true).
  exists par. 
  apply HR; [done|cbn; lia|done|by left|]. apply loop_stop; [lia|]. by left.
Qed.

Lemma read_assign ts e terms t rest :
  phrase false AssignmentExpression ts e -> terms_ok terms -> t ∈ terms ->
  expression terms (ts ++ t :: rest) = Ok (e, t :: rest).
Proof.
  intros H Ht Hin. destruct (read_assign_pe ts e terms t rest H Ht Hin) as [par Hp].
  by apply expression_of in Hp as [Hp _].
Qed.

Lemma read_header ts e t rest :
  phrase false AssignmentExpression ts e -> sheltered 0 ts = true ->
  t ∈ [TStm WSemi; TOp BComma] ->
  expression (decl_terms true) (ts ++ t :: rest) = Ok (e, t :: rest).
Proof.
  intros H Hs Hin.
  destruct (read_assign_pe ts e [TStm WSemi; TOp BComma] t rest H) as (par & n & Hn); [|done|].
  { apply terms_ok_2; set_solver. }
  apply (expression_of _ _ e par). exists n.
  destruct (more_terms [TStm WSemi; TOp BComma] (decl_terms true)) with (n := n) as (_ & M & _).
  - intros u Hu. apply bool_decide_eq_true in Hu. apply bool_decide_eq_true. set_solver.
  - intros u Hu. apply bool_decide_eq_true in Hu. unfold is_term. rewrite bool_decide_eq_true.
    set_solver.
  - apply M; [done|]. intros c Hc. cbn in Hc. by apply app_inv_tail in Hc as <-.
Qed.

Lemma balanced_words c : balanced c -> forall t, t ∈ c -> (forall w, t <> TStm w) /\ t <> TEnd.
Proof.
  induction 1 as [|u c Hu Hc IH|o a k b Ho Hk Ha IHa Hb IHb]; intros t Ht.
  - by apply elem_of_nil in Ht.
  - apply elem_of_cons in Ht as [->|Ht]; [by destruct u|by apply IH].
  - apply elem_of_cons in Ht as [->|Ht]; [by destruct o|].
    apply elem_of_app in Ht as [Ht|Ht]; [by apply IHa|].
    apply elem_of_cons in Ht as [->|Ht]; [by destruct k|by apply IHb].
Qed.

(** The look-ahead for [in] and [of] finds none after an expression that ends at
    a semicolon. *)
Lemma no_in_ahead ts e rest e' r :
  phrase false Expression ts e -> sheltered 0 ts = true ->
  expression [TOp BIn; TStm WOf] (ts ++ TStm WSemi :: rest) = Ok (e', r) ->
  kind_at r = KTriple.
Proof.
  intros H Hs He. pose proof (phrase_balanced _ _ _ H) as Hb.
  unfold expression in He. inv_bind He. injection He as -> ->.
  match goal with E : expr_min ?m _ _ _ _ = _ |- _ =>
    destruct (eating m) as (_ & _ & Hm & _); apply Hm in E as (c & Hc & Hbc) end.
  cbn [snd] in Hc.
  assert (Hu : exists u, ts = c ++ u /\ r = u ++ TStm WSemi :: rest).
  { apply app_eq_app in Hc as (u & [[H1 H2]|[H1 H2]]).
    - by exists u.
    - destruct u as [|t u].
      + rewrite app_nil_r in H1. subst c. exists []. by rewrite app_nil_r.
      + injection H2 as <- H2. exfalso. subst c.
        destruct (balanced_words _ Hbc (TStm WSemi)) as [Hw _]; [set_solver|].
        by apply (Hw WSemi). }
  destruct Hu as (u & -> & ->). rewrite sheltered_app in Hs by done.
  apply andb_prop in Hs as [_ Hs]. destruct u as [|t u]; [done|].
  cbn [app]. destruct t as [| | |op| | | | | | | | | | | | | | | | | | | | | |w|]; try done.
  - by destruct op.
  - exfalso. destruct (balanced_words _ Hb (TStm w)) as [Hw _]; [set_solver|].
    by apply (Hw w).
Qed.
