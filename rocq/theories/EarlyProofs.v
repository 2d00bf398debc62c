(** The parser refuses illegal assignment targets and bases of [**]. *)
From stdpp Require Import base decidable numbers sets list.
From Coq Require Import Lia.
From Verif Require Import PrintModel PrattModel GrammarSpec EarlySpec.

Definition okp {A} (P : A -> Prop) (m : res A) : Prop := match m with Ok a => P a | _ => True end.
Lemma bind_okp {A B} (P : A -> Prop) (Q : B -> Prop) (m : res A) (k : A -> res B) : okp P m -> (forall a, P a -> okp Q (k a)) -> okp Q (bind m k).
Proof. destruct m; cbn; auto. Qed.

Section early.
  Context (np : bool).
  Definition fine (op : binop) (l : expr) : Prop := (op ∈ assignment_operators -> reference l) /\ (np = true -> op = BExp -> ~ unary_expression l).
  Definition clean (toks : list token) : Prop := np = true -> TLPar ∉ toks.
  Definition flat (par : bool) : Prop := np = true -> par = false.
  Definition res3 (r : expr * bool * list token) : Prop := every_infix fine r.1.1 /\ flat r.1.2 /\ clean r.2.
  Definition res2 (r : expr * list token) : Prop := every_infix fine r.1 /\ clean r.2.
  Definition resi (r : items * list token) : Prop := every_infix_of fine r.1 /\ clean r.2.
  Lemma clean_tail t toks : clean (t :: toks) -> clean toks.
  Proof. intros H Hn Hi. apply (H Hn). by constructor. Qed.
  Lemma consume_clean t toks rest : consume_if t toks = Some rest -> clean toks -> clean rest.
  Proof. destruct toks as [|u toks]; cbn; [done|]. case_decide; [|done]. intros [= ->]. apply clean_tail. Qed.
  Lemma require_clean t toks : clean toks -> okp clean (require t toks).
  Proof. intros H. unfold require. destruct (consume_if t toks) as [r|] eqn:E; cbn; [|done]. by eapply consume_clean. Qed.
  Lemma spread_clean toks : clean toks -> clean (take_spread toks).2.
  Proof. intros H. unfold take_spread. destruct (consume_if TDots toks) as [r|] eqn:E; cbn; [|done]. by eapply consume_clean. Qed.
  Lemma name_clean toks m rest : take_name toks = Some (m, rest) -> clean toks -> clean rest.
  Proof. destruct toks as [|[]]; cbn; try done. intros [= -> ->]. apply clean_tail. Qed.
  Lemma type_clean toks m rest : take_type toks = Some (m, rest) -> clean toks -> clean rest.
  Proof. destruct toks as [|[]]; cbn; try done. intros [= -> ->]. apply clean_tail. Qed.
  Lemma unary_clean op toks : clean toks -> clean (unary_op op toks).2.
  Proof. intros H. destruct op; cbn; try done. destruct (consume_if _ _) as [r|] eqn:E; cbn; [|done]. by eapply consume_clean. Qed.
  Lemma link_clean toks : clean toks -> clean (link_of toks).2.
  Proof. intros H. destruct toks as [|[]]; cbn; try done; by apply clean_tail in H. Qed.
  Lemma group_par t : start_of t = SGroup -> t = TLPar.
  Proof. by destruct t as [| | |[]| | | | | | | | | | | | | | | | | | | | | | |]. Qed.
  Lemma fine_intro op l par : bool_decide (op = BExp) && bad_exp_base l par = false -> is_assignment op && negb (good_target l par) = false -> flat par -> fine op l.
  Proof.
    intros H1 H2 Hp. split.
    - intros Ho. assert (Ha : is_assignment op = true) by (unfold assignment_operators in Ho; repeat (apply elem_of_cons in Ho as [->|Ho]; [done|]); by apply elem_of_nil in Ho). rewrite Ha in H2. cbn in H2. apply negb_false_iff in H2.
      destruct l as [| | | | | | | |[]|[]| | |]; cbn in H2; try done; constructor.
    - intros Hn -> (o & x & Ho & ->). rewrite bool_decide_eq_true_2 in H1 by done. cbn [andb] in H1. rewrite (Hp Hn) in H1.
      repeat (apply elem_of_cons in Ho as [->|Ho]; [by cbn in H1|]). by apply elem_of_nil in Ho.
  Qed.
  Definition early_at (n : nat) : Prop :=
    (forall ts terms toks, clean toks -> okp res3 (operand n ts terms toks)) /\
    (forall ts c toks, every_infix fine c -> clean toks -> okp res2 (new_chain n ts c toks)) /\
    (forall ts q terms toks, clean toks -> okp res3 (expr_min n ts q terms toks)) /\
    (forall ts q terms l par toks, every_infix fine l -> flat par -> clean toks -> okp res3 (loop n ts q terms l par toks)) /\
    (forall ts toks, clean toks -> okp resi (call_args n ts toks)) /\
    (forall ts toks, clean toks -> okp resi (array_items n ts toks)).
  Lemma flat_false : flat false.
  Proof. by intros _. Qed.
  Lemma early n : early_at n.
  Proof.
    pose proof flat_false as Ff. induction n as [|n (IH1 & IH2 & IH3 & IH4 & IH5 & IH6)]; [by repeat split|].
    split; [|split; [|split; [|split; [|split]]]].
    - intros ts terms toks H. cbn [operand]. destruct toks as [|t toks]; [done|]. pose proof (clean_tail _ _ H) as H'. destruct (start_of t) as [e| | | |op|] eqn:E.
      + cbn. split; [|done]. cbn. destruct t as [| | |[]| | | | | | | | | | | | | | | | | | | | | | |]; cbn in E; try done; by injection E as <-.
      + destruct (consume_if TDot toks); [done|]. eapply bind_okp; [by apply IH1|]. intros [[c b] r1] (A1 & _ & A3). eapply bind_okp; [by apply IH2|]. intros [c2 r2] (B1 & B2). cbn in *.
        destruct (consume_if TLPar r2) as [r3|] eqn:E3; [|done]. eapply bind_okp; [apply IH5; by eapply consume_clean|]. intros [its r4] (C1 & C2). eapply bind_okp; [by apply require_clean|]. intros r5 D. done.
      + eapply bind_okp; [by apply IH6|]. intros [its r4] (C1 & C2). eapply bind_okp; [by apply require_clean|]. intros r5 D. done.
      + eapply bind_okp; [by apply IH3|]. intros [[e b] r1] (A1 & _ & A3). eapply bind_okp; [by apply require_clean|]. intros r5 D. split; [done|]. split; [|done]. intros Hn. destruct (H Hn). apply group_par in E as ->. constructor.
      + pose proof (unary_clean op toks H') as Hu. destruct (unary_op op toks) as [op' r0]. cbn in Hu. destruct (has_operand op' terms r0).
        * eapply bind_okp; [by apply IH3|]. intros [[e b] r1] (A1 & _ & A3). done.
        * case_decide; done.
      + done.
    - intros ts c toks Hc H. cbn [new_chain]. pose proof (link_clean toks H) as Hl. destruct (link_of toks) as [k rest]. cbn in Hl. destruct k as [opt|opt|].
      + destruct (take_name rest) as [[m r]|] eqn:E; [|done]. apply IH2; [done|by eapply name_clean].
      + eapply bind_okp; [by apply IH3|]. intros [[e b] r1] (A1 & _ & A3). eapply bind_okp; [by apply require_clean|]. intros r5 D. by apply IH2.
      + done.
    - intros ts q terms toks H. cbn [expr_min]. eapply bind_okp; [by apply IH1|]. intros [[e b] r1] (A1 & A2 & A3). destruct (_ && _); [done|]. by apply IH4.
    - intros ts q terms l par toks Hl Hp H. cbn [loop]. destruct toks as [|t toks]; [done|]. pose proof (clean_tail _ _ H) as H'. destruct (is_term terms t); [done|].
      destruct (follow_of ts t toks) as [d| | |k|m|].
      + destruct (_ <? _); [done|]. by apply IH4.
      + by apply IH4.
      + by apply IH4.
      + destruct (take_type toks) as [[ty r]|] eqn:E; [|done]. apply IH4; [done|done|by eapply type_clean].
      + destruct (_ <? _); [done|]. destruct (_ && _); [done|]. destruct m as [op|opt|opt|opt|].
        * destruct (bool_decide (op = BExp) && bad_exp_base l par) eqn:E1; [done|]. destruct (is_assignment op && negb (good_target l par)) eqn:E2; [done|].
          eapply bind_okp; [by apply IH3|]. intros [[e b] r1] (A1 & _ & A3). apply IH4; [|done|done]. split; [by eapply fine_intro|done].
        * eapply bind_okp; [by apply IH5|]. intros [its r4] (C1 & C2). eapply bind_okp; [by apply require_clean|]. intros r5 D. by apply IH4.
        * eapply bind_okp; [by apply IH3|]. intros [[e b] r1] (A1 & _ & A3). eapply bind_okp; [by apply require_clean|]. intros r5 D. by apply IH4.
        * destruct (take_name toks) as [[m r]|] eqn:E; [|done]. apply IH4; [done|done|by eapply name_clean].
        * eapply bind_okp; [by apply IH3|]. intros [[e b] r1] (A1 & _ & A3). eapply bind_okp; [by apply require_clean|]. intros r5 D. eapply bind_okp; [by apply IH3|]. intros [[e2 b2] r2] (B1 & _ & B3). by apply IH4.
      + done.
    - intros ts toks H. cbn [call_args]. destruct (consume_if TRPar toks); [done|]. pose proof (spread_clean toks H) as Hs. destruct (take_spread toks) as [sp rest]. cbn in Hs.
      eapply bind_okp; [by apply IH3|]. intros [[e b] r1] (A1 & _ & A3). cbn in A3. destruct (consume_if (TOp BComma) r1) as [r2|] eqn:E; [|done]. eapply bind_okp; [apply IH5; by eapply consume_clean|]. intros [its r4] (C1 & C2). done.
    - intros ts toks H. cbn [array_items]. destruct (consume_if (TOp BComma) toks) as [r2|] eqn:E.
      + eapply bind_okp; [apply IH6; by eapply consume_clean|]. intros [its r4] (C1 & C2). done.
      + destruct (consume_if TRBr toks); [done|]. pose proof (spread_clean toks H) as Hs. destruct (take_spread toks) as [sp rest]. cbn in Hs.
        eapply bind_okp; [by apply IH3|]. intros [[e b] r1] (A1 & _ & A3). destruct (consume_if TRBr r1); [done|]. eapply bind_okp; [by apply require_clean|]. intros r5 D. eapply bind_okp; [by apply IH6|]. intros [its r4] (C1 & C2). done.
  Qed.
  Lemma early_parse n ts toks e rest : clean toks -> parse_with n ts toks = Ok (e, rest) -> every_infix fine e.
  Proof.
    intros H Hp. unfold parse_with in Hp. destruct (early n) as (_ & _ & IH & _). specialize (IH ts 1%nat [TEnd] (toks ++ [TEnd])). destruct (expr_min n ts 1 [TEnd] (toks ++ [TEnd])) as [[[e1 b] r]| |]; cbn in Hp; try done. injection Hp as <- <-.
    apply IH. intros Hn [Hi|Hi]%elem_of_app; [by apply (H Hn)|]. by apply elem_of_list_singleton in Hi.
  Qed.
  Lemma every_infix_weaken (P : binop -> expr -> Prop) : (forall op l, fine op l -> P op l) -> forall e, every_infix fine e -> every_infix P e.
  Proof.
    intros HP. fix IH 1. assert (IHi : forall its, every_infix_of fine its -> every_infix_of P its).
    { fix IHi 1. intros [|its|b e its]; cbn; [done|apply IHi|]. intros [A B]. split; [by apply IH|by apply IHi]. }
    intros [| |o e|e|d e|op l r|t c a|o f its|o e x|o e i|its|s e ty|e]; cbn; try done; try apply IH; try apply IHi.
    - intros (A & B & C). split; [by apply HP|]. split; by apply IH.
    - intros (A & B & C). split; [by apply IH|]. split; by apply IH.
    - intros (A & B). split; [by apply IH|by apply IHi].
    - intros (A & B). split; by apply IH.
  Qed.
End early.
