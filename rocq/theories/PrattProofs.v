(** Lemmas about the parser: more fuel does not change a result, and the
    JavaScript parser never runs out of the fuel [parse_js] gives it. *)
From stdpp Require Import base decidable numbers list.
From Verif Require Import PrintModel PrattModel.

Lemma bind_mono {A B} (m m' : res A) (k k' : A -> res B) :
  (m <> OutOfFuel -> m' = m) ->
  (forall a, k a <> OutOfFuel -> k' a = k a) ->
  bind m k <> OutOfFuel -> bind m' k' = bind m k.
Proof.
  intros Hm Hk H. destruct m as [a| |]; cbn in *.
  - rewrite Hm by done. cbn. by apply Hk.
  - by rewrite Hm.
  - done.
Qed.

Definition mono_rel (n m : nat) : Prop :=
  (forall ts terms toks, operand n ts terms toks <> OutOfFuel ->
     operand m ts terms toks = operand n ts terms toks) /\
  (forall ts c toks, new_chain n ts c toks <> OutOfFuel ->
     new_chain m ts c toks = new_chain n ts c toks) /\
  (forall ts q terms toks, expr_min n ts q terms toks <> OutOfFuel ->
     expr_min m ts q terms toks = expr_min n ts q terms toks) /\
  (forall ts q terms l par toks, loop n ts q terms l par toks <> OutOfFuel ->
     loop m ts q terms l par toks = loop n ts q terms l par toks) /\
  (forall ts toks, call_args n ts toks <> OutOfFuel ->
     call_args m ts toks = call_args n ts toks) /\
  (forall ts toks, array_items n ts toks <> OutOfFuel ->
     array_items m ts toks = array_items n ts toks).

Ltac mono_step IH1 IH2 IH3 IH4 IH5 IH6 :=
  first
    [ reflexivity
    | apply IH1 | apply IH2 | apply IH3 | apply IH4 | apply IH5 | apply IH6
    | apply bind_mono;
      [ first [apply IH1 | apply IH2 | apply IH3 | apply IH4 | apply IH5 | apply IH6
              | intros _; reflexivity]
      | intros ? ]
    | match goal with
      | |- context [match ?x with _ => _ end] =>
          lazymatch x with
          | context [match _ with _ => _ end] => fail
          | _ => destruct x
          end
      end
    | intros _; reflexivity ].

Lemma mono n : forall m, n <= m -> mono_rel n m.
Proof.
  induction n as [|n IH]; intros m Hm.
  { repeat split; done. }
  destruct m as [|m]; [lia|].
  destruct (IH m ltac:(lia)) as (IH1 & IH2 & IH3 & IH4 & IH5 & IH6). clear IH Hm.
  unfold mono_rel. split; [|split; [|split; [|split; [|split]]]].
  - intros ts terms toks. cbn [operand]. 
    repeat mono_step IH1 IH2 IH3 IH4 IH5 IH6.
  - intros ts c toks. cbn [new_chain]. 
    repeat mono_step IH1 IH2 IH3 IH4 IH5 IH6.
  - intros ts q terms toks. cbn [expr_min]. 
    repeat mono_step IH1 IH2 IH3 IH4 IH5 IH6.
  - intros ts q terms l par toks. cbn [loop].
    repeat mono_step IH1 IH2 IH3 IH4 IH5 IH6.
  - intros ts toks. cbn [call_args].
    repeat mono_step IH1 IH2 IH3 IH4 IH5 IH6.
  - intros ts toks. cbn [array_items].
    repeat mono_step IH1 IH2 IH3 IH4 IH5 IH6.
Qed.

(** *** Termination of the JavaScript parser *)

Definition fin {A} (P : A -> Prop) (m : res A) : Prop :=
  match m with
  | Ok a => P a
  | Err => True
  | OutOfFuel => False
  end.

Lemma bind_fin {A B} (P : A -> Prop) (Q : B -> Prop) (m : res A) (k : A -> res B) :
  fin P m -> (forall a, P a -> fin Q (k a)) -> fin Q (bind m k).
Proof. destruct m; cbn; auto. Qed.

Lemma fin_weaken {A} (P Q : A -> Prop) (m : res A) :
  fin P m -> (forall a, P a -> Q a) -> fin Q m.
Proof. destruct m; cbn; auto. Qed.

Definition left3 (L : nat) (r : expr * bool * list token) : Prop :=
  length (snd r) <= L.
Definition left2 {A} (L : nat) (r : A * list token) : Prop := length (snd r) <= L.
Definition left1 (L : nat) (r : list token) : Prop := length r <= L.

Lemma consume_if_length t toks rest :
  consume_if t toks = Some rest -> length toks = S (length rest).
Proof. destruct toks as [|u toks]; cbn; [done|]. case_decide; [|done]. by intros [= ->]. Qed.

Lemma require_fin t toks L :
  length toks <= S L -> fin (left1 L) (require t toks).
Proof.
  intros H. unfold require. destruct (consume_if t toks) as [rest|] eqn:E; cbn; [|done].
  apply consume_if_length in E. unfold left1. lia.
Qed.

Lemma require_fin0 t toks L :
  length toks <= L -> fin (left1 L) (require t toks).
Proof.
  intros H. unfold require. destruct (consume_if t toks) as [rest|] eqn:E; cbn; [|done].
  apply consume_if_length in E. unfold left1. lia.
Qed.

Lemma take_spread_length toks : length (snd (take_spread toks)) <= length toks.
Proof.
  unfold take_spread. destruct (consume_if TDots toks) as [r|] eqn:E; cbn; [|lia].
  apply consume_if_length in E. lia.
Qed.

Lemma take_name_length toks m rest :
  take_name toks = Some (m, rest) -> length toks = S (length rest).
Proof. destruct toks as [|[]]; cbn; try done. by intros [= -> ->]. Qed.

Lemma take_type_length toks m rest :
  take_type toks = Some (m, rest) -> length toks = S (length rest).
Proof. destruct toks as [|[]]; cbn; try done. by intros [= -> ->]. Qed.

Lemma unary_op_length op toks : length (snd (unary_op op toks)) <= length toks.
Proof.
  destruct op; cbn [unary_op snd]; try lia.
  destruct (consume_if (TOp BMul) toks) as [r|] eqn:E; cbn; [|lia].
  apply consume_if_length in E. lia.
Qed.

Lemma link_of_length toks :
  match fst (link_of toks) with
  | LEnd => True
  | _ => length toks = S (length (snd (link_of toks)))
  end.
Proof. destruct toks as [|[]]; done. Qed.

Definition total_at (n : nat) : Prop :=
  (forall terms toks, 4 * length toks + 1 <= n ->
     fin (left3 (length toks - 1)) (operand n false terms toks)) /\
  (forall c toks, 4 * length toks + 1 <= n ->
     fin (left2 (length toks)) (new_chain n false c toks)) /\
  (forall q terms toks, 4 * length toks + 2 <= n ->
     fin (left3 (length toks - 1)) (expr_min n false q terms toks)) /\
  (forall q terms l par toks, 4 * length toks + 2 <= n ->
     fin (left3 (length toks)) (loop n false q terms l par toks)) /\
  (forall toks, 4 * length toks + 3 <= n ->
     fin (left2 (length toks)) (call_args n false toks)) /\
  (forall toks, 4 * length toks + 3 <= n ->
     fin (left2 (length toks)) (array_items n false toks)).

Lemma total n : total_at n.
Proof.
  induction n as [|n (IH1 & IH2 & IH3 & IH4 & IH5 & IH6)].
  { repeat split; intros; lia. }
  unfold total_at. split; [|split; [|split; [|split; [|split]]]].
  - intros terms toks H. cbn [operand]. destruct toks as [|t toks]; [done|].
    cbn [length] in *. replace (S (length toks) - 1) with (length toks) by lia.
    destruct (start_of t) as [e| | | |op|] eqn:E.
    + unfold fin, left3. cbn. lia.
    + destruct (consume_if TDot toks); [done|].
      eapply bind_fin; [apply IH1; lia|]. intros [[c b] r1] H1. unfold left3 in H1. cbn in H1.
      eapply bind_fin; [apply IH2; lia|]. intros [c2 r2] H2. unfold left2 in H2. cbn in H2.
      destruct (consume_if TLPar r2) as [r3|] eqn:E3; [|cbn; unfold left3; cbn; lia].
      apply consume_if_length in E3.
      eapply bind_fin; [apply IH5; lia|]. intros [args r4] H4. unfold left2 in H4. cbn in H4.
      eapply bind_fin; [apply (require_fin0 _ _ (length r4)); lia|]. intros r5 H5. unfold left1 in H5.
      cbn. unfold left3. cbn. lia.
    + eapply bind_fin; [apply IH6; lia|]. intros [c2 r2] H2. unfold left2 in H2. cbn in H2.
      eapply bind_fin; [apply (require_fin0 _ _ (length r2)); lia|]. intros r5 H5. unfold left1 in H5.
      cbn. unfold left3. cbn. lia.
    + eapply bind_fin; [apply IH3; lia|]. intros [[c b] r1] H1. unfold left3 in H1. cbn in H1.
      eapply bind_fin; [apply (require_fin0 _ _ (length r1)); lia|]. intros r5 H5. unfold left1 in H5.
      cbn. unfold left3. cbn. lia.
    + pose proof (unary_op_length op toks) as Hu. destruct (unary_op op toks) as [op' r0].
      cbn in Hu. destruct (has_operand op' terms r0).
      * eapply bind_fin; [apply IH3; lia|]. intros [[c b] r1] H1. unfold left3 in H1. cbn in H1.
        cbn. unfold left3. cbn. lia.
      * case_decide; [|done]. cbn. unfold left3. cbn. lia.
    + done.
  - intros c toks H. cbn [new_chain]. pose proof (link_of_length toks) as Hl.
    destruct (link_of toks) as [k rest]. cbn in Hl. destruct k as [opt|opt|].
    + destruct (take_name rest) as [[m r]|] eqn:E; [|done]. apply take_name_length in E.
      eapply fin_weaken; [apply IH2; lia|]. unfold left2. intros ? ?. lia.
    + eapply bind_fin; [apply IH3; lia|]. intros [[i b] r1] H1. unfold left3 in H1. cbn in H1.
      eapply bind_fin; [apply (require_fin0 _ _ (length r1)); lia|]. intros r5 H5. unfold left1 in H5.
      eapply fin_weaken; [apply IH2; lia|]. unfold left2. intros ? ?. lia.
    + cbn. unfold left2. cbn. lia.
  - intros q terms toks H. cbn [expr_min].
    destruct toks as [|t toks].
    { destruct n; [cbn in H; lia|]. done. }
    eapply bind_fin; [apply IH1; lia|]. intros [[i b] r1] H1. unfold left3 in H1. cbn in H1.
    destruct ((3 <? q) && bare_yield i b); [done|].
    eapply fin_weaken; [apply IH4; cbn [length] in *; lia|]. unfold left3. cbn [length]. intros ? ?. lia.
  - intros q terms l par toks H. cbn [loop]. destruct toks as [|t toks]; [done|].
    cbn [length] in *.
    destruct (is_term terms t); [cbn; unfold left3; cbn; lia|].
    assert (Hn : match follow_of false t toks with FNonNull | FAgain | FAs _ => False | _ => True end).
    { unfold follow_of. destruct t; cbn; done. }
    destruct (follow_of false t toks) as [d| | |k|m|]; try done.
    + destruct (postfix_prec <? q); [cbn; unfold left3; cbn; lia|].
      eapply fin_weaken; [apply IH4; lia|]. unfold left3. intros ? ?. lia.
    + destruct (multary_prec m <? q); [cbn; unfold left3; cbn; lia|].
      destruct (bare_yield l par && (3 <? multary_prec m)); [done|].
      destruct m as [op|opt|opt|opt|].
      * destruct (bool_decide (op = BExp) && bad_exp_base l par); [done|].
        destruct (is_assignment op && negb (good_target l par)); [done|].
        eapply bind_fin; [apply IH3; lia|]. intros [[i b] r1] H1. unfold left3 in H1. cbn in H1.
        eapply fin_weaken; [apply IH4; lia|]. unfold left3. intros ? ?. lia.
      * eapply bind_fin; [apply IH5; lia|]. intros [i r1] H1. unfold left2 in H1. cbn in H1.
        eapply bind_fin; [apply (require_fin0 _ _ (length r1)); lia|]. intros r5 H5. unfold left1 in H5.
        eapply fin_weaken; [apply IH4; lia|]. unfold left3. intros ? ?. lia.
      * eapply bind_fin; [apply IH3; lia|]. intros [[i b] r1] H1. unfold left3 in H1. cbn in H1.
        eapply bind_fin; [apply (require_fin0 _ _ (length r1)); lia|]. intros r5 H5. unfold left1 in H5.
        eapply fin_weaken; [apply IH4; lia|]. unfold left3. intros ? ?. lia.
      * destruct (take_name toks) as [[m r]|] eqn:E; [|done]. apply take_name_length in E.
        eapply fin_weaken; [apply IH4; lia|]. unfold left3. intros ? ?. lia.
      * eapply bind_fin; [apply IH3; lia|]. intros [[i b] r1] H1. unfold left3 in H1. cbn in H1.
        eapply bind_fin; [apply (require_fin0 _ _ (length r1)); lia|]. intros r5 H5. unfold left1 in H5.
        eapply bind_fin; [apply IH3; lia|]. intros [[i2 b2] r2] H2. unfold left3 in H2. cbn in H2.
        eapply fin_weaken; [apply IH4; lia|]. unfold left3. intros ? ?. lia.
  - intros toks H. cbn [call_args].
    destruct (consume_if TRPar toks); [cbn; unfold left2; cbn; lia|].
    pose proof (take_spread_length toks) as Hs. destruct (take_spread toks) as [sp rest]. cbn in Hs.
    eapply bind_fin; [apply IH3; lia|]. intros [[i b] r1] H1. unfold left3 in H1. cbn in H1.
    destruct (consume_if (TOp BComma) r1) as [r2|] eqn:E; [|cbn; unfold left2; cbn; lia].
    apply consume_if_length in E.
    eapply bind_fin; [apply IH5; lia|]. intros [i2 r3] H3. unfold left2 in H3. cbn in H3.
    cbn. unfold left2. cbn. lia.
  - intros toks H. cbn [array_items].
    destruct (consume_if (TOp BComma) toks) as [r0|] eqn:E0.
    { apply consume_if_length in E0.
      eapply bind_fin; [apply IH6; lia|]. intros [i2 r3] H3. unfold left2 in H3. cbn in H3.
      cbn. unfold left2. cbn. lia. }
    destruct (consume_if TRBr toks); [cbn; unfold left2; cbn; lia|].
    pose proof (take_spread_length toks) as Hs. destruct (take_spread toks) as [sp rest]. cbn in Hs.
    eapply bind_fin; [apply IH3; lia|]. intros [[i b] r1] H1. unfold left3 in H1. cbn in H1.
    destruct (consume_if TRBr r1); [cbn; unfold left2; cbn; lia|].
    unfold require. destruct (consume_if (TOp BComma) r1) as [r2|] eqn:E; [|done].
    apply consume_if_length in E. cbn [bind].
    eapply bind_fin; [apply IH6; lia|]. intros [i2 r3] H3. unfold left2 in H3. cbn in H3.
    cbn. unfold left2. cbn. lia.
Qed.

Lemma parse_js_total toks : parse_js toks <> OutOfFuel.
Proof.
  unfold parse_js, parse_with.
  destruct (total (4 * length toks + 8)) as (_ & _ & H & _).
  specialize (H 1 [TEnd] (toks ++ [TEnd])). rewrite app_length in H. cbn [length] in H.
  specialize (H ltac:(lia)).
  destruct (expr_min _ false 1 [TEnd] (toks ++ [TEnd])) as [[[e b] r]| |]; done.
Qed.

(** With any fuel that suffices, the answer is that of [parse_js]. *)
Lemma parse_js_fuel n toks :
  4 * length toks + 8 <= n -> parse_with n false toks = parse_js toks.
Proof.
  intros Hn. pose proof (parse_js_total toks) as Ht.
  destruct (mono _ _ Hn) as (_ & _ & M & _).
  unfold parse_js, parse_with in *. rewrite M; [done|].
  intros E. rewrite E in Ht. done.
Qed.

Lemma parse_js_complete n toks r :
  parse_with n false toks = Ok r -> parse_js toks = Ok r.
Proof.
  intros H. pose proof (parse_js_total toks) as Ht.
  unfold parse_js, parse_with in *. set (m := 4 * length toks + 8) in *.
  destruct (mono n (n `max` m) ltac:(lia)) as (_ & _ & M1 & _).
  destruct (mono m (n `max` m) ltac:(lia)) as (_ & _ & M2 & _).
  specialize (M1 false 1 [TEnd] (toks ++ [TEnd])).
  specialize (M2 false 1 [TEnd] (toks ++ [TEnd])).
  destruct (expr_min n false 1 [TEnd] (toks ++ [TEnd])) as [x| |]; try done.
  specialize (M1 ltac:(done)). rewrite M1 in M2.
  destruct (expr_min m false 1 [TEnd] (toks ++ [TEnd])) as [y| |]; try done.
  - specialize (M2 ltac:(done)). by injection M2 as ->.
  - by specialize (M2 ltac:(done)).
Qed.

(** *** The TypeScript parser does not end on [a! == b] *)

Lemma spins n q lhs par rest :
  forall u, u = TOp BAssign \/ u = TOp BEq ->
  loop n true q [TEnd] lhs par (TNot :: u :: rest) = OutOfFuel.
Proof.
  intros u Hu. revert lhs par. induction n as [|n IH]; intros lhs par; [done|].
  cbn [loop]. replace (is_term [TEnd] TNot) with false by done.
  unfold follow_of. rewrite decide_True by done. apply IH.
Qed.

Lemma parse_ts_spins n a u rest :
  u = TOp BAssign \/ u = TOp BEq ->
  parse_with n true (TId a :: TNot :: u :: rest) = OutOfFuel.
Proof.
  intros Hu. unfold parse_with. destruct n as [|[|n]]; [done|done|].
  cbn [app]. cbn [expr_min].
  change (operand (S n) true [TEnd] (TId a :: TNot :: u :: rest ++ [TEnd])) with
    (@Ok (expr * bool * list token) (EId a, false, TNot :: u :: rest ++ [TEnd])).
  cbn [bind]. cbn [bare_yield]. rewrite andb_false_r.
  by rewrite spins.
Qed.
