(** Proofs about the statement parser. *)
From stdpp Require Import base decidable numbers sets list.
From Verif Require Import PrintModel PrattModel PrintSpec PrattProofs PrintProofs
  GrammarSpec GrammarProofs GrammarPrintSpec SynModel SynSpec SynExprProofs.

(** ** Fuel *)

Definition smono_rel (n m : nat) : Prop :=
  (forall toks, statement n toks <> OutOfFuel -> statement m toks = statement n toks) /\
  (forall ends toks, statements n ends toks <> OutOfFuel ->
     statements m ends toks = statements n ends toks) /\
  (forall toks, block n toks <> OutOfFuel -> block m toks = block n toks) /\
  (forall toks, for_body n toks <> OutOfFuel -> for_body m toks = for_body n toks) /\
  (forall toks, switch_cases n toks <> OutOfFuel -> switch_cases m toks = switch_cases n toks).

Ltac smono_step IH1 IH2 IH3 IH4 IH5 :=
  first
    [ reflexivity
    | apply IH1 | apply IH2 | apply IH3 | apply IH4 | apply IH5
    | apply bind_mono;
      [ first [apply IH1 | apply IH2 | apply IH3 | apply IH4 | apply IH5
              | intros _; reflexivity]
      | intros ? ]
    | match goal with
      | |- context [match ?x with _ => _ end] =>
          lazymatch x with
          | context [match _ with _ => _ end] => fail
          | _ => destruct x
          end
      end
    | intros _; reflexivity ].

Lemma smono n : forall m, n <= m -> smono_rel n m.
Proof.
  induction n as [|n IH]; intros m Hm.
  { repeat split; done. }
  destruct m as [|m]; [lia|].
  destruct (IH m ltac:(lia)) as (IH1 & IH2 & IH3 & IH4 & IH5). clear IH Hm.
  unfold smono_rel. split; [|split; [|split; [|split]]].
  - intros toks. cbn [statement]. repeat smono_step IH1 IH2 IH3 IH4 IH5.
  - intros ends toks. cbn [statements]. repeat smono_step IH1 IH2 IH3 IH4 IH5.
  - intros toks. cbn [block]. repeat smono_step IH1 IH2 IH3 IH4 IH5.
  - intros toks. cbn [for_body]. repeat smono_step IH1 IH2 IH3 IH4 IH5.
  - intros toks. cbn [switch_cases]. repeat smono_step IH1 IH2 IH3 IH4 IH5.
Qed.

(** Every loop consumes input. *)
Lemma end_stmt_fin toks : fin (left1 (length toks)) (end_stmt toks).
Proof.
  unfold end_stmt. destruct toks as [|[| | | | | | | | | | | | | | | | | | | | | | | | |w|] toks]; try done.
  - destruct w; try done; unfold fin, left1; cbn; lia.
  - unfold fin, left1; cbn; lia.
Qed.

Lemma paren_expr_fin toks : fin (left2 (length toks - 1)) (paren_expr toks).
Proof.
  unfold paren_expr, require at 1. destruct (consume_if TLPar toks) as [r|] eqn:E; [|done].
  apply consume_if_length in E. cbn [bind].
  eapply bind_fin; [apply expression_fin|]. intros [e r1] H1. unfold left2 in H1. cbn in H1.
  eapply bind_fin; [apply (require_fin0 _ _ (length r1)); lia|]. intros r2 H2.
  unfold left1 in H2. unfold fin, left2. cbn. lia.
Qed.

Lemma initialiser_fin h toks : fin (left2 (length toks)) (initialiser h toks).
Proof.
  unfold initialiser. destruct (consume_if _ toks) as [r|] eqn:E.
  - apply consume_if_length in E. eapply bind_fin; [apply expression_fin|].
    intros [e r1] H1. unfold left2 in *. cbn in *. lia.
  - unfold fin, left2. cbn. lia.
Qed.

Lemma declarators_fin n h toks :
  length toks < n -> fin (left2 (length toks)) (declarators n h toks).
Proof.
  revert toks. induction n as [|n IH]; intros toks Hn; [lia|]. cbn [declarators].
  destruct (take_name toks) as [[x r]|] eqn:E; [|done]. apply take_name_length in E.
  eapply bind_fin; [apply initialiser_fin|]. intros [i r1] H1. unfold left2 in H1. cbn in H1.
  assert (Hgo : fin (left2 (length toks)) (bind (require (TOp BComma) r1) (fun rest =>
    bind (declarators n h rest) (fun '(ds, rest) => Ok ((x, i) :: ds, rest))))).
  { unfold require. destruct (consume_if (TOp BComma) r1) as [r2|] eqn:E2; [|done].
    apply consume_if_length in E2. cbn [bind]. eapply bind_fin; [apply IH; lia|].
    intros [ds r3] H3. unfold left2 in *. cbn in *. lia. }
  destruct h.
  - destruct (consume_if (TOp BComma) r1); [done|]. unfold fin, left2. cbn. lia.
  - pose proof (end_stmt_fin r1) as He. destruct (end_stmt r1) as [r2| |]; [|done|done].
    unfold fin, left1, left2 in *. cbn. lia.
Qed.

Lemma names_fin n toks : length toks < n -> fin (left2 (length toks)) (names n toks).
Proof.
  revert toks. induction n as [|n IH]; intros toks Hn; [lia|]. cbn [names].
  destruct (consume_if TRPar toks) as [r|] eqn:E.
  { apply consume_if_length in E. unfold fin, left2. cbn. lia. }
  destruct (take_name toks) as [[x r]|] eqn:E1; [|done]. apply take_name_length in E1.
  destruct (consume_if (TOp BComma) r) as [r2|] eqn:E2.
  - apply consume_if_length in E2. eapply bind_fin; [apply IH; lia|].
    intros [ds r3] H3. unfold left2 in *. cbn in *. lia.
  - eapply bind_fin; [apply (require_fin0 _ _ (length r)); lia|]. intros r3 H3.
    unfold fin, left1, left2 in *. cbn. lia.
Qed.

Lemma jump_label_fin toks : fin (left2 (length toks)) (jump_label toks).
Proof.
  unfold jump_label. destruct toks as [|[| | | | | | | | | | | | | | | | | | | | | | | | |w|] toks]; try done.
  - unfold fin, left2. cbn. lia.
  - destruct w; try done; unfold fin, left2; cbn; lia.
Qed.

Lemma expr_end_fin {A} (k : expr -> A) toks :
  fin (left2 (length toks)) (bind (expression asi_terms toks) (fun '(e, rest) =>
      bind (end_stmt rest) (fun rest => Ok (k e, rest)))).
Proof.
  eapply bind_fin; [apply expression_fin|]. intros [e r1] H1. unfold left2 in H1. cbn in H1.
  eapply bind_fin; [apply end_stmt_fin|]. intros r2 H2.
  unfold fin, left1, left2 in *. cbn. lia.
Qed.

Lemma return_stmt_fin toks : fin (left2 (length toks)) (return_stmt toks).
Proof.
  pose proof (expr_end_fin (fun e => JReturn (Some e)) toks) as H.
  unfold return_stmt. destruct toks as [|[| | | | | | | | | | | | | | | | | | | | | | | | |w|] toks]; try done.
  destruct w; try done; unfold fin, left2; cbn; lia.
Qed.

Lemma starts_decl_length toks k r : starts_decl toks = Some (k, r) -> length toks = S (length r).
Proof.
  destruct toks as [|[| | | | | | | | | | | | | | | | | | | | | | | | |w|] toks]; try done. cbn.
  destruct (kind_of w); [|done]. by intros [= _ ->].
Qed.

Lemma determine_fin toks : fin (fun _ => True) (determine toks).
Proof.
  unfold determine. destruct (starts_decl toks) as [[k r]|].
  - eapply bind_fin; [apply declarators_fin; lia|]. by intros [ds r1] _.
  - destruct (consume_if _ toks); [done|].
    pose proof (expression_fin [TOp BIn; TStm WOf] toks) as H.
    by destruct (expression _ toks) as [[e r]| |].
Qed.

Lemma until_fin t toks : fin (left2 (length toks)) (until t toks).
Proof.
  unfold until. destruct (consume_if t toks) as [r|] eqn:E.
  { apply consume_if_length in E. unfold fin, left2. cbn. lia. }
  eapply bind_fin; [apply expression_fin|]. intros [e r1] H1. unfold left2 in H1. cbn in H1.
  eapply bind_fin; [apply (require_fin0 _ _ (length r1)); lia|]. intros r2 H2.
  unfold fin, left1, left2 in *. cbn. lia.
Qed.

Lemma triple_header_fin toks : fin (fun r => length r.2 <= length toks) (triple_header toks).
Proof.
  unfold triple_header.
  assert (H : fin (left2 (length toks)) (triple_init toks)).
  { unfold triple_init. destruct (starts_decl toks) as [[k r]|] eqn:E.
    - apply starts_decl_length in E. eapply bind_fin; [apply declarators_fin; lia|].
      intros [ds r1] H1. unfold fin, left2 in *. cbn in *. lia.
    - destruct (consume_if _ toks); [unfold fin, left2; cbn; lia|].
      eapply bind_fin; [apply expression_fin|]. intros [e r1] H1.
      unfold fin, left2 in *. cbn in *. lia. }
  eapply bind_fin; [exact H|]. intros [i r1] H1. unfold left2 in H1. cbn in H1.
  eapply bind_fin; [apply (require_fin0 _ _ (length r1)); lia|]. intros r2 H2. unfold left1 in H2.
  eapply bind_fin; [apply until_fin|]. intros [t r3] H3. unfold left2 in H3. cbn in H3.
  eapply bind_fin; [apply until_fin|]. intros [u r4] H4. unfold left2 in H4. cbn in *. lia.
Qed.

Lemma in_of_header_fin of toks : fin (fun r => length r.2 <= length toks) (in_of_header of toks).
Proof.
  unfold in_of_header.
  assert (H : fin (left2 (length toks)) (in_of_head toks)).
  { unfold in_of_head. destruct (starts_decl toks) as [[k r]|] eqn:E.
    - apply starts_decl_length in E. destruct (take_name r) as [[x r1]|] eqn:E1; [|done].
      apply take_name_length in E1. unfold fin, left2. cbn. lia.
    - destruct (total (4 * length toks + 8)) as (_ & _ & Ht & _).
      eapply bind_fin; [apply Ht; lia|]. intros [[e par] r1] H1.
      destruct (good_target e par); [|done]. unfold fin, left2, left3 in *. cbn in *. lia. }
  eapply bind_fin; [exact H|]. intros [h r1] H1. unfold left2 in H1. cbn [snd] in H1. cbn zeta.
  set (r2 := match consume_if _ r1 with Some rest => rest | None => r1 end).
  assert (H2 : length r2 <= length r1).
  { unfold r2. destruct (consume_if _ r1) as [r|] eqn:E; [|lia]. apply consume_if_length in E. lia. }
  eapply bind_fin; [apply expression_fin|]. intros [e r3] H3. unfold left2 in H3. cbn [snd] in H3.
  eapply bind_fin; [apply (require_fin0 _ _ (length r3)); lia|]. intros r4 H4. unfold left1 in H4.
  cbn. lia.
Qed.

Lemma catch_param_fin toks : fin (left2 (length toks)) (catch_param toks).
Proof.
  unfold catch_param. destruct (consume_if TLPar toks) as [r|] eqn:E.
  - apply consume_if_length in E. destruct (take_name r) as [[x r1]|] eqn:E1; [|done].
    apply take_name_length in E1.
    eapply bind_fin; [apply (require_fin0 _ _ (length r1)); lia|]. intros r2 H2.
    unfold fin, left1, left2 in *. cbn. lia.
  - unfold fin, left2. cbn. lia.
Qed.

Lemma skip_semi_length toks : length (skip_semi toks) <= length toks.
Proof.
  unfold skip_semi. destruct (consume_if _ toks) as [r|] eqn:E; [|lia].
  apply consume_if_length in E. lia.
Qed.

Lemma label_of_length toks l r : label_of toks = Some (l, r) -> length toks = S (S (length r)).
Proof. destruct toks as [|[] [|[] toks]]; try done. by intros [= -> ->]. Qed.

Definition stotal_at (n : nat) : Prop :=
  (forall toks, 4 * length toks + 2 <= n -> fin (left2 (length toks - 1)) (statement n toks)) /\
  (forall ends toks, 4 * length toks + 3 <= n ->
     fin (left2 (length toks)) (statements n ends toks)) /\
  (forall toks, 4 * length toks + 1 <= n -> fin (left2 (length toks - 1)) (block n toks)) /\
  (forall toks, 4 * length toks + 3 <= n -> fin (left2 (length toks)) (for_body n toks)) /\
  (forall toks, 4 * length toks + 3 <= n -> fin (left2 (length toks)) (switch_cases n toks)).

(** A step of a [fin] proof: [H] bounds the first part, [x] is its result. *)
Ltac fstep L :=
  eapply bind_fin; [apply L; lia|];
  let H := fresh "H" in
  (intros [? ?] H || intros ? H); unfold left1, left2 in H; cbn [fst snd] in H.

Ltac fend := unfold fin, left2; cbn [fst snd]; lia.

Lemma stotal n : stotal_at n.
Proof.
  induction n as [|n (IH1 & IH2 & IH3 & IH4 & IH5)].
  { repeat split; intros; lia. }
  unfold stotal_at. split; [|split; [|split; [|split]]].
  - intros toks Hn. cbn [statement].
    destruct toks as [|t toks]; [done|]. cbn [length] in *.
    replace (S (length toks) - 1) with (length toks) by lia.
    assert (Hother : fin (left2 (length toks)) (match label_of (t :: toks) with
      | Some (l, rest) => bind (statement n rest) (fun '(a, rest) => Ok (JLabel l a, rest))
      | None => expr_stmt (t :: toks) end)).
    { destruct (label_of (t :: toks)) as [[l r]|] eqn:E.
      - apply label_of_length in E. cbn in E. fstep IH1. fend.
      - unfold expr_stmt. eapply bind_fin; [apply expression_fin|]. intros [e r1] H1.
        unfold left2 in H1. cbn in H1. fstep end_stmt_fin. fend. }
    destruct t as [| | | | | | | | | | | | | | | | | | | | | | | | |w|]; try exact Hother.
    clear Hother.
    destruct w; try done.
    + fend.
    + eapply bind_fin; [apply IH3; cbn [length]; lia|]. intros [ss r1] H1. unfold left2 in H1.
      cbn in H1. fend.
    + fstep paren_expr_fin. fstep IH1.
      match goal with |- context [consume_if _ ?r] => destruct (consume_if (TStm WElse) r) as [r2|] eqn:E end.
      * apply consume_if_length in E. fstep IH1. fend.
      * fend.
    + fstep paren_expr_fin. fstep IH1. fend.
    + fstep IH1. match goal with |- context [skip_semi ?r] => pose proof (skip_semi_length r) end.
      eapply bind_fin; [eapply require_fin0; reflexivity|]. intros r2 H2. unfold left1 in H2.
      fstep paren_expr_fin. fend.
    + eapply bind_fin; [apply (require_fin0 _ _ (length toks)); lia|]. intros r1 H1.
      unfold left1 in H1.
      eapply bind_fin; [apply determine_fin|]. intros k _. destruct k.
      * eapply bind_fin; [apply in_of_header_fin|]. intros [[h e] r2] H2. cbn [snd] in H2.
        fstep IH4. fend.
      * eapply bind_fin; [apply in_of_header_fin|]. intros [[h e] r2] H2. cbn [snd] in H2.
        fstep IH4. fend.
      * eapply bind_fin; [apply triple_header_fin|]. intros [[[i test] step] r2] H2.
        cbn [snd] in H2. fstep IH4. fend.
    + fstep declarators_fin. fend.
    + fstep declarators_fin. fend.
    + fstep declarators_fin. fend.
    + fstep paren_expr_fin.
      eapply bind_fin; [eapply require_fin0; reflexivity|]. intros r2 H2. unfold left1 in H2.
      fstep IH5.
      eapply bind_fin; [eapply require_fin0; reflexivity|]. intros r3 H3. unfold left1 in H3.
      fend.
    + fstep IH3.
      match goal with |- context [consume_if (TStm WCatch) ?r] =>
        destruct (consume_if (TStm WCatch) r) as [r2|] eqn:E end.
      * apply consume_if_length in E. fstep catch_param_fin. fstep IH3.
        match goal with |- context [consume_if (TStm WFinally) ?r] =>
          destruct (consume_if (TStm WFinally) r) as [r3|] eqn:E2 end.
        -- apply consume_if_length in E2. fstep IH3. fend.
        -- fend.
      * eapply bind_fin; [eapply require_fin0; reflexivity|]. intros r2 H2. unfold left1 in H2.
        fstep IH3. fend.
    + eapply fin_weaken; [apply (expr_end_fin JThrow)|]. done.
    + apply return_stmt_fin.
    + fstep jump_label_fin. fend.
    + fstep jump_label_fin. fend.
    + fstep paren_expr_fin. fstep IH1. fend.
    + fend.
    + destruct (take_name toks) as [[x r]|] eqn:E1; [|done]. apply take_name_length in E1.
      eapply bind_fin; [eapply require_fin0; reflexivity|]. intros r2 H2. unfold left1 in H2.
      fstep names_fin. fstep IH3. fend.
  - intros ends toks Hn. cbn [statements]. destruct toks as [|t toks]; [done|].
    destruct (is_term ends t); [fend|].
    eapply bind_fin; [apply IH1; lia|]. intros [s r1] H1. unfold left2 in H1. cbn [snd] in H1.
    cbn [length] in *. fstep IH2. fend.
  - intros toks Hn. cbn [block]. unfold require at 1.
    destruct (consume_if _ toks) as [r|] eqn:E; [|done]. apply consume_if_length in E.
    cbn [bind]. fstep IH2.
    eapply bind_fin; [eapply require_fin0; reflexivity|]. intros r2 H2. unfold left1 in H2. fend.
  - intros toks Hn. cbn [for_body]. destruct (consume_if _ toks).
    + eapply fin_weaken; [apply IH3; lia|]. intros [ss r]. unfold left2. cbn. lia.
    + fstep IH1. fend.
  - intros toks Hn. cbn [switch_cases]. destruct (consume_if (TStm WRBrace) toks); [fend|].
    eapply (bind_fin (fun r => length r.2 < length toks)).
    + destruct (consume_if (TStm WCase) toks) as [r|] eqn:E.
      * apply consume_if_length in E. fstep expression_fin. cbn. lia.
      * unfold require. destruct (consume_if (TStm WDefault) toks) as [r|] eqn:E2; [|done].
        apply consume_if_length in E2. cbn. lia.
    + intros [test r1] H1. cbn [snd] in H1.
      eapply bind_fin; [eapply require_fin0; reflexivity|]. intros r2 H2. unfold left1 in H2.
      fstep IH2. fstep IH5. fend.
Qed.

Lemma parse_program_total toks : parse_program toks <> OutOfFuel.
Proof.
  unfold parse_program. destruct (stotal (4 * length toks + 8)) as (_ & H & _).
  specialize (H [TEnd] (toks ++ [TEnd])). rewrite app_length in H. cbn [length] in H.
  specialize (H ltac:(lia)). by destruct (statements _ _ _) as [[ss r]| |].
Qed.
