(** The text the printers write is an expression of the grammar. *)
From stdpp Require Import base decidable numbers sets list.
From Coq Require Import ZifyBool.
From Verif Require Import PrintModel PrattModel PrintSpec PrattProofs PrintProofs
  GrammarSpec GrammarProofs GrammarPrintSpec.

#[global] Instance nonterminal_eq_dec : EqDecision nonterminal.
Proof. solve_decision. Defined.

(** ** Climbing the chain productions *)

Definition up (n : nonterminal) : nonterminal :=
  match n with
  | PrimaryExpression => MemberExpression
  | MemberExpression => NewExpression
  | NewExpression | CallExpression | OptionalExpression => LeftHandSideExpression
  | LeftHandSideExpression => UpdateExpression
  | UpdateExpression => UnaryExpression
  | UnaryExpression => ExponentiationExpression
  | ExponentiationExpression => MultiplicativeExpression
  | MultiplicativeExpression => AdditiveExpression
  | AdditiveExpression => ShiftExpression
  | ShiftExpression => RelationalExpression
  | RelationalExpression => EqualityExpression
  | EqualityExpression => BitwiseANDExpression
  | BitwiseANDExpression => BitwiseXORExpression
  | BitwiseXORExpression => BitwiseORExpression
  | BitwiseORExpression => LogicalANDExpression
  | LogicalANDExpression => LogicalORExpression
  | LogicalORExpression | CoalesceExpression => ShortCircuitExpression
  | ShortCircuitExpression => ConditionalExpression
  | ConditionalExpression => AssignmentExpression
  | AssignmentExpression => Expression
  | n => n
  end.

Lemma phrase_up n toks e : phrase false n toks e -> phrase false (up n) toks e.
Proof. intros H. destruct n; cbn; try exact H; (eapply p_chain; [constructor|exact H]). Qed.

Lemma phrase_iter i n toks e :
  phrase false n toks e -> phrase false (Nat.iter i up n) toks e.
Proof. intros H. induction i as [|i IH]; [done|]. by apply phrase_up. Qed.

(** The nonterminal of the expressions of precedence [k] and more. *)
Definition at_least (k : nat) : nonterminal :=
  match k with
  | 0 | 1 => Expression
  | 2 | 3 => AssignmentExpression
  | 4 => ConditionalExpression
  | 5 => ShortCircuitExpression
  | 6 => LogicalANDExpression
  | 7 => BitwiseORExpression
  | 8 => BitwiseXORExpression
  | 9 => BitwiseANDExpression
  | 10 => EqualityExpression
  | 11 => RelationalExpression
  | 12 => ShiftExpression
  | 13 => AdditiveExpression
  | 14 => MultiplicativeExpression
  | 15 => ExponentiationExpression
  | 16 => UnaryExpression
  | 17 => UpdateExpression
  | _ => LeftHandSideExpression
  end.

Definition climbs (n m : nonterminal) : bool :=
  existsb (fun i => bool_decide (Nat.iter i up m = n)) (seq 0 25).

Lemma climbs_phrase n m toks e :
  climbs n m = true -> phrase false m toks e -> phrase false n toks e.
Proof.
  intros H Hp. apply existsb_exists in H as (i & _ & H).
  apply bool_decide_eq_true in H as <-. by apply phrase_iter.
Qed.

Lemma climbs_level n k :
  k <= lvl n -> n <> AssignmentTarget -> n <> CoalesceExpressionHead ->
  climbs (at_least k) n = true.
Proof.
  intros Hk H1 H2. destruct n; cbn [lvl] in Hk; try done;
    do 19 (try (destruct k as [|k]; [vm_compute; reflexivity|])); exfalso; lia.
Qed.

(** The production at the root of a printed tree. *)
Fixpoint home (e : expr) : nonterminal :=
  match e with
  | EId _ | ELit _ | EArr _ => PrimaryExpression
  | EUnary UYield _ | EUnary UYieldStar _ => AssignmentExpression
  | EUnary UInc _ | EUnary UDec _ => UpdateExpression
  | EUnary _ _ => UnaryExpression
  | ENew (ECall false _ _) => MemberExpression
  | ENew _ => NewExpression
  | EPostfix _ _ => UpdateExpression
  | EBinary BNullish _ _ => CoalesceExpression
  | EBinary BLOr _ _ => LogicalORExpression
  | EBinary op _ _ => at_least (bin_prec op)
  | ECond _ _ _ => ConditionalExpression
  | EMember opt o _ | EIndex opt o _ =>
      if opt then OptionalExpression
      else match home o with
           | OptionalExpression => OptionalExpression
           | CallExpression => CallExpression
           | _ => MemberExpression
           end
  | ECall opt f _ =>
      if opt then OptionalExpression
      else match home f with OptionalExpression => OptionalExpression | _ => CallExpression end
  | EAs _ _ _ | ENonNull _ => Expression
  end.

Definition printed (p : printer) (n : nonterminal) (parens : bool) (e : expr) : Prop :=
  phrase false n (wrap parens (body p e)) e.

Lemma wrapped p n e : climbs n PrimaryExpression = true -> printed p (home e) false e ->
  climbs Expression (home e) = true ->
  printed p n true e.
Proof.
  intros Hn H Hc. unfold printed. cbn [wrap].
  apply (climbs_phrase _ _ _ _ Hn). constructor.
  apply (climbs_phrase _ _ _ _ Hc). exact H.
Qed.

Lemma home_target e : home e <> AssignmentTarget.
Proof.
  induction e as [| |[]|[| | | | | | |[]| | | | |] |?|[]|?|[] f IH ?|[] o IH ?|[] o IH ? ?|?|?|?];
    cbn; try done; destruct (home _); done.
Qed.

Lemma home_head e : home e <> CoalesceExpressionHead.
Proof.
  induction e as [| |[]|[| | | | | | |[]| | | | |] |?|[]|?|[] f IH ?|[] o IH ?|[] o IH ? ?|?|?|?];
    cbn; try done; destruct (home _); done.
Qed.

Lemma home_climbs e k : k <= lvl (home e) -> climbs (at_least k) (home e) = true.
Proof. intros H. apply climbs_level; [done|apply home_target|apply home_head]. Qed.

Lemma home_any e : climbs Expression (home e) = true.
Proof. apply (home_climbs e 1). destruct (home e); cbn; lia. Qed.


(** ** Subexpressions *)

Section printed.
  Context (p : printer).

  Definition ok (e : expr) : Prop := covered p false e = true /\ standard p e = true.

  Definition W (e : expr) : Prop := ok e -> phrase false (home e) (body p e) e.

  Lemma no_as s a t : covered p false (EAs s a t) = true -> False.
  Proof. cbn [covered]. rewrite andb_false_r. done. Qed.

  Lemma home_lvl e : ok e -> prec e `min` 18 <= lvl (home e).
  Proof.
    intros [H _].
    destruct e as [| |[]|[| | | | | | |[]| | | | |] |?|[]|?|[]|[]|[]|?|?|?];
      try done; try by apply no_as in H.
    all: cbn [prec un_prec bin_prec home lvl at_least]; unfold primary_prec, call_prec, postfix_prec,
      cond_prec; try lia; try done.
    all: destruct (home _); cbn; lia.
  Qed.

  (** In parentheses, anything fits. *)
  Lemma W_parens n e :
    W e -> ok e -> climbs n PrimaryExpression = true -> phrase false n (wrap true (body p e)) e.
  Proof.
    intros HW Ho Hn. cbn [wrap]. apply (climbs_phrase _ _ _ _ Hn). constructor.
    apply (climbs_phrase _ _ _ _ (home_any e)). by apply HW.
  Qed.

  Lemma W_bare k e : W e -> ok e -> k <= prec e -> k <= 18 -> phrase false (at_least k) (body p e) e.
  Proof.
    intros HW Ho Hk H18. pose proof (home_lvl e Ho) as Hl.
    eapply climbs_phrase; [apply home_climbs|by apply HW]. lia.
  Qed.

  Lemma at_least_primary k : climbs (at_least k) PrimaryExpression = true.
  Proof. do 19 (try destruct k as [|k]; [vm_compute; reflexivity|]). vm_compute; reflexivity. Qed.

  Lemma W_sub k (force : bool) e :
    W e -> ok e -> k <= 18 ->
    phrase false (at_least k) (wrap (force || (prec e <? k)) (body p e)) e.
  Proof.
    intros HW Ho Hk. destruct (force || (prec e <? k)) eqn:E.
    - apply W_parens; [done|done|apply at_least_primary].
    - cbn [wrap]. apply W_bare; [done|done| |done]. lia.
  Qed.

  (** The object of an access or the function of a call. *)
  Definition obj_home (e : expr) : nonterminal :=
    match home e with
    | OptionalExpression => OptionalExpression
    | CallExpression => CallExpression
    | _ => MemberExpression
    end.

  Lemma home_low e : prec e < 18 -> obj_home e = MemberExpression.
  Proof.
    unfold obj_home.
    destruct e as [| |[]|[| | | | | | |[]| | | | |] |?|[]|?|[]|[]|[]|?|?|?]; try done;
      cbn; unfold primary_prec, call_prec; lia.
  Qed.

  Lemma home_high e :
    ok e -> 18 <= prec e -> bare_new e = false -> climbs (obj_home e) (home e) = true.
  Proof.
    intros [H _] Hp Hb. unfold obj_home.
    destruct e as [| |[]|[| | | | | | |[]| | | | |] |?|[]|?|[]|[]|[]|?|?|?];
      try discriminate H; try discriminate Hb; try (by apply no_as in H);
      cbn [prec un_prec bin_prec] in Hp; unfold primary_prec, call_prec, postfix_prec, cond_prec in Hp;
      try lia; cbn [home];
      first [destruct (home _); vm_compute; reflexivity|vm_compute; reflexivity].
  Qed.

  Lemma W_object e :
    W e -> ok e -> bare_new e = false ->
    phrase false (obj_home e) (wrap (prec e <? call_prec) (body p e)) e.
  Proof.
    intros HW Ho Hb. unfold call_prec. destruct (prec e <? 18) eqn:E.
    - rewrite home_low by lia. by apply W_parens.
    - eapply climbs_phrase; [apply home_high; [done|lia|done]|by apply HW].
  Qed.

  Lemma new_target_home e :
    ok e -> new_target p e = true -> optional_chain p e = false -> 18 <= prec e ->
    climbs MemberExpression (home e) = true.
  Proof.
    induction e as [| |op a IH|a IH|d a IH|op l IHl r IHr|t IHt c IHc a IHa|opt f IH args
      |opt o IH x|opt o IH i IHi|el|k a IH ty|a IH]; intros [Hc Hs] Ht Ho Hp; try done;
      cbn [prec] in Hp; unfold postfix_prec, cond_prec in Hp; try (clear -Hp; lia).
    - clear -Hp. destruct op; cbn in Hp; lia.
    - cbn [new_target] in Ht. rewrite Ho in Ht.
      by destruct a as [| | | | | | |[]| | | | |].
    - clear -Hp. destruct op; cbn in Hp; lia.
    - cbn [new_target] in Ht. rewrite Ho in Ht. done.
    - cbn [optional_chain] in Ho. apply orb_false_iff in Ho as [-> Ho].
      cbn [new_target optional_chain] in Ht. rewrite Ho in Ht. cbn [orb] in Ht.
      cbn [covered] in Hc. apply andb_true_iff in Hc as [_ Hc]. cbn [standard] in Hs.
      cbn [home]. destruct (decide (prec o < 18)) as [H|H].
      + pose proof (home_low o H) as E. unfold obj_home in E. by destruct (home o).
      + specialize (IH (conj Hc Hs)).
        assert (Hn : new_target p o = true) by (cbn [prec] in Ht; unfold call_prec in Ht; by rewrite Nat.ltb_irrefl in Ht).
        specialize (IH Hn Ho ltac:(lia)). by destruct (home o).
    - cbn [optional_chain] in Ho. apply orb_false_iff in Ho as [-> Ho].
      cbn [new_target optional_chain] in Ht. rewrite Ho in Ht. cbn [orb] in Ht.
      cbn [covered] in Hc. rewrite !andb_true_iff in Hc. destruct Hc as [[_ Hc] _].
      cbn [standard] in Hs. apply andb_true_iff in Hs as [Hs _].
      cbn [home]. destruct (decide (prec o < 18)) as [H|H].
      + pose proof (home_low o H) as E. unfold obj_home in E. by destruct (home o).
      + specialize (IH (conj Hc Hs)).
        assert (Hn : new_target p o = true) by (cbn [prec] in Ht; unfold call_prec in Ht; by rewrite Nat.ltb_irrefl in Ht).
        specialize (IH Hn Ho ltac:(lia)). by destruct (home o).
    - by apply no_as in Hc.
  Qed.

  Lemma W_new_target e :
    W e -> ok e -> new_target p e = true ->
    phrase false MemberExpression
      (wrap (optional_chain p e) (wrap (prec e <? call_prec) (body p e))) e.
  Proof.
    intros HW Ho Ht. unfold call_prec. destruct (optional_chain p e) eqn:E1.
    - cbn [wrap]. eapply p_chain; [constructor|]. constructor.
      destruct (prec e <? 18) eqn:E2; [by apply W_parens|].
      apply (climbs_phrase _ _ _ _ (home_any e)). by apply HW.
    - cbn [wrap]. destruct (prec e <? 18) eqn:E2; [by apply W_parens|].
      eapply climbs_phrase; [apply new_target_home; [done..|lia]|by apply HW].
  Qed.

  Lemma unchained_home e : in_optional_chain e = false -> home e <> OptionalExpression.
  Proof.
    induction e as [| |[] a IH|a IH|d a IH|[] l IHl r IHr|t IHt c IHc a IHa|opt f IH args
      |opt o IH x|opt o IH i IHi|el|k a IH ty|a IH]; intros H; try done.
    - by destruct a as [| | | | | | |[]| | | | |].
    - cbn in H. apply orb_false_iff in H as [-> H]. cbn [home].
      specialize (IH H). by destruct (home f).
    - cbn in H. apply orb_false_iff in H as [-> H]. cbn [home].
      specialize (IH H). by destruct (home o).
    - cbn in H. apply orb_false_iff in H as [-> H]. cbn [home].
      specialize (IH H). by destruct (home o).
  Qed.

  (** Argument lists and array elements, after any separator. *)
  Definition WA (its : items) : Prop :=
    covered_args p false its = true -> standard_items p its = true ->
    arguments false (body_items p true its) its.
  Definition WE (its : items) : Prop :=
    covered_elems p false its = true -> standard_items p its = true ->
    elements false (body_items p true its) its.

  Lemma items_separated its : its <> INil ->
    body_items p false its = TOp BComma :: body_items p true its.
  Proof. by destruct its. Qed.

  Lemma W_item e : W e -> ok e -> comma_expr e = false ->
    phrase false AssignmentExpression (wrap (prec e <? 1) (body p e)) e.
  Proof.
    intros HW Ho Hc.
    assert (H2 : 2 <= prec e).
    { destruct e as [| |[]| | |[]| | | | | | |]; cbn; unfold primary_prec, call_prec, postfix_prec,
        cond_prec, as_prec; try lia. done. }
    replace (prec e <? 1) with false by (symmetry; lia). cbn [wrap].
    by apply (W_bare 2); [..|lia].
  Qed.

  Definition P (e : expr) : Prop :=
    W e /\
    match e with
    | ECall _ f args => W f /\ WA args
    | EMember _ o _ => W o
    | EIndex _ o i => W o /\ W i
    | _ => True
    end.
  Definition PI (its : items) : Prop := WA its /\ WE its.

  Ltac bools H := rewrite ?andb_true_iff, ?negb_true_iff in H.

  Lemma W_unary op a : W a -> W (EUnary op a).
  Proof.
    intros HW Ho. assert (Ha : ok a) by (destruct Ho; by split). cbn [body].
    pose proof (W_sub (un_prec op) false a HW Ha) as H. cbn [orb] in H.
    specialize (H ltac:(destruct op; cbn; lia)).
    destruct op; cbn [un_tokens un_prec home at_least] in *;
      (eapply p_prefix; [constructor|exact H]).
  Qed.

  Lemma W_new a : P a -> W (ENew a).
  Proof.
    intros [HW HC] [Hc Hs]. cbn [standard] in Hs.
    assert ((exists f args, a = ECall false f args) \/ ~ exists f args, a = ECall false f args)
      as [(f & args & ->)|Hn].
    { destruct a as [| | | | | | |[] f args| | | | |]; try (right; by intros (? & ? & ?)).
      left; eauto. }
    - destruct HC as [HF HA]. cbn [covered] in Hc. bools Hc. destruct Hc as [[Ht Hf] Ha].
      cbn [standard] in Hs. bools Hs. destruct Hs as [Hs1 Hs2].
      cbn [home body]. apply p_new_call; [|by apply HA].
      apply W_new_target; [done|by split|done].
    - assert (Hc' : p = AstPrinter /\ new_target p a = true /\ covered p false a = true).
      { cbn [covered] in Hc.
        destruct a as [| | | | | | |[] f args| | | | |]; try (by contradict Hn; eauto);
          rewrite !andb_true_iff, bool_decide_eq_true in Hc; tauto. }
      destruct Hc' as (Hp & Ht & Hca).
      assert (Hb : home (ENew a) = NewExpression /\
        body p (ENew a) = TNew :: wrap (optional_chain p a) (wrap (prec a <? call_prec) (body p a))).
      { destruct a as [| | | | | | |[] f args| | | | |]; try (by contradict Hn; eauto);
          (split; [done|]); cbn [body]; rewrite Hp; by rewrite app_nil_r. }
      destruct Hb as [-> ->]. apply p_new_bare. eapply p_chain; [constructor|].
      by apply W_new_target; [|split|].
  Qed.

  Lemma W_postfix d a : W a -> W (EPostfix d a).
  Proof.
    intros HW [Hc Hs]. cbn [covered] in Hc. cbn [standard] in Hs. bools Hs.
    destruct Hs as [Hp Hs]. cbn [home body]. apply p_postfix.
    unfold postfix_prec. destruct (prec a <? 17) eqn:E.
    - apply W_parens; [done|by split|done].
    - cbn [wrap]. apply (W_bare 18); [done|by split| |lia].
      destruct a as [| |[]| | |[]| | | | | | |]; cbn in *; unfold primary_prec, call_prec, cond_prec,
        as_prec in *; try done; try lia.
  Qed.

  Lemma W_cond t c a : W t -> W c -> W a -> W (ECond t c a).
  Proof.
    intros HT HC HA [Hc Hs]. cbn [covered] in Hc. cbn [standard] in Hs. bools Hs. bools Hc.
    destruct Hc as [[Ct Cc] Ca], Hs as [[St Sc] Sa]. cbn [home body].
    apply p_conditional.
    - by apply (W_sub 5 false t HT); [split|lia].
    - eapply p_chain; [constructor|]. by apply (W_sub 4 false c HC); [split|lia].
    - eapply p_chain; [constructor|]. by apply (W_sub 4 false a HA); [split|lia].
  Qed.

  Lemma W_member opt o x : W o -> W (EMember opt o x).
  Proof.
    intros HW [Hc Hs]. cbn [covered] in Hc. cbn [standard] in Hs. bools Hc.
    destruct Hc as [Hb Hc].
    pose proof (W_object o HW (conj Hc Hs) Hb) as HO.
    cbn [body]. apply p_member with (m := obj_home o); [|exact HO].
    unfold obj_home. cbn [home]. destruct opt, (home o); constructor.
  Qed.

  Lemma W_index opt o i : W o -> W i -> W (EIndex opt o i).
  Proof.
    intros HW HI [Hc Hs]. cbn [covered] in Hc. cbn [standard] in Hs. bools Hc. bools Hs.
    destruct Hc as [[Hb Hc] Hi], Hs as [Hs Hsi].
    pose proof (W_object o HW (conj Hc Hs) Hb) as HO.
    cbn [body]. apply p_index with (m := obj_home o); [|exact HO|].
    - unfold obj_home. cbn [home]. destruct opt, (home o); constructor.
    - by apply (W_sub 1 false i HI); [split|lia].
  Qed.

  Lemma W_call opt f args : W f -> WA args -> W (ECall opt f args).
  Proof.
    intros HW HA [Hc Hs]. cbn [covered] in Hc. cbn [standard] in Hs. bools Hc. bools Hs.
    destruct Hc as [[Hb Hc] Ha], Hs as [Hs Hsa].
    pose proof (W_object f HW (conj Hc Hs) Hb) as HO.
    cbn [body]. apply p_call with (m := obj_home f); [|exact HO|by apply HA].
    unfold obj_home. cbn [home]. destruct opt, (home f); constructor.
  Qed.

  Lemma WA_cons sp e rest : W e -> WA rest -> WA (IItem sp e rest).
  Proof.
    intros HW HR Hc Hs. cbn [covered_args] in Hc. cbn [standard_items] in Hs. bools Hc. bools Hs.
    destruct Hc as [[Hk Hc] Hr], Hs as [Hs Hsr].
    pose proof (W_item e HW (conj Hc Hs) Hk) as H.
    cbn [body_items separator app].
    destruct rest as [|rest'|sp' e' rest'].
    - cbn [body_items]. rewrite app_nil_r. by apply a_last.
    - done.
    - rewrite items_separated by done. apply a_more; [done|]. by apply HR.
  Qed.

  Lemma WE_cons sp e rest : W e -> WE rest -> WE (IItem sp e rest).
  Proof.
    intros HW HR Hc Hs. cbn [covered_elems] in Hc. cbn [standard_items] in Hs. bools Hc. bools Hs.
    destruct Hc as [[Hk Hc] Hr], Hs as [Hs Hsr].
    pose proof (W_item e HW (conj Hc Hs) Hk) as H.
    cbn [body_items separator app].
    destruct rest as [|rest'|sp' e' rest'].
    - cbn [body_items]. rewrite app_nil_r. by apply e_last.
    - rewrite items_separated by done. apply e_more; [done|]. by apply HR.
    - rewrite items_separated by done. apply e_more; [done|]. by apply HR.
  Qed.

  Lemma WE_hole rest : WE rest -> WE (IHole rest).
  Proof.
    intros HR Hc Hs. cbn [body_items separator app].
    destruct rest as [|rest'|sp' e' rest']; [done|..];
      (rewrite items_separated by done; apply e_hole; by apply HR).
  Qed.

  (** *** Infix operators *)

  Lemma infix_of op :
    op ∉ [BTypeof; BNullish; BLOr; BExp] -> is_assignment op = false ->
    exists ops,
      infix (at_least (bin_prec op)) (at_least (left_min op)) ops (at_least (right_min op)) /\
      op ∈ ops /\ home (EBinary op (EId 0) (EId 0)) = at_least (bin_prec op).
  Proof.
    intros Hop Has. destruct op; try discriminate Has; try (exfalso; set_solver);
      cbn [bin_prec left_min right_min bin_left at_least];
      (eexists; split; [constructor|split; [set_solver|done]]).
  Qed.

  Lemma infix_plain op l r :
    W l -> W r -> ok l -> ok r ->
    op ∉ [BTypeof; BNullish; BLOr; BExp] -> is_assignment op = false ->
    phrase false (home (EBinary op l r)) (body p (EBinary op l r)) (EBinary op l r).
  Proof.
    intros HL HR Ol Or Hop Has. cbn [body].
    destruct (infix_of op Hop Has) as (ops & Hi & Hin & Hh).
    change (home (EBinary op l r)) with (home (EBinary op (EId 0) (EId 0))). rewrite Hh.
    eapply p_infix; [exact Hi|exact Hin|apply (W_sub (left_min op) _ l HL Ol)
      |apply (W_sub (right_min op) _ r HR Or)]; destruct op; cbn; lia.
  Qed.

  Lemma infix_assignment op l r :
    P l -> W r -> ok l -> ok r -> is_assignment op = true ->
    good_target l false = true -> chained_target op l = false ->
    phrase false AssignmentExpression (body p (EBinary op l r)) (EBinary op l r).
  Proof.
    intros [HL HO] HR Ol Or Has Hg Hch. unfold chained_target in Hch. rewrite Has in Hch.
    cbn [andb] in Hch. cbn [body].
    assert (Hlm : left_min op = 4) by (by destruct op).
    assert (Hrm : right_min op = 3) by (by destruct op).
    assert (Hfl : force_left p op l = false).
    { destruct p, op; try done; by destruct l as [| | | | | | | | | | | |]. }
    rewrite Hlm, Hrm, Hfl. cbn [orb].
    assert (H18 : 18 <= prec l).
    { clear -Hg. destruct l as [| | | | | | | |[]|[]| | |]; cbn; unfold primary_prec, call_prec;
        try discriminate Hg; lia. }
    replace (prec l <? 4) with false by (symmetry; clear -H18; lia). cbn [wrap].
    eapply p_infix; [apply infix_assign| | |apply (W_sub 3 _ r HR Or); clear; lia].
    { destruct op; try discriminate Has; unfold assignment_operators; set_solver. }
    destruct Ol as [Hc Hs].
    destruct l as [| | | | | | | |[] o x|[] o i| | |]; try discriminate Hg.
    - constructor.
    - cbn [object_of] in Hch. pose proof (unchained_home o Hch) as Hu.
      cbn [covered] in Hc. cbn [standard] in Hs. bools Hc. destruct Hc as [Hb Hc].
      pose proof (W_object o HO (conj Hc Hs) Hb) as H. cbn [body].
      apply (p_member false AssignmentTarget (obj_home o) false); [|exact H].
      unfold obj_home. destruct (home o); try done; constructor.
    - cbn [object_of] in Hch. pose proof (unchained_home o Hch) as Hu.
      cbn [covered] in Hc. cbn [standard] in Hs. bools Hc. bools Hs.
      destruct Hc as [[Hb Hc] Hi], Hs as [Hs Hsi], HO as [HO HI].
      pose proof (W_object o HO (conj Hc Hs) Hb) as H. cbn [body].
      apply (p_index false AssignmentTarget (obj_home o) false); [|exact H|].
      + unfold obj_home. destruct (home o); try done; constructor.
      + by apply (W_sub 1 false i HI); [split|clear; lia].
  Qed.

  Lemma infix_power l r :
    W l -> W r -> ok l -> ok r ->
    (bool_decide (p = HirPrinter) && await_expr l) = false ->
    phrase false ExponentiationExpression (body p (EBinary BExp l r)) (EBinary BExp l r).
  Proof.
    intros HL HR Ol Or Hk. cbn [body].
    eapply p_infix; [apply infix_exp|set_solver| |apply (W_sub 15 _ r HR Or); clear; lia].
    change (left_min BExp) with 16.
    destruct (force_left p BExp l || (prec l <? 16)) eqn:E; [by apply W_parens|].
    cbn [wrap]. apply orb_false_iff in E as [E1 E2].
    assert (Hh : UpdateExpression = home l \/ 18 <= prec l).
    { clear -E1 E2 Hk Ol. destruct l as [| |[]| | |[]| | | | | | |];
        try (right; cbn; unfold primary_prec, call_prec; lia);
        try (destruct p; discriminate E1); try discriminate E2.
      - exfalso. destruct p; [discriminate E1|]. done.
      - destruct Ol as [H _]. cbn [covered] in H. by rewrite bool_decide_false in H. }
    destruct Hh as [->|H18]; [by apply HL|].
    eapply p_chain; [constructor|]. apply (W_bare 18); [done|done|done|lia].
  Qed.

  Lemma infix_nullish l r :
    W l -> W r -> ok l -> ok r ->
    (bool_decide (p = HirPrinter) && mixed_nullish BNullish l r) = false ->
    phrase false CoalesceExpression (body p (EBinary BNullish l r)) (EBinary BNullish l r).
  Proof.
    intros HL HR Ol Or Hk. cbn [body]. cbn [mixed_nullish] in Hk.
    eapply p_infix; [apply infix_coalesce|set_solver| |].
    - change (left_min BNullish) with 5.
      destruct (force_left p BNullish l || (prec l <? 5)) eqn:E.
      { eapply p_chain; [apply chain_head_or|]. by apply W_parens. }
      cbn [wrap]. apply orb_false_iff in E as [E1 E2].
      assert (Ha : is_and_or l = false).
      { destruct (is_and_or l) eqn:Ea; [|done]. destruct p; cbn in *; [|discriminate Hk].
        rewrite Ea in E1. by destruct l as [| | | | |[]| | | | | | |]. }
      assert (Hh : CoalesceExpression = home l \/ 7 <= prec l).
      { clear -E2 Ha. destruct l as [| |[]| | |[]| | | | | | |];
          try (right; cbn; unfold primary_prec, call_prec, postfix_prec, as_prec; lia);
          try discriminate Ha; try discriminate E2. by left. }
      destruct Hh as [Hh|H7].
      + eapply p_chain; [apply chain_head_coalesce|]. rewrite Hh. by apply HL.
      + eapply p_chain; [apply chain_head_or|]. apply (W_bare 7); [done..|clear; lia].
    - change (right_min BNullish) with 6.
      destruct (force_right p BNullish r || (prec r <? 6)) eqn:E; [by apply W_parens|].
      cbn [wrap]. apply orb_false_iff in E as [E1 E2].
      assert (Ha : is_and_or r = false).
      { destruct (is_and_or r) eqn:Ea; [|done]. destruct p; cbn in *.
        - by rewrite ?Ea in E1.
        - by rewrite orb_true_r in Hk. }
      apply (W_bare 7); [done|done| |clear; lia].
      clear -E2 Ha. destruct r as [| |[]| | |[]| | | | | | |];
        try (cbn; unfold primary_prec, call_prec, postfix_prec, as_prec; lia);
        try discriminate Ha; try discriminate E2.
  Qed.

  Lemma infix_or l r :
    W l -> W r -> ok l -> ok r ->
    (bool_decide (p = HirPrinter) && mixed_nullish BLOr l r) = false ->
    phrase false LogicalORExpression (body p (EBinary BLOr l r)) (EBinary BLOr l r).
  Proof.
    intros HL HR Ol Or Hk. cbn [body]. cbn [mixed_nullish] in Hk.
    eapply p_infix; [apply infix_lor|set_solver| |apply (W_sub 6 _ r HR Or); clear; lia].
    change (left_min BLOr) with 5.
    destruct (force_left p BLOr l || (prec l <? 5)) eqn:E; [by apply W_parens|].
    cbn [wrap]. apply orb_false_iff in E as [E1 E2].
    assert (Ha : is_nullish l = false).
    { destruct (is_nullish l) eqn:Ea; [|done]. destruct p; cbn in *; [|discriminate Hk].
      rewrite Ea in E1. by destruct l as [| | | | |[]| | | | | | |]. }
    assert (Hh : LogicalORExpression = home l \/ 6 <= prec l).
    { clear -E2 Ha. destruct l as [| |[]| | |[]| | | | | | |];
        try (right; cbn; unfold primary_prec, call_prec, postfix_prec, as_prec; lia);
        try discriminate Ha; try discriminate E2. by left. }
    destruct Hh as [Hh|H6].
    - rewrite Hh. by apply HL.
    - eapply p_chain; [constructor|]. apply (W_bare 6); [done..|clear; lia].
  Qed.

  Lemma W_binary op l r : P l -> W r -> W (EBinary op l r).
  Proof.
    intros HPl HR [Hc Hs]. pose proof (proj1 HPl) as HL.
    cbn [covered] in Hc. cbn [standard] in Hs. bools Hc. bools Hs.
    destruct Hc as [[[[[Hty _] Htg] Hpw] Cl] Cr], Hs as [[[Hch Hmx] Sl] Sr].
    apply bool_decide_eq_true in Hty.
    assert (Ol : ok l) by (by split). assert (Or : ok r) by (by split).
    destruct (is_assignment op) eqn:Ea.
    { replace (home (EBinary op l r)) with AssignmentExpression by (by destruct op).
      apply infix_assignment; try done. }
    destruct (decide (op = BNullish)) as [->|H1].
    { by apply infix_nullish. }
    destruct (decide (op = BLOr)) as [->|H2].
    { by apply infix_or. }
    destruct (decide (op = BExp)) as [->|H3].
    { apply infix_power; try done. rewrite (bool_decide_true (BExp = BExp)) in Hpw by done.
      by rewrite andb_true_r in Hpw. }
    apply infix_plain; try done. set_solver.
  Qed.

  Lemma printed_phrases : (forall e, P e) /\ (forall its, PI its).
  Proof.
    apply expr_items_ind; unfold P, PI.
    - intros n. split; [|done]. intros _. constructor.
    - intros n. split; [|done]. intros _. constructor.
    - intros op a [H _]. split; [|done]. by apply W_unary.
    - intros a H. split; [|done]. by apply W_new.
    - intros d a [H _]. split; [|done]. by apply W_postfix.
    - intros op l HL r [HR _]. split; [|done]. by apply W_binary.
    - intros t [HT _] c [HC _] a [HA _]. split; [|done]. by apply W_cond.
    - intros opt f [HF _] args [HA _]. split; [|by split]. by apply W_call.
    - intros opt o [HO _] x. split; [|done]. by apply W_member.
    - intros opt o [HO _] i [HI _]. split; [|by split]. by apply W_index.
    - intros el [_ HE]. split; [|done]. intros [Hc Hs]. cbn [home body]. constructor.
      by apply HE.
    - intros s a _ t. split; [|done]. intros [H _]. by apply no_as in H.
    - intros a _. split; [|done]. by intros [H _].
    - split; intros _ _; constructor.
    - intros rest [_ HE]. split; [by intros ?|]. by apply WE_hole.
    - intros sp e [HE _] rest [H1 H2]. split; [by apply WA_cons|by apply WE_cons].
  Qed.

  (** A printed tree, at any place of the grammar that asks for precedence [k]. *)
  Lemma printed_at k e :
    covered p false e = true -> standard p e = true -> k <= 18 ->
    phrase false (at_least k) (wrap (prec e <? k) (body p e)) e.
  Proof.
    intros H1 H2 Hk. apply (W_sub k false); [apply printed_phrases|by split|done].
  Qed.
End printed.

(** ** Texts that are not expressions *)

(** The target of an unparenthesised assignment is outside optional chains. *)
Lemma phrase_chain_target n toks e :
  phrase false n toks e -> TLPar ∉ toks ->
  (n ∈ [PrimaryExpression; MemberExpression; CallExpression; AssignmentTarget] ->
   in_optional_chain e = false) /\
  (forall op l r, e = EBinary op l r -> is_assignment op = true -> in_optional_chain l = false).
Proof.
  induction 1 as [n m toks e Hc _ IH| | | | |n m opt toks e x Ha _ IH|n m opt toks e toks2 i Ha _ IH _ IH2
                 |n m opt toks f toks2 args Ha _ IH _| | | | | | | |
                  n m1 ops m2 op toks1 l toks2 r Hi Ho _ IH1 _ IH2|]; intros Hn;
    try (split; done); try (exfalso; apply Hn; left).
  - destruct (IH Hn) as [H1 H2]. split; [|done]. intros Hm. apply H1.
    destruct Hc; set_solver.
  - split; [|done]. intros Hm. cbn [in_optional_chain].
    destruct (IH ltac:(set_solver)) as [H1 _].
    destruct Ha; try (cbn; apply H1; set_solver); set_solver.
  - split; [|done]. intros Hm. cbn [in_optional_chain].
    destruct (IH ltac:(set_solver)) as [H1 _].
    destruct Ha; try (cbn; apply H1; set_solver); set_solver.
  - split; [|done]. intros Hm. cbn [in_optional_chain].
    destruct (IH ltac:(set_solver)) as [H1 _].
    destruct Ha; try (cbn; apply H1; set_solver); set_solver.
  - split; [done|]. intros op' l' r' [= -> -> ->] Has.
    destruct (infix_shape _ _ _ _ _ Hi Ho) as (_ & _ & _ & _ & _ & _ & _ & _ & _ & _ & _ & _ & _ & S14).
    specialize (S14 Has). subst m1. apply IH1; set_solver.
Qed.

(** What a text of names and accesses can be. *)
Lemma text_nonempty a : text_of a <> [].
Proof. destruct a; cbn; try done. by destruct (text_of a). Qed.

Lemma text_last a :
  match a with
  | AName x => text_of a = [TId x]
  | AMember _ _ x => exists l, text_of a = l ++ [TId x] /\ l <> []
  | AParens _ => exists l, text_of a = l ++ [TRPar]
  end.
Proof.
  destruct a as [x|opt a x|a]; cbn; [done|..].
  - exists (text_of a ++ [if opt then TQDot else TDot]). rewrite <- app_assoc. split; [done|].
    by destruct (text_of a).
  - by exists (TLPar :: text_of a).
Qed.

Lemma text_member a l opt x :
  text_of a = l ++ [if opt : bool then TQDot else TDot; TId x] ->
  exists a', a = AMember opt a' x /\ text_of a' = l.
Proof.
  destruct a as [y|opt' a y|a]; cbn.
  - intros H. destruct l as [|? [|]]; try done; by destruct opt.
  - intros H.
    change [if opt' then TQDot else TDot; TId y] with ([if opt' then TQDot else TDot] ++ [TId y]) in H.
    change [if opt then TQDot else TDot; TId x] with ([if opt then TQDot else TDot] ++ [TId x]) in H.
    rewrite !app_assoc in H. apply app_inj_tail in H as [H H2]. injection H2 as ->.
    apply app_inj_tail in H as [H H2]. exists a. split; [|done]. by destruct opt, opt'.
  - intros H.
    change [if opt then TQDot else TDot; TId x] with ([if opt then TQDot else TDot] ++ [TId x]) in H.
    rewrite app_assoc in H. rewrite app_comm_cons in H. by apply app_inj_tail in H as [H H2].
Qed.

Lemma text_name a x : text_of a = [TId x] -> a = AName x.
Proof.
  intros H. pose proof (text_last a) as Hl. destruct a as [y|opt a y|a].
  - cbn in H. by injection H as ->.
  - destruct Hl as (l & E & Hn). rewrite H in E. destruct l as [|? [|]]; done.
  - destruct Hl as (l & E). rewrite H in E. destruct l as [|? [|]]; done.
Qed.
