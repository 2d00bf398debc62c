(** Operator precedence and associativity are those of the ECMAScript grammar. *)
From stdpp Require Import base decidable numbers sets list.
From Verif Require Import PrintModel PrattModel GrammarSpec PrattProofs PrintProofs GrammarProofs.

(** Every expression of the grammar is accepted, to its end, and read as the
    tree the grammar gives it. *)
Theorem expressions_read_as_grammar_partial : forall toks e,
  phrase false Expression toks e -> parse_js toks = Ok (e, [TEnd]).
Proof. exact phrase_parsed. Qed.
Print Assumptions expressions_read_as_grammar_partial.

(** The grammar gives an expression one tree only. *)
Theorem grammar_unambiguous : forall toks e1 e2,
  phrase false Expression toks e1 -> phrase false Expression toks e2 -> e1 = e2.
Proof.
  intros toks e1 e2 H1 H2. apply phrase_parsed in H1, H2. congruence.
Qed.
Print Assumptions grammar_unambiguous.

Ltac climb := repeat first
  [ apply p_name | apply p_literal
  | eapply p_chain; [constructor|] ].

(** [a = b + c * d ** -e ? new f.g(h) : i, j], with names numbered. *)
Example grammar_case : exists e,
  phrase false Expression
    [TId 1; TOp BAssign; TId 2; TOp BAdd; TId 3; TOp BMul; TId 4; TOp BExp; TOp BSub; TId 5;
     TQuestion; TNew; TId 6; TDot; TId 7; TLPar; TId 8; TRPar; TColon; TId 9; TOp BComma;
     TId 10]%N e /\
  e = EBinary BComma
        (EBinary BAssign (EId 1)
          (ECond (EBinary BAdd (EId 2)
                   (EBinary BMul (EId 3) (EBinary BExp (EId 4) (EUnary UMinus (EId 5)))))
                 (ENew (ECall false (EMember false (EId 6) 7) (IItem false (EId 8) INil)))
                 (EId 9)))
        (EId 10).
Proof.
  eexists. split; [|reflexivity].
  apply (p_infix false _ _ _ _ BComma
    [TId 1; TOp BAssign; TId 2; TOp BAdd; TId 3; TOp BMul; TId 4; TOp BExp; TOp BSub; TId 5;
     TQuestion; TNew; TId 6; TDot; TId 7; TLPar; TId 8; TRPar; TColon; TId 9]%N _ [TId 10]%N _
    infix_comma); [set_solver| |climb].
  eapply p_chain; [constructor|].
  apply (p_infix false _ _ _ _ BAssign [TId 1]%N _
    [TId 2; TOp BAdd; TId 3; TOp BMul; TId 4; TOp BExp; TOp BSub; TId 5;
     TQuestion; TNew; TId 6; TDot; TId 7; TLPar; TId 8; TRPar; TColon; TId 9]%N _
    infix_assign); [set_solver|constructor|].
  eapply p_chain; [constructor|].
  apply (p_conditional false
    [TId 2; TOp BAdd; TId 3; TOp BMul; TId 4; TOp BExp; TOp BSub; TId 5]%N _
    [TNew; TId 6; TDot; TId 7; TLPar; TId 8; TRPar]%N _ [TId 9]%N _).
  - do 9 (eapply p_chain; [constructor|]).
    apply (p_infix false _ _ _ _ BAdd [TId 2]%N _
      [TId 3; TOp BMul; TId 4; TOp BExp; TOp BSub; TId 5]%N _ infix_add);
      [set_solver|climb|].
    apply (p_infix false _ _ _ _ BMul [TId 3]%N _
      [TId 4; TOp BExp; TOp BSub; TId 5]%N _ infix_mul); [set_solver|climb|].
    apply (p_infix false _ _ _ _ BExp [TId 4]%N _ [TOp BSub; TId 5]%N _ infix_exp);
      [set_solver|climb|].
    eapply p_chain; [constructor|].
    apply (p_prefix false _ _ [TOp BSub] _ [TId 5]%N _ prefix_minus). climb.
  - do 18 (eapply p_chain; [constructor|]).
    apply (p_new_call false [TId 6; TDot; TId 7]%N _ [TId 8]%N _).
    + apply (p_member false _ _ false [TId 6]%N _ _ access_member). climb.
    + apply (a_last false false [TId 8]%N). climb.
  - climb.
Qed.

(** The parser accepts more than the grammar: [a ?? b || c],
    [a ? b, c : d], [a typeof b] and [new -a] are expressions of the grammar in
    no way, and are read without complaint. *)
Theorem grammar_exceeded_refuted : exists toks1 toks2 toks3 toks4,
  toks1 = [TId 1; TOp BNullish; TId 2; TOp BLOr; TId 3]%N /\
  toks2 = [TId 1; TQuestion; TId 2; TOp BComma; TId 3; TColon; TId 4]%N /\
  toks3 = [TId 1; TOp BTypeof; TId 2]%N /\
  toks4 = [TNew; TOp BSub; TId 1]%N /\
  forall toks, toks ∈ [toks1; toks2; toks3; toks4] ->
  (exists e, parse_js toks = Ok (e, [TEnd])) /\
  ~ exists e, phrase true Expression toks e.
Proof.
  eexists _, _, _, _. do 4 (split; [reflexivity|]). intros toks Ht.
  repeat (apply elem_of_cons in Ht as [->|Ht]); [..|by apply elem_of_nil in Ht].
  all: match goal with |- (exists e, parse_js ?t = _) /\ _ =>
    let r := eval vm_compute in (parse_js t) in
    match r with Ok (?e, _) =>
      assert (Hp : parse_js t = Ok (e, [TEnd])) by (vm_compute; reflexivity)
    end end; (split; [by eexists|]); intros (e' & He);
    apply (only_tree _ _ _ Hp) in He; [|notin].
  - destruct (phrase_root _ _ _ He ltac:(notin) _ _ _ eq_refl) as (_ & _ & _ & H). apply H; [done|]. by eexists _, _.
  - by eapply (phrase_cond _ _ _ He ltac:(notin)).
  - by destruct (phrase_root _ _ _ He ltac:(notin) _ _ _ eq_refl) as (H & _).
  - by destruct (phrase_new _ _ _ He ltac:(notin) UMinus (EId 1)) as (_ & H).
Qed.
Print Assumptions grammar_exceeded_refuted.

(** Parenthesised assignment targets belong to the grammar and are refused:
    [(a) = b]. *)
Theorem parenthesised_target_refuted : exists toks e,
  toks = [TLPar; TId 1; TRPar; TOp BAssign; TId 2]%N /\
  phrase true Expression toks e /\ parse_js toks = Err.
Proof.
  eexists _, _. split; [reflexivity|]. split; [|vm_compute; reflexivity].
  eapply p_chain; [constructor|].
  apply (p_infix true _ _ _ _ BAssign [TLPar; TId 1; TRPar]%N (EId 1) [TId 2]%N (EId 2)
    infix_assign);
    [set_solver| |climb].
  apply (p_target_parens true [TId 1]%N); [done|constructor].
Qed.
Print Assumptions parenthesised_target_refuted.
