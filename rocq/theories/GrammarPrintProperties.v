(** What the printers write is an expression of the ECMAScript grammar. *)
From stdpp Require Import base decidable numbers sets list.
From Verif Require Import PrintModel PrattModel PrintSpec PrattProofs PrintProofs
  GrammarSpec GrammarProofs GrammarPrintSpec GrammarPrintProofs.

(** The printed text is an Expression of the grammar with the same tree: so any
    conforming engine reads the tree that was printed. *)
Theorem printed_is_standard_partial : forall p e,
  covered p false e = true -> standard p e = true ->
  phrase false Expression (print_expr p e) e.
Proof. intros p e H1 H2. apply (printed_at p 1 e H1 H2). lia. Qed.
Print Assumptions printed_is_standard_partial.

(** As an initialiser, an argument or the right side of an assignment it is an
    AssignmentExpression. *)
Theorem printed_operand_is_standard_partial : forall p e,
  covered p false e = true -> standard p e = true ->
  phrase false AssignmentExpression (wrap (prec e <? 3) (body p e)) e.
Proof. intros p e H1 H2. apply (printed_at p 3 e H1 H2). lia. Qed.
Print Assumptions printed_operand_is_standard_partial.

(** [x = ((a ?? b)(c, ...[d, , e]), (-f) ** g--) ? new (h?.i)() : (y, z)], with
    names numbered. *)
Example printed_case : exists e,
  e = EBinary BAssign (EId 1)
        (ECond (EBinary BComma
                 (ECall false (EBinary BNullish (EId 2) (EId 3))
                    (IItem false (EId 4)
                      (IItem true (EArr (IItem false (EId 5) (IHole (IItem false (EId 6) INil))))
                        INil)))
                 (EBinary BExp (EUnary UMinus (EId 7)) (EPostfix true (EId 8))))
               (ENew (ECall false (EMember true (EId 9) 10) INil))
               (EBinary BComma (EId 11) (EId 12))) /\
  forall p, covered p false e = true /\ standard p e = true.
Proof. eexists. split; [reflexivity|]. by intros []. Qed.

(** The minifier's printer drops the parentheses the grammar asks for between
    [??] and [||]: from [(a ?? b) || c] it prints [a ?? b || c], which is no
    expression. *)
Theorem nullish_mix_refuted : exists toks e,
  toks = [TLPar; TId 1; TOp BNullish; TId 2; TRPar; TOp BLOr; TId 3]%N /\
  phrase true Expression toks e /\ parse_js toks = Ok (e, [TEnd]) /\
  covered HirPrinter false e = true /\
  print_expr HirPrinter e = [TId 1; TOp BNullish; TId 2; TOp BLOr; TId 3]%N /\
  ~ exists e', phrase true Expression (print_expr HirPrinter e) e'.
Proof.
  exists [TLPar; TId 1; TOp BNullish; TId 2; TRPar; TOp BLOr; TId 3]%N,
    (EBinary BLOr (EBinary BNullish (EId 1) (EId 2)) (EId 3)).
  split; [reflexivity|]. split.
  { do 4 (eapply p_chain; [constructor|]).
    apply (p_infix true _ _ _ _ BLOr [TLPar; TId 1; TOp BNullish; TId 2; TRPar]%N _ [TId 3]%N _
      infix_lor); [set_solver| |repeat first [apply p_name|eapply p_chain; [constructor|]]].
    do 16 (eapply p_chain; [constructor|]).
    apply (p_parens true [TId 1; TOp BNullish; TId 2]%N).
    do 3 (eapply p_chain; [constructor|]). eapply p_chain; [apply chain_short_coalesce|].
    apply (p_infix true _ _ _ _ BNullish [TId 1]%N _ [TId 2]%N _ infix_coalesce);
      [set_solver| |repeat first [apply p_name|eapply p_chain; [constructor|]]].
    eapply p_chain; [apply chain_head_or|].
    repeat first [apply p_name|eapply p_chain; [constructor|]]. }
  split; [vm_compute; reflexivity|]. split; [done|]. split; [done|].
  intros (e' & He). eapply only_tree in He; [|vm_compute; reflexivity|notin].
  destruct (phrase_root _ _ _ He ltac:(notin) _ _ _ eq_refl) as (_ & _ & _ & H).
  apply H; [done|]. by eexists _, _.
Qed.
Print Assumptions nullish_mix_refuted.

(** Both printers drop the parentheses that end an optional chain before an
    assignment: from [(a?.b).c = d] they print [a?.b.c = d], which is no
    expression. *)
Theorem chained_target_refuted : exists toks e,
  toks = [TLPar; TId 1; TQDot; TId 2; TRPar; TDot; TId 3; TOp BAssign; TId 4]%N /\
  phrase true Expression toks e /\ parse_js toks = Ok (e, [TEnd]) /\
  forall p, covered p false e = true /\
  print_expr p e = [TId 1; TQDot; TId 2; TDot; TId 3; TOp BAssign; TId 4]%N /\
  ~ exists e', phrase true Expression (print_expr p e) e'.
Proof.
  exists [TLPar; TId 1; TQDot; TId 2; TRPar; TDot; TId 3; TOp BAssign; TId 4]%N,
    (EBinary BAssign (EMember false (EMember true (EId 1) 2) 3) (EId 4)).
  split; [reflexivity|]. split.
  { eapply p_chain; [constructor|].
    apply (p_infix true _ _ _ _ BAssign [TLPar; TId 1; TQDot; TId 2; TRPar; TDot; TId 3]%N _
      [TId 4]%N _ infix_assign);
      [set_solver| |repeat first [apply p_name|eapply p_chain; [constructor|]]].
    apply (p_member true _ _ false [TLPar; TId 1; TQDot; TId 2; TRPar]%N _ _ access_target_member).
    eapply p_chain; [constructor|].
    apply (p_parens true [TId 1; TQDot; TId 2]%N).
    do 17 (eapply p_chain; [constructor|]). eapply p_chain; [apply chain_lhs_optional|].
    apply (p_member true _ _ true [TId 1]%N _ _ access_member_q).
    repeat first [apply p_name|eapply p_chain; [constructor|]]. }
  split; [vm_compute; reflexivity|]. intros p. split; [by destruct p|]. split; [by destruct p|].
  intros (e' & He).
  replace (print_expr p _) with [TId 1; TQDot; TId 2; TDot; TId 3; TOp BAssign; TId 4]%N in He
    by (by destruct p).
  eapply only_tree in He; [|vm_compute; reflexivity|notin].
  pose proof (proj2 (phrase_chain_target _ _ _ He ltac:(notin)) _ _ _ eq_refl eq_refl) as H.
  discriminate H.
Qed.
Print Assumptions chained_target_refuted.

(** Both printers drop them before a further access too, which changes the
    value: [(a?.b).c] throws a TypeError where [a] is undefined, and what is
    printed for it, [a?.b.c], is undefined there.  The printed text has no other
    reading. *)
Theorem chain_parens_refuted : exists a names,
  parse_js (text_of a) = Ok (tree_of a, [TEnd]) /\
  forall p props,
  covered p false (tree_of a) = true /\
  access_value names props a = TypeError /\
  (exists a', text_of a' = print_expr p (tree_of a)) /\
  forall a', text_of a' = print_expr p (tree_of a) ->
  access_value names props a' = Value Undefined.
Proof.
  exists (AMember false (AParens (AMember true (AName 1) 2)) 3), (fun _ => Undefined).
  split; [vm_compute; reflexivity|]. intros p props. split; [by destruct p|].
  split; [done|]. split; [by exists (AMember false (AMember true (AName 1) 2) 3); destruct p|].
  intros a' H.
  assert (H' : text_of a' = [TId 1; TQDot; TId 2] ++ [TDot; TId 3]%N) by (rewrite H; by destruct p).
  apply (text_member a' _ false) in H' as (a1 & -> & H1).
  apply (text_member a1 [TId 1]%N true) in H1 as (a2 & -> & H2).
  by apply text_name in H2 as ->.
Qed.
Print Assumptions chain_parens_refuted.
