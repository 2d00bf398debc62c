(** Printed expressions read back as the tree that was printed; the parser
    always answers. *)
From stdpp Require Import base decidable numbers list.
From Verif Require Import PrintModel PrattModel PrintSpec PrattProofs PrintProofs.

(** C51: operators, of any number and at any depth. *)
Theorem printed_operators_reparse : forall e,
  operator_tree e = true -> parse_js (print_expr AstPrinter e) = Ok (e, [TEnd]).
Proof. intros e H. by apply covered_reparses, operator_covered. Qed.
Print Assumptions printed_operators_reparse.

Definition a : expr := EId 1.
Definition b : expr := EId 2.
Definition c : expr := EId 3.

(** [a-(b-c)], [(a,b)?c=-a**b:(yield c)] and the mixed [??]/[||] forms. *)
Example operators_example :
  operator_tree
    (ECond (EBinary BComma a b)
       (EBinary BAssign c (EBinary BSub a (EBinary BSub b c)))
       (EBinary BExp (EUnary UMinus a) (EUnary UYield c))) = true /\
  print_expr AstPrinter (EBinary BSub a (EBinary BSub b c))
    = [TId 1; TOp BSub; TLPar; TId 2; TOp BSub; TId 3; TRPar] /\
  print_expr AstPrinter (EBinary BSub (EBinary BSub a b) c)
    = [TId 1; TOp BSub; TId 2; TOp BSub; TId 3] /\
  print_expr AstPrinter (EBinary BExp (EUnary UMinus a) b)
    = [TLPar; TOp BSub; TId 1; TRPar; TOp BExp; TId 2] /\
  print_expr AstPrinter (EBinary BNullish (EBinary BLOr a b) c)
    = [TLPar; TId 1; TOp BLOr; TId 2; TRPar; TOp BNullish; TId 3].
Proof. vm_compute. done. Qed.

(** Two operator trees with the same text are the same tree. *)
Theorem printed_operators_differ : forall e1 e2,
  operator_tree e1 = true -> operator_tree e2 = true ->
  print_expr AstPrinter e1 = print_expr AstPrinter e2 -> e1 = e2.
Proof.
  intros e1 e2 H1 H2 H. apply printed_operators_reparse in H1, H2.
  rewrite H, H2 in H1. by injection H1.
Qed.
Print Assumptions printed_operators_differ.

(** C62: calls, accesses, [new], arrays and spread as well, for both printers,
    apart from the shapes [covered] excludes. *)
Theorem printed_expressions_reparse_partial : forall p e,
  covered p false e = true -> parse_js (print_expr p e) = Ok (e, [TEnd]).
Proof. intros p e. apply covered_reparses. Qed.
Print Assumptions printed_expressions_reparse_partial.

(** [new (a?.b)(c, ...[a, , b])[a, b].m?.(-c)] *)
Definition call_sample : expr :=
  ECall true
    (EMember false
       (EIndex false
          (ENew (ECall false (EMember true a 2)
                   (IItem false c (IItem true
                      (EArr (IItem false a (IHole (IItem false b INil)))) INil))))
          (EBinary BComma a b)) 4)
    (IItem false (EUnary UMinus c) INil).

Example expressions_example :
  covered AstPrinter false call_sample = true /\
  covered HirPrinter false call_sample = true /\
  print_expr AstPrinter call_sample =
    [TNew; TLPar; TId 1; TQDot; TId 2; TRPar; TLPar; TId 3; TOp BComma; TDots;
     TLBr; TId 1; TOp BComma; TOp BComma; TId 2; TRBr; TRPar;
     TLBr; TId 1; TOp BComma; TId 2; TRBr; TDot; TId 4; TQLPar; TOp BSub; TId 3;
     TRPar].
Proof. vm_compute. done. Qed.

(** In TypeScript, with [as] and [satisfies]. *)
Theorem printed_typescript_reparses_partial : forall p e,
  covered p true e = true ->
  exists n0, forall n, n0 <= n -> parse_with n true (print_expr p e) = Ok (e, [TEnd]).
Proof. intros p e. apply print_parses. Qed.
Print Assumptions printed_typescript_reparses_partial.

Example typescript_example :
  let e := EMember false (EAs true (EAs false (EBinary BAdd a b) 7) 8) 2 in
  covered AstPrinter true e = true /\
  print_expr AstPrinter e =
    [TLPar; TLPar; TId 1; TOp BAdd; TId 2; TRPar; TAs false; TType 7; TAs true;
     TType 8; TRPar; TDot; TId 2].
Proof. vm_compute. done. Qed.

(** The excluded shapes are excluded for cause: [f((a,b))] is printed
    [f(a,b)], and so on; each text is that of another tree. *)
Definition misprinted (p : printer) (ts : bool) (e : expr) : Prop :=
  exists e' n, parse_with n ts (print_expr p e) = Ok (e', [TEnd]) /\ e' <> e.

Lemma misprint p ts e e' :
  parse_with 100 ts (print_expr p e) = Ok (e', [TEnd]) -> e' <> e -> misprinted p ts e.
Proof. intros H Hn. by exists e', 100. Qed.

Theorem comma_argument_refuted : forall p,
  misprinted p false (ECall false c (IItem false (EBinary BComma a b) INil)) /\
  misprinted p false (EArr (IItem false (EBinary BComma a b) INil)).
Proof. intros []; (split; (eapply misprint; [vm_compute; reflexivity|discriminate])). Qed.
Print Assumptions comma_argument_refuted.

Theorem trailing_hole_refuted : forall p,
  misprinted p false (EArr (IHole INil)) /\
  misprinted p false (EArr (IItem false a (IHole INil))).
Proof. intros []; (split; (eapply misprint; [vm_compute; reflexivity|discriminate])). Qed.
Print Assumptions trailing_hole_refuted.

(** [new (a())()], [new (a().m)()], [(new a)()] and [(new a).m]. *)
Theorem new_target_refuted :
  misprinted AstPrinter false (ENew (ECall false (ECall false a INil) INil)) /\
  misprinted AstPrinter false (ENew (ECall false (EMember false (ECall false a INil) 4) INil)) /\
  misprinted AstPrinter false (ECall false (ENew a) INil) /\
  misprinted AstPrinter false (EMember false (ENew a) 4).
Proof.
  repeat split; (eapply misprint; [vm_compute; reflexivity|discriminate]).
Qed.
Print Assumptions new_target_refuted.

(** [(-a) as T] and [(a ** b) as T]. *)
Theorem cast_operand_refuted :
  misprinted AstPrinter true (EAs false (EUnary UMinus a) 9) /\
  misprinted AstPrinter true (EAs false (EBinary BExp a b) 9).
Proof.
  repeat split; (eapply misprint; [vm_compute; reflexivity|discriminate]).
Qed.
Print Assumptions cast_operand_refuted.

(** [(await a) ** b] from the HIR printer is not an expression at all. *)
Theorem await_power_refuted :
  parse_js (print_expr HirPrinter (EBinary BExp (EUnary UAwait a) b)) = Err.
Proof. vm_compute. reflexivity. Qed.
Print Assumptions await_power_refuted.

(** C63: the JavaScript expression parser answers on every input, within a
    depth of calls linear in its length ... *)
Theorem javascript_parser_answers : forall toks,
  exists r, r <> OutOfFuel /\
  forall n, 4 * length toks + 8 <= n -> parse_with n false toks = r.
Proof.
  intros toks. exists (parse_js toks). split; [apply parse_js_total|].
  intros n Hn. by apply parse_js_fuel.
Qed.
Print Assumptions javascript_parser_answers.

Example answers_example :
  parse_js [TId 1; TOp BAdd] = Err /\
  parse_js [TId 1; TOp BAdd; TId 2; TRPar] = Err /\
  parse_js [TId 1; TOp BAdd; TId 2] = Ok (EBinary BAdd a b, [TEnd]).
Proof. vm_compute. done. Qed.

(** ... the TypeScript one never does on [a! == b] or [a! = b]: no amount of
    fuel is enough. *)
Theorem typescript_parser_hangs_refuted : forall x u rest,
  u = TOp BAssign \/ u = TOp BEq ->
  forall n, parse_with n true (TId x :: TNot :: u :: rest) = OutOfFuel.
Proof. intros x u rest Hu n. by apply parse_ts_spins. Qed.
Print Assumptions typescript_parser_hangs_refuted.
