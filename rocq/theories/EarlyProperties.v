(** C67: early errors. *)
From stdpp Require Import base decidable numbers sets list.
From Verif Require Import PrintModel PrattModel GrammarSpec EarlySpec EarlyProofs.

(** Whatever text is read, in JavaScript or TypeScript, every assignment in the tree is to
    a name or a property outside an optional chain. *)
Theorem assignment_targets_legal : forall fuel ts toks e rest, parse_with fuel ts toks = Ok (e, rest) ->
  every_infix (fun op l => op ∈ assignment_operators -> reference l) e.
Proof.
  intros fuel ts toks e rest H. apply (every_infix_weaken false); [by intros op l []|]. eapply early_parse; [|exact H]. by intros ?.
Qed.
Print Assumptions assignment_targets_legal.

(** In a text without parentheses, the base of [**] is never a prefix operator's result. *)
Theorem exponent_bases_legal : forall fuel ts toks e rest, TLPar ∉ toks -> parse_with fuel ts toks = Ok (e, rest) ->
  every_infix (fun op l => op = BExp -> ~ unary_expression l) e.
Proof.
  intros fuel ts toks e rest Hn H. apply (every_infix_weaken true); [intros op l [_ Hf]; by apply Hf|]. eapply early_parse; [|exact H]. by intros _.
Qed.
Print Assumptions exponent_bases_legal.

(** [a.b = c ** d] and [-(a ** b)] are read; [a?.b = c] and [-a ** b] are not. *)
Example early_case : (exists e, parse_js [TId 1; TDot; TId 2; TOp BAssign; TId 3; TOp BExp; TId 4]%N = Ok (e, [TEnd]) /\ e = EBinary BAssign (EMember false (EId 1) 2) (EBinary BExp (EId 3) (EId 4))) /\
  parse_js [TId 1; TQDot; TId 2; TOp BAssign; TId 3]%N = Err /\ parse_js [TOp BSub; TId 1; TOp BExp; TId 2]%N = Err.
Proof. split; [eexists; split; vm_compute; reflexivity|]. split; vm_compute; reflexivity. Qed.
