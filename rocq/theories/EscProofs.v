(** Proofs about writing and reading literals. *)
From stdpp Require Import base decidable list numbers sets.
From Coq Require Import NArith Lia ZifyBool.
From Verif Require Import RustStr RustStrProofs EscModel EscSpec.

Local Open Scope N_scope.

(** ** Hexadecimal *)
Lemma hex_value_spec c v : hex_value c v -> is_hex c = true /\ hex_val c = v.
Proof.
  unfold is_hex, is_digit, hex_val. intros [d L|d L|d L]; (split; [lia|]); repeat case_match; lia.
Qed.
Lemma is_hex_value c : is_hex c = true -> hex_value c (hex_val c).
Proof.
  unfold is_hex, is_digit, hex_val. intros H. destruct (N.leb_spec c 0x39) as [L|L].
  - replace c with (0x30 + (c - 0x30)) at 1 by lia. constructor. lia.
  - destruct (N.leb_spec c 0x46) as [M|M].
    + replace c with (0x41 + (c - 0x41)) at 1 by lia. replace (c - 0x37) with (10 + (c - 0x41)) by lia. constructor. lia.
    + replace c with (0x61 + (c - 0x61)) at 1 by lia. replace (c - 0x57) with (10 + (c - 0x61)) by lia. constructor. lia.
Qed.
Lemma from_hex_snoc hs h : from_hex (hs ++ [h]) = from_hex hs * 16 + hex_val h.
Proof. unfold from_hex. by rewrite fold_left_app. Qed.
Lemma hex_number_spec hs n : hex_number hs n <-> hs <> [] /\ forallb is_hex hs = true /\ from_hex hs = n.
Proof.
  split.
  - induction 1 as [h v H|hs h n v H (A&B&C) V]; apply hex_value_spec in V || apply hex_value_spec in H; destruct_and?.
    + split; [done|]. cbn. unfold from_hex. cbn. lia.
    + split; [by destruct hs|]. rewrite forallb_app, B. cbn. rewrite from_hex_snoc. split; [lia|]. lia.
  - revert n. induction hs as [|h hs IH] using rev_ind; intros n; [intros (?&_); done|]. intros (_&B&<-). rewrite forallb_app in B. cbn in B.
    apply andb_prop in B as [B1 B2]. rewrite andb_true_r in B2. rewrite from_hex_snoc. destruct (decide (hs = [])) as [->|N].
    + cbn. constructor. by apply is_hex_value.
    + constructor; [by apply IH|by apply is_hex_value].
Qed.
Lemma hex_plain c : is_hex c = true -> c <> 0x5C /\ c <> 0x22 /\ c <> 0x27 /\ c <> 0x60 /\ c <> 0x24 /\ c <> 0x7B /\ c <> 0x7D /\ c <> 0x0A /\ c <> 0x0D.
Proof. unfold is_hex, is_digit. lia. Qed.
Lemma find_brace_hex hs s : forallb is_hex hs = true -> find_brace (hs ++ 0x7D :: s) = Some (hs, s).
Proof.
  induction hs as [|h hs IH]; cbn; [done|]. intros H. apply andb_prop in H as [H1 H2]. pose proof (hex_plain h H1).
  destruct (N.eqb_spec h 0x7D); [lia|]. by rewrite IH.
Qed.
Lemma find_brace_Some s hs r : find_brace s = Some (hs, r) -> s = hs ++ 0x7D :: r.
Proof.
  revert hs. induction s as [|c s IH]; cbn; [done|]. intros hs. destruct (N.eqb_spec c 0x7D) as [->|N].
  - intros E. injection E as <- <-. done.
  - destruct (find_brace s) as [[h r']|]; [|done]. intros E. injection E as <- <-. cbn. f_equal. by apply IH.
Qed.
Lemma utf16_small c : c < 0x10000 -> utf16_char c = [c].
Proof. unfold utf16_char. intros. destruct (N.ltb_spec c 0x10000); [done|lia]. Qed.

(** ** Reading escapes *)
Lemma decode_escape_complete e s u : escape_sequence e s u -> decode_escape (e ++ s) = Some (u, s).
Proof.
  intros [c v rest H|c rest N L|rest D|h1 h2 n rest H|h1 h2 h3 h4 n rest H|hs n rest H B|c rest H|rest H|rest].
  - destruct H; vm_compute; try done.
  - cbn [app decode_escape]. unfold is_octal.
    assert (forall k, (exists v, single_escape k v) \/ decimal_digit k \/ k = 0x78 \/ k = 0x75 -> (c =? k) = false) as E.
    { intros k K. apply N.eqb_neq. intros ->. by apply N. }
    assert (forall k, line_terminator k -> (c =? k) = false) as T.
    { intros k K. apply N.eqb_neq. intros ->. by apply L. }
    rewrite (T 0x0D), (T 0x0A), (T 0x2028), (T 0x2029) by (unfold line_terminator; lia). cbn [orb].
    rewrite !E; try (right; unfold decimal_digit; lia); try (left; eexists; constructor).
    assert ((0x30 <=? c) && (c <=? 0x37) = false) as ->; [|done].
    destruct ((0x30 <=? c) && (c <=? 0x37)) eqn:X; [|done]. destruct N. right. left. unfold decimal_digit. lia.
  - cbn [app]. unfold decode_escape. cbn -[octal_tail]. destruct rest as [|d r]; cbn; [done|].
    specialize (D d r eq_refl). unfold is_octal. unfold decimal_digit in D. destruct ((0x30 <=? d) && (d <=? 0x37)) eqn:X; [lia|done].
  - apply hex_number_spec in H as (_&H&<-). cbn [forallb] in H. cbn [app]. unfold decode_escape. cbn -[is_hex from_hex].
    rewrite andb_true_r in H. by rewrite H.
  - apply hex_number_spec in H as (_&H&<-). cbn [app]. unfold decode_escape. cbn -[is_hex from_hex forallb].
    assert (is_hex h1 = true) as I by (cbn [forallb] in H; lia). pose proof (hex_plain h1 I). destruct (N.eqb_spec h1 0x7B); [lia|]. by rewrite H.
  - apply hex_number_spec in H as (A&H&<-). cbn [app]. rewrite <- app_assoc. unfold decode_escape. cbn -[is_hex from_hex forallb find_brace app].
    cbn [app]. rewrite find_brace_hex by done. rewrite H, bool_decide_eq_false_2 by done. cbn [negb andb].
    destruct (N.leb_spec (from_hex hs) 0x10FFFF); [done|lia].
  - destruct H as [->|[->| ->]]; done.
  - unfold decode_escape. cbn. destruct rest as [|d r]; [done|]. destruct (N.eqb_spec d 0x0A) as [->|]; [|done]. by destruct (H r).
  - done.
Qed.
(** Legacy: a digit after the backslash that is not a lone zero. *)
Definition legacy_head (s : rstr) : bool :=
  match s with
  | d :: s => if d =? 0x30 then match s with n :: _ => is_digit n | [] => false end else is_digit d
  | [] => false
  end.
Lemma single_escape_decode c v : single_escape c v -> c <> 0x30 /\ c <> 0x78 /\ c <> 0x75 /\ ~ decimal_digit c.
Proof. unfold decimal_digit. destruct 1; lia. Qed.
Lemma decode_escape_sound s u r : decode_escape s = Some (u, r) -> legacy_head s = false ->
  exists d e, s = d :: e ++ r /\ escape_sequence (d :: e) r u /\ Forall (fun c => c <> 0x5C) e.
Proof.
  destruct s as [|c s]; [done|]. unfold decode_escape, legacy_head.
  destruct (N.eqb_spec c 0x0D) as [->|N1].
  { intros E _. destruct s as [|d s].
    - injection E as <- <-. exists 0x0D, []. split; [done|]. split; [|constructor]. apply es_cr. done.
    - destruct (N.eqb_spec d 0x0A) as [->|N].
      + injection E as <- <-. exists 0x0D, [0x0A]. split; [done|]. split; [apply es_crlf|]. repeat constructor. lia.
      + injection E as <- <-. exists 0x0D, []. split; [done|]. split; [|constructor]. apply es_cr. intros ? [= ->]. done. }
  destruct ((c =? 0x0A) || (c =? 0x2028) || (c =? 0x2029)) eqn:EL.
  { intros E _. injection E as <- <-. exists c, []. split; [done|]. split; [|constructor]. apply es_line. lia. }
  Local Ltac simple_esc := intros E _; injection E as <- <-; eexists _, []; (split; [reflexivity|]); (split; [|constructor]); repeat constructor.
  destruct (N.eqb_spec c 0x62) as [->|?]; [simple_esc|]. destruct (N.eqb_spec c 0x66) as [->|?]; [simple_esc|].
  destruct (N.eqb_spec c 0x6E) as [->|?]; [simple_esc|]. destruct (N.eqb_spec c 0x72) as [->|?]; [simple_esc|].
  destruct (N.eqb_spec c 0x74) as [->|?]; [simple_esc|]. destruct (N.eqb_spec c 0x76) as [->|?]; [simple_esc|].
  destruct (is_octal c) eqn:EO.
  { destruct (N.eqb_spec c 0x30) as [->|N].
    - destruct s as [|d s]; cbn.
      + intros E _. injection E as <- <-. exists 0x30, []. split; [done|]. split; [|constructor]. apply es_nul. done.
      + unfold is_octal, is_digit. intros E D. destruct ((0x30 <=? d) && (d <=? 0x37)) eqn:X; [lia|]. injection E as <- <-.
        exists 0x30, []. split; [done|]. split; [|constructor]. apply es_nul. intros ? ? [= -> ->]. unfold decimal_digit. lia.
    - intros _ H. unfold is_octal, is_digit in *. lia. }
  destruct (N.eqb_spec c 0x78) as [->|?].
  { intros E _. destruct s as [|h1 [|h2 s]]; try done. destruct (is_hex h1 && is_hex h2) eqn:H; [|done]. injection E as <- <-.
    exists 0x78, [h1; h2]. split; [done|]. apply andb_prop in H as [H1 H2]. split.
    - constructor. apply hex_number_spec. split; [done|]. split; [|done]. cbn [forallb]. by rewrite H1, H2.
    - pose proof (hex_plain h1 H1). pose proof (hex_plain h2 H2). repeat constructor; lia. }
  destruct (N.eqb_spec c 0x75) as [->|?].
  { intros E _. destruct s as [|b s']; [done|]. destruct (N.eqb_spec b 0x7B) as [->|Nb].
    - destruct (find_brace s') as [[hs s'']|] eqn:F; [|done]. apply find_brace_Some in F.
      destruct (negb (bool_decide (hs = [])) && forallb is_hex hs && (from_hex hs <=? 0x10FFFF)) eqn:C; [|done].
      apply andb_prop in C as [C C3]. apply andb_prop in C as [C1 C2]. apply negb_true_iff, bool_decide_eq_false_1 in C1.
      injection E as <- <-. exists 0x75, (0x7B :: hs ++ [0x7D]). split; [by rewrite F; cbn; rewrite <- app_assoc|]. split.
      + constructor; [by apply hex_number_spec|lia].
      + constructor; [lia|]. apply Forall_app. split; [|repeat constructor; lia]. apply Forall_forall. intros h Hh.
        apply (forallb_forall is_hex) with (x := h) in C2; [|by apply elem_of_list_In]. pose proof (hex_plain h C2). lia.
    - destruct s' as [|h2 [|h3 [|h4 s'']]]; try done. destruct (forallb is_hex [b; h2; h3; h4]) eqn:C; [|done]. injection E as <- <-.
      exists 0x75, [b; h2; h3; h4]. split; [done|]. split; [constructor; by apply hex_number_spec|].
      cbn [forallb] in C. repeat constructor; (match goal with |- ?x <> _ => assert (is_hex x = true) as I by lia; pose proof (hex_plain x I); lia end). }
  intros E H. injection E as <- <-. exists c, []. split; [done|]. split; [|constructor].
  destruct (decide (c = 0x22)) as [->|?]; [repeat constructor|]. destruct (decide (c = 0x27)) as [->|?]; [repeat constructor|].
  destruct (decide (c = 0x5C)) as [->|?]; [repeat constructor|]. apply es_other.
  - intros [[v V]|V]; [inversion V; lia|]. unfold is_octal, is_digit, decimal_digit in *. destruct (N.eqb_spec c 0x30); lia.
  - unfold line_terminator. lia.
Qed.
Lemma escape_nonempty e s u : escape_sequence e s u -> exists d e', e = d :: e' /\ Forall (fun c => c <> 0x5C /\ c <> 0x22 /\ c <> 0x27 /\ c <> 0x60) e' /\
  (forall r, 0x0D :: r = e -> e = [0x0D; 0x0A] \/ e = [0x0D] /\ forall r, s <> 0x0A :: r).
Proof.
  assert (forall c, is_hex c = true -> c <> 0x5C /\ c <> 0x22 /\ c <> 0x27 /\ c <> 0x60) as HX by (intros c H; pose proof (hex_plain c H); lia).
  destruct 1 as [c v rest H|c rest N L|rest D|h1 h2 n rest H|h1 h2 h3 h4 n rest H|hs n rest H B|c rest H|rest H|rest];
    eexists _, _; (split; [reflexivity|]).
  - split; [constructor|]. intros r [= <- ->]. inversion H.
  - split; [constructor|]. intros r [= <- ->]. destruct L. unfold line_terminator. auto.
  - split; [constructor|]. intros r [=].
  - apply hex_number_spec in H as (_&H&_). cbn [forallb] in H. split; [|intros r [=]].
    repeat (apply Forall_cons; split; [apply HX; lia|]). constructor.
  - apply hex_number_spec in H as (_&H&_). cbn [forallb] in H. split; [|intros r [=]].
    repeat (apply Forall_cons; split; [apply HX; lia|]). constructor.
  - apply hex_number_spec in H as (_&H&_). split; [|intros r [=]]. constructor; [lia|]. apply Forall_app. split; [|repeat constructor; lia].
    apply Forall_forall. intros h Hh. apply HX. apply (forallb_forall is_hex) with (x := h) in H; [done|by apply elem_of_list_In].
  - split; [constructor|]. intros r [= <- ->]. lia.
  - split; [constructor|]. auto.
  - split; [repeat constructor; lia|]. auto.
Qed.

(** ** Reading bodies *)
Lemma decode_loop_fuel fuel fuel' allow s : (length s <= fuel)%nat -> (length s <= fuel')%nat -> decode_loop fuel allow s = decode_loop fuel' allow s.
Proof.
  revert fuel' s. induction fuel as [|fuel IH]; intros fuel' s L L'; destruct s as [|c s]; try (destruct fuel'; cbn in *; (done || lia)).
  destruct fuel' as [|fuel']; [cbn in L'; lia|]. cbn [decode_loop]. cbn in L, L'. destruct (c =? 0x5C).
  - destruct (decode_escape s) as [[u r]|] eqn:E; [|done].
    assert (length r <= length s)%nat as LR.
    { clear -E. unfold decode_escape in E. destruct s as [|c s]; [done|]. cbn. unfold octal_tail in E.
      repeat case_match; simplify_eq; cbn; try lia.
      all: match goal with F : find_brace _ = Some _ |- _ => apply find_brace_Some in F; subst; rewrite app_length; cbn; lia end. }
    rewrite (IH fuel' r) by lia. done.
  - destruct (_ && _); [done|]. rewrite (IH fuel' s) by lia. done.
Qed.
Lemma decode_step_escape allow e s u : escape_sequence e s u ->
  decode_literal allow (0x5C :: e ++ s) = match decode_literal allow s with Some v => Some (u ++ v) | None => None end.
Proof.
  intros H. unfold decode_literal. cbn [length decode_loop]. change (0x5C =? 0x5C) with true. cbn match.
  rewrite (decode_escape_complete _ _ _ H). rewrite (decode_loop_fuel _ (length s)); [done| |done]. rewrite app_length. lia.
Qed.
Lemma decode_step_char allow c s : c <> 0x5C -> (allow = true \/ c <> 0x0A /\ c <> 0x0D) ->
  decode_literal allow (c :: s) = match decode_literal allow s with Some v => Some (utf16_char c ++ v) | None => None end.
Proof.
  intros N A. unfold decode_literal. cbn [length decode_loop]. destruct (N.eqb_spec c 0x5C); [done|].
  destruct (negb allow && ((c =? 0x0A) || (c =? 0x0D))) eqn:E; [|done]. destruct allow; cbn in *; [done|]. lia.
Qed.
Lemma decode_complete q s v : string_value q s v -> decode_literal false s = Some v.
Proof.
  induction 1 as [|c s v A B C D _ IH|e s u v E _ IH]; [done| |].
  - rewrite decode_step_char by auto. by rewrite IH.
  - rewrite (decode_step_escape _ _ _ _ E). by rewrite IH.
Qed.
(** ** Finding the end of the token *)
Inductive plain (q : N) : rstr -> Prop :=
  | pl_nil : plain q []
  | pl_char c t : c <> 0x5C -> c <> q -> plain q t -> plain q (c :: t)
  | pl_esc d t : plain q t -> plain q (0x5C :: d :: t).
Lemma plain_app q e s : Forall (fun c => c <> 0x5C /\ c <> q) e -> plain q s -> plain q (e ++ s).
Proof. induction 1 as [|c e [A B] _ IH]; cbn; [done|]. intros. constructor; auto. Qed.
Lemma plain_drop q e s : Forall (fun c => c <> 0x5C) e -> plain q (e ++ s) -> plain q s.
Proof. induction 1 as [|c e A _ IH]; cbn; [done|]. intros H. inversion H; subst; [auto|done]. Qed.
Lemma plain_escape q e s u : q = 0x22 \/ q = 0x27 \/ q = 0x60 -> escape_sequence e s u -> plain q s -> plain q (0x5C :: e ++ s).
Proof.
  intros Q E P. destruct (escape_nonempty _ _ _ E) as (d&e'&->&F&_). cbn. apply pl_esc. apply plain_app; [|done].
  eapply Forall_impl; [exact F|]. cbn. intros c H. lia.
Qed.
Lemma string_value_plain q s v : q = 0x22 \/ q = 0x27 -> string_value q s v -> plain q s.
Proof.
  intros Q. induction 1 as [|c s v A B C D _ IH|e s u v E _ IH]; [constructor|by constructor|]. eapply plain_escape; [lia|done|done].
Qed.
Lemma lex_string_plain q t rest body inv : q = 0x22 \/ q = 0x27 -> plain q t -> exists inv', lex_string q (t ++ q :: rest) body inv = Some (body ++ t, rest, inv').
Proof.
  intros Q. remember (length t) as n eqn:En. revert t body inv En. induction n as [n IH] using lt_wf_ind. intros t body inv En Pt. revert En.
  destruct Pt as [|c t' A B P|d t' P]; intros ->.
  - exists inv. cbn [app lex_string]. destruct (N.eqb_spec q 0x5C); [lia|]. destruct (N.eqb_spec q 0x0D); [lia|]. destruct (N.eqb_spec q 0x0A); [lia|].
    rewrite N.eqb_refl. cbn. by rewrite app_nil_r.
  - cbn [app lex_string]. destruct (N.eqb_spec c 0x5C); [done|]. destruct (N.eqb_spec c q); [done|].
    assert (forall i, exists inv', lex_string q (t' ++ q :: rest) (body ++ [c]) i = Some (body ++ c :: t', rest, inv')) as X.
    { intros i. destruct (IH (length t') ltac:(cbn; lia) t' (body ++ [c]) i eq_refl P) as [inv' E]. exists inv'. rewrite E. by rewrite <- app_assoc. }
    destruct (_ || _); apply X.
  - cbn [app lex_string]. change (0x5C =? 0x5C) with true. cbn match.
    destruct (IH (length t') ltac:(cbn; lia) t' (body ++ [0x5C; d]) inv eq_refl P) as [inv' E]. rewrite <- app_assoc in E. cbn [app] in E.
    destruct (N.eqb_spec d 0x0D) as [->|]; [|by exists inv'].
    revert IH E. destruct P as [|e t'' A B P|e t'' P]; intros IH E.
    + cbn [app] in *. destruct (N.eqb_spec q 0x0A); [lia|]. by exists inv'.
    + cbn [app] in *. destruct (N.eqb_spec e 0x0A) as [->|]; [|by exists inv'].
      destruct (IH (length t'') ltac:(cbn; lia) t'' (body ++ [0x5C; 0x0D; 0x0A]) inv eq_refl P) as [inv'' E2]. exists inv''. rewrite E2.
      by rewrite <- app_assoc.
    + cbn [app] in *. by exists inv'.
Qed.
Lemma lex_string_sound q s body inv body' rest inv' : q = 0x22 \/ q = 0x27 -> lex_string q s body inv = Some (body', rest, inv') ->
  exists t, body' = body ++ t /\ s = t ++ q :: rest /\ plain q t.
Proof.
  intros Q. remember (length s) as n eqn:En. revert s body inv En. induction n as [n IH] using lt_wf_ind. intros [|c s] body inv -> ; [done|]. cbn [lex_string].
  assert (forall (k s' : rstr) (i : bool), (length s' <= length s)%nat -> c :: s = k ++ s' -> lex_string q s' (body ++ k) i = Some (body', rest, inv') ->
     (forall t, plain q t -> plain q (k ++ t)) -> exists t, body' = body ++ t /\ c :: s = t ++ q :: rest /\ plain q t) as X.
  { intros k s' i L E H P. destruct (IH (length s') ltac:(cbn; lia) s' _ i eq_refl H) as (t&->&->&Pt). exists (k ++ t).
    rewrite <- app_assoc. split; [done|]. rewrite E, <- app_assoc. split; [done|]. by apply P. }
  destruct (N.eqb_spec c 0x5C) as [->|Nc].
  - destruct s as [|d s']; [done|].
    assert (lex_string q s' (body ++ [0x5C; d]) inv = Some (body', rest, inv') -> exists t, body' = body ++ t /\ 0x5C :: d :: s' = t ++ q :: rest /\ plain q t) as Y.
    { intros H. apply (X [0x5C; d] s' inv); [cbn; lia|done|done|]. intros t Pt. by apply pl_esc. }
    destruct (N.eqb_spec d 0x0D) as [->|Nd]; [|apply Y]. destruct s' as [|e s'']; [apply Y|]. destruct (N.eqb_spec e 0x0A) as [->|Ne]; [|apply Y].
    intros H. apply (X [0x5C; 0x0D; 0x0A] s'' inv); [cbn; lia|done|done|]. intros t Pt. apply pl_esc. constructor; [lia|lia|done].
  - destruct ((c =? 0x0D) || (c =? 0x0A)) eqn:EL.
    + intros H. apply (X [c] s true); [lia|done|done|]. intros t Pt. constructor; [done|lia|done].
    + destruct (N.eqb_spec c q) as [->|Nq].
      * intros E. injection E as <- <- <-. exists []. rewrite app_nil_r. split; [done|]. split; [done|constructor].
      * intros H. apply (X [c] s inv); [lia|done|done|]. intros t Pt. by constructor.
Qed.
Lemma legacy_split d e r : has_legacy_escape (0x5C :: d :: e ++ r) = false -> Forall (fun c => c <> 0x5C) e ->
  legacy_head (d :: e ++ r) = false /\ has_legacy_escape r = false.
Proof.
  intros H F. cbn [has_legacy_escape] in H. change (0x5C =? 0x5C) with true in H. cbn match in H. unfold legacy_head.
  assert (has_legacy_escape (e ++ r) = false -> has_legacy_escape r = false) as X.
  { clear H. induction F as [|c e A _ IH]; [done|]. cbn. destruct (N.eqb_spec c 0x5C); [done|]. done. }
  destruct (N.eqb_spec d 0x30) as [->|]; [|destruct (is_digit d); [done|]; split; [done|by apply X]].
  destruct (e ++ r) as [|n t] eqn:E; [destruct e, r; done|]. destruct (is_digit n); [done|]. split; [done|by apply X].
Qed.
Lemma legacy_head_false s : has_legacy_escape (0x5C :: s) = false -> legacy_head s = false.
Proof.
  destruct s as [|d s]; [done|]. cbn [has_legacy_escape]. change (0x5C =? 0x5C) with true. cbn match. unfold legacy_head.
  destruct (N.eqb_spec d 0x30) as [->|]; [|by destruct (is_digit d)]. destruct s as [|n s]; [done|]. by destruct (is_digit n).
Qed.
Lemma decode_sound q s v : q = 0x22 \/ q = 0x27 -> plain q s -> has_legacy_escape s = false -> decode_literal false s = Some v -> string_value q s v.
Proof.
  intros Q. remember (length s) as n eqn:En. revert s v En. induction n as [n IH] using lt_wf_ind. intros [|c s] v -> P L D.
  - injection D as <-. constructor.
  - destruct (decide (c = 0x5C)) as [->|Nc].
    + assert (exists u r, decode_escape s = Some (u, r)) as (u&r&E).
      { unfold decode_literal in D. cbn [length decode_loop] in D. change (0x5C =? 0x5C) with true in D. cbn match in D.
        destruct (decode_escape s) as [[u r]|]; [eauto|done]. }
      destruct (decode_escape_sound _ _ _ E (legacy_head_false _ L)) as (d&e&->&ES&F).
      change (d :: e ++ r) with ((d :: e) ++ r) in *. rewrite (decode_step_escape _ _ _ _ ES) in D.
      destruct (decode_literal false r) as [v'|] eqn:D'; [|done]. injection D as <-.
      apply (sv_escape q (d :: e)); [done|]. eapply IH; [|reflexivity| | |done].
      * cbn. rewrite app_length. lia.
      * inversion P; subst; [done|]. by eapply plain_drop.
      * by apply (legacy_split d e r L F).
    + assert (c <> 0x0A /\ c <> 0x0D) as NL.
      { unfold decode_literal in D. cbn [length decode_loop] in D. destruct (N.eqb_spec c 0x5C); [done|]. cbn [negb andb] in D.
        destruct ((c =? 0x0A) || (c =? 0x0D)) eqn:X; [done|lia]. }
      rewrite decode_step_char in D by auto. destruct (decode_literal false s) as [v'|] eqn:D'; [|done]. injection D as <-.
      inversion P; subst; [|done]. constructor; try (done || lia). eapply IH; [|reflexivity|done| |done]; [cbn; lia|].
      cbn in L. destruct (N.eqb_spec c 0x5C); done.
Qed.

(** ** Writing strings *)
Lemma hex2_escape c rest : c < 0x100 -> exists e, hex2 c = 0x5C :: e /\ escape_sequence e rest [c].
Proof.
  intros L. exists [0x78; hex_digit (c / 16); hex_digit (c mod 16)]. split; [done|]. constructor.
  assert (c / 16 < 16) as A by (apply N.div_lt_upper_bound; lia). pose proof (N.mod_upper_bound c 16 ltac:(lia)) as B. pose proof (N.div_mod' c 16) as E.
  assert (forall n, n < 16 -> hex_value (hex_digit n) n) as X.
  { intros n Ln. unfold hex_digit. destruct (N.ltb_spec n 10); [constructor; lia|].
    replace (0x37 + n) with (0x41 + (n - 10)) by lia. replace n with (10 + (n - 10)) at 2 by lia. constructor. lia. }
  rewrite E at 3. replace (16 * (c / 16) + c mod 16) with ((c / 16) * 16 + c mod 16) by lia.
  apply (hex_more [hex_digit (c / 16)]); [constructor|]; by apply X.
Qed.
(** The first character written for [c] is a digit only if [c] is one. *)
Lemma escape_char_head q c next t d r : escape_char q c next ++ t = d :: r -> decimal_digit d -> is_digit c = true.
Proof.
  unfold escape_char, hex2, decimal_digit, is_digit. intros E D.
  repeat case_match; cbn in E; injection E as <- <-; lia.
Qed.
Lemma escape_char_spec q c value : is_scalar c = true -> q = 0x22 \/ q = 0x27 ->
  (escape_char q c (head value) = [c] /\ c <> q /\ c <> 0x5C /\ c <> 0x0A /\ c <> 0x0D) \/
  (exists e, escape_char q c (head value) = 0x5C :: e /\ escape_sequence e (escape_string q value) (utf16_char c)).
Proof.
  intros V Q. unfold escape_char.
  assert (forall k v, c = k -> single_escape v k -> k < 0x10000 -> escape_sequence [v] (escape_string q value) (utf16_char c)) as SE.
  { intros k v -> H L. rewrite utf16_small by done. by constructor. }
  assert (forall h1 h2 h3 h4, hex_number [h1; h2; h3; h4] c -> c < 0x10000 -> escape_sequence [0x75; h1; h2; h3; h4] (escape_string q value) (utf16_char c)) as U4.
  { intros h1 h2 h3 h4 H L. rewrite utf16_small by done. by constructor. }
  destruct (N.eqb_spec c 0x5C); [right; eexists; split; [done|]; eapply SE; [done|constructor|lia]|].
  destruct ((c =? 0x22) && (q =? 0x22)) eqn:E1; [right; eexists; split; [done|]; apply (SE 0x22); [lia|constructor|lia]|].
  destruct ((c =? 0x27) && (q =? 0x27)) eqn:E2; [right; eexists; split; [done|]; apply (SE 0x27); [lia|constructor|lia]|].
  destruct (N.eqb_spec c 0x0A); [right; eexists; split; [done|]; eapply SE; [done|constructor|lia]|].
  destruct (N.eqb_spec c 0x0D); [right; eexists; split; [done|]; eapply SE; [done|constructor|lia]|].
  destruct (N.eqb_spec c 0x09); [right; eexists; split; [done|]; eapply SE; [done|constructor|lia]|].
  destruct (N.eqb_spec c 0) as [->|].
  { right. destruct (match head value with Some d => is_digit d | None => false end) eqn:H; (eexists; split; [reflexivity|]).
    - rewrite utf16_small by lia. constructor. by apply hex_number_spec.
    - rewrite utf16_small by lia. apply es_nul. intros d r E D. destruct value as [|x value]; [done|]. cbn in H, E.
      eapply escape_char_head in E; [|done]. congruence. }
  destruct (N.eqb_spec c 0x2028); [right; eexists; split; [done|]; apply U4; [subst; by apply hex_number_spec|lia]|].
  destruct (N.eqb_spec c 0x2029); [right; eexists; split; [done|]; apply U4; [subst; by apply hex_number_spec|lia]|].
  destruct (N.ltb_spec c 0x20).
  - right. destruct (hex2_escape c (escape_string q value)) as (e&A&B); [lia|]. exists e. split; [done|]. by rewrite utf16_small by lia.
  - left. split; [done|]. lia.
Qed.
Lemma escape_string_value q s : valid_str s -> q = 0x22 \/ q = 0x27 -> string_value q (escape_string q s) (utf16 s).
Proof.
  intros V Q. induction V as [|c s Hc _ IH]; cbn [escape_string]; [constructor|]. rewrite utf16_cons.
  destruct (escape_char_spec q c s Hc Q) as [(E&A&B&C&D)|(e&E&ES)]; rewrite E; cbn [app]; by constructor.
Qed.
Lemma choose_quote_cases s style m : choose_quote s style m = 0x22 \/ choose_quote s style m = 0x27.
Proof. unfold choose_quote. destruct style; auto. case_match; auto. Qed.
Lemma parse_string_complete q raw v rest : q = 0x22 \/ q = 0x27 -> string_value q raw v -> parse_string q (raw ++ q :: rest) = Some (v, rest).
Proof.
  intros Q H. unfold parse_string. destruct (lex_string_plain q raw rest [] false Q (string_value_plain _ _ _ Q H)) as [inv E]. rewrite E.
  cbn [app]. by rewrite (decode_complete _ _ _ H).
Qed.
Lemma parse_string_sound q s v rest : q = 0x22 \/ q = 0x27 -> parse_string q s = Some (v, rest) ->
  exists body, s = body ++ q :: rest /\ (has_legacy_escape body = false -> string_value q body v).
Proof.
  unfold parse_string. intros Q H. destruct (lex_string q s [] false) as [[[body rest'] inv]|] eqn:E; [|done].
  destruct (decode_literal false body) as [v'|] eqn:D; [|done]. injection H as <- <-.
  apply (lex_string_sound _ _ _ _ _ _ _ Q) in E as (t&->&->&P). exists t. split; [done|]. intros L. by apply decode_sound.
Qed.
(** ** Lossy decoding *)
Lemma lossy_utf16 s : valid_str s -> from_utf16_lossy (utf16 s) = s.
Proof.
  induction 1 as [|c s Hc _ IH]; [done|]. rewrite utf16_cons. destruct (utf16_char_cases c Hc) as [(A&B&E)|(A&B&E)]; rewrite E; cbn [app from_utf16_lossy].
  - unfold is_high, is_low. destruct ((0xD800 <=? c) && (c <=? 0xDBFF)) eqn:X; [lia|]. destruct ((0xDC00 <=? c) && (c <=? 0xDFFF)) eqn:Y; [lia|]. by rewrite IH.
  - assert ((c - 0x10000) / 0x400 < 0x400) as D by (apply N.div_lt_upper_bound; lia). pose proof (N.mod_upper_bound (c - 0x10000) 0x400 ltac:(lia)) as M.
    pose proof (N.div_mod' (c - 0x10000) 0x400) as DM. unfold is_high, is_low. clear E.
    generalize dependent ((c - 0x10000) / 0x400). generalize dependent ((c - 0x10000) mod 0x400). intros m M d D DM.
    destruct ((0xD800 <=? 0xD800 + d) && (0xD800 + d <=? 0xDBFF)) eqn:X; [|lia].
    destruct ((0xDC00 <=? 0xDC00 + m) && (0xDC00 + m <=? 0xDFFF)) eqn:Y; [|lia]. rewrite IH. f_equal. lia.
Qed.

(** ** Templates *)
Lemma template_char_spec c rest : is_scalar c = true ->
  (template_char c = [c] /\ c <> 0x60 /\ c <> 0x5C /\ c <> 0x24 /\ c <> 0x0D) \/
  (exists e, template_char c = 0x5C :: e /\ escape_sequence e rest (utf16_char c)).
Proof.
  intros V. unfold template_char.
  assert (forall k v, c = k -> single_escape v k -> k < 0x10000 -> escape_sequence [v] rest (utf16_char c)) as SE.
  { intros k v -> H L. rewrite utf16_small by done. by constructor. }
  assert (forall h1 h2 h3 h4, hex_number [h1; h2; h3; h4] c -> c < 0x10000 -> escape_sequence [0x75; h1; h2; h3; h4] rest (utf16_char c)) as U4.
  { intros h1 h2 h3 h4 H L. rewrite utf16_small by done. by constructor. }
  assert (forall k, k = 0x60 \/ k = 0x24 -> ~ escape_character k /\ ~ line_terminator k) as O.
  { intros k K. unfold escape_character, decimal_digit, line_terminator. split; [|lia]. intros [[v H]|H]; [inversion H; lia|lia]. }
  destruct (N.eqb_spec c 0x5C); [right; eexists; split; [done|]; eapply SE; [done|constructor|lia]|].
  destruct (N.eqb_spec c 0x60) as [->|]; [right; eexists; split; [done|]; apply es_other; apply O; auto|].
  destruct (N.eqb_spec c 0x24) as [->|]; [right; eexists; split; [done|]; apply es_other; apply O; auto|].
  destruct (N.eqb_spec c 0x0A); [right; eexists; split; [done|]; eapply SE; [done|constructor|lia]|].
  destruct (N.eqb_spec c 0x0D); [right; eexists; split; [done|]; eapply SE; [done|constructor|lia]|].
  destruct (N.eqb_spec c 0x2028); [right; eexists; split; [done|]; apply U4; [subst; by apply hex_number_spec|lia]|].
  destruct (N.eqb_spec c 0x2029); [right; eexists; split; [done|]; apply U4; [subst; by apply hex_number_spec|lia]|].
  destruct (N.ltb_spec c 0x20).
  - right. destruct (hex2_escape c rest) as (e&A&B); [lia|]. exists e. split; [done|]. by rewrite utf16_small by lia.
  - left. split; [done|]. lia.
Qed.
Lemma segment_value s : valid_str s -> template_value (emit_template_segment s) (utf16 s).
Proof.
  unfold emit_template_segment. induction 1 as [|c s Hc _ IH]; cbn [flat_map]; [constructor|]. rewrite utf16_cons.
  destruct (template_char_spec c (flat_map template_char s) Hc) as [(E&A&B&C&D)|(e&E&ES)]; rewrite E; cbn [app]; by constructor.
Qed.
(** Without carriage returns the code reads templates as ECMAScript does. *)
Lemma template_complete s v : template_value s v -> 0x0D ∉ s -> decode_literal true s = Some v.
Proof.
  induction 1 as [|c s v A B C D _ IH|s v A _ IH|s v _ IH|s v A _ IH|e s u v E _ IH]; intros R; [done|..].
  - rewrite decode_step_char by auto. rewrite IH; [done|]. set_solver.
  - rewrite decode_step_char; [|lia|auto]. rewrite IH; [done|]. set_solver.
  - set_solver.
  - set_solver.
  - rewrite (decode_step_escape _ _ _ _ E). rewrite IH; [done|]. set_solver.
Qed.
Lemma lex_template_skip e s body : Forall (fun c => c <> 0x5C /\ c <> 0x60 /\ c <> 0x24) e -> lex_template (e ++ s) body = lex_template s (body ++ e).
Proof.
  intros F. revert body. induction F as [|c e (A&B&C) _ IH]; intros body; cbn [app]; [by rewrite app_nil_r|]. cbn [lex_template].
  destruct (N.eqb_spec c 0x5C); [done|]. destruct (N.eqb_spec c 0x60); [done|]. destruct (N.eqb_spec c 0x24); [done|].
  rewrite IH. by rewrite <- app_assoc.
Qed.
Lemma escape_no_dollar e s u : escape_sequence e s u -> exists d e', e = d :: e' /\ Forall (fun c => c <> 0x5C /\ c <> 0x60 /\ c <> 0x24) e'.
Proof.
  assert (forall c, is_hex c = true -> c <> 0x5C /\ c <> 0x60 /\ c <> 0x24) as HX by (intros c H; pose proof (hex_plain c H); lia).
  destruct 1 as [c v rest H|c rest N L|rest D|h1 h2 n rest H|h1 h2 h3 h4 n rest H|hs n rest H B|c rest H|rest H|rest];
    eexists _, _; (split; [reflexivity|]); try constructor.
  - apply hex_number_spec in H as (_&H&_). cbn [forallb] in H. apply HX. lia.
  - apply hex_number_spec in H as (_&H&_). cbn [forallb] in H. repeat (apply Forall_cons; split; [apply HX; lia|]). constructor.
  - apply hex_number_spec in H as (_&H&_). cbn [forallb] in H. apply HX. lia.
  - apply hex_number_spec in H as (_&H&_). cbn [forallb] in H. repeat (apply Forall_cons; split; [apply HX; lia|]). constructor.
  - lia.
  - apply hex_number_spec in H as (_&H&_). apply Forall_app. split; [|repeat constructor; lia].
    apply Forall_forall. intros h Hh. apply HX. apply (forallb_forall is_hex) with (x := h) in H; [done|by apply elem_of_list_In].
  - lia.
  - constructor.
Qed.
Lemma lex_template_end s v body tail : template_value s v -> match tail with [] => False | c :: _ => c = 0x60 \/ c = 0x24 end ->
  lex_template (s ++ tail) body = lex_template tail (body ++ s).
Proof.
  intros T HT. revert body. induction T as [|c s v A B C D _ IH|s v A _ IH|s v _ IH|s v A _ IH|e s u v E _ IH]; intros body.
  - by rewrite app_nil_r.
  - change ((c :: s) ++ tail) with ([c] ++ s ++ tail). rewrite lex_template_skip by (repeat constructor; done). rewrite IH. by rewrite <- app_assoc.
  - cbn [app lex_template]. change (0x24 =? 0x5C) with false. change (0x24 =? 0x60) with false. change (0x24 =? 0x24) with true. cbn match.
    destruct (s ++ tail) as [|d r] eqn:ET; [by destruct s, tail|]. rewrite <- ET in *.
    destruct (N.eqb_spec d 0x7B) as [->|]; [|by rewrite IH, <- app_assoc].
    destruct s as [|x s]; cbn in ET; [subst tail; lia|]. injection ET as -> _. by destruct (A s).
  - change ((0x0D :: 0x0A :: s) ++ tail) with ([0x0D; 0x0A] ++ s ++ tail). rewrite lex_template_skip by (repeat constructor; lia). rewrite IH. by rewrite <- app_assoc.
  - change ((0x0D :: s) ++ tail) with ([0x0D] ++ s ++ tail). rewrite lex_template_skip by (repeat constructor; lia). rewrite IH. by rewrite <- app_assoc.
  - destruct (escape_no_dollar _ _ _ E) as (d&e'&->&F). cbn [app lex_template]. change (0x5C =? 0x5C) with true. cbn match.
    rewrite <- app_assoc, lex_template_skip by done. rewrite IH. rewrite <- !app_assoc. done.
Qed.
Lemma parse_part_complete s v rest : template_value s v -> 0x0D ∉ s ->
  parse_template_part (s ++ 0x60 :: rest) = Some (v, true, rest) /\ parse_template_part (s ++ 0x24 :: 0x7B :: rest) = Some (v, false, rest).
Proof.
  intros T R. unfold parse_template_part. rewrite !(lex_template_end _ _ _ _ T) by auto. cbn [lex_template app].
  change (0x60 =? 0x5C) with false. change (0x60 =? 0x60) with true. change (0x24 =? 0x5C) with false. change (0x24 =? 0x60) with false. change (0x24 =? 0x24) with true.
  change (0x7B =? 0x7B) with true. cbn match. by rewrite (template_complete _ _ T R).
Qed.
Lemma hex2_chars c x : c < 0x100 -> x ∈ hex2 c -> 0x30 <= x <= 0x78.
Proof.
  intros L. assert (c / 16 < 16) as A by (apply N.div_lt_upper_bound; lia). pose proof (N.mod_upper_bound c 16 ltac:(lia)) as B.
  unfold hex2, hex_digit. rewrite !elem_of_cons, elem_of_nil. revert A B. generalize (c / 16), (c mod 16). intros d m A B.
  destruct (N.ltb_spec d 10), (N.ltb_spec m 10); lia.
Qed.
Lemma segment_chars s c : c ∈ emit_template_segment s -> c <> 0x0D /\ c <> 0x0A /\ c <> 0x2028 /\ c <> 0x2029 /\ 0x20 <= c.
Proof.
  unfold emit_template_segment. intros H. apply elem_of_list_In, in_flat_map in H as (d&_&H). apply elem_of_list_In in H. revert H. unfold template_char.
  repeat (case_match; try (rewrite !elem_of_cons, elem_of_nil; lia)).
  all: intros HX; apply hex2_chars in HX; lia.
Qed.
Lemma escape_string_chars q s c : c ∈ escape_string q s -> c <> 0x0D /\ c <> 0x0A /\ c <> 0x2028 /\ c <> 0x2029 /\ 0x20 <= c.
Proof.
  induction s as [|d s IH]; cbn [escape_string]; [by rewrite elem_of_nil|]. rewrite elem_of_app. intros [H|H]; [|auto]. revert H. clear IH.
  unfold escape_char.
  repeat (case_match; try (rewrite !elem_of_cons, elem_of_nil; lia)).
  all: intros HX; apply hex2_chars in HX; lia.
Qed.
