(** Properties C44, C45, C60 and C61: string and template literals. *)
From stdpp Require Import base decidable list numbers sets.
From Coq Require Import NArith Lia.
From Verif Require Import RustStr RustStrProofs EscModel EscSpec EscProofs.

Local Open Scope N_scope.

(** a, both quotes, backslash, NUL, the digit 1, LF, U+2028, U+1F600. *)
Definition sample : rstr := [0x61; 0x22; 0x27; 0x5C; 0; 0x31; 0x0A; 0x2028; 0x1F600].
Lemma sample_valid : valid_str sample.
Proof. repeat constructor. Qed.

(** C44: the emitted literal is a string literal of the language whose value is the string,
    in one line, in the requested quotes. *)
Theorem string_literal_denotes s style minify : valid_str s ->
  exists q body, emit_string_literal s style minify = q :: body ++ [q] /\
    (q = 0x22 \/ q = 0x27) /\ (style = QDouble -> q = 0x22) /\ (style = QSingle -> q = 0x27) /\
    string_value q body (utf16 s) /\
    (forall c, c ∈ body -> ~ line_terminator c /\ 0x20 <= c).
Proof.
  intros V. exists (choose_quote s style minify), (escape_string (choose_quote s style minify) s). split; [done|].
  split; [apply choose_quote_cases|]. split; [by intros ->|]. split; [by intros ->|].
  split; [apply escape_string_value; [done|apply choose_quote_cases]|].
  intros c H. apply escape_string_chars in H. unfold line_terminator. lia.
Qed.
Print Assumptions string_literal_denotes.

Example string_literal_denotes_case : emit_string_literal sample QSingle true =
  [0x27; 0x61; 0x22; 0x5C; 0x27; 0x5C; 0x5C; 0x5C; 0x78; 0x30; 0x30; 0x31; 0x5C; 0x6E; 0x5C; 0x75; 0x32; 0x30; 0x32; 0x38; 0x1F600; 0x27].
Proof. reflexivity. Qed.

(** C44: when minifying, the automatic style is as short as either style. *)
Theorem auto_quotes_shortest s style m :
  str_len (emit_string_literal s QAuto true) <= str_len (emit_string_literal s style m).
Proof.
  assert (forall q, q = 0x22 \/ q = 0x27 -> str_len (q :: escape_string q s ++ [q]) = str_len (escape_string q s) + 2) as X.
  { intros q Q. assert (forall a b, str_len (a ++ b) = str_len a + str_len b) as A.
    { induction a as [|x a IH]; intros b; [done|]. cbn. fold (str_len (a ++ b)). fold (str_len a). rewrite IH. lia. }
    cbn. fold (str_len (escape_string q s ++ [q])). rewrite A. destruct Q as [->| ->]; cbn; lia. }
  unfold emit_string_literal. rewrite !X by apply choose_quote_cases. unfold choose_quote.
  destruct style, m; cbn [andb]; destruct (N.ltb_spec (str_len (escape_string 39 s) + 2) (str_len (escape_string 34 s) + 2)); lia.
Qed.
Print Assumptions auto_quotes_shortest.

Example auto_quotes_shortest_case : emit_string_literal [0x22] QAuto true = [0x27; 0x22; 0x27] /\ emit_string_literal [0x27] QAuto true = [0x22; 0x27; 0x22].
Proof. split; reflexivity. Qed.

(** C44: the project's own reader gives the string back, and stops behind the literal. *)
Theorem string_literal_round_trip s style minify rest : valid_str s ->
  exists q body, emit_string_literal s style minify = q :: body /\
    parse_string q (body ++ rest) = Some (utf16 s, rest) /\ from_utf16_lossy (utf16 s) = s.
Proof.
  intros V. eexists _, _. split; [reflexivity|]. split; [|by apply lossy_utf16]. rewrite <- app_assoc.
  apply parse_string_complete; [apply choose_quote_cases|]. apply escape_string_value; [done|apply choose_quote_cases].
Qed.
Print Assumptions string_literal_round_trip.

Example string_literal_round_trip_case : valid_str sample /\ utf16 sample = [0x61; 0x22; 0x27; 0x5C; 0; 0x31; 0x0A; 0x2028; 0xD83D; 0xDE00].
Proof. split; [apply sample_valid|reflexivity]. Qed.

(** C45: an emitted segment is a run of template characters whose template value is the
    text; so nothing in it is an unescaped backtick or the start of a substitution. *)
Theorem template_segment_denotes s : valid_str s ->
  template_value (emit_template_segment s) (utf16 s) /\ (forall c, c ∈ emit_template_segment s -> ~ line_terminator c /\ 0x20 <= c).
Proof.
  intros V. split; [by apply segment_value|]. intros c H. apply segment_chars in H. unfold line_terminator. lia.
Qed.
Print Assumptions template_segment_denotes.

Example template_segment_denotes_case : emit_template_segment [0x60; 0x24; 0x7B; 0x0D; 0] = [0x5C; 0x60; 0x5C; 0x24; 0x7B; 0x5C; 0x72; 0x5C; 0x78; 0x30; 0x30].
Proof. reflexivity. Qed.

(** C45: the project's own reader gives the segment back, whether a backtick or a
    substitution follows. *)
Theorem template_segment_round_trip s rest : valid_str s ->
  parse_template_part (emit_template_segment s ++ [0x60] ++ rest) = Some (utf16 s, true, rest) /\
  parse_template_part (emit_template_segment s ++ [0x24; 0x7B] ++ rest) = Some (utf16 s, false, rest).
Proof.
  intros V. apply (parse_part_complete _ _ rest (segment_value s V)). intros H. apply segment_chars in H. lia.
Qed.
Print Assumptions template_segment_round_trip.

Example template_segment_round_trip_case : valid_str [0x60; 0x24; 0x7B; 0x0D; 0].
Proof. repeat constructor. Qed.

(** C60: printing a parsed string literal keeps its value, when the value is well-formed
    UTF-16. Missing: values with lone surrogates, see the next theorem. *)
Theorem string_reprint_partial q raw v s style minify : q = 0x22 \/ q = 0x27 -> string_value q raw v -> valid_str s -> v = utf16 s ->
  exists v', parse_string q (raw ++ [q]) = Some (v', []) /\
  exists q' body, emit_string_literal (from_utf16_lossy v') style minify = q' :: body ++ [q'] /\ string_value q' body v.
Proof.
  intros Q H V ->. exists (utf16 s). split; [by apply parse_string_complete|]. rewrite lossy_utf16 by done.
  eexists _, _. split; [reflexivity|]. apply escape_string_value; [done|apply choose_quote_cases].
Qed.
Print Assumptions string_reprint_partial.

Example string_reprint_partial_case : string_value 0x22 [0x5C; 0x78; 0x34; 0x31] (utf16 [0x41]).
Proof. apply (sv_escape _ [0x78; 0x34; 0x31] [] [0x41] []); [|constructor]. constructor. by apply hex_number_spec. Qed.

(** C60 is false for lone surrogates: "\uD800" is printed as U+FFFD. *)
Theorem string_reprint_refuted : exists raw v v',
  string_value 0x22 raw v /\ parse_string 0x22 (raw ++ [0x22]) = Some (v, []) /\
  parse_string 0x22 (tail (emit_string_literal (from_utf16_lossy v) QDouble false)) = Some (v', []) /\ v' <> v.
Proof.
  exists [0x5C; 0x75; 0x44; 0x38; 0x30; 0x30], [0xD800], [0xFFFD].
  split; [|split; [reflexivity|split; [reflexivity|done]]].
  apply (sv_escape _ [0x75; 0x44; 0x38; 0x30; 0x30] [] [0xD800] []); [|constructor]. constructor. by apply hex_number_spec.
Qed.
Print Assumptions string_reprint_refuted.

(** C60, templates: a template without substitutions that neither starts nor ends with a
    backtick is printed with the same value. *)
Theorem template_reprint_partial s : valid_str s -> head s <> Some 0x60 -> last s <> Some 0x60 ->
  exists body, emit_template [PText s] = [0x60] ++ body ++ [0x60] /\ template_value body (utf16 s).
Proof.
  intros V H L. exists (emit_template_segment s). split; [|by apply segment_value]. unfold emit_template. cbn [emit_parts]. rewrite app_nil_r.
  replace (cooked_template_segment s true true) with s; [done|]. unfold cooked_template_segment. cbn [andb].
  assert (match s with [] => s | c :: s0 => if c =? 96 then s0 else s end = s) as ->.
  { destruct s as [|c s]; [done|]. destruct (N.eqb_spec c 0x60) as [->|]; [|done]. by destruct H. }
  unfold ends_with. destruct (bool_decide _) eqn:E; [|done]. apply bool_decide_eq_true_1 in E as [k ->]. destruct L. by rewrite last_snoc.
Qed.
Print Assumptions template_reprint_partial.

Example template_reprint_partial_case : emit_template [PText [0x61; 0x60; 0x62]] = [0x60; 0x61; 0x5C; 0x60; 0x62; 0x60].
Proof. reflexivity. Qed.

(** C60 is false of templates: `\`a` is read as the text "`a" and printed as `a`. *)
Theorem template_reprint_refuted : exists raw s v,
  template_value raw (utf16 s) /\ parse_template_part (raw ++ [0x60]) = Some (utf16 s, true, []) /\
  parse_template_part (tail (emit_template [PText s])) = Some (v, true, []) /\ v <> utf16 s.
Proof.
  exists [0x5C; 0x60; 0x61], [0x60; 0x61], [0x61]. split; [|split; [reflexivity|split; [reflexivity|done]]].
  apply (tv_escape [0x60] [0x61] [0x60] [0x61]).
  - apply (es_other 0x60); unfold escape_character, decimal_digit, line_terminator; [|lia]. intros [[v H]|H]; [inversion H|lia].
  - apply (tv_char 0x61 [] []); try lia. constructor.
Qed.
Print Assumptions template_reprint_refuted.

(** C61: every string literal of the (strict) grammar is read with its value. *)
Theorem string_literals_read q raw v rest : q = 0x22 \/ q = 0x27 -> string_value q raw v -> parse_string q (raw ++ q :: rest) = Some (v, rest).
Proof. apply parse_string_complete. Qed.
Print Assumptions string_literals_read.

Example string_literals_read_case : parse_string 0x22 [0x5C; 0x75; 0x7B; 0x31; 0x66; 0x36; 0x30; 0x30; 0x7D; 0x5C; 0x0D; 0x0A; 0x5C; 0x30; 0x22; 0x3B] = Some ([0xD83D; 0xDE00; 0], [0x3B]).
Proof. reflexivity. Qed.

(** C61: conversely, an accepted literal without legacy escapes is one of the grammar, with
    that value. *)
Theorem string_literals_read_only q s v rest : q = 0x22 \/ q = 0x27 -> parse_string q s = Some (v, rest) ->
  exists raw, s = raw ++ q :: rest /\ (has_legacy_escape raw = false -> string_value q raw v).
Proof. apply parse_string_sound. Qed.
Print Assumptions string_literals_read_only.

Example string_literals_read_only_case : parse_string 0x22 [0x5C; 0x78; 0x34; 0x22] = None /\ parse_string 0x22 [0x61; 0x0A; 0x22] = None /\
  exists v, parse_string 0x22 [0x5C; 0x62; 0x22] = Some (v, []).
Proof. split; [reflexivity|]. split; [reflexivity|]. eexists. reflexivity. Qed.

(** C61 is false of legacy octal escapes: "\400" is U+0020 followed by "0", but is read as
    U+0100. *)
Theorem legacy_octal_read_refuted : exists raw v v',
  sloppy_value 0x22 raw v /\ parse_string 0x22 (raw ++ [0x22]) = Some (v', []) /\ v' <> v.
Proof.
  exists [0x5C; 0x34; 0x30; 0x30], [0x20; 0x30], [0x100]. split; [|split; [reflexivity|done]].
  apply (lv_octal _ [0x34; 0x30] [0x30] 0x20 [0x30]).
  - apply (lo_two_high 0x34 0x30); unfold octal_digit; lia.
  - apply (lv_char _ 0x30 [] []); try lia. constructor.
Qed.
Print Assumptions legacy_octal_read_refuted.

(** C61, templates: without carriage returns a template part is read with its value. *)
Theorem template_parts_read_partial raw v rest : template_value raw v -> 0x0D ∉ raw ->
  parse_template_part (raw ++ [0x60] ++ rest) = Some (v, true, rest) /\ parse_template_part (raw ++ [0x24; 0x7B] ++ rest) = Some (v, false, rest).
Proof. apply parse_part_complete. Qed.
Print Assumptions template_parts_read_partial.

Example template_parts_read_partial_case : template_value [0x24; 0x0A] [0x24; 0x0A] /\ 0x0D ∉ [0x24; 0x0A].
Proof.
  split; [|set_solver by lia]. apply tv_dollar; [done|]. apply (tv_char 0x0A [] []); try lia. constructor.
Qed.

(** C61 is false of carriage returns in templates: they stand for LF, but are kept. *)
Theorem template_cr_read_refuted : exists raw v v',
  template_value raw v /\ parse_template_part (raw ++ [0x60]) = Some (v', true, []) /\ v' <> v.
Proof.
  exists [0x0D; 0x0A], [0x0A], [0x0D; 0x0A]. split; [|split; [reflexivity|done]]. apply tv_crlf. constructor.
Qed.
Print Assumptions template_cr_read_refuted.
