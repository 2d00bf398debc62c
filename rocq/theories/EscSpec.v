(** ECMA-262: the string value of a string literal (12.9.4, strict mode) and the template
    value of template characters (12.9.6), as relations between source text (code points)
    and code units. *)
From stdpp Require Import base decidable list numbers.
From Coq Require Import NArith.
From Verif Require Import RustStr.

Local Open Scope N_scope.

Definition decimal_digit (c : N) : Prop := 0x30 <= c <= 0x39.
Definition line_terminator (c : N) : Prop := c = 0x0A \/ c = 0x0D \/ c = 0x2028 \/ c = 0x2029.
(** The mathematical value of a hexadecimal digit, and of digits. *)
Inductive hex_value : N -> N -> Prop :=
  | hex_09 d : d <= 9 -> hex_value (0x30 + d) d
  | hex_AF d : d <= 5 -> hex_value (0x41 + d) (10 + d)
  | hex_af d : d <= 5 -> hex_value (0x61 + d) (10 + d).
Inductive hex_number : list N -> N -> Prop :=
  | hex_one h v : hex_value h v -> hex_number [h] v
  | hex_more hs h n v : hex_number hs n -> hex_value h v -> hex_number (hs ++ [h]) (n * 16 + v).
(** SingleEscapeCharacter and its value (table 37). *)
Inductive single_escape : N -> N -> Prop :=
  | se_b : single_escape 0x62 0x08 | se_t : single_escape 0x74 0x09 | se_n : single_escape 0x6E 0x0A
  | se_v : single_escape 0x76 0x0B | se_f : single_escape 0x66 0x0C | se_r : single_escape 0x72 0x0D
  | se_dq : single_escape 0x22 0x22 | se_sq : single_escape 0x27 0x27 | se_bs : single_escape 0x5C 0x5C.
Definition escape_character (c : N) : Prop := (exists v, single_escape c v) \/ decimal_digit c \/ c = 0x78 \/ c = 0x75.
(** Text after a backslash, the text that follows it, and its code units. *)
Inductive escape_sequence : rstr -> rstr -> list N -> Prop :=
  | es_single c v rest : single_escape c v -> escape_sequence [c] rest [v]
  | es_other c rest : ~ escape_character c -> ~ line_terminator c -> escape_sequence [c] rest (utf16_char c)
  | es_nul rest : (forall d r, rest = d :: r -> ~ decimal_digit d) -> escape_sequence [0x30] rest [0]
  | es_hex h1 h2 n rest : hex_number [h1; h2] n -> escape_sequence [0x78; h1; h2] rest [n]
  | es_u4 h1 h2 h3 h4 n rest : hex_number [h1; h2; h3; h4] n -> escape_sequence [0x75; h1; h2; h3; h4] rest [n]
  | es_u hs n rest : hex_number hs n -> n <= 0x10FFFF -> escape_sequence (0x75 :: 0x7B :: hs ++ [0x7D]) rest (utf16_char n)
  (** line continuations *)
  | es_line c rest : c = 0x0A \/ c = 0x2028 \/ c = 0x2029 -> escape_sequence [c] rest []
  | es_cr rest : (forall r, rest <> 0x0A :: r) -> escape_sequence [0x0D] rest []
  | es_crlf rest : escape_sequence [0x0D; 0x0A] rest [].
(** LegacyOctalEscapeSequence (sloppy mode): the digits, what follows, the value. *)
Definition octal_digit (c : N) : Prop := 0x30 <= c <= 0x37.
Inductive legacy_octal : rstr -> rstr -> N -> Prop :=
  | lo_zero d rest : d = 0x38 \/ d = 0x39 -> legacy_octal [0x30] (d :: rest) 0
  | lo_one a rest : 0x31 <= a <= 0x37 -> (forall d r, rest = d :: r -> ~ octal_digit d) -> legacy_octal [a] rest (a - 0x30)
  | lo_two_low a b rest : 0x30 <= a <= 0x33 -> octal_digit b -> (forall d r, rest = d :: r -> ~ octal_digit d) -> legacy_octal [a; b] rest ((a - 0x30) * 8 + (b - 0x30))
  | lo_two_high a b rest : 0x34 <= a <= 0x37 -> octal_digit b -> legacy_octal [a; b] rest ((a - 0x30) * 8 + (b - 0x30))
  | lo_three a b c rest : 0x30 <= a <= 0x33 -> octal_digit b -> octal_digit c -> legacy_octal [a; b; c] rest (((a - 0x30) * 8 + (b - 0x30)) * 8 + (c - 0x30)).
(** The string value of the characters between quotes [q]. *)
Inductive string_value (q : N) : rstr -> list N -> Prop :=
  | sv_nil : string_value q [] []
  | sv_char c s v : c <> q -> c <> 0x5C -> c <> 0x0A -> c <> 0x0D -> string_value q s v -> string_value q (c :: s) (utf16_char c ++ v)
  | sv_escape e s u v : escape_sequence e s u -> string_value q s v -> string_value q (0x5C :: e ++ s) (u ++ v).
(** The same in sloppy mode (12.9.4 with LegacyOctalEscapeSequence and
    NonOctalDecimalEscapeSequence). *)
Inductive sloppy_value (q : N) : rstr -> list N -> Prop :=
  | lv_nil : sloppy_value q [] []
  | lv_char c s v : c <> q -> c <> 0x5C -> c <> 0x0A -> c <> 0x0D -> sloppy_value q s v -> sloppy_value q (c :: s) (utf16_char c ++ v)
  | lv_escape e s u v : escape_sequence e s u -> sloppy_value q s v -> sloppy_value q (0x5C :: e ++ s) (u ++ v)
  | lv_octal e s n v : legacy_octal e s n -> sloppy_value q s v -> sloppy_value q (0x5C :: e ++ s) (n :: v)
  | lv_89 d s v : d = 0x38 \/ d = 0x39 -> sloppy_value q s v -> sloppy_value q (0x5C :: d :: s) (d :: v).
(** The template value; line terminator sequences CR LF and CR stand for LF. *)
Inductive template_value : rstr -> list N -> Prop :=
  | tv_nil : template_value [] []
  | tv_char c s v : c <> 0x60 -> c <> 0x5C -> c <> 0x24 -> c <> 0x0D -> template_value s v -> template_value (c :: s) (utf16_char c ++ v)
  | tv_dollar s v : (forall r, s <> 0x7B :: r) -> template_value s v -> template_value (0x24 :: s) (0x24 :: v)
  | tv_crlf s v : template_value s v -> template_value (0x0D :: 0x0A :: s) (0x0A :: v)
  | tv_cr s v : (forall r, s <> 0x0A :: r) -> template_value s v -> template_value (0x0D :: s) (0x0A :: v)
  | tv_escape e s u v : escape_sequence e s u -> template_value s v -> template_value (0x5C :: e ++ s) (u ++ v).
