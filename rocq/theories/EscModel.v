(** String and template literals: emit-js/src/escape.rs (writing), parse-js/src/lex/mod.rs
    and parse-js/src/parse/expr/lit.rs (reading). Text is a list of code points; byte
    offsets appear only in errors, which are modelled as [None]. *)
From stdpp Require Import base decidable list numbers.
From Coq Require Import NArith Bool.
From Verif Require Import RustStr.

Local Open Scope N_scope.

(** [char::is_ascii_digit], [is_ascii_hexdigit], [to_digit(16)]. *)
Definition is_digit (c : N) : bool := (0x30 <=? c) && (c <=? 0x39).
Definition is_octal (c : N) : bool := (0x30 <=? c) && (c <=? 0x37).
Definition is_hex (c : N) : bool := is_digit c || ((0x41 <=? c) && (c <=? 0x46)) || ((0x61 <=? c) && (c <=? 0x66)).
Definition hex_val (c : N) : N := if c <=? 0x39 then c - 0x30 else if c <=? 0x46 then c - 0x37 else c - 0x57.
Definition from_hex (hs : list N) : N := fold_left (fun v h => v * 16 + hex_val h) hs 0.
(** [{:02X}] of a number below 256. *)
Definition hex_digit (n : N) : N := if n <? 10 then 0x30 + n else 0x37 + n.
Definition hex2 (c : N) : list N := [0x5C; 0x78; hex_digit (c / 16); hex_digit (c mod 16)].

(** ** Writing *)
(** escape.rs 63-98 [escape_string_into]. *)
Definition escape_char (quote c : N) (next : option N) : list N :=
  if c =? 0x5C then [0x5C; 0x5C]
  else if (c =? 0x22) && (quote =? 0x22) then [0x5C; 0x22]
  else if (c =? 0x27) && (quote =? 0x27) then [0x5C; 0x27]
  else if c =? 0x0A then [0x5C; 0x6E]
  else if c =? 0x0D then [0x5C; 0x72]
  else if c =? 0x09 then [0x5C; 0x74]
  else if c =? 0 then (if match next with Some d => is_digit d | None => false end then [0x5C; 0x78; 0x30; 0x30] else [0x5C; 0x30])
  else if c =? 0x2028 then [0x5C; 0x75; 0x32; 0x30; 0x32; 0x38]
  else if c =? 0x2029 then [0x5C; 0x75; 0x32; 0x30; 0x32; 0x39]
  else if c <? 0x20 then hex2 c
  else [c].
Fixpoint escape_string (quote : N) (value : rstr) : rstr :=
  match value with [] => [] | c :: value => escape_char quote c (head value) ++ escape_string quote value end.
(** emitter.rs [QuoteStyle]; escape.rs 8-34 [emit_string_literal]. *)
Inductive quote_style := QDouble | QSingle | QAuto.
Definition choose_quote (value : rstr) (style : quote_style) (minify : bool) : N :=
  match style with
  | QDouble => 0x22
  | QSingle => 0x27
  | QAuto => if minify && (str_len (escape_string 0x27 value) + 2 <? str_len (escape_string 0x22 value) + 2) then 0x27 else 0x22
  end.
Definition emit_string_literal (value : rstr) (style : quote_style) (minify : bool) : rstr :=
  let q := choose_quote value style minify in q :: escape_string q value ++ [q].
(** escape.rs 100-120 [emit_template_literal_segment]. *)
Definition template_char (c : N) : list N :=
  if c =? 0x5C then [0x5C; 0x5C]
  else if c =? 0x60 then [0x5C; 0x60]
  else if c =? 0x24 then [0x5C; 0x24]
  else if c =? 0x0A then [0x5C; 0x6E]
  else if c =? 0x0D then [0x5C; 0x72]
  else if c =? 0x2028 then [0x5C; 0x75; 0x32; 0x30; 0x32; 0x38]
  else if c =? 0x2029 then [0x5C; 0x75; 0x32; 0x30; 0x32; 0x39]
  else if c <? 0x20 then hex2 c
  else [c].
Definition emit_template_segment (cooked : rstr) : rstr := flat_map template_char cooked.
(** escape.rs 124-142 [cooked_template_segment]. *)
Definition ends_with (s suffix : rstr) : bool := bool_decide (suffix `suffix_of` s).
Definition cooked_template_segment (raw : rstr) (is_first is_last : bool) : rstr :=
  let cooked := match raw with c :: s => if is_first && (c =? 0x60) then s else raw | [] => raw end in
  if is_last then (if ends_with cooked [0x60] then take (length cooked - 1) cooked else cooked)
  else if ends_with cooked [0x24; 0x7B] then take (length cooked - 2) cooked else cooked.
(** expr_js.rs 908-931 [emit_template_parts]: text parts and (already printed)
    substitutions. *)
Inductive part := PText (s : rstr) | PSubst (printed : rstr).
Fixpoint emit_parts (first : bool) (ps : list part) : rstr :=
  match ps with
  | [] => []
  | PText s :: ps => emit_template_segment (cooked_template_segment s first match ps with [] => true | _ => false end) ++ emit_parts false ps
  | PSubst e :: ps => [0x24; 0x7B] ++ e ++ [0x7D] ++ emit_parts false ps
  end.
Definition emit_template (ps : list part) : rstr := [0x60] ++ emit_parts true ps ++ [0x60].

(** ** Reading *)
(** lex/mod.rs 901-957 [lex_string], after the opening quote: the body, what follows the
    closing quote and whether the token is invalid; [None] is the missing closing quote. *)
Fixpoint lex_string (quote : N) (s : rstr) (body : rstr) (invalid : bool) : option (rstr * rstr * bool) :=
  match s with
  | [] => None
  | c :: s =>
      if c =? 0x5C then
        match s with
        | [] => None
        | d :: s' =>
            if d =? 0x0D then match s' with
              | e :: s'' => if e =? 0x0A then lex_string quote s'' (body ++ [c; d; e]) invalid else lex_string quote s' (body ++ [c; d]) invalid
              | [] => lex_string quote s' (body ++ [c; d]) invalid end
            else lex_string quote s' (body ++ [c; d]) invalid
        end
      else if (c =? 0x0D) || (c =? 0x0A) then lex_string quote s (body ++ [c]) true
      else if c =? quote then Some (body, s, invalid)
      else lex_string quote s (body ++ [c]) invalid
  end.
(** lex/mod.rs 978-1018 [lex_template_string_continue]: the text, whether a backtick (and
    not a dollar and brace) ended it, and what follows. *)
Fixpoint lex_template (s : rstr) (body : rstr) : option (rstr * bool * rstr) :=
  match s with
  | [] => None
  | c :: s =>
      if c =? 0x5C then match s with [] => None | d :: s => lex_template s (body ++ [c; d]) end
      else if c =? 0x60 then Some (body, true, s)
      else if c =? 0x24 then
        match s with
        | [] => None
        | d :: s' => if d =? 0x7B then Some (body, false, s') else lex_template s (body ++ [c])
        end
      else lex_template s (body ++ [c])
  end.
(** lit.rs 320-328: up to two more octal digits. *)
Definition octal_tail (v : N) (s : rstr) : N * rstr :=
  match s with
  | a :: s1 =>
      if is_octal a then
        match s1 with
        | b :: s2 => if is_octal b then ((v * 8 + (a - 0x30)) * 8 + (b - 0x30), s2) else (v * 8 + (a - 0x30), s1)
        | [] => (v * 8 + (a - 0x30), s1)
        end
      else (v, s)
  | [] => (v, s)
  end.
(** [str::find('}')] *)
Fixpoint find_brace (s : rstr) : option (rstr * rstr) :=
  match s with
  | [] => None
  | c :: s => if c =? 0x7D then Some ([], s) else match find_brace s with Some (h, r) => Some (c :: h, r) | None => None end
  end.
(** lit.rs 285-431 [decode_escape_sequence_utf16]: the code units and the rest of the text. *)
Definition decode_escape (s : rstr) : option (list N * rstr) :=
  match s with
  | [] => None
  | c :: s =>
      if c =? 0x0D then match s with d :: s' => if d =? 0x0A then Some ([], s') else Some ([], s) | [] => Some ([], s) end
      else if (c =? 0x0A) || (c =? 0x2028) || (c =? 0x2029) then Some ([], s)
      else if c =? 0x62 then Some ([0x08], s)
      else if c =? 0x66 then Some ([0x0C], s)
      else if c =? 0x6E then Some ([0x0A], s)
      else if c =? 0x72 then Some ([0x0D], s)
      else if c =? 0x74 then Some ([0x09], s)
      else if c =? 0x76 then Some ([0x0B], s)
      else if is_octal c then let '(v, s) := octal_tail (c - 0x30) s in Some ([v], s)
      else if c =? 0x78 then
        match s with
        | h1 :: h2 :: s => if is_hex h1 && is_hex h2 then Some ([from_hex [h1; h2]], s) else None
        | _ => None
        end
      else if c =? 0x75 then
        match s with
        | b :: s' =>
            if b =? 0x7B then
              match find_brace s' with
              | Some (hs, s'') =>
                  if negb (bool_decide (hs = [])) && forallb is_hex hs && (from_hex hs <=? 0x10FFFF) then Some (utf16_char (from_hex hs), s'') else None
              | None => None
              end
            else
              match s with
              | h1 :: h2 :: h3 :: h4 :: s => if forallb is_hex [h1; h2; h3; h4] then Some ([from_hex [h1; h2; h3; h4]], s) else None
              | _ => None
              end
        | [] => None
        end
      else Some (utf16_char c, s)
  end.
(** lit.rs 466-504 [decode_literal_utf16]; the fuel is the number of characters. *)
Fixpoint decode_loop (fuel : nat) (allow_line_terminators : bool) (s : rstr) : option (list N) :=
  match s with
  | [] => Some []
  | c :: s =>
      match fuel with
      | O => None
      | S fuel =>
          if c =? 0x5C then
            match decode_escape s with
            | Some (u, s) => match decode_loop fuel allow_line_terminators s with Some v => Some (u ++ v) | None => None end
            | None => None
            end
          else if negb allow_line_terminators && ((c =? 0x0A) || (c =? 0x0D)) then None
          else match decode_loop fuel allow_line_terminators s with Some v => Some (utf16_char c ++ v) | None => None end
      end
  end.
Definition decode_literal (allow_line_terminators : bool) (s : rstr) : option (list N) := decode_loop (length s) allow_line_terminators s.
(** lit.rs 506-568 [find_legacy_escape_sequence]: whether there is one. The code walks
    bytes; no byte of a longer character is a backslash or a digit. *)
Fixpoint has_legacy_escape (s : rstr) : bool :=
  match s with
  | [] => false
  | c :: s =>
      if c =? 0x5C then
        match s with
        | [] => false
        | d :: s =>
            if d =? 0x30 then match s with n :: _ => if is_digit n then true else has_legacy_escape s | [] => false end
            else if is_digit d then true else has_legacy_escape s
        end
      else has_legacy_escape s
  end.
(** lit.rs 1082-1136: a string token (after the opening quote): its code units and what follows. *)
Definition parse_string (quote : N) (s : rstr) : option (list N * rstr) :=
  match lex_string quote s [] false with
  | Some (body, rest, _) => match decode_literal false body with Some v => Some (v, rest) | None => None end
  | None => None
  end.
(** lit.rs 1176-1262: one template part (after the backtick or closing brace). *)
Definition parse_template_part (s : rstr) : option (list N * bool * rstr) :=
  match lex_template s [] with
  | Some (body, is_end, rest) => match decode_literal true body with Some v => Some (v, is_end, rest) | None => None end
  | None => None
  end.
(** [String::from_utf16_lossy]. *)
Definition is_high (u : N) : bool := (0xD800 <=? u) && (u <=? 0xDBFF).
Definition is_low (u : N) : bool := (0xDC00 <=? u) && (u <=? 0xDFFF).
Fixpoint from_utf16_lossy (us : list N) : rstr :=
  match us with
  | [] => []
  | u :: us =>
      if is_high u then
        match us with
        | v :: us' => if is_low v then (0x10000 + (u - 0xD800) * 0x400 + (v - 0xDC00)) :: from_utf16_lossy us' else 0xFFFD :: from_utf16_lossy us
        | [] => [0xFFFD]
        end
      else (if is_low u then 0xFFFD else u) :: from_utf16_lossy us
  end.
