(** * Strings to numbers and numbers to strings

    The conversions of the minifier (minify-js/src/opt/const_fold.rs), of
    the optimizer (optimize-js/src/eval/consteval.rs), of the VM
    (vm-js/src/ops.rs, vm-js/src/property.rs) and of the parser's number
    wrapper (parse-js/src/num.rs).  A Rust `str` is the list of its
    characters; doubles are bit patterns ([VmBase]). *)
From Coq Require Import String Ascii.
From stdpp Require Import base decidable numbers list.
From Verif Require Import VmBase RustStr PrimModel.
Local Open Scope N_scope.

(** The characters of an ASCII text. *)
Definition txt (s : string) : rstr := map N_of_ascii (list_ascii_of_string s).

(** `f64::INFINITY`, and `-x` and `-1.0 * x` (Rust core: the sign bit
    flips; no NaN is negated by the code below). *)
Definition f64_infinity : f64 := F64 (2047 * 2 ^ 52).
Definition f64_negate (x : f64) : f64 :=
  if f64_neg x then F64 (f64_bits x - 2 ^ 63) else F64 (f64_bits x + 2 ^ 63).
Definition f64_is_infinite (x : f64) : bool := (f64_exp x =? 2047) && (f64_frac x =? 0).

(** `'0'..='9'`, `char::is_ascii_digit`, and `char::to_digit`. *)
Definition is_digit (c : N) : bool := (48 <=? c) && (c <=? 57).
Definition to_digit (radix c : N) : option N :=
  let d := if is_digit c then c - 48
           else if (97 <=? c) && (c <=? 122) then c - 97 + 10
           else if (65 <=? c) && (c <=? 90) then c - 65 + 10
           else 36 in
  if d <? radix then Some d else None.

(** `str::trim_matches`. *)
Fixpoint trim_start (f : N -> bool) (s : rstr) : rstr :=
  match s with
  | c :: s' => if f c then trim_start f s' else s
  | [] => []
  end.
Definition trim_matches (f : N -> bool) (s : rstr) : rstr := rev (trim_start f (rev (trim_start f s))).

(** `str::strip_prefix`. *)
Fixpoint strip_prefix (p s : rstr) : option rstr :=
  match p, s with
  | [], _ => Some s
  | c :: p, d :: s => if c =? d then strip_prefix p s else None
  | _ :: _, [] => None
  end.
Definition starts_with (p s : rstr) : bool :=
  match strip_prefix p s with Some _ => true | None => false end.

(** The longest prefix of digits, and what follows. *)
Fixpoint span_digits (s : rstr) : rstr * rstr :=
  match s with
  | c :: s' => if is_digit c then let '(d, r) := span_digits s' in (c :: d, r) else ([], s)
  | [] => ([], [])
  end.

(** The integer of some decimal digits. *)
Definition number_of (ds : rstr) : N := fold_left (fun n c => n * 10 + (c - 48)) ds 0.

(** `str::eq_ignore_ascii_case` with a lower-case text. *)
Definition ascii_lower (c : N) : N := if (65 <=? c) && (c <=? 90) then c + 32 else c.
Definition eq_ignore_case (s : rstr) (lower : rstr) : bool := bool_decide (map ascii_lower s = lower).

Section conv.
(** The double nearest to m times ten to the e, halves to even: what both
    `str::parse::<f64>` and ECMA-262's RoundMVResult compute from a decimal.
    The rounding itself is not modelled. *)
Context (nearest : N -> Z -> f64).

(** `str::parse::<f64>` (Rust core, dec2flt): the grammar its documentation
    gives.  Number ::= ( Digit+ | Digit+ '.' Digit* | Digit* '.' Digit+ ) Exp? *)
Definition parse_number (s : rstr) : option f64 :=
  let '(int, s) := span_digits s in
  let '(frac, s) := match s with 46 :: s => span_digits s | _ => ([], s) end in
  let m := number_of (int ++ frac) in
  let e := (- Z.of_nat (length frac))%Z in
  match int ++ frac with
  | [] => None
  | _ =>
      match s with
      | [] => Some (nearest m e)
      | c :: s =>
          if (c =? 101) || (c =? 69) then
            let '(neg, s) := match s with
                             | 43 :: s => (false, s)
                             | 45 :: s => (true, s)
                             | _ => (false, s)
                             end in
            match span_digits s with
            | ([], _) => None
            | (ex, []) =>
                let x := Z.of_N (number_of ex) in
                Some (nearest m (e + (if neg : bool then - x else x)))
            | _ => None
            end
          else None
      end
  end.
(** Float ::= Sign? ( 'inf' | 'infinity' | 'nan' | Number ), in any case. *)
Definition parse_f64 (s : rstr) : option f64 :=
  let '(neg, body) := match s with
                      | 43 :: s => (false, s)
                      | 45 :: s => (true, s)
                      | _ => (false, s)
                      end in
  let v := if eq_ignore_case body (txt "inf") || eq_ignore_case body (txt "infinity") then Some f64_infinity
           else if eq_ignore_case body (txt "nan") then Some f64_nan
           else parse_number body in
  option_map (fun v => if neg : bool then f64_negate v else v) v.

(** ** The minifier and the optimizer *)

(** parse-js/src/char.rs 61-85 with const_fold.rs 1030-1032,
    `is_ecmascript_whitespace` (consteval.rs 27-29). *)
Definition is_ecmascript_whitespace (c : N) : bool :=
  existsb (N.eqb c)
    [0x09; 0x0b; 0x0c; 0x20; 0xA0; 0x1680; 0x2000; 0x2001; 0x2002; 0x2003; 0x2004; 0x2005; 0x2006;
     0x2007; 0x2008; 0x2009; 0x200A; 0x202F; 0x205F; 0x3000; 0xFEFF]
  || existsb (N.eqb c) [0x0A; 0x0D; 0x2028; 0x2029].

(** `BigUint::parse_bytes` (num-bigint) on digits of the radix. *)
Definition parse_bytes (radix : N) (ds : rstr) : N :=
  fold_left (fun n c => n * radix + match to_digit radix c with Some d => d | None => 0 end) ds 0.

(** const_fold.rs 1039-1051, `parse_int_digits_to_f64` (consteval.rs 45-53:
    the value as a BigInt, made a double by 35-43).  The decimal text of the
    integer and its parsing are one step here. *)
Definition parse_int_digits (ds : rstr) (radix : N) : option N :=
  if bool_decide (ds = []) || existsb (N.eqb 95) ds then None
  else if negb (forallb (fun c => match to_digit radix c with Some _ => true | None => false end) ds) then None
  else Some (parse_bytes radix ds).
Definition parse_int_digits_to_f64 (ds : rstr) (radix : N) : option f64 :=
  option_map (fun v => nearest v 0) (parse_int_digits ds radix).

(** const_fold.rs 1106-1145 (consteval.rs 139-178): the loop over the
    characters, with its three flags; the fuel is the number of characters. *)
Fixpoint well_formed (fuel : nat) (digit dot exp : bool) (s : rstr) : bool :=
  match fuel, s with
  | _, [] => digit
  | O, _ => false
  | S fuel, c :: s =>
      if is_digit c then well_formed fuel (if exp then digit else true) dot exp s
      else if c =? 46 then
        if dot || exp then false else well_formed fuel digit true exp s
      else if (c =? 101) || (c =? 69) then
        if exp || negb digit then false
        else
          let s := match s with 43 :: s | 45 :: s => s | _ => s end in
          match span_digits s with
          | ([], _) => false
          | (_, s) => well_formed fuel digit dot true s
          end
      else false
  end.

Definition or_nan (v : option f64) : f64 := match v with Some v => v | None => f64_nan end.

(** const_fold.rs 1053-1151 and consteval.rs 87-184, `coerce_str_to_num`. *)
Definition coerce_str_to_num (raw : rstr) : f64 :=
  let raw := trim_matches is_ecmascript_whitespace raw in
  if bool_decide (raw = []) then f64_zero
  else
    let '(had_sign, negative, body) :=
      match strip_prefix (txt "+") raw with
      | Some rest => (true, false, rest)
      | None =>
          match strip_prefix (txt "-") raw with
          | Some rest => (true, true, rest)
          | None => (false, false, raw)
          end
      end in
    let signed := fun v => if negative : bool then f64_negate v else v in
    if bool_decide (body = []) then f64_nan
    else if bool_decide (body = txt "Infinity") then signed f64_infinity
    else if starts_with (txt "0x") body || starts_with (txt "0X") body then
      if had_sign : bool then f64_nan else or_nan (parse_int_digits_to_f64 (drop 2 body) 16)
    else if starts_with (txt "0b") body || starts_with (txt "0B") body then
      if had_sign then f64_nan else or_nan (parse_int_digits_to_f64 (drop 2 body) 2)
    else if starts_with (txt "0o") body || starts_with (txt "0O") body then
      if had_sign then f64_nan else or_nan (parse_int_digits_to_f64 (drop 2 body) 8)
    else if existsb (N.eqb 95) body then f64_nan
    else if well_formed (length body) false false false body
    then or_nan (option_map signed (parse_f64 body))
    else f64_nan.

(** consteval.rs 55-81, `parse_bigint`. *)
Definition parse_bigint (raw : rstr) : option Z :=
  let trimmed := trim_matches is_ecmascript_whitespace raw in
  if bool_decide (trimmed = []) then None
  else
    let '(negative, body) :=
      match strip_prefix (txt "+") trimmed with
      | Some rest => (false, rest)
      | None => match strip_prefix (txt "-") trimmed with
                | Some rest => (true, rest)
                | None => (false, trimmed)
                end
      end in
    if bool_decide (body = []) then None
    else
      let '(radix, ds) :=
        if starts_with (txt "0b") body || starts_with (txt "0B") body then (2, drop 2 body)
        else if starts_with (txt "0o") body || starts_with (txt "0O") body then (8, drop 2 body)
        else if starts_with (txt "0x") body || starts_with (txt "0X") body then (16, drop 2 body)
        else (10, body) in
      option_map (fun v => if negative : bool then (- Z.of_N v)%Z else Z.of_N v) (parse_int_digits ds radix).

(** ** The VM *)

(** vm-js/src/ops.rs 180-201, `is_ecma_whitespace`. *)
Definition is_ecma_whitespace (c : N) : bool :=
  existsb (N.eqb c) [0x09; 0x0A; 0x0B; 0x0C; 0x0D; 0x20; 0xA0; 0x1680]
  || ((0x2000 <=? c) && (c <=? 0x200A))
  || existsb (N.eqb c) [0x2028; 0x2029; 0x202F; 0x205F; 0x3000; 0xFEFF].

(** `*` and `+` on doubles. *)
Context (mul add : f64 -> f64 -> f64).

(** vm-js/src/ops.rs 159-178, `parse_ascii_int_radix`; the bytes of a
    character outside of ASCII are no digits. *)
Fixpoint int_radix_loop (radix : N) (value : f64) (s : rstr) : option f64 :=
  match s with
  | [] => Some value
  | c :: s =>
      match to_digit 16 c with
      | None => None
      | Some d => if radix <=? d then None
                  else int_radix_loop radix (add (mul value (f64_of_N radix)) (f64_of_N d)) s
      end
  end.
Definition parse_ascii_int_radix (s : rstr) (radix : N) : option f64 :=
  if bool_decide (s = []) then None else int_radix_loop radix f64_zero s.

(** `s.strip_prefix(p).or_else(|| s.strip_prefix(q))`. *)
Definition strip_either (p q s : rstr) : option rstr :=
  match strip_prefix p s with Some r => Some r | None => strip_prefix q s end.

(** vm-js/src/ops.rs 104-157, `string_to_number`, of a string without lone
    surrogates (`to_utf8_lossy` makes others U+FFFD). *)
Definition string_to_number (raw : rstr) : f64 :=
  let trimmed := trim_matches is_ecma_whitespace raw in
  if bool_decide (trimmed = []) then f64_zero
  else if bool_decide (trimmed = txt "Infinity") || bool_decide (trimmed = txt "+Infinity") then f64_infinity
  else if bool_decide (trimmed = txt "-Infinity") then f64_negate f64_infinity
  else
    let '(has_sign, rest) :=
      match strip_prefix (txt "+") trimmed with
      | Some rest => (true, rest)
      | None => match strip_prefix (txt "-") trimmed with
                | Some rest => (true, rest)
                | None => (false, trimmed)
                end
      end in
    if eq_ignore_case rest (txt "inf") || eq_ignore_case rest (txt "infinity") then f64_nan
    else if (has_sign : bool) &&
            (starts_with (txt "0x") rest || starts_with (txt "0X") rest ||
             starts_with (txt "0b") rest || starts_with (txt "0B") rest ||
             starts_with (txt "0o") rest || starts_with (txt "0O") rest) then f64_nan
    else match strip_either (txt "0x") (txt "0X") trimmed with
    | Some hex => or_nan (parse_ascii_int_radix hex 16)
    | None =>
    match strip_either (txt "0b") (txt "0B") trimmed with
    | Some bin => or_nan (parse_ascii_int_radix bin 2)
    | None =>
    match strip_either (txt "0o") (txt "0O") trimmed with
    | Some oct => or_nan (parse_ascii_int_radix oct 8)
    | None => or_nan (parse_f64 trimmed)
    end end end.
End conv.

(** ** Numbers to strings *)

Section spell.
(** The shortest decimal that reads back as a finite positive double: its
    digits and the exponent, so that the value is digits times ten to the
    exponent.  This is what ryu finds; the search is not modelled. *)
Context (shortest : f64 -> rstr * Z).

(** The decimal text of an integer (`i32::to_string`). *)
Definition int_text (z : Z) : rstr :=
  if (z <? 0)%Z then 45 :: decimal_of_N (Z.to_N (- z)) else decimal_of_N (Z.to_N z).

Definition zeros (n : nat) : rstr := repeat 48 n.

(** `ryu::Buffer::format_finite` (the ryu crate, pretty::format64) of a
    positive double. *)
Definition format_finite (x : f64) : rstr :=
  let '(ds, k) := shortest x in
  let len := Z.of_nat (length ds) in
  let kk := (len + k)%Z in
  if ((0 <=? k) && (kk <=? 16))%Z then ds ++ zeros (Z.to_nat k) ++ [46; 48]
  else if ((0 <? kk) && (kk <=? 16))%Z then take (Z.to_nat kk) ds ++ [46] ++ drop (Z.to_nat kk) ds
  else if ((-5 <? kk) && (kk <=? 0))%Z then [48; 46] ++ zeros (Z.to_nat (- kk)) ++ ds
  else match ds with
       | [d] => [d; 101] ++ int_text (kk - 1)
       | d :: ds => [d; 46] ++ ds ++ [101] ++ int_text (kk - 1)
       | [] => []
       end.

(** `str::strip_suffix(".0")` or the text itself. *)
Definition strip_point_zero (s : rstr) : rstr :=
  match rev s with
  | 48 :: 46 :: r => rev r
  | _ => s
  end.

Definition f64_abs (x : f64) : f64 := if f64_neg x then F64 (f64_bits x - 2 ^ 63) else x.

(** parse-js/src/num.rs 27-57, `Display for JsNumber`; ryu puts `-` before
    the text of a negative number. *)
Definition jsnumber_display (x : f64) : rstr :=
  if f64_is_infinite x then if f64_neg x then txt "-1e400" else txt "1e400"
  else if f64_is_nan x then txt "NaN"
  else if f64_is_zero x then if f64_neg x then txt "-0" else txt "0"
  else
    let formatted := format_finite (f64_abs x) in
    strip_point_zero (if f64_neg x then 45 :: formatted else formatted).

(** `str::split_once` with a character. *)
Fixpoint split_once (c : N) (s : rstr) : option (rstr * rstr) :=
  match s with
  | [] => None
  | d :: s =>
      if c =? d then Some ([], s)
      else match split_once c s with Some (a, b) => Some (d :: a, b) | None => None end
  end.

(** `str::parse::<i32>` or 0. *)
Definition parse_i32_or_zero (s : rstr) : Z :=
  let '(neg, ds) := match s with
                    | 43 :: s => (false, s)
                    | 45 :: s => (true, s)
                    | _ => (false, s)
                    end in
  let v := Z.of_N (number_of ds) in
  let v := if neg : bool then (- v)%Z else v in
  if negb (bool_decide (ds = [])) && forallb is_digit ds && ((- 2 ^ 31 <=? v) && (v <? 2 ^ 31))%Z
  then v else 0%Z.

(** const_fold.rs 1213-1240 and vm-js/src/property.rs 351-379,
    `parse_ryu_to_decimal`. *)
Definition parse_ryu_to_decimal (raw : rstr) : rstr * Z :=
  let '(mantissa, exp) := match split_once 101 raw with
                          | Some (mantissa, exp) => (mantissa, parse_i32_or_zero exp)
                          | None => (raw, 0%Z)
                          end in
  let '(ds, exp) := match split_once 46 mantissa with
                    | Some (int, frac) => (int ++ frac, (exp - Z.of_nat (length frac))%Z)
                    | None => (mantissa, exp)
                    end in
  (trim_start (N.eqb 48) ds, exp).

(** const_fold.rs 1173-1205 and property.rs 316-348: the text of digits and
    an exponent. *)
Definition layout (ds : rstr) (exp : Z) : rstr :=
  let k := (exp + Z.of_nat (length ds))%Z in
  if ((0 <? k) && (k <=? 21))%Z then
    let k := Z.to_nat k in
    if (length ds <=? k)%nat then ds ++ zeros (k - length ds)
    else take k ds ++ [46] ++ drop k ds
  else if ((k <=? 0) && (-6 <? k))%Z then [48; 46] ++ zeros (Z.to_nat (- k)) ++ ds
  else
    take 1 ds ++ (if (1 <? length ds)%nat then 46 :: drop 1 ds else []) ++ [101] ++
    let exp := (k - 1)%Z in
    if (0 <=? exp)%Z then 43 :: int_text exp else 45 :: int_text (- exp).

(** const_fold.rs 1148-1211, `js_number_to_string` (its text of the absolute
    value is [jsnumber_display]), and vm-js/src/property.rs 281-349,
    `number_to_string` (ryu's text without `.0`), given that text. *)
Definition spell_with (text : f64 -> rstr) (x : f64) : rstr :=
  if f64_is_nan x then txt "NaN"
  else if f64_is_zero x then txt "0"
  else if f64_is_infinite x then if f64_neg x then txt "-Infinity" else txt "Infinity"
  else
    let '(ds, exp) := parse_ryu_to_decimal (text (f64_abs x)) in
    (if f64_neg x then [45] else []) ++ layout ds exp.
Definition js_number_to_string (x : f64) : rstr := spell_with jsnumber_display x.
Definition number_to_string (x : f64) : rstr := spell_with (fun x => strip_point_zero (format_finite x)) x.
End spell.

(** ** Numbers to 32-bit integers *)

(** `f64::trunc` of a finite double, as an integer. *)
Definition f64_trunc (x : f64) : Z :=
  let m := match f64_pow x with
           | Z0 => f64_mant x
           | Zpos p => f64_mant x * 2 ^ Npos p
           | Zneg p => f64_mant x / 2 ^ Npos p
           end in
  if f64_neg x then (- Z.of_N m)%Z else Z.of_N m.

(** const_fold.rs 1001-1008, `js_to_uint32` (consteval.rs 200-211):
    `f64::rem_euclid` is `%` (the sign of the dividend, exact), plus the
    divisor if that is negative (exact too, for integers below 2^32). *)
Definition js_to_uint32 (x : f64) : Z :=
  if negb (f64_is_finite x) || f64_is_zero x then 0%Z
  else let r := Z.rem (f64_trunc x) (2 ^ 32) in
       if (r <? 0)%Z then (r + 2 ^ 32)%Z else r.
(** const_fold.rs 1010-1012, `js_to_int32`: `as i32`. *)
Definition js_to_int32 (x : f64) : Z :=
  let u := js_to_uint32 x in if (u <? 2 ^ 31)%Z then u else (u - 2 ^ 32)%Z.
