(** * Constant evaluation in the optimizer (optimize-js/src/eval/consteval.rs)

    Constants are those of ILModel.v; strings are lists of Unicode scalar
    values, doubles are bit patterns.  The double arithmetic of Rust is the
    record [rust] of FoldModel.v; the functions of `f64` that are no arithmetic
    (sine and so on) are one more parameter.  String to number conversions are
    in ConvModel.v. *)
From Coq Require Import String Ascii ZArith NArith Bool List.
From stdpp Require Import base decidable numbers list.
From Verif Require Import VmBase RustStr PrimModel ConvModel ILModel.
From Verif Require FoldModel.
Local Open Scope N_scope.

Import FoldModel (rust, r_nearest, r_shortest, r_add, r_sub, r_mul, r_div, r_rem, r_powf, f64_of_int, wrap32).

(** `Option<Const>`, or the panic of [coerce_to_num]. *)
Inductive answer := Folded (k : const) | Declined | Panics.

Section eval.
Context (R : rust) (libm : rstr -> f64 -> f64).

(** consteval.rs 34-42, `bigint_to_f64`, and 82-84, `coerce_bigint_to_num`:
    `BigInt::to_f64` is the nearest double. *)
Definition coerce_bigint_to_num (z : Z) : f64 :=
  if (z <? 0)%Z then f64_negate (r_nearest R (Z.to_N (- z)) 0) else r_nearest R (Z.to_N z) 0.
Definition str_num (s : rstr) : f64 := coerce_str_to_num (r_nearest R) s.

(** consteval.rs 181-191, `coerce_to_num`; [None] is its panic. *)
Definition coerce_to_num (v : const) : option f64 :=
  match v with
  | KBigInt _ => None
  | KBool false => Some f64_zero
  | KBool true => Some f64_one
  | KNull => Some f64_zero
  | KNum x => Some x
  | KStr s => Some (str_num s)
  | KUndefined => Some f64_nan
  end.

(** consteval.rs 194-205, `coerce_to_uint32`: [None] for a BigInt.  The
    arithmetic is [js_to_uint32] of ConvModel.v. *)
Definition coerce_to_uint32 (v : const) : option Z :=
  match coerce_to_num v with Some x => Some (js_to_uint32 x) | None => None end.
(** consteval.rs 207-209, `coerce_to_int32`: `as i32`. *)
Definition coerce_to_int32 (v : const) : option Z :=
  match coerce_to_uint32 v with
  | Some u => Some (if (u <? 2 ^ 31)%Z then u else (u - 2 ^ 32)%Z)
  | None => None
  end.

(** consteval.rs 212-221, `coerce_to_bool`. *)
Definition coerce_to_bool (v : const) : bool :=
  match v with
  | KBigInt z => (z =? 0)%Z
  | KBool b => b
  | KNull => false
  | KNum x => negb (f64_is_nan x) && negb (f64_is_zero x)
  | KStr s => negb (bool_decide (s = []))
  | KUndefined => false
  end.

(** consteval.rs 225-242, `js_cmp`: the outer [None] is the panic of
    [coerce_to_num].  `str::cmp` compares UTF-8 bytes, which is the order of the
    scalar values. *)
Definition js_cmp (a b : const) : option (option comparison) :=
  match a, b with
  | KStr a, KStr b => Some (Some (lex_cmp a b))
  | KStr a, KBigInt b => Some (option_map (fun a => Z.compare a b) (parse_bigint a))
  | KBigInt a, KStr b => Some (option_map (fun b => Z.compare a b) (parse_bigint b))
  | KBigInt a, KBigInt b => Some (Some (Z.compare a b))
  | a, b =>
      match coerce_to_num a, coerce_to_num b with
      | Some x, Some y => Some (f64_partial_cmp x y)
      | _, _ => None
      end
  end.

(** consteval.rs 244-246, `js_div`, and 248-254, `js_mod`; the pattern `0.0`
    matches both zeros. *)
Definition js_div (x y : f64) : f64 := r_div R x y.
Definition js_mod (x y : f64) : f64 :=
  if f64_is_zero y then f64_nan else if f64_is_infinite x then f64_nan else r_rem R x y.

(** consteval.rs 276-282, `js_strict_eq`; `==` is the derived equality of
    `Const`, with that of `JsNumber` (parse-js/src/num.rs 60-67). *)
Definition const_eq (a b : const) : bool :=
  match a, b with
  | KBigInt x, KBigInt y => (x =? y)%Z
  | KBool x, KBool y => Bool.eqb x y
  | KNull, KNull => true
  | KNum x, KNum y => jsnum_eqb x y
  | KStr s, KStr t => bool_decide (s = t)
  | KUndefined, KUndefined => true
  | _, _ => false
  end.
Definition is_nan (v : const) : bool := match v with KNum x => f64_is_nan x | _ => false end.
Definition js_strict_eq (a b : const) : bool :=
  if is_nan a then false else if is_nan b then false else const_eq a b.

(** consteval.rs 257-274, `js_loose_eq`; the two calls after a boolean make it
    a number, so the recursion ends: [loose_rest] is what is left of it. *)
Definition same_kind (a b : const) : bool :=
  match a, b with
  | KBigInt _, KBigInt _ | KBool _, KBool _ | KNull, KNull | KNum _, KNum _ | KStr _, KStr _
  | KUndefined, KUndefined => true
  | _, _ => false
  end.
Definition loose_rest (a b : const) : bool :=
  if same_kind a b then js_strict_eq a b
  else match a, b with
       | KNull, KUndefined => true
       | KUndefined, KNull => true
       | KNum l, KStr r => f64_eqb l (str_num r)
       | KStr l, KNum r => f64_eqb (str_num l) r
       | KBigInt l, KStr r => match parse_bigint r with Some r => (l =? r)%Z | None => false end
       | KStr l, KBigInt r => match parse_bigint l with Some l => (l =? r)%Z | None => false end
       | KBigInt l, KNum r => f64_is_finite r && f64_eqb (coerce_bigint_to_num l) r
       | KNum l, KBigInt r => f64_is_finite l && f64_eqb l (coerce_bigint_to_num r)
       | _, _ => false
       end.
Definition bool_num (b : bool) : const := KNum (if b then f64_one else f64_zero).
Definition js_loose_eq (a b : const) : bool :=
  if same_kind a b then js_strict_eq a b
  else match a, b with
       | KBool l, r => loose_rest (bool_num l) r
       | l, KBool r => loose_rest l (bool_num r)
       | a, b => loose_rest a b
       end.

(** consteval.rs 284-337, `maybe_eval_const_bin_expr`.  The rows for two
    operands that are numbers or strings are one here, with the strings read. *)
Definition arith (f : f64 -> f64 -> f64) (a b : const) : answer :=
  match a, b with
  | KNum l, KNum r => Folded (KNum (f l r))
  | KNum l, KStr r => Folded (KNum (f l (str_num r)))
  | KStr l, KNum r => Folded (KNum (f (str_num l) r))
  | KStr l, KStr r => Folded (KNum (f (str_num l) (str_num r)))
  | _, _ => Declined
  end.
Definition bitwise (f : Z -> Z -> Z) (x y : option Z) : answer :=
  match x, y with
  | Some x, Some y => Folded (KNum (f64_of_int (f x y)))
  | _, _ => Declined
  end.
Definition order (p : comparison -> bool) (a b : const) : answer :=
  match js_cmp a b with
  | Some (Some c) => Folded (KBool (p c))
  | Some None => Folded (KBool false)
  | None => Panics
  end.
Definition shift (f : Z -> Z -> Z) (x y : option Z) : answer := bitwise (fun x y => f x (Z.land y 31)) x y.
Definition eval_bin (op : binop) (a b : const) : answer :=
  match op with
  | OAdd =>
      match a, b with
      | KNum l, KNum r => Folded (KNum (r_add R l r))
      | KNum l, KStr r => Folded (KStr (jsnumber_display (r_shortest R) l ++ r))
      | KStr l, KNum r => Folded (KStr (l ++ jsnumber_display (r_shortest R) r))
      | KStr l, KStr r => Folded (KStr (l ++ r))
      | _, _ => Declined
      end
  | ODiv => arith js_div a b
  | OBitAnd => bitwise Z.land (coerce_to_int32 a) (coerce_to_int32 b)
  | OBitOr => bitwise Z.lor (coerce_to_int32 a) (coerce_to_int32 b)
  | OBitXor => bitwise Z.lxor (coerce_to_int32 a) (coerce_to_int32 b)
  | OExp => arith (r_powf R) a b
  | OGeq => order (fun c => match c with Lt => false | _ => true end) a b
  | OGt => order (fun c => match c with Gt => true | _ => false end) a b
  | OLeq => order (fun c => match c with Gt => false | _ => true end) a b
  | OLooseEq => Folded (KBool (js_loose_eq a b))
  | OLt => order (fun c => match c with Lt => true | _ => false end) a b
  | OMod => arith js_mod a b
  | OMul => arith (r_mul R) a b
  | ONotLooseEq => Folded (KBool (negb (js_loose_eq a b)))
  | ONotStrictEq => Folded (KBool (negb (js_strict_eq a b)))
  | OShl => shift (fun x n => wrap32 (Z.shiftl x n)) (coerce_to_int32 a) (coerce_to_uint32 b)
  | OShr => shift Z.shiftr (coerce_to_int32 a) (coerce_to_uint32 b)
  | OUShr => shift Z.shiftr (coerce_to_uint32 a) (coerce_to_uint32 b)
  | OStrictEq => Folded (KBool (js_strict_eq a b))
  | OSub => arith (r_sub R) a b
  | OGetProp | ODummyBin => Declined
  end.

(** consteval.rs 339-357, `maybe_eval_const_un_expr`. *)
Definition type_text (v : const) : rstr :=
  match v with
  | KBigInt _ => txt "bigint"
  | KBool _ => txt "boolean"
  | KNull => txt "object"
  | KNum _ => txt "number"
  | KStr _ => txt "string"
  | KUndefined => txt "undefined"
  end.
Definition eval_un (op : unop) (a : const) : answer :=
  match op, a with
  | OBitNot, a => match coerce_to_int32 a with Some x => Folded (KNum (f64_of_int (Z.lnot x))) | None => Declined end
  | ONeg, KNum x => Folded (KNum (f64_negate x))
  | ONot, a => Folded (KBool (negb (coerce_to_bool a)))
  | OPlus, KBigInt _ => Declined
  | OPlus, a => match coerce_to_num a with Some x => Folded (KNum x) | None => Panics end
  | OTypeof, a => Folded (KStr (type_text a))
  | OVoid, _ => Folded KUndefined
  | _, _ => Declined
  end.

(** `f64::abs`, `trunc`, `floor`, `ceil` and `round` (Rust core): the sign of
    the number stays, and the magnitude is rounded down, or up if there is a
    rest that asks for it. *)
Definition whole_mag (x : f64) : option (N * N * N) :=       (* integer part, rest, unit *)
  if negb (f64_is_finite x) then None
  else match f64_pow x with
       | Zneg p => Some (f64_mant x / 2 ^ Npos p, f64_mant x mod 2 ^ Npos p, 2 ^ Npos p)
       | _ => None
       end.
Definition round_with (up : bool -> N -> N -> bool) (x : f64) : f64 :=
  match whole_mag x with
  | Some (n, rest, unit) =>
      let m := f64_of_N (if up (f64_neg x) rest unit then n + 1 else n) in
      if f64_neg x then f64_negate m else m
  | None => x
  end.
Definition rust_trunc : f64 -> f64 := round_with (fun _ _ _ => false).
Definition rust_floor : f64 -> f64 := round_with (fun neg rest _ => neg && negb (rest =? 0)).
Definition rust_ceil : f64 -> f64 := round_with (fun neg rest _ => negb neg && negb (rest =? 0)).
Definition rust_round : f64 -> f64 := round_with (fun _ rest unit => unit <=? 2 * rest).

(** consteval.rs 359-385, `maybe_eval_const_builtin_call`. *)
Definition approximated : list rstr :=
  [txt "Math.acos"; txt "Math.asin"; txt "Math.atan"; txt "Math.cos"; txt "Math.log"; txt "Math.log10";
   txt "Math.log1p"; txt "Math.log2"; txt "Math.sin"; txt "Math.sqrt"; txt "Math.tan"].
Definition eval_call (func : rstr) (args : list const) : option const :=
  match args with
  | [KNum x] =>
      if bool_decide (func = txt "Math.abs") then Some (KNum (f64_abs x))
      else if bool_decide (func = txt "Math.ceil") then Some (KNum (rust_ceil x))
      else if bool_decide (func = txt "Math.floor") then Some (KNum (rust_floor x))
      else if bool_decide (func = txt "Math.round") then Some (KNum (rust_round x))
      else if bool_decide (func = txt "Math.trunc") then Some (KNum (rust_trunc x))
      else if bool_decide (func ∈ approximated) then Some (KNum (libm func x))
      else None
  | [KStr s] => if bool_decide (func = txt "Number") then Some (KNum (str_num s)) else None
  | _ => None
  end.
End eval.

(** consteval.rs 387-402, `maybe_eval_const_builtin_val`; `E` and `PI` are
    those of std::f64::consts. *)
Definition eval_val (path : rstr) : option const :=
  if bool_decide (path = txt "Math.E") then Some (KNum (F64 0x4005BF0A8B145769))
  else if bool_decide (path = txt "Math.PI") then Some (KNum (F64 0x400921FB54442D18))
  else if bool_decide (path = txt "NaN") then Some (KNum f64_nan)
  else if bool_decide (path = txt "Number.EPSILON") then Some (KNum (F64 0x3CB0000000000000))
  else if bool_decide (path = txt "Number.MAX_SAFE_INTEGER") then Some (KNum (f64_of_N (2 ^ 53 - 1)))
  else if bool_decide (path = txt "Number.MIN_SAFE_INTEGER") then Some (KNum (f64_negate (f64_of_N (2 ^ 53 - 1))))
  else if bool_decide (path = txt "Number.NaN") then Some (KNum f64_nan)
  else if bool_decide (path = txt "Number.NEGATIVE_INFINITY") then Some (KNum (f64_negate f64_infinity))
  else if bool_decide (path = txt "Number.POSITIVE_INFINITY") then Some (KNum f64_infinity)
  else None.
