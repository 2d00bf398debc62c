(** * The minifier's constant folding and side-effect test

    minify-js/src/opt/const_fold.rs (fold_expr, fold_binary_expr and the
    operators on constants) and minify-js/src/opt/side_effects.rs
    (is_side_effect_free_expr).  The conversions between strings and numbers
    are those of ConvModel.v.

    Left out: the bodies of functions and classes (they are opaque here; the
    statements in them are the matter of MinModel.v), patterns, JSX, import
    calls, new, await, yield, ++ and --, which are leaves here. *)
From Coq Require Import String Ascii ZArith NArith Bool List.
From stdpp Require Import base decidable numbers list.
From Verif Require Import VmBase RustStr PrimModel ConvModel.
Local Open Scope N_scope.

(** parse-js/src/operator.rs, the operators modelled. *)
Inductive unop := UNot | UTypeof | UVoid | UNeg | UPlus | UBitNot | UDelete.
Inductive binop :=
  | BAdd | BSub | BMul | BDiv | BRem | BPow
  | BAnd | BOr | BXor | BShl | BShr | BUshr
  | BLt | BLe | BGt | BGe | BEq | BNe | BSeq | BSne
  | BLand | BLor | BNullish | BComma
  | BOther (k : nat).                                   (* in, instanceof *)

(** parse-js/src/ast/expr/mod.rs, Expr. *)
Inductive expr :=
  | ENull
  | EBool (b : bool)
  | ENum (x : f64)
  | EStr (s : rstr) (units : option (list N))
      (* the value, and the code units if the value has lone surrogates
         (LiteralStringCodeUnits), which are U+FFFD in the value *)
  | EBigInt (n : N)                                     (* the text is canonical *)
  | ERegex (k : nat)
  | EId (x : rstr)
  | EFun (k : nat)                                      (* functions and arrows *)
  | EClass (k : nat) (pure : bool)
      (* pure: the answer of side_effects.rs 265-279 about the class *)
  | ELeaf (k : nat)                                     (* everything else *)
  | EUn (op : unop) (e : expr)
  | EBin (op : binop) (l r : expr)
  | ECond (t a b : expr)
  | EAssign (op : option binop) (target e : expr)
  | EMember (optional : bool) (o : expr) (name : rstr)
  | EIndex (optional : bool) (o k : expr)
  | ECall (optional : bool) (f : expr) (args : items)
  | ETemplate (parts : items)
  | ETagged (f : expr) (parts : items)
  | EArr (elements : items)
  | EObj (members : items)
(** Arguments, elements of arrays, parts of templates, members of objects. *)
with items :=
  | INil
  | IHole (r : items)
  | IText (s : rstr) (r : items)
  | ISingle (e : expr) (r : items)
  | ISpread (e : expr) (r : items)
  | IProp (key : rstr) (e : expr) (r : items)
  | IComputed (key e : expr) (r : items)
  | IShort (x : rstr) (r : items)
  | IMethod (key : rstr) (k : nat) (r : items).

(** const_fold.rs 39-53, `ExprCtx` and `ConstVal`. *)
Inductive ctx := Value | Condition.
Inductive cval := CUndefined | CNull | CBool (b : bool) | CNum (x : f64) | CStr (s : rstr) | CBigInt (n : N).

(** const_fold.rs 892-917, `const_val` and `is_safe_void_arg`. *)
Definition is_safe_void_arg (e : expr) : bool :=
  match e with ENull | EBool _ | ENum _ | EStr _ _ | EBigInt _ => true | _ => false end.
Definition const_val (e : expr) : option cval :=
  match e with
  | ENull => Some CNull
  | EBool b => Some (CBool b)
  | ENum x => Some (CNum x)
  | EStr s _ => Some (CStr s)
  | EBigInt n => Some (CBigInt n)
  | EUn UVoid a => if is_safe_void_arg a then Some CUndefined else None
  | _ => None
  end.

(** const_fold.rs 842-851, `const_truthiness`. *)
Definition const_truthiness (e : expr) : option bool :=
  match const_val e with
  | None => None
  | Some CUndefined | Some CNull => Some false
  | Some (CBool b) => Some b
  | Some (CNum x) => Some (negb (f64_is_zero x) && negb (f64_is_nan x))
  | Some (CStr s) => Some (negb (bool_decide (s = [])))
  | Some (CBigInt n) => Some (negb (n =? 0))
  end.

(** const_fold.rs 55-59, `is_nullish`. *)
Definition is_nullish (v : cval) : bool := match v with CUndefined | CNull => true | _ => false end.

(** const_fold.rs 919-928, `const_typeof`. *)
Definition const_typeof (v : cval) : rstr :=
  match v with
  | CUndefined => txt "undefined"
  | CNull => txt "object"
  | CBool _ => txt "boolean"
  | CNum _ => txt "number"
  | CStr _ => txt "string"
  | CBigInt _ => txt "bigint"
  end.

(** const_fold.rs 930-940, `js_strict_eq`. *)
Definition js_strict_eq (a b : cval) : bool :=
  match a, b with
  | CUndefined, CUndefined => true
  | CNull, CNull => true
  | CBool a, CBool b => Bool.eqb a b
  | CNum a, CNum b => negb (f64_is_nan a) && negb (f64_is_nan b) && f64_eqb a b
  | CStr a, CStr b => bool_decide (a = b)
  | CBigInt a, CBigInt b => a =? b
  | _, _ => false
  end.

(** `<` and `<=` on doubles (Rust core, IEEE): NaN compares false; others by
    sign and magnitude, both zeros alike ([f64_key] of PrimModel.v). *)
Definition f64_ltb (x y : f64) : bool :=
  negb (f64_is_nan x) && negb (f64_is_nan y) && (f64_key x <? f64_key y)%Z.
Definition f64_leb (x y : f64) : bool :=
  negb (f64_is_nan x) && negb (f64_is_nan y) && (f64_key x <=? f64_key y)%Z.

(** `as f64` of a 32-bit integer. *)
Definition f64_of_int (z : Z) : f64 :=
  if (z <? 0)%Z then f64_negate (f64_of_N (Z.to_N (- z))) else f64_of_N (Z.to_N z).

(** The float operations of Rust, with the rounding of decimals and the
    search for the shortest digits of ConvModel.v. *)
Record rust := Rust {
  r_nearest : N -> Z -> f64;
  r_shortest : f64 -> rstr * Z;
  r_add : f64 -> f64 -> f64;
  r_sub : f64 -> f64 -> f64;
  r_mul : f64 -> f64 -> f64;
  r_div : f64 -> f64 -> f64;
  r_rem : f64 -> f64 -> f64;
  r_powf : f64 -> f64 -> f64 }.

Section fold.
Context (R : rust).

Definition string_number (s : rstr) : f64 := coerce_str_to_num (r_nearest R) s.

(** const_fold.rs 942-965, `js_loose_eq`; the recursion after a boolean
    is unrolled: what is left after both sides are
    no booleans; [None] with a BigInt. *)
Definition loose_rest (a b : cval) : option bool :=
  match a, b with
  | CBigInt _, _ | _, CBigInt _ => None
  | CUndefined, CNull | CNull, CUndefined => Some true
  | CUndefined, CUndefined | CNull, CNull | CNum _, CNum _ | CStr _, CStr _ => Some (js_strict_eq a b)
  | CNum l, CStr r => Some (f64_eqb l (string_number r))
  | CStr l, CNum r => Some (f64_eqb (string_number l) r)
  | _, _ => Some false
  end.
Definition bool_num (b : bool) : cval := CNum (if b then f64_one else f64_zero).
Definition js_loose_eq (a b : cval) : option bool :=
  match a, b with
  | CBigInt _, _ | _, CBigInt _ => None
  | CBool _, CBool _ => Some (js_strict_eq a b)
  | CBool l, r => loose_rest (bool_num l) r
  | l, CBool r => loose_rest l (bool_num r)
  | a, b => loose_rest a b
  end.

(** const_fold.rs 967-982, `const_to_number`. *)
Definition const_to_number (v : cval) : option f64 :=
  match v with
  | CUndefined => Some f64_nan
  | CNull => Some f64_zero
  | CBool b => Some (if b then f64_one else f64_zero)
  | CNum x => Some x
  | CStr s => Some (string_number s)
  | CBigInt _ => None
  end.

(** const_fold.rs 984-999, `const_to_string`. *)
Definition const_to_string (v : cval) : rstr :=
  match v with
  | CUndefined => txt "undefined"
  | CNull => txt "null"
  | CBool b => if b then txt "true" else txt "false"
  | CNum x => js_number_to_string (r_shortest R) x
  | CStr s => s
  | CBigInt n => decimal_of_N n
  end.

(** const_fold.rs 1014-1028, `js_str_cmp`. *)
Definition js_str_cmp (a b : rstr) : comparison := lex_cmp (utf16 a) (utf16 b).

(** const_fold.rs 636, 690-697 and 719-736: the number operators.  `as i32`,
    `wrapping_shl` and `wrapping_shr` keep 32 bits. *)
Definition wrap32 (z : Z) : Z :=
  let u := (z mod 2 ^ 32)%Z in if (u <? 2 ^ 31)%Z then u else (u - 2 ^ 32)%Z.
Definition num_op (op : binop) (l r : f64) : option f64 :=
  let shift := Z.land (js_to_uint32 r) 31 in
  match op with
  | BAdd => Some (r_add R l r)
  | BSub => Some (r_sub R l r)
  | BMul => Some (r_mul R l r)
  | BDiv => Some (r_div R l r)
  | BRem => Some (r_rem R l r)
  | BPow => Some (r_powf R l r)
  | BAnd => Some (f64_of_int (Z.land (js_to_int32 l) (js_to_int32 r)))
  | BOr => Some (f64_of_int (Z.lor (js_to_int32 l) (js_to_int32 r)))
  | BXor => Some (f64_of_int (Z.lxor (js_to_int32 l) (js_to_int32 r)))
  | BShl => Some (f64_of_int (wrap32 (Z.shiftl (js_to_int32 l) shift)))
  | BShr => Some (f64_of_int (Z.shiftr (js_to_int32 l) shift))
  | BUshr => Some (f64_of_int (Z.shiftr (js_to_uint32 l) shift))
  | _ => None
  end.

Definition order_op (op : binop) (c : comparison) : bool :=
  match op, c with
  | BLt, Lt | BLe, Lt | BLe, Eq | BGt, Gt | BGe, Gt | BGe, Eq => true
  | _, _ => false
  end.
Definition float_op (op : binop) (l r : f64) : bool :=
  match op with
  | BLt => f64_ltb l r
  | BLe => f64_leb l r
  | BGt => f64_ltb r l
  | BGe => f64_leb r l
  | _ => false
  end.

(** const_fold.rs 853-859, `is_lit_true` and `is_lit_false`, and 617-840,
    `fold_binary_expr`, on folded operands. *)
Definition is_lit (b : bool) (e : expr) : bool := match e with EBool c => Bool.eqb b c | _ => false end.
Definition fold_binary (c : ctx) (op : binop) (l r : expr) : option expr :=
  match op with
  | BAdd =>
      match const_val l, const_val r with
      | Some (CNum x), Some (CNum y) => option_map ENum (num_op op x y)
      | Some (CStr s), Some v => Some (EStr (s ++ const_to_string v) None)
      | Some v, Some (CStr s) => Some (EStr (const_to_string v ++ s) None)
      | _, _ => None
      end
  | BSub | BMul | BDiv | BRem | BPow | BAnd | BOr | BXor | BShl | BShr | BUshr =>
      match const_val l, const_val r with
      | Some (CNum x), Some (CNum y) => option_map ENum (num_op op x y)
      | _, _ => None
      end
  | BLt | BLe | BGt | BGe =>
      match const_val l, const_val r with
      | Some (CBigInt _), Some _ | Some _, Some (CBigInt _) => None
      | Some (CStr s), Some (CStr t) => Some (EBool (order_op op (js_str_cmp s t)))
      | Some a, Some b =>
          match const_to_number a, const_to_number b with
          | Some x, Some y => Some (EBool (float_op op x y))
          | _, _ => None
          end
      | _, _ => None
      end
  | BSeq | BSne | BEq | BNe =>
      match const_val l, const_val r with
      | Some a, Some b =>
          match (match op with BSeq | BSne => Some (js_strict_eq a b) | _ => js_loose_eq a b end) with
          | Some eq => Some (EBool (match op with BSne | BNe => negb eq | _ => eq end))
          | None => None
          end
      | _, _ => None
      end
  | BNullish =>
      match const_val l with
      | Some v => Some (if is_nullish v then r else l)
      | None => None
      end
  | BLand =>
      match const_truthiness l with
      | Some t => Some (if t then r else l)
      | None => match c with
                | Condition => if is_lit true r then Some l else None
                | Value => None
                end
      end
  | BLor =>
      match const_truthiness l with
      | Some t => Some (if t then l else r)
      | None => match c with
                | Condition => if is_lit false r then Some l else None
                | Value => None
                end
      end
  | _ => None
  end.

(** const_fold.rs 411-579, `fold_expr`, and 348-385, `fold_obj_member` and
    `fold_class_or_obj_val`. *)
Definition child_ctx (c : ctx) (op : binop) : ctx :=
  match c, op with Condition, (BLand | BLor) => Condition | _, _ => Value end.
Fixpoint fold (c : ctx) (e : expr) : expr :=
  match e with
  | EBin op l r =>
      let l := fold (child_ctx c op) l in
      let r := fold (child_ctx c op) r in
      match fold_binary c op l r with Some e => e | None => EBin op l r end
  | EUn op a =>
      let a := fold Value a in
      match op with
      | UNot => match const_truthiness a with Some t => EBool (negb t) | None => EUn op a end
      | UTypeof => match const_val a with Some v => EStr (const_typeof v) None | None => EUn op a end
      | _ => EUn op a
      end
  | ECond t a b =>
      let t := fold Condition t in
      let a := fold c a in
      let b := fold c b in
      match const_truthiness t with
      | Some v => if v then a else b
      | None => ECond t a b
      end
  | EAssign op target e => EAssign op (fold Value target) (fold Value e)
  | EMember o e name => EMember o (fold Value e) name
  | EIndex o e k => EIndex o (fold Value e) (fold Value k)
  | ECall o f args => ECall o (fold Value f) (fold_items args)
  | ETemplate parts => ETemplate (fold_items parts)
  | ETagged f parts => ETagged (fold Value f) (fold_items parts)
  | EArr elements => EArr (fold_items elements)
  | EObj members => EObj (fold_items members)
  | _ => e
  end
with fold_items (l : items) : items :=
  match l with
  | INil => INil
  | IHole r => IHole (fold_items r)
  | IText s r => IText s (fold_items r)
  | ISingle e r => ISingle (fold Value e) (fold_items r)
  | ISpread e r => ISpread (fold Value e) (fold_items r)
  | IProp key e r => IProp key (fold Value e) (fold_items r)
  | IComputed key e r => IComputed (fold Value key) (fold Value e) (fold_items r)
  | IShort x r => IShort x (fold_items r)
  | IMethod key k r => IMethod key k (fold_items r)
  end.
End fold.

(** ** side_effects.rs *)

(** side_effects.rs 22-33, `expr_definitely_string`. *)
Fixpoint expr_definitely_string (e : expr) : bool :=
  match e with
  | EStr _ _ | ETemplate _ => true
  | EBin BAdd l r => expr_definitely_string l || expr_definitely_string r
  | ECond _ a b => expr_definitely_string a && expr_definitely_string b
  | _ => false
  end.

(** side_effects.rs 8-13 and 35-118, `expr_bigint_kind`. *)
Inductive bigint_kind := KBig | KNotBig | KUnknown.
Global Instance bigint_kind_eq_dec : EqDecision bigint_kind.
Proof. solve_decision. Defined.
Definition same_kind (a b : bigint_kind) : bigint_kind := if bool_decide (a = b) then a else KUnknown.
Fixpoint expr_bigint_kind (e : expr) : bigint_kind :=
  match e with
  | EBigInt _ => KBig
  | ENull | EBool _ | ENum _ | EStr _ _ | ETemplate _ | ERegex _ => KNotBig
  | EFun _ | EArr _ | EObj _ | EClass _ _ => KNotBig
  | EUn op a =>
      match op with
      | UNeg | UBitNot => expr_bigint_kind a
      | UPlus => match expr_bigint_kind a with KNotBig => KNotBig | _ => KUnknown end
      | UNot | UVoid => KNotBig
      | _ => KUnknown
      end
  | EBin op l r =>
      match op with
      | BAdd =>
          if expr_definitely_string l || expr_definitely_string r then KNotBig
          else same_kind (expr_bigint_kind l) (expr_bigint_kind r)
      | BSub | BMul | BDiv | BRem | BPow | BAnd | BOr | BXor | BShl | BShr =>
          same_kind (expr_bigint_kind l) (expr_bigint_kind r)
      | BUshr =>
          match expr_bigint_kind l, expr_bigint_kind r with KNotBig, KNotBig => KNotBig | _, _ => KUnknown end
      | BLt | BLe | BGt | BGe | BEq | BNe | BSeq | BSne => KNotBig
      | BLand | BLor | BNullish => same_kind (expr_bigint_kind l) (expr_bigint_kind r)
      | _ => KUnknown
      end
  | ECond _ a b => same_kind (expr_bigint_kind a) (expr_bigint_kind b)
  | _ => KUnknown
  end.

(** side_effects.rs 15-20 and 120-138, `expr_bigint_sign`. *)
Inductive bigint_sign := SNegative | SZero | SPositive.
Fixpoint expr_bigint_sign (e : expr) : option bigint_sign :=
  match e with
  | EBigInt n => Some (if n =? 0 then SZero else SPositive)
  | EUn UNeg a =>
      match expr_bigint_sign a with
      | Some SNegative => Some SPositive
      | Some SPositive => Some SNegative
      | Some SZero => Some SZero
      | None => None
      end
  | _ => None
  end.

(** side_effects.rs 140-286, `is_side_effect_free_expr`; lines 304-326,
    `is_side_effect_free_class_member`, are the flag of [EClass]. *)
Fixpoint is_side_effect_free (e : expr) : bool :=
  match e with
  | ENull | EBool _ | ENum _ | EStr _ _ | EBigInt _ | ERegex _ => true
  | EFun _ => true
  | EUn op a =>
      match op with
      | UPlus => is_side_effect_free a && bool_decide (expr_bigint_kind a = KNotBig)
      | UNeg | UNot | UBitNot | UVoid => is_side_effect_free a
      | _ => false
      end
  | EBin op l r =>
      if negb (is_side_effect_free l) || negb (is_side_effect_free r) then false
      else
        let kinds := (expr_bigint_kind l, expr_bigint_kind r) in
        match op with
        | BAdd =>
            if expr_definitely_string l || expr_definitely_string r then true
            else match kinds with (KBig, KBig) | (KNotBig, KNotBig) => true | _ => false end
        | BSub | BMul | BAnd | BOr | BXor =>
            match kinds with (KBig, KBig) | (KNotBig, KNotBig) => true | _ => false end
        | BDiv | BRem =>
            match kinds with
            | (KNotBig, KNotBig) => true
            | (KBig, KBig) =>
                match expr_bigint_sign r with Some SNegative | Some SPositive => true | _ => false end
            | _ => false
            end
        | BPow | BShl | BShr =>
            match kinds with
            | (KNotBig, KNotBig) => true
            | (KBig, KBig) => match expr_bigint_sign r with Some SZero | Some SPositive => true | _ => false end
            | _ => false
            end
        | BUshr => match kinds with (KNotBig, KNotBig) => true | _ => false end
        | BLt | BLe | BGt | BGe | BEq | BNe | BSeq | BSne | BLand | BLor | BNullish => true
        | _ => false
        end
  | ECond t a b => is_side_effect_free t && is_side_effect_free a && is_side_effect_free b
  | EArr l => free_elements l
  | EObj l => free_members l
  | EClass _ pure => pure
  | ETemplate l => free_parts l
  | _ => false
  end
with free_elements (l : items) : bool :=
  match l with
  | INil => true
  | ISingle e r => is_side_effect_free e && free_elements r
  | IHole r => free_elements r
  | _ => false
  end
with free_members (l : items) : bool :=
  match l with
  | INil => true
  | IProp _ e r => is_side_effect_free e && free_members r
  | IMethod _ _ r => free_members r
  | _ => false
  end
with free_parts (l : items) : bool :=
  match l with
  | INil => true
  | IText _ r => free_parts r
  | ISingle e r => is_side_effect_free e && free_parts r
  | _ => false
  end.
