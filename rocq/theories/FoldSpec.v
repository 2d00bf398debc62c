(** * What expressions do (ECMA-262, 13), over an arbitrary host

    The world is opaque; everything that depends on it (variables, properties,
    calls, conversions of objects) is a field of a [host].  What primitive values
    do under the operators is written out here, from ECMA-262. *)
From Coq Require Import String Ascii ZArith NArith Bool List.
From stdpp Require Import base decidable numbers list.
From Verif Require Import VmBase RustStr PrimModel PrimSpec ConvModel ConvSpec FoldModel.
Local Open Scope N_scope.

(** Language values; a String is its code units. *)
Inductive val :=
  | VUndef | VNull | VBool (b : bool) | VNum (x : f64) | VStr (u : list N) | VBig (z : Z)
  | VSym (k : nat) | VObj (k : nat).
Global Instance val_eq_dec : EqDecision val.
Proof. assert (EqDecision f64) by (intros [a] [b]; destruct (decide (a = b)); [left; congruence|right; congruence]). solve_decision. Defined.

Inductive outcome (A : Type) := Ret (a : A) | Throw (v : val).
Arguments Ret {A} a.
Arguments Throw {A} v.
Definition comp (W A : Type) := W -> outcome A * W.

Record host (W : Type) := Host {
  get_id : rstr -> comp W val;
  typeof_id : rstr -> comp W val;
  delete_id : rstr -> comp W val;
  put_id : rstr -> val -> comp W unit;
  get_prop : val -> val -> comp W val;
  delete_prop : val -> val -> comp W val;
  put_prop : val -> val -> val -> comp W unit;
  (* function, this value, the callee if it is a bare name (for direct eval), arguments *)
  call : val -> val -> option rstr -> list val -> comp W val;
  call_tag : val -> val -> option rstr -> list rstr -> list val -> comp W val;
  spread : val -> comp W (list val);
  new_function : nat -> option rstr -> comp W val;
  new_class : nat -> option rstr -> comp W val;
  new_regex : nat -> comp W val;
  new_array : list (option val) -> comp W val;
  new_object : comp W val;
  to_key : val -> comp W val;
  define : val -> val -> val -> comp W unit;
  define_method : val -> rstr -> nat -> comp W unit;
  copy_props : val -> val -> comp W unit;
  leaf : nat -> comp W val;
  put_pattern : nat -> val -> comp W unit;
  (* operators with an operand that is an object or a symbol, and those that throw *)
  other_unary : unop -> val -> comp W val;
  other_binary : binop -> val -> val -> comp W val;
  other_text : val -> comp W (list N);
  (* Number::add and so on, StringToNumber, Number::toString, BigInt::toString,
     ToInt32 and ToUint32, comparisons of a BigInt with a Number or String *)
  n_add : f64 -> f64 -> f64;
  n_sub : f64 -> f64 -> f64;
  n_mul : f64 -> f64 -> f64;
  n_div : f64 -> f64 -> f64;
  n_rem : f64 -> f64 -> f64;
  n_exp : f64 -> f64 -> f64;
  n_neg : f64 -> f64;
  number_of_string : list N -> f64;
  string_of_number : f64 -> list N;
  string_of_bigint : Z -> list N;
  int32 : f64 -> Z;
  uint32 : f64 -> Z;
  mixed_less : val -> val -> option bool;
  mixed_equal : val -> val -> bool }.
Arguments get_id {W}. Arguments typeof_id {W}. Arguments delete_id {W}. Arguments put_id {W}.
Arguments get_prop {W}. Arguments delete_prop {W}. Arguments put_prop {W}. Arguments call {W}.
Arguments call_tag {W}. Arguments spread {W}. Arguments new_function {W}. Arguments new_class {W}.
Arguments new_regex {W}. Arguments new_array {W}. Arguments new_object {W}. Arguments to_key {W}.
Arguments define {W}. Arguments define_method {W}. Arguments copy_props {W}. Arguments leaf {W}.
Arguments put_pattern {W}. Arguments other_unary {W}. Arguments other_binary {W}. Arguments other_text {W}.
Arguments n_add {W}. Arguments n_sub {W}. Arguments n_mul {W}. Arguments n_div {W}. Arguments n_rem {W}.
Arguments n_exp {W}. Arguments n_neg {W}. Arguments number_of_string {W}. Arguments string_of_number {W}.
Arguments string_of_bigint {W}. Arguments int32 {W}. Arguments uint32 {W}. Arguments mixed_less {W}.
Arguments mixed_equal {W}.

Definition ret {W A} (a : A) : comp W A := fun w => (Ret a, w).
Definition bind {W A B} (m : comp W A) (k : A -> comp W B) : comp W B :=
  fun w => match m w with (Ret a, w) => k a w | (Throw v, w) => (Throw v, w) end.
Notation "'let!' x := m 'in' k" := (bind m (fun x => k)) (at level 200, x pattern, m at level 100, k at level 200).

(** 7.1.2 ToBoolean. *)
Definition truthy (v : val) : bool :=
  match v with
  | VUndef | VNull => false
  | VBool b => b
  | VNum x => negb (f64_is_nan x || f64_is_zero x)
  | VStr u => negb (bool_decide (u = []))
  | VBig z => negb (z =? 0)%Z
  | VSym _ | VObj _ => true
  end.
Definition nullish (v : val) : bool := match v with VUndef | VNull => true | _ => false end.
Definition primitive (v : val) : bool := match v with VSym _ | VObj _ => false | _ => true end.

(** 6.1.6.1.12 Number::lessThan: doubles by their mathematical value, scaled by
    2^1074; undefined for NaN. *)
Definition scaled (x : f64) : Z :=
  let m := (Z.of_N (f64_mant x) * 2 ^ (f64_pow x + 1074))%Z in if f64_neg x then (- m)%Z else m.
Definition number_less (x y : f64) : option bool :=
  if f64_is_nan x || f64_is_nan y then None
  else Some (
    if f64_is_finite x then
      if f64_is_finite y then (scaled x <? scaled y)%Z else negb (f64_neg y)
    else f64_neg x && (f64_is_finite y || negb (f64_neg y))).

(** 7.2.14 IsStrictlyEqual. *)
Definition strictly_equal (a b : val) : bool :=
  match a, b with VNum x, VNum y => f64_eqb x y | _, _ => bool_decide (a = b) end.

(** The number an integer of 32 bits is. *)
Definition number_of_int (z : Z) : f64 :=
  if (z <? 0)%Z then F64 (2 ^ 63 + f64_bits (f64_of_N (Z.to_N (- z)))) else f64_of_N (Z.to_N z).
(** The 32-bit integer congruent to an integer. *)
Definition signed32 (z : Z) : Z := ((z + 2 ^ 31) mod 2 ^ 32 - 2 ^ 31)%Z.

(** The strings of a template. *)
Fixpoint texts (l : items) : list rstr :=
  match l with
  | INil => []
  | IText s r => s :: texts r
  | IHole r | ISingle _ r | ISpread _ r | IProp _ _ r | IComputed _ _ r | IShort _ r | IMethod _ _ r => texts r
  end.

Section semantics.
Context {W : Type} (h : host W).

(** 7.1.17 ToString and 7.1.3 ToNumeric of primitives. *)
Definition text_of (v : val) : list N :=
  match v with
  | VUndef => text "undefined"
  | VNull => text "null"
  | VBool b => text (if b then "true" else "false")
  | VNum x => string_of_number h x
  | VStr u => u
  | VBig z => string_of_bigint h z
  | _ => []
  end.
Definition numeric (v : val) : f64 + Z :=
  match v with
  | VNull => inl f64_zero
  | VBool b => inl (if b then f64_one else f64_zero)
  | VNum x => inl x
  | VStr u => inl (number_of_string h u)
  | VBig z => inr z
  | _ => inl f64_nan
  end.

(** 7.2.13 IsLooselyEqual of primitives. *)
Definition bool_as_number (v : val) : val :=
  match v with VBool b => VNum (if b then f64_one else f64_zero) | v => v end.
Definition loosely_equal (a b : val) : bool :=
  match a, b with
  | VBool x, VBool y => Bool.eqb x y
  | _, _ =>
      match bool_as_number a, bool_as_number b with
      | VUndef, VNull | VNull, VUndef => true
      | VNum x, VStr u => f64_eqb x (number_of_string h u)
      | VStr u, VNum y => f64_eqb (number_of_string h u) y
      | VBig _ as a, ((VNum _ | VStr _) as b) | ((VNum _ | VStr _) as a), (VBig _ as b) => mixed_equal h a b
      | a, b => strictly_equal a b
      end
  end.

(** 7.2.12 IsLessThan of primitives. *)
Definition less (a b : val) : option bool :=
  match a, b with
  | VStr u, VStr v => Some (match lex_cmp u v with Lt => true | _ => false end)
  | _, _ =>
      match numeric a, numeric b with
      | inl x, inl y => number_less x y
      | inr x, inr y => Some (x <? y)%Z
      | _, _ => mixed_less h a b
      end
  end.

(** 6.1.6.1 and 6.1.6.2: the operators on two Numbers, and on two BigInts,
    where some throw a RangeError or a TypeError. *)
Definition on_numbers (op : binop) (x y : f64) : option f64 :=
  let count := (uint32 h y mod 32)%Z in
  match op with
  | BAdd => Some (n_add h x y)
  | BSub => Some (n_sub h x y)
  | BMul => Some (n_mul h x y)
  | BDiv => Some (n_div h x y)
  | BRem => Some (n_rem h x y)
  | BPow => Some (n_exp h x y)
  | BAnd => Some (number_of_int (Z.land (int32 h x) (int32 h y)))
  | BOr => Some (number_of_int (Z.lor (int32 h x) (int32 h y)))
  | BXor => Some (number_of_int (Z.lxor (int32 h x) (int32 h y)))
  | BShl => Some (number_of_int (signed32 (int32 h x * 2 ^ count)))
  | BShr => Some (number_of_int (int32 h x / 2 ^ count))
  | BUshr => Some (number_of_int (uint32 h x / 2 ^ count))
  | _ => None
  end.
Definition on_bigints (op : binop) (x y : Z) : option Z :=
  match op with
  | BAdd => Some (x + y)%Z
  | BSub => Some (x - y)%Z
  | BMul => Some (x * y)%Z
  | BDiv => if (y =? 0)%Z then None else Some (Z.quot x y)
  | BRem => if (y =? 0)%Z then None else Some (Z.rem x y)
  | BPow => if (y <? 0)%Z then None else Some (x ^ y)%Z
  | BAnd => Some (Z.land x y)
  | BOr => Some (Z.lor x y)
  | BXor => Some (Z.lxor x y)
  | BShl => Some (Z.shiftl x y)
  | BShr => Some (Z.shiftr x y)
  | _ => None
  end.

(** 13.15.3 ApplyStringOrNumericBinaryOperator, 13.10 and 13.11 on primitives;
    [None] throws. *)
Definition arithmetic (op : binop) (a b : val) : option val :=
  match numeric a, numeric b with
  | inl x, inl y => option_map VNum (on_numbers op x y)
  | inr x, inr y => option_map VBig (on_bigints op x y)
  | _, _ => None
  end.
Definition is_string (v : val) : bool := match v with VStr _ => true | _ => false end.
Definition on_primitives (op : binop) (a b : val) : option val :=
  match op with
  | BAdd => if is_string a || is_string b then Some (VStr (text_of a ++ text_of b)) else arithmetic op a b
  | BLt => Some (VBool (bool_decide (less a b = Some true)))
  | BGt => Some (VBool (bool_decide (less b a = Some true)))
  | BLe => Some (VBool (bool_decide (less b a = Some false)))
  | BGe => Some (VBool (bool_decide (less a b = Some false)))
  | BEq => Some (VBool (loosely_equal a b))
  | BNe => Some (VBool (negb (loosely_equal a b)))
  | BLand | BLor | BNullish | BComma | BOther _ => None
  | _ => arithmetic op a b
  end.
Definition binary (op : binop) (a b : val) : comp W val :=
  match op with
  | BSeq => ret (VBool (strictly_equal a b))
  | BSne => ret (VBool (negb (strictly_equal a b)))
  | _ =>
      if primitive a && primitive b
      then match on_primitives op a b with Some v => ret v | None => other_binary h op a b end
      else other_binary h op a b
  end.

(** 13.5: the unary operators on a value. *)
Definition type_name (v : val) : option string :=
  match v with
  | VUndef => Some "undefined"%string
  | VNull => Some "object"%string
  | VBool _ => Some "boolean"%string
  | VNum _ => Some "number"%string
  | VStr _ => Some "string"%string
  | VBig _ => Some "bigint"%string
  | VSym _ => Some "symbol"%string
  | VObj _ => None                                   (* callable or not *)
  end.
Definition unary (op : unop) (v : val) : comp W val :=
  match op with
  | UNot => ret (VBool (negb (truthy v)))
  | UVoid => ret VUndef
  | UTypeof => match type_name v with Some t => ret (VStr (text t)) | None => other_unary h UTypeof v end
  | UDelete => ret (VBool true)
  | UPlus =>
      if primitive v then match numeric v with inl x => ret (VNum x) | inr _ => other_unary h op v end
      else other_unary h op v
  | UNeg =>
      if primitive v then ret match numeric v with inl x => VNum (n_neg h x) | inr z => VBig (- z) end
      else other_unary h op v
  | UBitNot =>
      if primitive v
      then ret match numeric v with inl x => VNum (number_of_int (Z.lnot (int32 h x))) | inr z => VBig (Z.lnot z) end
      else other_unary h op v
  end.

(** What an expression is to the expression around it: nothing, if an optional
    chain ended early; else its value, the this value if it is called, and the
    name if it is a bare one. *)
Definition link : Type := option (val * val * option rstr).
Definition link_value (l : link) : val := match l with Some (v, _, _) => v | None => VUndef end.
Definition plain (m : comp W val) : comp W link := let! v := m in ret (Some (v, VUndef, None)).
Definition str (s : rstr) : val := VStr (utf16 s).

Fixpoint eval_link (e : expr) : comp W link :=
  let value e := let! l := eval_link e in ret (link_value l) in
  let named x e :=
    match e with
    | EFun k => new_function h k (Some x)
    | EClass k _ => new_class h k (Some x)
    | _ => value e
    end in
  match e with
  | ENull => plain (ret VNull)
  | EBool b => plain (ret (VBool b))
  | ENum x => plain (ret (VNum x))
  | EStr s u => plain (ret (VStr match u with Some u => u | None => utf16 s end))
  | EBigInt n => plain (ret (VBig (Z.of_N n)))
  | ERegex k => plain (new_regex h k)
  | EFun k => plain (new_function h k None)
  | EClass k _ => plain (new_class h k None)
  | ELeaf k => plain (leaf h k)
  | EId x => let! v := get_id h x in ret (Some (v, VUndef, Some x))
  | EUn op a => plain
      match op, a with
      | UTypeof, EId x => typeof_id h x
      | UDelete, EId x => delete_id h x
      | UDelete, EMember opt o m =>
          let! l := eval_link o in
          match l with
          | Some (v, _, _) => if opt && nullish v then ret (VBool true) else delete_prop h v (str m)
          | None => ret (VBool true)
          end
      | UDelete, EIndex opt o k =>
          let! l := eval_link o in
          match l with
          | Some (v, _, _) =>
              if opt && nullish v then ret (VBool true) else let! k := value k in delete_prop h v k
          | None => ret (VBool true)
          end
      | _, _ => let! v := value a in unary op v
      end
  | EBin op l r => plain
      match op with
      | BLand => let! v := value l in if truthy v then value r else ret v
      | BLor => let! v := value l in if truthy v then ret v else value r
      | BNullish => let! v := value l in if nullish v then value r else ret v
      | BComma => let! _ := value l in value r
      | _ => let! a := value l in let! b := value r in binary op a b
      end
  | ECond t a b => plain (let! v := value t in if truthy v then value a else value b)
  | EAssign op target e => plain
      match target with
      | EId x =>
          match op with
          | None => let! v := named x e in let! _ := put_id h x v in ret v
          | Some op =>
              let! a := get_id h x in let! b := value e in let! v := binary op a b in
              let! _ := put_id h x v in ret v
          end
      | EMember _ o m =>
          let! o := value o in
          match op with
          | None => let! v := value e in let! _ := put_prop h o (str m) v in ret v
          | Some op =>
              let! a := get_prop h o (str m) in let! b := value e in let! v := binary op a b in
              let! _ := put_prop h o (str m) v in ret v
          end
      | EIndex _ o k =>
          let! o := value o in let! k := value k in
          match op with
          | None => let! v := value e in let! _ := put_prop h o k v in ret v
          | Some op =>
              let! k := to_key h k in
              let! a := get_prop h o k in let! b := value e in let! v := binary op a b in
              let! _ := put_prop h o k v in ret v
          end
      | ELeaf k => let! v := value e in let! _ := put_pattern h k v in ret v
      | _ => ret VUndef                               (* an early error; see [sound_positions] *)
      end
  | EMember opt o m =>
      let! l := eval_link o in
      match l with
      | None => ret None
      | Some (v, _, _) =>
          if opt && nullish v then ret None
          else let! p := get_prop h v (str m) in ret (Some (p, v, None))
      end
  | EIndex opt o k =>
      let! l := eval_link o in
      match l with
      | None => ret None
      | Some (v, _, _) =>
          if opt && nullish v then ret None
          else let! k := value k in let! p := get_prop h v k in ret (Some (p, v, None))
      end
  | ECall opt f args =>
      let! l := eval_link f in
      match l with
      | None => ret None
      | Some (v, this, name) =>
          if opt && nullish v then ret None
          else let! args := eval_args args in let! r := call h v this name args in ret (Some (r, VUndef, None))
      end
  | ETemplate parts => plain (let! u := eval_parts parts in ret (VStr u))
  | ETagged f parts =>
      let! l := eval_link f in
      match l with
      | None => ret None
      | Some (v, this, name) =>
          plain (let! args := eval_args parts in call_tag h v this name (texts parts) args)
      end
  | EArr l => plain (let! vs := eval_elements l in new_array h vs)
  | EObj l => plain (let! o := new_object h in let! _ := eval_members o l in ret o)
  end
with eval_args (l : items) : comp W (list val) :=
  match l with
  | INil => ret []
  | ISingle e r => let! x := eval_link e in let! vs := eval_args r in ret (link_value x :: vs)
  | ISpread e r =>
      let! x := eval_link e in let! us := spread h (link_value x) in let! vs := eval_args r in ret (us ++ vs)
  | IHole r | IText _ r | IProp _ _ r | IComputed _ _ r | IShort _ r | IMethod _ _ r => eval_args r
  end
with eval_elements (l : items) : comp W (list (option val)) :=
  match l with
  | INil => ret []
  | IHole r => let! vs := eval_elements r in ret (None :: vs)
  | ISingle e r => let! x := eval_link e in let! vs := eval_elements r in ret (Some (link_value x) :: vs)
  | ISpread e r =>
      let! x := eval_link e in let! us := spread h (link_value x) in
      let! vs := eval_elements r in ret (map Some us ++ vs)
  | IText _ r | IProp _ _ r | IComputed _ _ r | IShort _ r | IMethod _ _ r => eval_elements r
  end
with eval_parts (l : items) : comp W (list N) :=
  match l with
  | INil => ret []
  | IText s r => let! u := eval_parts r in ret (utf16 s ++ u)
  | ISingle e r =>
      let! x := eval_link e in
      let! u := (if primitive (link_value x) then ret (text_of (link_value x)) else other_text h (link_value x)) in
      let! u' := eval_parts r in ret (u ++ u')
  | IHole r | ISpread _ r | IProp _ _ r | IComputed _ _ r | IShort _ r | IMethod _ _ r => eval_parts r
  end
with eval_members (o : val) (l : items) : comp W unit :=
  match l with
  | INil => ret tt
  | IProp key e r =>
      let! v := match e with
                | EFun k => new_function h k (Some key)
                | EClass k _ => new_class h k (Some key)
                | _ => let! x := eval_link e in ret (link_value x)
                end in
      let! _ := define h o (str key) v in eval_members o r
  | IComputed key e r =>
      let! k := eval_link key in let! k := to_key h (link_value k) in
      let! v := match e with
                | EFun n => new_function h n (match k with VStr u => Some u | _ => None end)
                | EClass n _ => new_class h n (match k with VStr u => Some u | _ => None end)
                | _ => let! x := eval_link e in ret (link_value x)
                end in
      let! _ := define h o k v in eval_members o r
  | IShort x r => let! v := get_id h x in let! _ := define h o (str x) v in eval_members o r
  | IMethod key k r => let! _ := define_method h o key k in eval_members o r
  | ISpread e r => let! x := eval_link e in let! _ := copy_props h o (link_value x) in eval_members o r
  | IHole r | IText _ r | ISingle _ r => eval_members o r
  end.

(** The value of an expression, and the truth of a condition. *)
Definition eval (e : expr) : comp W val := let! l := eval_link e in ret (link_value l).
Definition test (e : expr) : comp W bool := let! v := eval e in ret (truthy v).
End semantics.

(** ** When Rust and the host compute alike *)

(** The double operations other than [**] are the host's; decimals and digits
    are as in ConvSpec.v; the 32-bit integers are those of ToInt32 and
    ToUint32. *)
Record agrees {W} (R : rust) (h : host W) : Prop := Agrees {
  ag_add x y : n_add h x y = r_add R x y;
  ag_sub x y : n_sub h x y = r_sub R x y;
  ag_mul x y : n_mul h x y = r_mul R x y;
  ag_div x y : n_div h x y = r_div R x y;
  ag_rem x y : n_rem h x y = r_rem R x y;
  ag_double op x y z : num_op R op x y = Some z -> is_f64 z;
  ag_reads s v :
    valid_str s -> reads (r_nearest R) f64_infinity f64_negate f64_zero s v -> number_of_string h (utf16 s) = v;
  ag_rejects s :
    valid_str s -> (forall v, ~ reads (r_nearest R) f64_infinity f64_negate f64_zero s v) ->
    number_of_string h (utf16 s) = f64_nan;
  ag_digits y ds e : 0 < f64_bits y < 2047 * 2 ^ 52 -> r_shortest R y = (ds, e) -> decimal_digits ds e;
  ag_number x : is_f64 x -> to_string (r_shortest R) x (string_of_number h x);
  ag_bigint n : decimal_spelling (Z.of_N n) (string_of_bigint h (Z.of_N n));
  ag_int32 x : int32_of x (int32 h x);
  ag_uint32 x : uint32_of x (uint32 h x) }.

(** ** Expressions whose place matters *)

(** A conditional or logical expression, and the expressions it can be replaced
    by when its condition is constant. *)
Definition conditional (e : expr) : bool :=
  match e with ECond _ _ _ | EBin BLand _ _ | EBin BLor _ _ | EBin BNullish _ _ => true | _ => false end.
Fixpoint tails (p : expr -> bool) (e : expr) : bool :=
  match e with
  | ECond _ a b => tails p a || tails p b
  | EBin BLand _ r | EBin BLor _ r | EBin BNullish _ r => tails p r
  | _ => p e
  end.
(** No conditional expression that could leave a [p] in its place. *)
Definition leaves_no (p : expr -> bool) (e : expr) : Prop := conditional e = true -> tails p e = false.

(** A name; a reference; an anonymous function or class; an optional chain. *)
Definition is_name (e : expr) : bool := match e with EId _ => true | _ => false end.
Definition is_reference (e : expr) : bool :=
  match e with EId _ | EMember _ _ _ | EIndex _ _ _ => true | _ => false end.
Definition is_anonymous (e : expr) : bool := match e with EFun _ | EClass _ _ => true | _ => false end.
Fixpoint in_chain (e : expr) : bool :=
  match e with
  | EMember opt o _ | EIndex opt o _ | ECall opt o _ => opt || in_chain o
  | ETagged f _ => in_chain f
  | _ => false
  end.

Definition sound_position (e : expr) : Prop :=
  match e with
  | EUn UTypeof a => leaves_no is_name a
  | EUn UDelete a => leaves_no is_reference a
  | EMember _ o _ | EIndex _ o _ => leaves_no in_chain o
  | ECall _ f _ | ETagged f _ => leaves_no (fun e => is_reference e || in_chain e) f
  | EAssign op (EId _) e => leaves_no is_anonymous e
  | EAssign _ (EMember _ _ _) _ | EAssign _ (EIndex _ _ _) _ | EAssign _ (ELeaf _) _ => True
  | EAssign _ _ _ => False
  | EStr s units => units = None /\ valid_str s
  | ENum x => is_f64 x
  | _ => True
  end.
Definition sound_item (l : items) : Prop :=
  match l with
  | IProp _ e _ | IComputed _ e _ => leaves_no is_anonymous e
  | _ => True
  end.
Definition no_power (e : expr) : Prop := match e with EBin BPow _ _ => False | _ => True end.

(** A property of an expression and of everything in it. *)
Fixpoint everywhere (p : expr -> Prop) (q : items -> Prop) (e : expr) : Prop :=
  p e /\
  match e with
  | EUn _ a => everywhere p q a
  | EBin _ l r => everywhere p q l /\ everywhere p q r
  | ECond t a b => everywhere p q t /\ everywhere p q a /\ everywhere p q b
  | EAssign _ t e => everywhere p q t /\ everywhere p q e
  | EMember _ o _ => everywhere p q o
  | EIndex _ o k => everywhere p q o /\ everywhere p q k
  | ECall _ f l | ETagged f l => everywhere p q f /\ everywhere_items p q l
  | ETemplate l | EArr l | EObj l => everywhere_items p q l
  | _ => True
  end
with everywhere_items (p : expr -> Prop) (q : items -> Prop) (l : items) : Prop :=
  q l /\
  match l with
  | INil => True
  | IHole r | IText _ r | IShort _ r | IMethod _ _ r => everywhere_items p q r
  | ISingle e r | ISpread e r | IProp _ e r => everywhere p q e /\ everywhere_items p q r
  | IComputed k e r => everywhere p q k /\ everywhere p q e /\ everywhere_items p q r
  end.

(** ** Effects nobody can see *)

(** [same w w']: w' differs from w only in objects made since; [young w o]: the
    object o was made since w.  Making objects and filling in new ones is all
    that these operations do. *)
Record unseen {W} (h : host W) (same : W -> W -> Prop) (young : W -> val -> Prop) : Prop := Unseen {
  un_refl w : same w w;
  un_trans w1 w2 w3 : same w1 w2 -> same w2 w3 -> same w1 w3;
  un_function k x w : exists o w', new_function h k x w = (Ret (VObj o), w') /\ same w w';
  un_regex k w : exists o w', new_regex h k w = (Ret (VObj o), w') /\ same w w';
  un_array l w : exists o w', new_array h l w = (Ret (VObj o), w') /\ same w w';
  un_object w : exists o w', new_object h w = (Ret (VObj o), w') /\ same w w' /\ young w (VObj o);
  un_define w w1 o k v : same w w1 -> young w o -> exists w2, define h o k v w1 = (Ret tt, w2) /\ same w w2;
  un_method w w1 o x k : same w w1 -> young w o -> exists w2, define_method h o x k w1 = (Ret tt, w2) /\ same w w2 }.

(** Expressions whose value can be an object, if they are free of names, calls
    and the like. *)
Fixpoint may_be_object (e : expr) : bool :=
  match e with
  | ERegex _ | EFun _ | EClass _ _ | EArr _ | EObj _ => true
  | ECond _ a b => may_be_object a || may_be_object b
  | EBin BLand l r | EBin BLor l r | EBin BNullish l r => may_be_object l || may_be_object r
  | _ => false
  end.
(** Operators that convert their operands are not used on objects, and there
    are no classes. *)
Definition no_object_operand (e : expr) : Prop :=
  match e with
  | EUn (UPlus | UNeg | UBitNot) a => may_be_object a = false
  | EBin (BLand | BLor | BNullish | BComma | BSeq | BSne) _ _ => True
  | EBin _ l r => may_be_object l = false /\ may_be_object r = false
  | EClass _ _ => False
  | _ => True
  end.
Fixpoint no_object_part (l : items) : Prop :=
  match l with
  | INil => True
  | ISingle e r => may_be_object e = false /\ no_object_part r
  | IText _ r | IHole r | ISpread _ r | IProp _ _ r | IComputed _ _ r | IShort _ r | IMethod _ _ r => no_object_part r
  end.
Definition no_object_converted (e : expr) : Prop :=
  match e with ETemplate l => no_object_part l | e => no_object_operand e end.
