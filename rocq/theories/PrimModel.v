(** Model of the primitive operations of the JavaScript VM: BigInt arithmetic
    (vm-js/src/value.rs), strict and loose equality (vm-js/src/exec.rs,
    vm-js/src/ops.rs), execution budgets (vm-js/src/vm.rs,
    vm-js/src/interrupt.rs), and of the parser's number wrapper
    (parse-js/src/num.rs). *)
From Coq Require Import ZArith NArith Bool.
From stdpp Require Import base decidable numbers list.
From Verif Require Import VmBase.
Local Open Scope N_scope.

(* ------------------------------------------------------------------ *)
(** * BigInt (vm-js/src/value.rs 8-105) *)

(** [u128::MAX + 1] (Rust core). *)
Definition two128 : N := 2 ^ 128.

(** [u128::checked_add] and [u128::checked_mul] (Rust core). *)
Definition checked_add128 (a b : N) : option N :=
  if a + b <? two128 then Some (a + b) else None.
Definition checked_mul128 (a b : N) : option N :=
  if a * b <? two128 then Some (a * b) else None.

(** vm-js/src/value.rs 15-20 [JsBigInt::zero]. *)
Definition bi_zero : js_bigint := BigInt false 0.
(** vm-js/src/value.rs 22-27 [JsBigInt::from_u128]. *)
Definition bi_from_u128 (n : N) : js_bigint := BigInt false n.
(** vm-js/src/value.rs 29-31 [JsBigInt::is_zero]. *)
Definition bi_is_zero (x : js_bigint) : bool := bi_mag x =? 0.
(** vm-js/src/value.rs 33-35 [JsBigInt::is_negative]. *)
Definition bi_is_negative (x : js_bigint) : bool := bi_neg x && negb (bi_is_zero x).
(** vm-js/src/value.rs 37-46 [JsBigInt::negate]. *)
Definition bi_negate (x : js_bigint) : js_bigint :=
  if bi_is_zero x then x else BigInt (negb (bi_neg x)) (bi_mag x).

(** vm-js/src/value.rs 48-79 [JsBigInt::checked_add]. *)
Definition bi_checked_add (x y : js_bigint) : option js_bigint :=
  match bi_is_negative x, bi_is_negative y with
  | false, false =>
      m ← checked_add128 (bi_mag x) (bi_mag y); Some (BigInt false m)
  | true, true =>
      m ← checked_add128 (bi_mag x) (bi_mag y); Some (BigInt true m)
  | _, _ =>
      let '(larger, smaller, larger_negative) :=
        if bi_mag y <=? bi_mag x then (bi_mag x, bi_mag y, bi_is_negative x)
        else (bi_mag y, bi_mag x, bi_is_negative y) in
      let mag := larger - smaller in
      Some (if mag =? 0 then bi_zero else BigInt larger_negative mag)
  end.

(** vm-js/src/value.rs 81-90 [JsBigInt::checked_mul]. *)
Definition bi_checked_mul (x y : js_bigint) : option js_bigint :=
  m ← checked_mul128 (bi_mag x) (bi_mag y);
  Some (if m =? 0 then bi_zero
        else BigInt (xorb (bi_is_negative x) (bi_is_negative y)) m).

(** [u128::to_string] (Rust core): decimal digits, most significant first, as
    code points.  The fuel is the number of binary digits, which is at least the
    number of decimal digits. *)
Fixpoint decimal_go (fuel : nat) (n : N) (acc : list N) : list N :=
  match fuel with
  | O => acc
  | S fuel =>
      let acc := (48 + n mod 10) :: acc in
      if n / 10 =? 0 then acc else decimal_go fuel (n / 10) acc
  end.
Definition decimal_of_N (n : N) : list N := decimal_go (S (N.to_nat (N.size n))) n [].

(** vm-js/src/value.rs 92-100 [JsBigInt::to_decimal_string]. *)
Definition bi_to_decimal_string (x : js_bigint) : list N :=
  if bi_is_negative x then 45 :: decimal_of_N (bi_mag x) else decimal_of_N (bi_mag x).

(** [#[derive(PartialEq)]] on [JsBigInt], vm-js/src/value.rs 8. *)
Definition bi_eqb (x y : js_bigint) : bool :=
  eqb (bi_neg x) (bi_neg y) && (bi_mag x =? bi_mag y).

(** The ways the evaluator makes a BigInt: a literal (vm-js/src/exec.rs 3168-3174
    [eval_lit_bigint]: values over [u128::MAX] are refused), unary minus, [+],
    [*], and [++]/[--] (vm-js/src/exec.rs 4069-4088, adding a BigInt delta). *)
Inductive bi_expr :=
| BLit (n : N)
| BNeg (e : bi_expr)
| BAdd (e f : bi_expr)
| BMul (e f : bi_expr)
| BInc (e : bi_expr)
| BDec (e : bi_expr).

Fixpoint bi_eval (e : bi_expr) : option js_bigint :=
  match e with
  | BLit n => if n <? two128 then Some (bi_from_u128 n) else None
  | BNeg e => x ← bi_eval e; Some (bi_negate x)
  | BAdd e f => x ← bi_eval e; y ← bi_eval f; bi_checked_add x y
  | BMul e f => x ← bi_eval e; y ← bi_eval f; bi_checked_mul x y
  | BInc e => x ← bi_eval e; bi_checked_add x (bi_from_u128 1)
  | BDec e => x ← bi_eval e; bi_checked_add x (bi_negate (bi_from_u128 1))
  end.

(* ------------------------------------------------------------------ *)
(** * Equality (vm-js/src/exec.rs 5018-5030, vm-js/src/ops.rs 7-105) *)

(** A value as the comparison operators see it (vm-js/src/value.rs 107-124
    [Value]): strings by their UTF-16 code units (what [Heap::get_string]
    returns), symbols and objects by identity.  Failing lookups of stale
    handles and failing allocations are left out. *)
Inductive pval :=
| PUndefined
| PNull
| PBool (b : bool)
| PNumber (n : f64)
| PBigInt (n : js_bigint)
| PString (s : list N)
| PSymbol (id : N)
| PObject (id : N).

(** [f64::NAN], [0.0] and [1.0] (Rust core). *)
Definition f64_nan : f64 := F64 (2047 * 2 ^ 52 + 2 ^ 51).
Definition f64_zero : f64 := F64 0.
Definition f64_one : f64 := F64 (1023 * 2 ^ 52).

(** "[object Object]" *)
Definition object_object : list N :=
  [91; 111; 98; 106; 101; 99; 116; 32; 79; 98; 106; 101; 99; 116; 93].

(** vm-js/src/ops.rs 7-22 [to_primitive] (the placeholder conversion the VM
    has today). *)
Definition to_primitive (v : pval) : pval :=
  match v with
  | PObject _ => PString object_object
  | _ => v
  end.

(** vm-js/src/exec.rs 4988-4998 [to_boolean]. *)
Definition to_boolean (v : pval) : bool :=
  match v with
  | PUndefined | PNull => false
  | PBool b => b
  | PNumber n => negb (f64_is_zero n) && negb (f64_is_nan n)
  | PBigInt n => negb (bi_is_zero n)
  | PString s => negb (bool_decide (s = []))
  | PSymbol _ | PObject _ => true
  end.

(** vm-js/src/exec.rs 5018-5030 [strict_equal]. *)
Definition strict_equal (a b : pval) : bool :=
  match a, b with
  | PUndefined, PUndefined => true
  | PNull, PNull => true
  | PBool x, PBool y => eqb x y
  | PNumber x, PNumber y => f64_eqb x y
  | PBigInt x, PBigInt y => bi_eqb x y
  | PString x, PString y => bool_decide (x = y)
  | PSymbol x, PSymbol y => x =? y
  | PObject x, PObject y => x =? y
  | _, _ => false
  end.

Section equality.
(** vm-js/src/ops.rs 104-157 [string_to_number], left open here (modelled in
    ConvModel.v). *)
Context (string_to_number : list N -> f64).

(** vm-js/src/ops.rs 25-43 [to_number]; [None] is the TypeError. *)
Definition to_number (v : pval) : option f64 :=
  match v with
  | PUndefined => Some f64_nan
  | PNull => Some f64_zero
  | PBool b => Some (if b then f64_one else f64_zero)
  | PNumber n => Some n
  | PBigInt _ => None
  | PString s => Some (string_to_number s)
  | PSymbol _ => None
  | PObject _ =>
      match to_primitive v with
      | PString s => Some (string_to_number s)
      | _ => None
      end
  end.

(** One turn of the loop in vm-js/src/ops.rs 55-104: the answer, or the
    operands of the next turn.  [None] is the TypeError. *)
Definition equality_turn (a b : pval) : option (bool + pval * pval) :=
  match a, b with
  | PUndefined, PUndefined => Some (inl true)
  | PNull, PNull => Some (inl true)
  | PBool x, PBool y => Some (inl (eqb x y))
  | PNumber x, PNumber y => Some (inl (f64_eqb x y))
  | PBigInt x, PBigInt y => Some (inl (bi_eqb x y))
  | PString x, PString y => Some (inl (bool_decide (x = y)))
  | PSymbol x, PSymbol y => Some (inl (x =? y))
  | PObject x, PObject y => Some (inl (x =? y))
  | PUndefined, PNull | PNull, PUndefined => Some (inl true)
  | PNumber _, PString _ => n ← to_number b; Some (inr (a, PNumber n))
  | PString _, PNumber _ => n ← to_number a; Some (inr (PNumber n, b))
  | PBool _, _ => n ← to_number a; Some (inr (PNumber n, b))
  | _, PBool _ => n ← to_number b; Some (inr (a, PNumber n))
  | PObject _, (PString _ | PNumber _ | PBigInt _ | PSymbol _) =>
      Some (inr (to_primitive a, b))
  | (PString _ | PNumber _ | PBigInt _ | PSymbol _), PObject _ =>
      Some (inr (a, to_primitive b))
  | _, _ => Some (inl false)
  end.

(** vm-js/src/ops.rs 45-105 [abstract_equality].  [None]: no answer (an error,
    or out of turns). *)
Fixpoint equality_loop (turns : nat) (a b : pval) : option bool :=
  match turns with
  | O => None
  | S turns =>
      match equality_turn a b with
      | None => None
      | Some (inl r) => Some r
      | Some (inr (a, b)) => equality_loop turns a b
      end
  end.
Definition abstract_equality (a b : pval) : option bool := equality_loop 8 a b.
End equality.

(* ------------------------------------------------------------------ *)
(** * Budgets (vm-js/src/vm.rs, vm-js/src/interrupt.rs) *)

(** vm-js/src/vm.rs [Budget]: remaining fuel, deadline (an [Instant], here a
    number on some clock) and how many ticks apart the clock is read. *)
Record budget := Budget {
  fuel : option N;
  deadline : option N;
  check_time_every : N;
}.
(** vm-js/src/vm.rs [BudgetState]. *)
Record budget_state := BudgetState { bs_budget : budget; bs_ticks : N }.
Definition budget_state_new (b : budget) : budget_state := BudgetState b 0.

(** The part of [Vm] that budgets touch: the current budget and the shared
    interrupt flag. *)
Record bvm := Bvm { vm_budget : budget_state; vm_interrupted : bool }.

Inductive tick_result := TickOk | OutOfFuel | Interrupted | DeadlineExceeded.
Global Instance tick_result_eq_dec : EqDecision tick_result.
Proof. solve_decision. Defined.

(** [u64::wrapping_add(1)] (Rust core). *)
Definition wrapping_succ64 (n : N) : N := (n + 1) mod 2 ^ 64.

(** vm-js/src/vm.rs 1101-1124 [Vm::tick]; [now] is what [Instant::now] returns
    during the call. *)
Definition tick (now : N) (vm : bvm) : tick_result * bvm :=
  let st := vm_budget vm in
  let b := bs_budget st in
  if bool_decide (fuel b = Some 0) then (OutOfFuel, vm)
  else
    let b := Budget (N.pred <$> fuel b) (deadline b) (check_time_every b) in
    let t := wrapping_succ64 (bs_ticks st) in
    let vm := Bvm (BudgetState b t) (vm_interrupted vm) in
    if vm_interrupted vm then (Interrupted, vm)
    else
      match deadline b with
      | Some d =>
          if (t mod N.max (check_time_every b) 1 =? 0) && (d <=? now)
          then (DeadlineExceeded, vm) else (TickOk, vm)
      | None => (TickOk, vm)
      end.

(** vm-js/src/vm.rs 634-636 [Vm::set_budget]. *)
Definition set_budget (b : budget) (vm : bvm) : bvm :=
  Bvm (budget_state_new b) (vm_interrupted vm).

(** What a program holding the VM can do: tick (the clock reading is supplied),
    have the flag set or cleared (vm-js/src/interrupt.rs 37-45, 53-67), set the
    budget, or run a block under a budget of its own: [push_budget]
    (vm-js/src/vm.rs 668-674) replaces the state, and dropping the guard
    (vm-js/src/vm.rs 255-261) puts the previous one back, whether the block
    ended normally or not.  The guard borrows the VM, so blocks nest. *)
Inductive act :=
| ATick (now : N)
| AInterrupt
| AResetInterrupt
| ASetBudget (b : budget)
| AWithBudget (b : budget) (body : list act).

(** The results of the ticks, each with the number of blocks open around it. *)
Fixpoint run_act (depth : nat) (a : act) (vm : bvm) {struct a} :
    list (nat * tick_result) * bvm :=
  match a with
  | ATick now => let '(r, vm) := tick now vm in ([(depth, r)], vm)
  | AInterrupt => ([], Bvm (vm_budget vm) true)
  | AResetInterrupt => ([], Bvm (vm_budget vm) false)
  | ASetBudget b => ([], set_budget b vm)
  | AWithBudget b body =>
      let previous := vm_budget vm in
      let '(out, vm) :=
        (fix go (l : list act) (vm : bvm) {struct l} :=
           match l with
           | [] => ([], vm)
           | a :: l =>
               let '(o1, vm) := run_act (S depth) a vm in
               let '(o2, vm) := go l vm in
               (o1 ++ o2, vm)
           end) body (set_budget b vm) in
      (out, Bvm previous (vm_interrupted vm))
  end.

Fixpoint run_acts (depth : nat) (l : list act) (vm : bvm) {struct l} :
    list (nat * tick_result) * bvm :=
  match l with
  | [] => ([], vm)
  | a :: l =>
      let '(o1, vm) := run_act depth a vm in
      let '(o2, vm) := run_acts depth l vm in
      (o1 ++ o2, vm)
  end.

(* ------------------------------------------------------------------ *)
(** * The parser's number wrapper (parse-js/src/num.rs 1-60) *)

(** [f64::partial_cmp] (Rust core): the order of the reals, with both zeros
    equal and NaN incomparable.  A double's order key is its bit pattern without
    the sign, negated if the sign is set. *)
Definition f64_key (x : f64) : Z :=
  let m := Z.of_N (f64_bits x mod 2 ^ 63) in
  if f64_neg x then (- m)%Z else m.
Definition f64_partial_cmp (x y : f64) : option comparison :=
  if f64_is_nan x || f64_is_nan y then None
  else Some (Z.compare (f64_key x) (f64_key y)).

(** parse-js/src/num.rs [impl PartialEq for JsNumber]. *)
Definition jsnum_eqb (x y : f64) : bool :=
  if f64_is_nan x then f64_is_nan y else f64_eqb x y.
(** parse-js/src/num.rs [impl Ord for JsNumber]. *)
Definition jsnum_cmp (x y : f64) : comparison :=
  match f64_partial_cmp x y with Some c => c | None => Eq end.
(** parse-js/src/num.rs [impl Hash for JsNumber]: the words it feeds to the
    hasher. *)
Definition jsnum_hash (x : f64) : list N :=
  if f64_is_nan x then [] else [f64_bits x].
