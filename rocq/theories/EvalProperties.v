(** * Constants the optimizer evaluates *)
From Coq Require Import String Ascii ZArith NArith Bool List Lia.
From stdpp Require Import base decidable numbers list.
From Verif Require Import VmBase RustStr PrimModel PrimSpec ConvModel ConvSpec FoldModel FoldSpec FoldWitness EvalSpec EvalProofs EvalMathProofs EvalWitness.
From Verif Require ILModel EvalModel.
Local Open Scope N_scope.

Import ILModel (KBigInt, KBool, KNull, KNum, KStr, KUndefined).
Import EvalModel (Folded, Declined, Panics).

(** An instruction on two constants is replaced by what ECMA-262 says the
    operator gives, with no exception and no effect; [plain_operands] leaves out
    the pairs refuted below. *)
Theorem binary_constants_partial :
  forall W (R : rust) (h : host W), agrees R h -> compares h -> rounds (r_nearest R) ->
  forall op a b v, proper a -> proper b -> plain_operands R h op a b -> EvalModel.eval_bin R op a b = Folded v ->
  proper v /\ exists o, bin_of op = Some o /\ binary h o (meaning a) (meaning b) = ret (meaning v).
Proof. intros. eapply eval_bin_ok; eauto. Qed.
Print Assumptions binary_constants_partial.

Example binary_constants_example :
  agrees a_rust a_host /\ compares a_host /\ rounds (r_nearest a_rust) /\
  plain_operands a_rust a_host ILModel.OAdd (KNum (F64 0x3ff8000000000000)) (KStr (txt "px")) /\
  EvalModel.eval_bin a_rust ILModel.OAdd (KNum (F64 0x3ff8000000000000)) (KStr (txt "px")) = Folded (KStr (txt "1.5px")) /\
  plain_operands a_rust a_host ILModel.OSub (KStr (txt " 0x10 ")) (KNum f64_one) /\
  EvalModel.eval_bin a_rust ILModel.OSub (KStr (txt " 0x10 ")) (KNum f64_one) = Folded (KNum (f64_of_N 15)) /\
  plain_operands a_rust a_host ILModel.OLooseEq (KBigInt 1) (KBool true) /\
  EvalModel.eval_bin a_rust ILModel.OLooseEq (KBigInt 1) (KBool true) = Folded (KBool true) /\
  EvalModel.eval_bin a_rust ILModel.OGeq KNull KUndefined = Folded (KBool false) /\
  EvalModel.eval_bin a_rust ILModel.OUShr (KNum (f64_negate f64_one)) (KBool false) = Folded (KNum (f64_of_N 4294967295)).
Proof.
  split; [apply a_agrees|]. split; [apply a_compares|]. split; [apply a_rounds|].
  split. { split; [|done]. intros _. right. right. split; [done|]. split; [done|]. left. vm_compute. split; [done|congruence]. }
  split; [by vm_compute|]. split; [by split; intros [=]|]. split; [by vm_compute|]. split; [split; [intros _; lia|intros [=]]|]. by vm_compute.
Qed.

Theorem unary_constants_partial :
  forall W (R : rust) (h : host W), agrees R h -> compares h -> rounds (r_nearest R) ->
  forall op a v, proper a -> (op = ILModel.ONot -> forall z, a <> KBigInt z) -> EvalModel.eval_un R op a = Folded v ->
  proper v /\ exists o, un_of op = Some o /\ unary h o (meaning a) = ret (meaning v).
Proof. intros. eapply eval_un_ok; eauto. Qed.
Print Assumptions unary_constants_partial.

Example unary_constants_example :
  EvalModel.eval_un a_rust ILModel.OPlus (KStr (txt " -1e2")) = Folded (KNum (f64_negate (f64_of_N 100))) /\
  EvalModel.eval_un a_rust ILModel.OBitNot KNull = Folded (KNum (f64_negate f64_one)) /\
  EvalModel.eval_un a_rust ILModel.ONot (KStr []) = Folded (KBool true) /\
  EvalModel.eval_un a_rust ILModel.OTypeof (KBigInt 3) = Folded (KStr (txt "bigint")).
Proof. by vm_compute. Qed.

(** The evaluator panics exactly on an order comparison of a BigInt with a
    constant that is neither a BigInt nor a string. *)
Theorem comparisons_panic :
  forall R op a b, EvalModel.eval_bin R op a b = Panics <->
  ordering op = true /\
  exists z v, ((a = KBigInt z /\ b = v) \/ (a = v /\ b = KBigInt z)) /\
    match v with KBigInt _ | KStr _ => False | _ => True end.
Proof. apply bin_panics. Qed.
Print Assumptions comparisons_panic.

Theorem unary_never_panics : forall R op a, EvalModel.eval_un R op a <> Panics.
Proof. apply un_panics. Qed.
Print Assumptions unary_never_panics.

(** [1n < 1] is false, and [2n > true] true, but the compiler panics. *)
Theorem evaluation_total_refuted :
  agrees a_rust a_host /\ compares a_host /\
  EvalModel.eval_bin a_rust ILModel.OLt (KBigInt 1) (KNum f64_one) = Panics /\
  binary a_host BLt (VBig 1) (VNum f64_one) = ret (VBool false) /\
  EvalModel.eval_bin a_rust ILModel.OGt (KBigInt 2) KNull = Panics.
Proof. split; [apply a_agrees|]. split; [apply a_compares|]. by vm_compute. Qed.
Print Assumptions evaluation_total_refuted.

(** [!z] is always the wrong way round for a BigInt. *)
Theorem not_bigint_refuted :
  forall W (R : rust) (h : host W) z, exists b,
    EvalModel.eval_un R ILModel.ONot (KBigInt z) = Folded (KBool b) /\
    unary h UNot (VBig z) = ret (VBool (negb b)).
Proof. intros W R h z. exists (negb (z =? 0)%Z). split; [done|]. cbn. by rewrite negb_involutive. Qed.
Print Assumptions not_bigint_refuted.

(** ['￿' < '\u{10000}'] is false: the second string starts with the code
    unit 0xD800. *)
Theorem string_order_refuted :
  EvalModel.eval_bin a_rust ILModel.OLt (KStr [0xFFFF]) (KStr [0x10000]) = Folded (KBool true) /\
  binary a_host BLt (VStr (utf16 [0xFFFF])) (VStr (utf16 [0x10000])) = ret (VBool false).
Proof. by vm_compute. Qed.
Print Assumptions string_order_refuted.

(** [9007199254740993n == 9007199254740992] is false. *)
Theorem large_bigint_refuted :
  compares a_host /\ rounds (r_nearest a_rust) /\
  EvalModel.eval_bin a_rust ILModel.OLooseEq (KBigInt (2 ^ 53 + 1)) (KNum (F64 0x4340000000000000)) = Folded (KBool true) /\
  binary a_host BEq (VBig (2 ^ 53 + 1)) (VNum (F64 0x4340000000000000)) = ret (VBool false).
Proof. split; [apply a_compares|]. split; [apply a_rounds|]. by vm_compute. Qed.
Print Assumptions large_bigint_refuted.

(** [0n == ''] is true and [-1n == '-0x1'] false. *)
Theorem bigint_string_equality_refuted :
  compares a_host /\
  EvalModel.eval_bin a_rust ILModel.OLooseEq (KBigInt 0) (KStr []) = Folded (KBool false) /\
  binary a_host BEq (VBig 0) (VStr (utf16 [])) = ret (VBool true) /\
  EvalModel.eval_bin a_rust ILModel.OLooseEq (KBigInt (-1)) (KStr (txt "-0x1")) = Folded (KBool true) /\
  binary a_host BEq (VBig (-1)) (VStr (utf16 (txt "-0x1"))) = ret (VBool false).
Proof. split; [apply a_compares|]. by vm_compute. Qed.
Print Assumptions bigint_string_equality_refuted.

(** [1e21 + ''] is ['1e+21'], and [-0 + ''] is ['0']. *)
Theorem number_text_refuted :
  agrees a_rust a_host /\
  EvalModel.eval_bin a_rust ILModel.OAdd (KNum (F64 0x444b1ae4d6e2ef50)) (KStr []) = Folded (KStr (txt "1e21")) /\
  binary a_host BAdd (VNum (F64 0x444b1ae4d6e2ef50)) (VStr []) = ret (VStr (utf16 (txt "1e+21"))) /\
  EvalModel.eval_bin a_rust ILModel.OAdd (KNum (f64_negate f64_zero)) (KStr []) = Folded (KStr (txt "-0")) /\
  binary a_host BAdd (VNum (f64_negate f64_zero)) (VStr []) = ret (VStr (utf16 (txt "0"))).
Proof. split; [apply a_agrees|]. by vm_compute. Qed.
Print Assumptions number_text_refuted.

(** [1 ** NaN] is NaN; Rust's power gives 1. *)
Theorem power_refuted :
  EvalModel.eval_bin a_rust ILModel.OExp (KNum f64_one) (KNum f64_nan) = Folded (KNum f64_one) /\
  binary a_host BPow (VNum f64_one) (VNum f64_nan) = ret (VNum f64_nan).
Proof. by vm_compute. Qed.
Print Assumptions power_refuted.

(** ** Math and Number *)

(** [Math.abs], [Math.ceil], [Math.floor], [Math.round] and [Math.trunc] of a
    number; for [Math.round], unless the number is negative and half-way. *)
Theorem math_calls_partial :
  forall libm R f x v, f ∈ ["Math.abs"; "Math.ceil"; "Math.floor"; "Math.round"; "Math.trunc"]%string -> is_f64 x ->
  (f = "Math.round"%string -> f64_neg x = true -> ~ half_way x) ->
  EvalModel.eval_call R libm (txt f) [KNum x] = Some v -> exists y, v = KNum y /\ math_call f x y.
Proof. apply math_ok. Qed.
Print Assumptions math_calls_partial.

(** 1.5, 1.4, -0.25 and -2.5 *)
Example math_calls_example :
  EvalModel.eval_call a_rust (fun _ x => x) (txt "Math.round") [KNum (F64 0x3ff8000000000000)] = Some (KNum (f64_of_N 2)) /\
  EvalModel.eval_call a_rust (fun _ x => x) (txt "Math.trunc") [KNum (F64 0x3ff6666666666666)] = Some (KNum f64_one) /\
  EvalModel.eval_call a_rust (fun _ x => x) (txt "Math.ceil") [KNum (F64 0xbfd0000000000000)] = Some (KNum (f64_negate f64_zero)) /\
  EvalModel.eval_call a_rust (fun _ x => x) (txt "Math.floor") [KNum (F64 0xc004000000000000)] = Some (KNum (f64_negate (f64_of_N 3))).
Proof. by vm_compute. Qed.

(** [Math.round(-2.5)] is -2, not -3. *)
Theorem round_half_refuted :
  exists x y, is_f64 x /\
    (forall R libm, EvalModel.eval_call R libm (txt "Math.round") [KNum x] = Some (KNum y)) /\ ~ math_call "Math.round" x y.
Proof.
  exists (F64 0xc004000000000000), (f64_negate (f64_of_N 3)). split; [done|]. split; [done|].
  intros M. vm_compute in M. destruct M as (_&E&_). discriminate E.
Qed.
Print Assumptions round_half_refuted.

(** [Number] of a string is the number it reads as. *)
Theorem number_calls :
  forall W (R : rust) (h : host W), agrees R h -> forall libm s v, valid_str s ->
  EvalModel.eval_call R libm (txt "Number") [KStr s] = Some v -> v = KNum (number_of_string h (utf16 s)).
Proof. intros W R h A libm s v V [= <-]. f_equal. symmetry. by apply str_num_ok. Qed.
Print Assumptions number_calls.

Example number_calls_example :
  EvalModel.eval_call a_rust (fun _ x => x) (txt "Number") [KStr (txt " 12 ")] = Some (KNum (f64_of_N 12)).
Proof. by vm_compute. Qed.

(** The named constants have their values. *)
Theorem named_constants :
  forall path v, EvalModel.eval_val (txt path) = Some v -> exists x, v = KNum x /\ is_f64 x /\ constant path x.
Proof. apply val_ok. Qed.
Print Assumptions named_constants.

Example named_constants_example :
  EvalModel.eval_val (txt "Math.PI") = Some (KNum (F64 0x400921FB54442D18)) /\ EvalModel.eval_val (txt "Math.TAU") = None.
Proof. by vm_compute. Qed.
