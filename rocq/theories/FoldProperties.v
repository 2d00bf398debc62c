(** C77 and C78: folding constants keeps what expressions do, and what is
    thrown away as free of side effects has none. *)
From Coq Require Import String Ascii ZArith NArith Bool List.
From stdpp Require Import base decidable numbers list.
From Verif Require Import VmBase RustStr PrimModel PrimSpec ConvModel ConvSpec.
From Verif Require Import FoldModel FoldSpec FoldMainProofs FoldEffectProofs FoldWitness.
Local Open Scope N_scope.

(** ** C77: folding keeps values, conditions, exceptions and effects *)

(** In every world, the folded expression ends as the expression does, in the
    same world.  Partial: [sound_position] excludes conditional expressions that
    can leave a name, a reference, an anonymous function or an optional chain
    where that matters, and strings with lone surrogates; and powers are
    excluded unless Rust's are the host's. *)
Theorem folding_keeps_values_partial {W} (R : rust) (h : host W) e w :
  agrees R h ->
  everywhere (fun e => sound_position e /\ (no_power e \/ forall x y, r_powf R x y = n_exp h x y)) sound_item e ->
  eval h (fold R Value e) w = eval h e w.
Proof. intros A G. by apply (folding_keeps R h A e G). Qed.
Print Assumptions folding_keeps_values_partial.

(** [f("a" + 1 + true, -0 === 0 ? o.m(2 < "10") : u, [typeof (1 && "x"), ...(null ?? o)])] *)
Definition num (n : N) : expr := ENum (f64_of_N n).
Definition string_of (s : string) : expr := EStr (txt s) None.
Definition folded_call : expr :=
  ECall false (EId (txt "f"))
    (ISingle (EBin BAdd (EBin BAdd (string_of "a") (num 1)) (EBool true))
    (ISingle (ECond (EBin BSeq (ENum (f64_negate f64_zero)) (num 0))
                (ECall false (EMember false (EId (txt "o")) (txt "m")) (ISingle (EBin BLt (num 2) (string_of "10")) INil))
                (EId (txt "u")))
    (ISingle (EArr (ISingle (EUn UTypeof (EBin BLand (num 1) (string_of "x")))
                   (ISpread (EBin BNullish ENull (EId (txt "o"))) INil))) INil))).
Example folding_keeps_values_example :
  agrees some_rust some_host /\
  everywhere (fun e => sound_position e /\ (no_power e \/ forall x y, r_powf some_rust x y = n_exp some_host x y)) sound_item folded_call /\
  fold some_rust Value folded_call =
    ECall false (EId (txt "f"))
      (ISingle (string_of "a1true")
      (ISingle (ECall false (EMember false (EId (txt "o")) (txt "m")) (ISingle (EBool true) INil))
      (ISingle (EArr (ISingle (string_of "string") (ISpread (EId (txt "o")) INil))) INil))).
Proof.
  split; [apply some_agrees|]. split; [|vm_compute; reflexivity].
  cbn; repeat split; try (left; done); try done; repeat constructor.
Qed.

(** As a condition, only the truth of the expression is kept. *)
Theorem folding_keeps_conditions_partial {W} (R : rust) (h : host W) e w :
  agrees R h ->
  everywhere (fun e => sound_position e /\ (no_power e \/ forall x y, r_powf R x y = n_exp h x y)) sound_item e ->
  test h (fold R Condition e) w = test h e w.
Proof. intros A G. by apply (folding_keeps R h A e G). Qed.
Print Assumptions folding_keeps_conditions_partial.
(** [f() && true || !("" + "a")] *)
Definition folded_condition : expr :=
  EBin BLor (EBin BLand (ECall false (EId (txt "f")) INil) (EBool true)) (EUn UNot (EBin BAdd (string_of "") (string_of "a"))).
Example folding_keeps_conditions_example :
  everywhere (fun e => sound_position e /\ (no_power e \/ forall x y, r_powf some_rust x y = n_exp some_host x y)) sound_item folded_condition /\
  fold some_rust Condition folded_condition = ECall false (EId (txt "f")) INil /\
  fold some_rust Value folded_condition = EBin BLor (EBin BLand (ECall false (EId (txt "f")) INil) (EBool true)) (EBool false).
Proof.
  split; [|vm_compute; done].
  cbn; repeat split; try (left; done); try done; repeat constructor.
Qed.

(** Without those conditions it is false.  [1 ** 1e999] is NaN, but becomes 1. *)
Definition start : world := World 1 [] [].
Theorem folding_powers_refuted :
  exists e v v', everywhere sound_position (fun _ => True) e /\
    eval some_host e start = (Ret (VNum v), start) /\
    eval some_host (fold some_rust Value e) start = (Ret (VNum v'), start) /\
    f64_is_nan v = true /\ v' = f64_one.
Proof.
  exists (EBin BPow (num 1) (ENum f64_infinity)), f64_nan, f64_one.
  split; [by cbn|]. by vm_compute.
Qed.
Print Assumptions folding_powers_refuted.

(** What a method is called on, and whether a call is a direct eval:
    [(true ? o.m : 0)()] calls without a this value, [o.m()] on [o];
    [(1 && eval)()] is an indirect eval, [eval()] a direct one. *)
Theorem folding_callees_refuted :
  exists e e', fst (eval some_host (fold some_rust Value e) start) = Ret VUndef /\
    log (snd (eval some_host e start)) = [Called (VObj 0) VUndef None []] /\
    log (snd (eval some_host (fold some_rust Value e) start)) = [Called (VObj 0) (VObj 0) None []] /\
    log (snd (eval some_host e' start)) = [Called (VObj 0) VUndef None []] /\
    log (snd (eval some_host (fold some_rust Value e') start)) = [Called (VObj 0) VUndef (Some (txt "eval")) []].
Proof.
  exists (ECall false (ECond (EBool true) (EMember false (EId (txt "o")) (txt "m")) (num 0)) INil),
    (ECall false (EBin BLand (num 1) (EId (txt "eval"))) INil).
  by vm_compute.
Qed.
Print Assumptions folding_callees_refuted.

(** [typeof (true ? u : 0)] throws if [u] is not declared, [typeof u] does not;
    [delete (true ? o.p : 0)] deletes nothing, [delete o.p] does;
    [(true ? n?.b : 0).c] throws if [n] is null, [n?.b.c] does not. *)
Theorem folding_references_refuted :
  (exists e v, eval some_host e start = (Throw v, start) /\
     eval some_host (fold some_rust Value e) start = (Ret (VStr (txt "undefined")), start)) /\
  (exists e, eval some_host e start = (Ret (VBool true), start) /\
     log (snd (eval some_host (fold some_rust Value e) start)) = [Deleted (VObj 0) (VStr (txt "p"))]) /\
  (exists e v, eval some_host e start = (Throw v, start) /\
     eval some_host (fold some_rust Value e) start = (Ret VUndef, start)).
Proof.
  split; [|split].
  - exists (EUn UTypeof (ECond (EBool true) (EId (txt "u")) (num 0))), VNull. by vm_compute.
  - exists (EUn UDelete (ECond (EBool true) (EMember false (EId (txt "o")) (txt "p")) (num 0))). by vm_compute.
  - exists (EMember false (ECond (EBool true) (EMember true (EId (txt "n")) (txt "b")) (num 0)) (txt "c")), VNull. by vm_compute.
Qed.
Print Assumptions folding_references_refuted.

(** [x = true ? function () {} : 0] makes a function without a name, and
    [x = function () {}] one that is called "x". *)
Theorem folding_names_refuted :
  exists e, made (snd (eval some_host e start)) = [(1%nat, None)] /\
    made (snd (eval some_host (fold some_rust Value e) start)) = [(1%nat, Some (txt "x"))].
Proof.
  exists (EAssign None (EId (txt "x")) (ECond (EBool true) (EFun 0) (num 0))). by vm_compute.
Qed.
Print Assumptions folding_names_refuted.

(** ["\uD800" === "\uD801"] is false, but becomes true. *)
Theorem folding_surrogates_refuted :
  exists e, eval some_host e start = (Ret (VBool false), start) /\
    eval some_host (fold some_rust Value e) start = (Ret (VBool true), start).
Proof.
  exists (EBin BSeq (EStr [0xFFFD] (Some [0xD800])) (EStr [0xFFFD] (Some [0xD801]))). by vm_compute.
Qed.
Print Assumptions folding_surrogates_refuted.

(** ** C78: expressions that are dropped have no effect *)

(** They end normally, in a world that differs only in new objects.  Partial:
    [no_object_converted] excludes conversions of object literals and the like,
    and classes. *)
Theorem side_effect_free_partial {W} (h : host W) same young e w :
  unseen h same young ->
  is_side_effect_free e = true -> everywhere no_object_converted (fun _ => True) e ->
  exists v w', eval h e w = (Ret v, w') /\ same w w'.
Proof. intros U. by apply free_has_no_effect with (young := young). Qed.
Print Assumptions side_effect_free_partial.

(** [[{a: function () {}, b() {}}, 2n ** 3n > 1 ? `${-1n / -2n}` : /x/]] *)
Definition dropped : expr :=
  EArr (ISingle (EObj (IProp (txt "a") (EFun 0) (IMethod (txt "b") 1 INil)))
       (ISingle (ECond (EBin BGt (EBin BPow (EBigInt 2) (EBigInt 3)) (num 1))
          (ETemplate (ISingle (EBin BDiv (EUn UNeg (EBigInt 1)) (EUn UNeg (EBigInt 2))) INil))
          (ERegex 0)) INil)).
Example side_effect_free_example :
  unseen some_host same young /\ is_side_effect_free dropped = true /\
  everywhere no_object_converted (fun _ => True) dropped /\
  is_side_effect_free (EUn UPlus (EBigInt 1)) = false /\
  is_side_effect_free (EBin BDiv (EBigInt 1) (EBigInt 0)) = false /\
  is_side_effect_free (EBin BAdd (EBigInt 1) (num 1)) = false /\
  is_side_effect_free (EId (txt "u")) = false.
Proof. split; [apply some_unseen|]. by vm_compute. Qed.

(** [+{valueOf() { … }}], [[] < {}] and [`${{}}`] run code of the program, but
    are dropped. *)
Theorem conversions_are_free_refuted :
  exists e1 e2 e3, forallb is_side_effect_free [e1; e2; e3] = true /\
    log (snd (eval some_host e1 start)) = [Converted (VObj 1)] /\
    log (snd (eval some_host e2 start)) = [Converted (VObj 1)] /\
    log (snd (eval some_host e3 start)) = [Converted (VObj 1)].
Proof.
  exists (EUn UPlus (EObj (IMethod (txt "valueOf") 0 INil))),
    (EBin BLt (EArr INil) (EObj INil)), (ETemplate (ISingle (EObj (IMethod (txt "toString") 0 INil)) INil)).
  by vm_compute.
Qed.
Print Assumptions conversions_are_free_refuted.
