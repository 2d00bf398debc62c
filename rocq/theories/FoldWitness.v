(** Instances for the theorems about folding expressions. *)
From Coq Require Import String Ascii ZArith NArith Bool List Lia.
From Coq Require Import Floats.SpecFloat.
From stdpp Require Import base decidable numbers list.
From Verif Require Import VmBase RustStr PrimModel PrimSpec PrimProofs ObjDefineProofs ConvModel ConvSpec ConvProofs ConvTextProofs ConvWitness.
From Verif Require Import EscModel EscProofs FoldModel FoldSpec FoldNumProofs FoldProofs.
Local Open Scope N_scope.

(** ** Rust's arithmetic *)

Definition clip (x : f64) : f64 := if f64_bits x <? 2 ^ 64 then x else f64_nan.
Definition ieee (f : spec_float -> spec_float -> spec_float) (x y : f64) : f64 := clip (of_spec (f (to_spec x) (to_spec y))).
(** Powers of 32-bit integers; as IEEE 754's pow, 1 to any power is 1. *)
Definition some_pow (x y : f64) : f64 :=
  if f64_eqb x f64_one then f64_one
  else if f64_is_finite y then clip (f64_of_int (js_to_int32 x ^ js_to_int32 y)) else f64_nan.
Definition some_rust : rust := Rust exact_nearest few_digits
  (ieee (SFadd 53 1024)) (ieee (SFsub 53 1024)) (ieee (SFmul 53 1024)) (ieee (SFdiv 53 1024))
  (fun x y => clip (f64_of_int (Z.rem (js_to_int32 x) (js_to_int32 y)))) some_pow.

(** ** A host: a log of what programs can see, and a journal of objects *)

Inductive event :=
  | Called (f this : val) (name : option rstr) (args : list val)
  | Deleted (o k : val)
  | Written (x : val) (v : val)
  | Converted (v : val).
Record world := World { next : nat; log : list event; made : list (nat * option rstr) }.

Definition see {A} (e : event) (a : A) : comp world A := fun w => (Ret a, World (next w) (e :: log w) (made w)).
Definition make (name : option rstr) : comp world val :=
  fun w => (Ret (VObj (next w)), World (S (next w)) (log w) ((next w, name) :: made w)).
Definition fill (o : val) (name : rstr) : comp world unit :=
  fun w => match o with
           | VObj k => (Ret tt, World (next w) (log w) ((k, Some name) :: made w))
           | _ => (Throw VUndef, w)
           end.
Definition fails {A} : comp world A := fun w => (Throw VNull, w).

(** The names [u] and [n] are not declared and null; every other one is the
    object 0, as are all properties of objects. *)
Definition some_host : host world := {|
  get_id x := if bool_decide (x = txt "u") then fails else if bool_decide (x = txt "n") then ret VNull else ret (VObj 0);
  typeof_id x := ret (VStr (txt (if bool_decide (x = txt "u") then "undefined" else "object")));
  delete_id x := ret (VBool false);
  put_id x v := see (Written (VStr x) v) tt;
  get_prop o k := if nullish o then fails else ret (VObj 0);
  delete_prop o k := see (Deleted o k) (VBool true);
  put_prop o k v := see (Written k v) tt;
  call f this name args := see (Called f this name args) VUndef;
  call_tag f this name parts args := see (Called f this name args) VUndef;
  spread v := ret [];
  new_function k name := make name;
  new_class k name := make name;
  new_regex k := make None;
  new_array l := make None;
  new_object := make None;
  to_key v := ret v;
  define o k v := fill o (match k with VStr u => u | _ => [] end);
  define_method o x k := fill o x;
  copy_props o v := ret tt;
  leaf k := ret (VObj 0);
  put_pattern k v := see (Written VUndef v) tt;
  other_unary op v := see (Converted v) (VNum f64_nan);
  other_binary op a b := see (Converted a) (VNum f64_nan);
  other_text v := see (Converted v) [];
  n_add := ieee (SFadd 53 1024);
  n_sub := ieee (SFsub 53 1024);
  n_mul := ieee (SFmul 53 1024);
  n_div := ieee (SFdiv 53 1024);
  n_rem x y := clip (f64_of_int (Z.rem (js_to_int32 x) (js_to_int32 y)));
  (* 6.1.6.1.3 Number::exponentiate: 1 to an infinite power is NaN, and so is anything to NaN *)
  n_exp x y := if negb (f64_is_finite y) && f64_eqb x f64_one then f64_nan else some_pow x y;
  n_neg := f64_negate;
  number_of_string u := coerce_str_to_num exact_nearest (from_utf16_lossy u);
  string_of_number := js_number_to_string few_digits;
  string_of_bigint z := if (z <? 0)%Z then 45 :: decimal_of_N (Z.to_N (- z)) else decimal_of_N (Z.to_N z);
  int32 := js_to_int32;
  uint32 := js_to_uint32;
  mixed_less a b := None;
  mixed_equal a b := false |}.

Lemma clip_f64 x : is_f64 (clip x).
Proof. unfold clip, is_f64. by destruct (N.ltb_spec (f64_bits x) (2 ^ 64)). Qed.
Lemma of_int_f64 z : (- 2 ^ 33 < z < 2 ^ 33)%Z -> is_f64 (f64_of_int z).
Proof.
  intros B. rewrite of_int by done. unfold number_of_int, is_f64.
  change (2 ^ 33)%Z with 8589934592%Z in *.
  destruct (Z.ltb_spec z 0).
  - pose proof (of_N_small (Z.to_N (- z))) as K. change (2 ^ 53) with 9007199254740992 in K. cbn [f64_bits].
    change (2 ^ 63) with 9223372036854775808 in *. change (2 ^ 64) with 18446744073709551616.
    assert (Z.to_N (- z) < 9007199254740992) as L by lia. specialize (K L). lia.
  - pose proof (of_N_small (Z.to_N z)) as K. change (2 ^ 53) with 9007199254740992 in K.
    change (2 ^ 63) with 9223372036854775808 in *. change (2 ^ 64) with 18446744073709551616.
    assert (Z.to_N z < 9007199254740992) as L by lia. specialize (K L). lia.
Qed.

Lemma some_agrees : agrees some_rust some_host.
Proof.
  split; try done.
  - intros op x y z.
    pose proof (int32_range x). pose proof (int32_range y). pose proof (uint32_range x). pose proof (uint32_range y).
    assert (0 <= Z.land (js_to_uint32 y) 31)%Z by (rewrite shift_count by lia; apply Z.mod_pos_bound; lia).
    destruct op; cbn [num_op some_rust r_add r_sub r_mul r_div r_rem r_powf]; try done; intros [= <-];
      try (unfold ieee; apply clip_f64).
    + unfold some_pow. destruct (f64_eqb x f64_one); [done|]. destruct (f64_is_finite y); [apply clip_f64|done].
    + apply of_int_f64, (bit_op_range _ andb); [|done..]. intros. apply Z.land_spec.
    + apply of_int_f64, (bit_op_range _ orb); [|done..]. intros. apply Z.lor_spec.
    + apply of_int_f64, (bit_op_range _ xorb); [|done..]. intros. apply Z.lxor_spec.
    + rewrite wrap_signed. apply of_int_f64, signed_range.
    + rewrite Z.shiftr_div_pow2 by lia. apply of_int_f64, div_range; lia.
    + rewrite Z.shiftr_div_pow2 by lia. apply of_int_f64, div_range; lia.
  - intros s v V R. cbn [some_host number_of_string]. rewrite lossy_utf16 by done. by apply coerce_reads.
  - intros s V R. cbn [some_host number_of_string]. rewrite lossy_utf16 by done. by apply coerce_rejects.
  - intros y ds e _. apply few_digits_fit.
  - intros x X. apply minifier_spells; [done|]. intros y ds e _. apply few_digits_fit.
  - intros n. cbn [some_host string_of_bigint]. destruct (Z.ltb_spec (Z.of_N n) 0); [lia|]. rewrite N2Z.id.
    destruct (decimal_of_N_spec n) as [C E]. exists (decimal_of_N n). split; [done|]. split; [rewrite E; lia|].
    destruct (Z.ltb_spec (Z.of_N n) 0); [lia|done].
  - apply int32_correct.
  - apply uint32_correct.
Qed.

(** What only new objects show. *)
Definition same (w w' : world) : Prop :=
  log w' = log w /\ (next w <= next w')%nat /\
  exists l, made w' = l ++ made w /\ Forall (fun m => (next w <= m.1)%nat) l.
Definition young (w : world) (o : val) : Prop := match o with VObj k => (next w <= k)%nat | _ => False end.
Lemma some_unseen : unseen some_host same young.
Proof.
  assert (forall w name, same w (World (S (next w)) (log w) ((next w, name) :: made w))) as M.
  { intros w name. split; [done|]. split; [cbn; lia|]. exists [(next w, name)]. split; [done|]. repeat constructor. }
  assert (forall w w1 o x, same w w1 -> young w o -> exists w2, fill o x w1 = (Ret tt, w2) /\ same w w2) as F.
  { intros w w1 o x (L&N&l&E&A) Y. destruct o; try done. eexists. split; [reflexivity|]. split; [done|]. split; [done|].
    exists ((k, Some x) :: l). cbn. rewrite E. split; [done|]. by constructor. }
  split.
  - intros w. split; [done|]. split; [done|]. by exists [].
  - intros w1 w2 w3 (L1&N1&l1&E1&A1) (L2&N2&l2&E2&A2). split; [congruence|]. split; [lia|]. exists (l2 ++ l1).
    rewrite E2, E1, app_assoc. split; [done|]. apply Forall_app. split; [|done].
    eapply Forall_impl; [exact A2|]. cbn. intros. lia.
  - intros k x w. eexists _, _. split; [reflexivity|]. apply M.
  - intros k w. eexists _, _. split; [reflexivity|]. apply M.
  - intros k w. eexists _, _. split; [reflexivity|]. apply M.
  - intros w. eexists _, _. split; [reflexivity|]. split; [apply M|apply Nat.le_refl].
  - intros w w1 o k v. apply F.
  - intros w w1 o x k. apply F.
Qed.
