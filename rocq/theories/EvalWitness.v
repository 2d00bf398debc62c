(** Instances for the theorems about constant evaluation. *)
From Coq Require Import String Ascii ZArith NArith Bool List Lia.
From Coq Require Import Floats.SpecFloat.
From stdpp Require Import base decidable numbers list.
From Verif Require Import VmBase RustStr PrimModel PrimSpec PrimProofs ObjDefineProofs ConvModel ConvSpec ConvProofs ConvTextProofs ConvWitness.
From Verif Require Import EscModel EscProofs FoldModel FoldSpec FoldNumProofs FoldProofs FoldWitness EvalSpec EvalNumProofs.
Local Open Scope N_scope.

(** ** Strings read as BigInts *)
Definition read_bigint (s : rstr) : option Z :=
  let t := trim_matches is_ecmascript_whitespace s in
  if bool_decide (t = []) then Some 0%Z
  else
    let '(signed, negative, body) := sign_of t in
    match radix_of body with
    | Some (r, ds) => if signed : bool then None else option_map Z.of_N (parse_int_digits ds r)
    | None => option_map (fun v => if negative : bool then (- Z.of_N v)%Z else Z.of_N v) (parse_int_digits body 10)
    end.
Lemma read_bigint_spec s z : read_bigint s = Some z <-> reads_bigint s z.
Proof.
  unfold read_bigint. destruct (trim_split _ whitespace_spec s) as (w&w'&Es&W&W').
  set (t := trim_matches is_ecmascript_whitespace s) in *. cbv zeta. split.
  - destruct (bool_decide_reflect (t = [])) as [T|T].
    { intros [= <-]. rewrite Es, T. constructor. by apply Forall_app. }
    intros H. destruct (sign_of t) as [[hs neg] body] eqn:S.
    assert ((hs = false /\ neg = false /\ t = body) \/ (hs = true /\ neg = false /\ t = 43 :: body) \/ (hs = true /\ neg = true /\ t = 45 :: body)) as C.
    { destruct t as [|c t']; cbn in S; [injection S as <- <- <-; auto|].
      destruct (N.eqb_spec c 43) as [->|]; [injection S as <- <- <-; auto|].
      destruct (N.eqb_spec c 45) as [->|]; injection S as <- <- <-; auto. }
    destruct (radix_of body) as [[r ds]|] eqn:R.
    + destruct C as [(->&->&Et)|[(->&->&Et)|(->&->&Et)]]; [|done..].
      destruct (parse_int_digits ds r) as [n|] eqn:P; [|done]. injection H as <-.
      destruct (radix_of_drop _ _ _ R) as [_ Hr]. apply parse_int_spec in P; [|lia].
      apply radix_of_spec in R as (p&RP&Eb). rewrite Es, Et, Eb. by eapply rb_radix.
    + destruct (parse_int_digits body 10) as [n|] eqn:P; [|done]. injection H as <-. apply parse_int_spec in P; [|lia].
      destruct C as [(->&->&Et)|[(->&->&Et)|(->&->&Et)]]; rewrite Es, Et; [by apply rb_plain|by apply rb_plus|by apply rb_minus].
  - intros H.
    assert (forall c s, 43 <= c <= 122 -> ConvProofs.plain_text s -> ConvProofs.plain_text (c :: s)) as Cn by (intros; by constructor).
    assert (forall r s n, r <= 16 -> numeral r s n -> ConvProofs.plain_text s /\ s <> []) as Np.
    { intros r s' n Hr N. split; [|intros ->; by inversion N as [|[|? ?] ? ? ? ? ? EE]; simplify_list_eq].
      apply numeral_char in N. eapply Forall_impl; [exact N|]; cbn; intros; lia. }
    destruct H as [w0 Hw|w0 s0 n w0' Hw Hw' N|w0 s0 n w0' Hw Hw' N|w0 s0 n w0' Hw Hw' N|w0 p r s0 n w0' Hw Hw' RP N].
    + subst t. by rewrite (trim_spaces _ whitespace_spec).
    + destruct (Np _ _ _ (ltac:(lia) : 10 <= 16) N) as [P1 P2]. subst t. rewrite (trim_plain _ whitespace_spec) by done.
      rewrite bool_decide_eq_false_2 by done.
      assert (sign_of s0 = (false, false, s0)) as ->.
      { destruct s0 as [|c s0]; [done|]. cbn. destruct (N.eqb_spec c 43) as [->|]; [|destruct (N.eqb_spec c 45) as [->|]; [|done]].
        - exfalso. by eapply (numeral_no_sign 10 _ _ 43 ltac:(lia) N); [auto|].
        - exfalso. by eapply (numeral_no_sign 10 _ _ 45 ltac:(lia) N); [auto|]. }
      rewrite (numeral10_no_radix _ _ N), (proj2 (parse_int_spec 10 s0 n ltac:(lia)) N). done.
    + destruct (Np _ _ _ (ltac:(lia) : 10 <= 16) N) as [P1 P2]. subst t. rewrite (trim_plain _ whitespace_spec) by (first [done|apply Cn; [lia|done]]).
      rewrite bool_decide_eq_false_2 by done.
      cbn [sign_of]. rewrite N.eqb_refl, (numeral10_no_radix _ _ N), (proj2 (parse_int_spec 10 s0 n ltac:(lia)) N). done.
    + destruct (Np _ _ _ (ltac:(lia) : 10 <= 16) N) as [P1 P2]. subst t. rewrite (trim_plain _ whitespace_spec) by (first [done|apply Cn; [lia|done]]).
      rewrite bool_decide_eq_false_2 by done.
      cbn [sign_of]. rewrite N.eqb_refl. cbn [N.eqb Pos.eqb]. rewrite (numeral10_no_radix _ _ N), (proj2 (parse_int_spec 10 s0 n ltac:(lia)) N). done.
    + assert (r = 2 \/ r = 8 \/ r = 16) as Hr by (destruct RP; auto).
      destruct (Np r s0 n ltac:(lia) N) as [P1 P2].
      assert (ConvProofs.plain_text (p ++ s0)).
      { apply Forall_app. split; [|done]. destruct RP as [c [->| ->]|c [->| ->]|c [->| ->]]; repeat (constructor; [lia|]); constructor. }
      subst t. rewrite (trim_plain _ whitespace_spec) by (try done; by destruct RP).
      rewrite bool_decide_eq_false_2 by (by destruct RP).
      assert (sign_of (p ++ s0) = (false, false, p ++ s0)) as -> by (by destruct RP).
      rewrite (proj2 (radix_of_spec (p ++ s0) r s0)) by (by exists p).
      rewrite (proj2 (parse_int_spec r s0 n ltac:(lia)) N). done.
Qed.

(** ** Arithmetic and host, with the remainder and the mixed comparisons of
    ECMA-262; the rest is that of FoldWitness.v. *)
Definition near (n : N) (e : Z) : f64 :=
  clip (if n * 10 ^ Z.to_N e <? 2 ^ 53 then exact_nearest n e
        else of_spec (binary_normalize 53 1024 (Z.of_N n * 10 ^ e) 0 false)).
Definition a_rem (x y : f64) : f64 :=
  if f64_is_zero y || f64_is_infinite x then f64_nan else clip (f64_of_int (Z.rem (js_to_int32 x) (js_to_int32 y))).
Definition a_rust : rust := Rust near few_digits
  (ieee (SFadd 53 1024)) (ieee (SFsub 53 1024)) (ieee (SFmul 53 1024)) (ieee (SFdiv 53 1024)) a_rem some_pow.
Definition a_host : host world :=
  let o := some_host in {|
  get_id := get_id o; typeof_id := typeof_id o; delete_id := delete_id o; put_id := put_id o;
  get_prop := get_prop o; delete_prop := delete_prop o; put_prop := put_prop o;
  call := call o; call_tag := call_tag o; spread := spread o;
  new_function := new_function o; new_class := new_class o; new_regex := new_regex o; new_array := new_array o;
  new_object := new_object o; to_key := to_key o; define := define o; define_method := define_method o;
  copy_props := copy_props o; leaf := leaf o; put_pattern := put_pattern o;
  other_unary := other_unary o; other_binary := other_binary o; other_text := other_text o;
  n_add := n_add o; n_sub := n_sub o; n_mul := n_mul o; n_div := n_div o; n_rem := a_rem;
  n_exp := n_exp o; n_neg := n_neg o;
  number_of_string u := coerce_str_to_num near (from_utf16_lossy u);
  string_of_number := string_of_number o; string_of_bigint := string_of_bigint o;
  int32 := int32 o; uint32 := uint32 o;
  mixed_less a b :=
    match a, b with
    | VBig z, VStr u => option_map (fun n => (z <? n)%Z) (read_bigint (from_utf16_lossy u))
    | VStr u, VBig z => option_map (fun n => (n <? z)%Z) (read_bigint (from_utf16_lossy u))
    | VBig z, VNum x => if f64_is_nan x then None else if f64_is_finite x then Some (z * 2 ^ 1074 <? scaled x)%Z else Some (negb (f64_neg x))
    | VNum x, VBig z => if f64_is_nan x then None else if f64_is_finite x then Some (scaled x <? z * 2 ^ 1074)%Z else Some (f64_neg x)
    | _, _ => None
    end;
  mixed_equal a b :=
    match a, b with
    | VBig z, VStr u | VStr u, VBig z => match read_bigint (from_utf16_lossy u) with Some n => (z =? n)%Z | None => false end
    | VBig z, VNum x | VNum x, VBig z => f64_is_finite x && (z * 2 ^ 1074 =? scaled x)%Z
    | _, _ => false
    end |}.

Lemma a_agrees : agrees a_rust a_host.
Proof.
  pose proof some_agrees as S. split; try done.
  - intros op x y z. pose proof (ag_double _ _ S op x y z) as D. destruct op; try exact D. clear D.
    cbn [num_op a_rust r_rem]. intros [= <-]. unfold a_rem. destruct (f64_is_zero y || f64_is_infinite x); [done|apply clip_f64].
  - intros s v V R. cbn [a_host number_of_string]. rewrite lossy_utf16 by done. by apply coerce_reads.
  - intros s V R. cbn [a_host number_of_string]. rewrite lossy_utf16 by done. by apply coerce_rejects.
  - exact (ag_digits _ _ S).
  - exact (ag_number _ _ S).
  - exact (ag_bigint _ _ S).
  - exact (ag_int32 _ _ S).
  - exact (ag_uint32 _ _ S).
Qed.
Lemma a_compares : compares a_host.
Proof.
  split.
  - done.
  - intros x y Z. cbn [a_host n_rem]. unfold a_rem. by rewrite Z.
  - intros x y I. cbn [a_host n_rem]. unfold a_rem. by rewrite I, orb_true_r.
  - intros z s n V R. cbn [a_host mixed_equal]. rewrite lossy_utf16 by done. by rewrite (proj2 (read_bigint_spec s n) R).
  - intros z s V R. cbn [a_host mixed_equal]. rewrite lossy_utf16 by done.
    destruct (read_bigint s) as [n|] eqn:E; [|done]. by apply read_bigint_spec, R in E.
  - done.
  - intros z s n V R. cbn [a_host mixed_less]. rewrite lossy_utf16 by done. by rewrite (proj2 (read_bigint_spec s n) R).
  - intros z s V R. cbn [a_host mixed_less]. rewrite lossy_utf16 by done.
    destruct (read_bigint s) as [n|] eqn:E; [|done]. by apply read_bigint_spec, R in E.
Qed.
Lemma a_rounds : rounds (r_nearest a_rust).
Proof.
  split; [intros n e; apply clip_f64|]. intros n L. cbn [a_rust r_nearest]. unfold near, exact_nearest.
  change (10 ^ Z.to_N 0) with 1. rewrite N.mul_1_r. rewrite (proj2 (N.ltb_lt n _) L). unfold clip. destruct (of_N_f64 n L) as [V _]. unfold is_f64 in V.
  destruct (N.ltb_spec (f64_bits (f64_of_N n)) (2 ^ 64)); [done|lia].
Qed.
