(** Proofs about conversions between strings and numbers. *)
From Coq Require Import String Ascii.
From stdpp Require Import base decidable numbers list.
From Verif Require Import VmBase RustStr PrimModel PrimSpec PrimProofs ConvModel ConvSpec.
Local Open Scope N_scope.

(** ** Digits *)

Lemma is_digit_range c : is_digit c = true <-> 48 <= c <= 57.
Proof. unfold is_digit. rewrite andb_true_iff, !N.leb_le. done. Qed.

Lemma digit10 c d : digit 10 c d <-> is_digit c = true /\ d = c - 48.
Proof. rewrite is_digit_range. unfold digit. split; lia. Qed.

Lemma number_of_app a b : number_of (a ++ b) = number_of a * 10 ^ N.of_nat (length b) + number_of b.
Proof.
  unfold number_of. rewrite fold_left_app. generalize (fold_left (fun n c => n * 10 + (c - 48)) a 0). clear a.
  induction b as [|c b IH] using rev_ind; intros n; [cbn; lia|].
  rewrite !fold_left_app, app_length. cbn [fold_left length].
  rewrite (IH n), Nat.add_1_r, Nat2N.inj_succ, N.pow_succ_r'. lia.
Qed.

Lemma numeral10 ds n : numeral 10 ds n <-> ds <> [] /\ forallb is_digit ds = true /\ n = number_of ds.
Proof.
  split.
  - induction 1 as [c d [A ->]%digit10|s n c d H (IH1&IH2&->) [A ->]%digit10].
    + split; [done|]. cbn. by rewrite A.
    + split; [by destruct s|]. rewrite forallb_app, IH2. cbn. rewrite A. split; [done|].
      rewrite number_of_app. unfold number_of. cbn. lia.
  - intros (H&D&->). induction ds as [|c ds IH] using rev_ind; [done|].
    rewrite forallb_app in D. cbn in D. apply andb_true_iff in D as [D1 D2]. rewrite andb_true_r in D2.
    rewrite number_of_app. cbn [length]. change (10 ^ N.of_nat 1) with 10.
    destruct ds as [|x ds].
    + cbn [app number_of fold_left]. apply numeral_one. apply digit10. split; [done|]. unfold number_of. cbn. lia.
    + assert (number_of [c] = c - 48) as -> by (unfold number_of; cbn; lia).
      apply numeral_more; [by apply IH|by apply digit10].
Qed.

Lemma span_app d r :
  forallb is_digit d = true -> match r with c :: _ => is_digit c = false | [] => True end ->
  span_digits (d ++ r) = (d, r).
Proof.
  induction d as [|c d IH]; cbn; intros D R.
  - destruct r as [|c r]; cbn; [done|]. by rewrite R.
  - apply andb_true_iff in D as [-> D]. by rewrite (IH D R).
Qed.

Lemma span_spec s d r :
  span_digits s = (d, r) ->
  s = d ++ r /\ forallb is_digit d = true /\ match r with c :: _ => is_digit c = false | [] => True end.
Proof.
  revert d r. induction s as [|c s IH]; cbn; intros d r H.
  - by injection H as <- <-.
  - destruct (is_digit c) eqn:E.
    + destruct (span_digits s) as [d' r'] eqn:E'. injection H as <- <-.
      destruct (IH _ _ eq_refl) as (->&?&?). cbn. by rewrite E.
    + injection H as <- <-. cbn. by rewrite E.
Qed.

(** ** Decimal literals *)

Section nearest.
Context (nearest : N -> Z -> f64).
Notation ud := (unsigned_decimal nearest f64_infinity).

Definition no_digit_first (r : rstr) : Prop := match r with c :: _ => is_digit c = false | [] => True end.

Lemma exponent_first x e : exponent x e -> no_digit_first x /\ x <> 46 :: tail x.
Proof.
  intros [|e' ds n [->| ->] ?|e' ds n [->| ->] ?|e' ds n [->| ->] ?]; cbn; done.
Qed.

Lemma sign_match s : hd 0 s <> 43 -> hd 0 s <> 45 ->
  match s with 43 :: s => (false, s) | 45 :: s => (true, s) | _ => (false, s) end = (false, s).
Proof.
  destruct s as [|[|p] s]; [done..|]. cbn. intros A B.
  do 6 (destruct p as [p|p|]; try done).
Qed.

(** The tail of [parse_number], from the exponent on. *)
Definition exponent_of (s : rstr) : option Z :=
  match s with
  | [] => Some 0%Z
  | c :: s =>
      if (c =? 101) || (c =? 69) then
        let '(neg, s) := match s with
                         | 43 :: s => (false, s)
                         | 45 :: s => (true, s)
                         | _ => (false, s)
                         end in
        match span_digits s with
        | ([], _) => None
        | (ex, []) =>
            let x := Z.of_N (number_of ex) in
            Some (if neg : bool then - x else x)%Z
        | _ => None
        end
      else None
  end.

Lemma digits_no_sign ds : ds <> [] -> forallb is_digit ds = true ->
  match ds with 43 :: s => (false, s) | 45 :: s => (true, s) | _ => (false, ds) end = (false, ds).
Proof.
  intros N D. assert (48 <= hd 0 ds) as H.
  { destruct ds as [|c ds]; [done|]. cbn in *. apply andb_true_iff in D as [D _]. apply is_digit_range in D. lia. }
  apply sign_match; lia.
Qed.

Lemma exponent_of_spec s e : exponent_of s = Some e <-> exponent s e.
Proof.
  split.
  - destruct s as [|c s]; cbn; [intros [= <-]; constructor|].
    destruct ((c =? 101) || (c =? 69)) eqn:E; [|done].
    apply orb_true_iff in E. rewrite !N.eqb_eq in E.
    assert (forall neg t,
      match span_digits t with
      | ([], _) => None
      | (ex, []) => Some (if neg : bool then - Z.of_N (number_of ex) else Z.of_N (number_of ex))%Z
      | _ => None
      end = Some e -> exists n, numeral 10 t n /\ e = (if neg then - Z.of_N n else Z.of_N n)%Z) as K.
    { intros neg t H. destruct (span_digits t) as [d r] eqn:S. apply span_spec in S as (->&D&_).
      destruct d as [|x d]; [done|]. destruct r as [|]; [|done]. injection H as <-.
      rewrite app_nil_r. exists (number_of (x :: d)). split; [|done]. by apply numeral10. }
    destruct s as [|s0 s]; [done|].
    destruct (decide (s0 = 43)) as [->|N1].
    { intros H. apply (K false) in H as (n&?&->). by apply exponent_plus. }
    destruct (decide (s0 = 45)) as [->|N2].
    { intros H. apply (K true) in H as (n&?&->). by apply exponent_minus. }
    intros H.
    assert (match span_digits (s0 :: s) with
      | ([], _) => None
      | (ex, []) => Some (if false then - Z.of_N (number_of ex) else Z.of_N (number_of ex))%Z
      | _ => None
      end = Some e) as H'.
    { rewrite (sign_match (s0 :: s)) in H by done. done. }
    apply (K false) in H' as (n&?&->). by apply exponent_plain.
  - assert (forall t, t <> [] -> forallb is_digit t = true -> span_digits t = (t, [])) as S.
    { intros t _ D. rewrite <-(app_nil_r t) at 1. by apply span_app. }
    destruct 1 as [|e' ds n E (N&D&->)%numeral10|e' ds n E (N&D&->)%numeral10|e' ds n E (N&D&->)%numeral10]; [done|..].
    all: unfold exponent_of; assert ((e' =? 101) || (e' =? 69) = true) as -> by (destruct E as [->| ->]; done).
    + rewrite (digits_no_sign ds N D), (S ds N D). by destruct ds.
    + rewrite (S ds N D). by destruct ds.
    + rewrite (S ds N D). by destruct ds.
Qed.

Lemma parse_number_eq s :
  parse_number nearest s =
  let '(int, r) := span_digits s in
  let '(frac, r) := match r with 46 :: r => span_digits r | _ => ([], r) end in
  match int ++ frac with
  | [] => None
  | _ => option_map (fun e => nearest (number_of (int ++ frac)) (- Z.of_nat (length frac) + e)) (exponent_of r)
  end.
Proof.
  unfold parse_number, exponent_of. destruct (span_digits s) as [int r].
  destruct (match r with 46 :: r0 => span_digits r0 | _ => ([], r) end) as [frac r'].
  destruct (int ++ frac) as [|c l]; [done|].
  destruct r' as [|c' r']; cbn [option_map]; [by rewrite Z.add_0_r|].
  destruct (_ || _); [|done].
  destruct (match r' with 43 :: s0 => _ | _ => _ end) as [neg t].
  destruct (span_digits t) as [[|x ex] [|y rr]]; done.
Qed.

Lemma point_split r :
  r <> 46 :: tail r -> match r with 46 :: r => span_digits r | _ => ([], r) end = ([], r).
Proof.
  destruct r as [|[|p] r]; [done..|]. cbn. intros N.
  do 6 (destruct p as [p|p|]; try done).
Qed.

Lemma parse_number_spec s v :
  parse_number nearest s = Some v <-> ud s v /\ s <> text "Infinity".
Proof.
  rewrite parse_number_eq. split.
  - destruct (span_digits s) as [int r] eqn:S1. apply span_spec in S1 as (->&D1&R1).
    destruct (decide (r = 46 :: tail r)) as [P|P].
    + rewrite P. cbn [tail]. set (t := tail r) in *. clearbody t.
      destruct (span_digits t) as [frac r'] eqn:S2. apply span_spec in S2 as (->&D2&R2).
      destruct (int ++ frac) as [|c l] eqn:E; [done|]. rewrite <-E.
      destruct (exponent_of r') as [e|] eqn:X; [|done]. apply exponent_of_spec in X. cbn [option_map].
      intros [= <-]. split.
      2:{ destruct int as [|i int]; [done|]. cbn. intros [= -> _]. done. }
      rewrite number_of_app, Z.add_comm. fold (Z.sub e (Z.of_nat (length frac))).
      destruct int as [|i int]; [|destruct frac as [|f frac]].
      * cbn [app]. change (number_of [] * 10 ^ N.of_nat (length frac) + number_of frac) with (number_of frac).
        apply (ud_fraction _ _ frac (number_of frac) r' e); [|done]. apply numeral10. by rewrite app_nil_l in E; subst.
      * cbn [length]. change (number_of []) with 0. change (10 ^ N.of_nat 0) with 1.
        rewrite N.mul_1_r, N.add_0_r, Z.sub_0_r. cbn [app].
        apply (ud_point _ _ (i :: int) (number_of (i :: int)) r' e); [|done]. by apply numeral10.
      * apply (ud_both _ _ (i :: int) (number_of (i :: int)) (f :: frac) (number_of (f :: frac)) r' e); [..|done]; by apply numeral10.
    + rewrite point_split by done.
      rewrite app_nil_r. destruct int as [|i int]; [done|].
      destruct (exponent_of r) as [e|] eqn:X; [|done]. apply exponent_of_spec in X. cbn [option_map length].
      intros [= <-]. cbn [Z.of_nat Z.opp]. rewrite Z.add_0_l. split.
      * apply (ud_integer _ _ (i :: int) (number_of (i :: int)) r e); [|done]. by apply numeral10.
      * cbn. intros [= -> _]. done.
  - intros [H N]. destruct H as [|i n x e (Ni&Di&->)%numeral10 X|i n x e (Ni&Di&->)%numeral10 X
      |i n f m x e (Ni&Di&->)%numeral10 (Nf&Df&->)%numeral10 X|f m x e (Nf&Df&->)%numeral10 X]; [done|..];
      destruct (exponent_first _ _ X) as [F1 F2].
    + rewrite (span_app i x) by done. rewrite point_split by done.
      rewrite app_nil_r. apply exponent_of_spec in X. rewrite X. by destruct i.
    + rewrite (span_app i ([46] ++ x)) by done. cbn [app]. rewrite <-(app_nil_l x) at 1. rewrite (span_app [] x) by done.
      rewrite app_nil_r. apply exponent_of_spec in X. rewrite X. by destruct i.
    + rewrite (span_app i ([46] ++ f ++ x)) by done. cbn [app]. rewrite (span_app f x) by done.
      apply exponent_of_spec in X. rewrite X. destruct (i ++ f) eqn:E; [by destruct i|]. rewrite <-E. cbn [option_map].
      rewrite number_of_app. do 2 f_equal. lia.
    + cbn [app]. rewrite <-(app_nil_l (46 :: f ++ x)). rewrite (span_app [] (46 :: f ++ x)) by done.
      rewrite (span_app f x) by done. apply exponent_of_spec in X. rewrite X. cbn [app].
      destruct f as [|c f']; [done|]. cbn [option_map]. do 2 f_equal. lia.
Qed.

(** ** The minifier's check of the grammar *)

Lemma well_formed_digits d r fuel digit dot exp :
  forallb is_digit d = true -> (length (d ++ r) <= fuel)%nat ->
  exists fuel', (length r <= fuel')%nat /\
  well_formed fuel digit dot exp (d ++ r) =
  well_formed fuel' (digit || (negb exp && negb (bool_decide (d = [])))) dot exp r.
Proof.
  revert fuel digit. induction d as [|c d IH]; intros fuel digit D L.
  - exists fuel. split; [done|]. cbn. by rewrite andb_false_r, orb_false_r.
  - cbn in D. apply andb_true_iff in D as [C D]. cbn [app length] in L. destruct fuel as [|fuel]; [lia|].
    cbn [well_formed app]. rewrite C.
    destruct (IH fuel (if exp then digit else true) D ltac:(lia)) as (f'&Lf&E). exists f'. split; [done|].
    rewrite E. f_equal. by destruct exp, digit.
Qed.

Lemma well_formed_after fuel digit dot r :
  no_digit_first r -> (length r <= fuel)%nat ->
  well_formed fuel digit dot true r = bool_decide (r = []) && digit.
Proof.
  destruct r as [|c r]; intros R L; [by destruct fuel|].
  destruct fuel as [|fuel]; [cbn in L; lia|]. cbn [well_formed]. cbn in R. rewrite R.
  rewrite orb_true_r. by repeat case_match.
Qed.

Lemma sign_skip s :
  match s with 43 :: s | 45 :: s => s | _ => s end =
  snd (match s with 43 :: s => (false, s) | 45 :: s => (true, s) | _ => (false, s) end).
Proof. repeat case_match; done. Qed.

(** At the first character after digits, point and more digits. *)
Lemma well_formed_exponent fuel digit dot r :
  no_digit_first r -> (length r <= fuel)%nat -> (dot = true \/ r <> 46 :: tail r) ->
  well_formed fuel digit dot false r = digit && match exponent_of r with Some _ => true | None => false end.
Proof.
  destruct r as [|c r]; intros R L P; [destruct fuel; cbn; by rewrite andb_true_r|].
  destruct fuel as [|fuel]; [cbn in L; lia|]. cbn [well_formed exponent_of]. cbn in R. rewrite R.
  destruct (N.eqb_spec c 46) as [->|N].
  { destruct P as [->|P]; [|done]. cbn. by rewrite andb_false_r. }
  destruct ((c =? 101) || (c =? 69)) eqn:E; [|by rewrite andb_false_r].
  destruct digit; [|done]. cbn [orb negb]. rewrite sign_skip.
  destruct (match r with 43 :: s => _ | _ => _ end) as [neg t] eqn:T. cbn [snd].
  assert (length t <= length r)%nat as Lt.
  { revert T. repeat case_match; intros [= <- <-]; cbn; lia. }
  destruct (span_digits t) as [[|x ex] rest] eqn:S; [done|].
  apply span_spec in S as (->&_&F). rewrite well_formed_after; [|done|].
  - by destruct rest.
  - rewrite app_length in Lt. cbn in L. lia.
Qed.

Lemma well_formed_spec s fuel :
  (length s <= fuel)%nat ->
  well_formed fuel false false false s = match parse_number nearest s with Some _ => true | None => false end.
Proof.
  intros L. rewrite parse_number_eq.
  destruct (span_digits s) as [int r] eqn:S. apply span_spec in S as (->&D&R).
  destruct (well_formed_digits int r fuel false false false D L) as (f1&L1&->). cbn [orb negb andb].
  destruct (decide (r = 46 :: tail r)) as [P|P].
  - rewrite P in L1 |- *. set (t := tail r) in *. clearbody t. destruct f1 as [|f1]; [cbn in L1; lia|].
    cbn [well_formed]. change (is_digit 46) with false. cbn [N.eqb Pos.eqb orb].
    destruct (span_digits t) as [frac r'] eqn:S. apply span_spec in S as (->&D2&R2).
    cbn in L1.
    match goal with |- well_formed _ ?b _ _ _ = _ =>
      destruct (well_formed_digits frac r' f1 b true false D2 ltac:(lia)) as (f2&L2&->) end.
    rewrite well_formed_exponent; [|done|done|by left]. cbn [negb andb].
    destruct (int ++ frac) eqn:E.
    + apply app_eq_nil in E as [-> ->]. done.
    + match goal with |- ?b && _ = _ => assert (b = true) as -> end.
      { destruct int; [|done]. by destruct frac. }
      cbn [andb]. by destruct (exponent_of r').
  - rewrite point_split by done. rewrite well_formed_exponent; [|done|done|by right]. rewrite app_nil_r.
    destruct int; [done|]. cbn [negb bool_decide decide]. by destruct (exponent_of r).
Qed.

(** ** Integers of a radix *)

Lemma to_digit_spec radix c d : radix <= 16 -> to_digit radix c = Some d <-> digit radix c d.
Proof.
  intros R. unfold to_digit, digit, is_digit. split.
  - intros H.
    destruct ((48 <=? c) && (c <=? 57)) eqn:A; [apply andb_true_iff in A; rewrite !N.leb_le in A|].
    { case_match eqn:E; [|done]. apply N.ltb_lt in E. injection H as <-. lia. }
    destruct ((97 <=? c) && (c <=? 122)) eqn:B; [apply andb_true_iff in B; rewrite !N.leb_le in B|].
    { case_match eqn:E; [|done]. apply N.ltb_lt in E. injection H as <-. lia. }
    destruct ((65 <=? c) && (c <=? 90)) eqn:C; [apply andb_true_iff in C; rewrite !N.leb_le in C|].
    { case_match eqn:E; [|done]. apply N.ltb_lt in E. injection H as <-. lia. }
    case_match eqn:E; [|done]. apply N.ltb_lt in E. lia.
  - intros [D H].
    assert (forall a b, (a <=? c) && (c <=? b) = true <-> a <= c <= b) as K.
    { intros a b. rewrite andb_true_iff, !N.leb_le. done. }
    assert (forall a b, ~ (a <= c <= b) -> (a <=? c) && (c <=? b) = false) as K'.
    { intros a b F. apply not_true_iff_false. by rewrite K. }
    destruct H as [[H ->]|[[H ->]|[H ->]]].
    + rewrite (proj2 (K 48 57)) by lia. by rewrite (proj2 (N.ltb_lt _ _)).
    + rewrite (K' 48 57), (proj2 (K 97 122)) by lia. replace (c - 97 + 10) with (c - 87) by lia. by rewrite (proj2 (N.ltb_lt _ _)).
    + rewrite (K' 48 57), (K' 97 122), (proj2 (K 65 90)) by lia. replace (c - 65 + 10) with (c - 55) by lia. by rewrite (proj2 (N.ltb_lt _ _)).
Qed.

Lemma numeral_char radix s n : numeral radix s n -> Forall (fun c => 48 <= c <= 102) s.
Proof.
  assert (forall c d, digit radix c d -> 48 <= c <= 102) as K by (unfold digit; intros; lia).
  induction 1; [by repeat constructor; eapply K|]. apply Forall_app. split; [done|]. by repeat constructor; eapply K.
Qed.

Lemma parse_int_spec radix ds n : radix <= 16 -> parse_int_digits ds radix = Some n <-> numeral radix ds n.
Proof.
  intros R. unfold parse_int_digits.
  assert (forall ds, forallb (fun c => match to_digit radix c with Some _ => true | None => false end) ds = true -> existsb (N.eqb 95) ds = false) as U.
  { clear ds. intros ds H. apply not_true_iff_false. rewrite existsb_exists. intros (c&I&E). apply N.eqb_eq in E as <-.
    rewrite forallb_forall in H. specialize (H _ I). destruct (to_digit radix 95) as [d|] eqn:E; [|done].
    apply to_digit_spec in E; [|done]. unfold digit in E. lia. }
  split.
  - destruct (bool_decide_reflect (ds = [])) as [|N]; [done|]. cbn [orb].
    destruct (existsb _ ds); [done|]. destruct (forallb _ ds) eqn:F; [|done]. intros [= <-].
    induction ds as [|c ds IH] using rev_ind; [done|]. rewrite forallb_app in F. cbn in F.
    apply andb_true_iff in F as [F1 F2]. rewrite andb_true_r in F2.
    destruct (to_digit radix c) as [d|] eqn:T; [|done].
    unfold parse_bytes. rewrite fold_left_app. cbn [fold_left]. rewrite T. fold (parse_bytes radix ds).
    apply to_digit_spec in T; [|done]. destruct ds as [|x ds]; [by apply numeral_one|].
    apply numeral_more; [by apply IH|done].
  - intros H.
    assert (ds <> [] /\ forallb (fun c => match to_digit radix c with Some _ => true | None => false end) ds = true /\ parse_bytes radix ds = n) as (N&F&E).
    { induction H as [c d D|s n c d H (IH1&IH2&<-) D]; apply to_digit_spec in D; [|done| |done].
      - split; [done|]. cbn. rewrite D. done.
      - split; [by destruct s|]. rewrite forallb_app, IH2. cbn. rewrite D. split; [done|].
        unfold parse_bytes. rewrite fold_left_app. cbn. by rewrite D. }
    rewrite bool_decide_eq_false_2 by done. rewrite (U _ F), F. cbn. by rewrite E.
Qed.

(** ** White space *)

Lemma whitespace_spec c : is_ecmascript_whitespace c = true <-> space c.
Proof.
  unfold is_ecmascript_whitespace, space. rewrite orb_true_iff, !existsb_exists. split.
  - intros [(x&I&E%N.eqb_eq)|(x&I&E%N.eqb_eq)]; subst x; cbn in I; lia.
  - intros H.
    assert (c ∈ [0x09; 0x0b; 0x0c; 0x20; 0xA0; 0x1680; 0x2000; 0x2001; 0x2002; 0x2003; 0x2004; 0x2005; 0x2006;
     0x2007; 0x2008; 0x2009; 0x200A; 0x202F; 0x205F; 0x3000; 0xFEFF] \/ c ∈ [0x0A; 0x0D; 0x2028; 0x2029]) as [I|I].
    { rewrite !elem_of_cons, !elem_of_nil. lia. }
    + left. exists c. split; [by apply elem_of_list_In|apply N.eqb_refl].
    + right. exists c. split; [by apply elem_of_list_In|apply N.eqb_refl].
Qed.

Lemma vm_whitespace_spec c : is_ecma_whitespace c = true <-> space c.
Proof.
  unfold is_ecma_whitespace, space. rewrite !orb_true_iff, !existsb_exists, andb_true_iff, !N.leb_le. split.
  - intros [[(x&I&E%N.eqb_eq)|I]|(x&I&E%N.eqb_eq)]; try subst x; cbn in I; lia.
  - intros H.
    assert (c ∈ [0x09; 0x0A; 0x0B; 0x0C; 0x0D; 0x20; 0xA0; 0x1680] \/ 0x2000 <= c <= 0x200A \/
            c ∈ [0x2028; 0x2029; 0x202F; 0x205F; 0x3000; 0xFEFF]) as [I|[I|I]].
    { rewrite !elem_of_cons, !elem_of_nil. lia. }
    + left. left. exists c. split; [by apply elem_of_list_In|apply N.eqb_refl].
    + by left; right.
    + right. exists c. split; [by apply elem_of_list_In|apply N.eqb_refl].
Qed.

Section trim.
Context (f : N -> bool) (Hf : forall c, f c = true <-> space c).

Lemma trim_start_app w s : Forall space w -> (forall c s', s = c :: s' -> f c = false) -> trim_start f (w ++ s) = s.
Proof using Hf.
  intros W H. induction W as [|c w C W IH]; cbn.
  - destruct s as [|c s]; [done|]. cbn. by rewrite (H c s).
  - by rewrite (proj2 (Hf c) C).
Qed.

Lemma trim_start_split s : exists w, s = w ++ trim_start f s /\ Forall space w.
Proof using Hf.
  induction s as [|c s (w&E&W)]; [by exists []|]. cbn. destruct (f c) eqn:C.
  - exists (c :: w). cbn. rewrite <-E. split; [done|]. constructor; [by apply Hf|done].
  - by exists [].
Qed.

Definition plain_text (s : rstr) : Prop := Forall (fun c => 43 <= c <= 122) s.

Lemma plain_not_space c : 43 <= c <= 122 -> f c = false.
Proof using Hf. intros H. apply not_true_iff_false. rewrite Hf. unfold space. lia. Qed.

Lemma trim_plain w s w' :
  Forall space w -> Forall space w' -> plain_text s -> s <> [] -> trim_matches f (w ++ s ++ w') = s.
Proof using Hf.
  intros W W' P N. unfold trim_matches. rewrite trim_start_app; [|done|].
  - rewrite rev_app_distr. rewrite trim_start_app.
    + apply rev_involutive.
    + by apply Forall_rev.
    + intros c s' E. apply plain_not_space. apply Forall_rev in P. rewrite E in P. by inversion P.
  - intros c s' E. destruct s as [|x s]; [done|]. injection E as <- _. apply plain_not_space. by inversion P.
Qed.

Lemma trim_spaces w : Forall space w -> trim_matches f w = [].
Proof using Hf.
  intros W. unfold trim_matches. rewrite <-(app_nil_r w). rewrite trim_start_app; done.
Qed.

Lemma trim_split s : exists w w', s = w ++ trim_matches f s ++ w' /\ Forall space w /\ Forall space w'.
Proof using Hf.
  destruct (trim_start_split s) as (w&E&W). destruct (trim_start_split (rev (trim_start f s))) as (w'&E'&W').
  exists w, (rev w'). unfold trim_matches. rewrite <-rev_app_distr, <-E', rev_involutive. split_and!; [done|done|].
  by apply Forall_rev.
Qed.
End trim.

(** ** Literals *)

Notation literal := (numeric_literal nearest f64_infinity f64_negate).

Lemma exponent_plain_text x e : exponent x e -> plain_text x.
Proof.
  intros H. unfold plain_text.
  destruct H as [|c ds n [->| ->] H%numeral_char|c ds n [->| ->] H%numeral_char|c ds n [->| ->] H%numeral_char];
    repeat (constructor; [lia|]); try done; (eapply Forall_impl; [exact H|]; cbn; intros; lia).
Qed.

Lemma ud_plain s v : ud s v -> plain_text s /\ s <> [].
Proof.
  assert (forall r t n, numeral r t n -> plain_text t /\ t <> []) as K.
  { intros r t n H. split; [|by destruct H as [|[|]]]. eapply Forall_impl; [by eapply numeral_char|]. cbn. intros; lia. }
  intros H. destruct H as [|i n x e H X|i n x e H X|i n f m x e H H' X|f m x e H X].
  - split; [|done]. change (text "Infinity") with [73; 110; 102; 105; 110; 105; 116; 121]. repeat (constructor; [lia|]). constructor.
  - apply K in H as [? ?]. apply exponent_plain_text in X. split; [by apply Forall_app|by destruct i].
  - apply K in H as [? ?]. apply exponent_plain_text in X. split; [|by destruct i].
    apply Forall_app; split; [done|]. constructor; [lia|done].
  - apply K in H as [? ?], H' as [? ?]. apply exponent_plain_text in X. split; [|by destruct i].
    apply Forall_app; split; [done|]. constructor; [lia|]. by apply Forall_app.
  - apply K in H as [? ?]. apply exponent_plain_text in X. split; [|done]. constructor; [lia|]. by apply Forall_app.
Qed.

Lemma literal_plain s v : literal s v -> plain_text s /\ s <> [].
Proof.
  intros [s' v' H|s' v' H|s' v' H|p r s' n P H].
  - by eapply ud_plain.
  - apply ud_plain in H as [? ?]. split; [|done]. constructor; [lia|done].
  - apply ud_plain in H as [? ?]. split; [|done]. constructor; [lia|done].
  - apply numeral_char in H. assert (plain_text s') by (eapply Forall_impl; [exact H|]; cbn; intros; lia).
    destruct P as [c [->| ->]|c [->| ->]|c [->| ->]]; (split; [|done]); repeat (constructor; [lia|]); done.
Qed.

(** The first character of a decimal. *)
Lemma parse_number_first s v :
  parse_number nearest s = Some v -> exists c s', s = c :: s' /\ (is_digit c = true \/ c = 46).
Proof.
  rewrite parse_number_eq. destruct (span_digits s) as [int r] eqn:S. apply span_spec in S as (->&D&_).
  destruct int as [|c int].
  - destruct (decide (r = 46 :: tail r)) as [P|P].
    + intros _. rewrite P. cbn. by exists 46, (tail r); auto.
    + by rewrite point_split.
  - intros _. cbn in D |- *. apply andb_true_iff in D as [D _]. exists c, (int ++ r). auto.
Qed.

Lemma parse_f64_unsigned s v : parse_number nearest s = Some v -> parse_f64 nearest s = Some v.
Proof.
  intros H. destruct (parse_number_first s v H) as (c&s'&E&C). unfold parse_f64.
  assert (43 < c /\ c <> 45 /\ c < 58) as (C1&C2&C3).
  { destruct C as [C| ->]; [|lia]. apply is_digit_range in C. lia. }
  rewrite sign_match by (subst s; cbn; lia).
  assert (forall x t, 97 <= x -> eq_ignore_case s (x :: t) = false) as K.
  { intros x t X. unfold eq_ignore_case. apply bool_decide_eq_false. rewrite E. cbn. unfold ascii_lower. intros [= A _].
    destruct ((65 <=? c) && (c <=? 90)) eqn:B; [|lia]. apply andb_true_iff in B. rewrite !N.leb_le in B. lia. }
  change (txt "inf") with [105; 110; 102]. change (txt "infinity") with [105; 110; 102; 105; 110; 105; 116; 121].
  change (txt "nan") with [110; 97; 110]. rewrite !K by lia. cbn [orb]. by rewrite H.
Qed.

(** ** The prefix of an integer of another radix *)

Definition radix_of (s : rstr) : option (N * rstr) :=
  match s with
  | z :: c :: ds =>
      if z =? 48 then
        if (c =? 120) || (c =? 88) then Some (16, ds)
        else if (c =? 98) || (c =? 66) then Some (2, ds)
        else if (c =? 111) || (c =? 79) then Some (8, ds)
        else None
      else None
  | _ => None
  end.

Lemma starts_two a b s :
  starts_with [a; b] s = match s with x :: y :: _ => (a =? x) && (b =? y) | _ => false end.
Proof. unfold starts_with. destruct s as [|x [|y s]]; cbn; repeat case_match; done. Qed.

Lemma radix_dispatch {A} (h b o d : A) s :
  (if starts_with (txt "0x") s || starts_with (txt "0X") s then h
   else if starts_with (txt "0b") s || starts_with (txt "0B") s then b
   else if starts_with (txt "0o") s || starts_with (txt "0O") s then o else d) =
  match radix_of s with
  | Some (r, _) => if r =? 16 then h else if r =? 2 then b else o
  | None => d
  end.
Proof.
  change (txt "0x") with [48; 120]. change (txt "0X") with [48; 88]. change (txt "0b") with [48; 98].
  change (txt "0B") with [48; 66]. change (txt "0o") with [48; 111]. change (txt "0O") with [48; 79].
  rewrite !starts_two. destruct s as [|z [|c s]]; [done..|]. cbn [radix_of].
  rewrite (N.eqb_sym 48 z), (N.eqb_sym 120 c), (N.eqb_sym 88 c), (N.eqb_sym 98 c), (N.eqb_sym 66 c),
    (N.eqb_sym 111 c), (N.eqb_sym 79 c).
  destruct (z =? 48); cbn [andb orb]; [|done].
  destruct ((c =? 120) || (c =? 88)); [done|]. destruct ((c =? 98) || (c =? 66)); [done|].
  by destruct ((c =? 111) || (c =? 79)).
Qed.

Lemma radix_of_spec s r ds :
  radix_of s = Some (r, ds) <-> exists p, radix_prefix p r /\ s = p ++ ds.
Proof.
  split.
  - destruct s as [|z [|c s]]; [done..|]. cbn. destruct (N.eqb_spec z 48) as [->|]; [|done].
    destruct ((c =? 120) || (c =? 88)) eqn:A; [|destruct ((c =? 98) || (c =? 66)) eqn:B; [|destruct ((c =? 111) || (c =? 79)) eqn:C]].
    + intros [= <- <-]. apply orb_true_iff in A. rewrite !N.eqb_eq in A. exists [48; c]. split; [by constructor|done].
    + intros [= <- <-]. apply orb_true_iff in B. rewrite !N.eqb_eq in B. exists [48; c]. split; [by constructor|done].
    + intros [= <- <-]. apply orb_true_iff in C. rewrite !N.eqb_eq in C. exists [48; c]. split; [by constructor|done].
    + done.
  - intros (p&P&->). destruct P as [c [->| ->]|c [->| ->]|c [->| ->]]; done.
Qed.

Lemma radix_of_drop s r ds : radix_of s = Some (r, ds) -> drop 2 s = ds /\ (r = 16 \/ r = 2 \/ r = 8).
Proof. destruct s as [|z [|c s]]; [done..|]. cbn. repeat case_match; intros; simplify_eq; auto. Qed.

(** No decimal has such a prefix. *)
Lemma radix_no_decimal s x : radix_of s = Some x -> parse_number nearest s = None.
Proof.
  destruct x as [r ds]. intros H. apply radix_of_spec in H as (p&P&->).
  destruct P as [c [->| ->]|c [->| ->]|c [->| ->]]; rewrite parse_number_eq; done.
Qed.

(** The value of a literal without a sign and without a prefix. *)
Definition unsigned_value (s : rstr) : option f64 :=
  if bool_decide (s = txt "Infinity") then Some f64_infinity else parse_number nearest s.

Lemma unsigned_value_spec s v : unsigned_value s = Some v <-> ud s v.
Proof.
  unfold unsigned_value. destruct (bool_decide_reflect (s = txt "Infinity")) as [->|N].
  - split; [intros [= <-]; apply ud_infinity|]. intros H. f_equal.
    assert (forall v', parse_number nearest (txt "Infinity") = Some v' -> False) as K by (rewrite parse_number_eq; done).
    inversion H as [|i n x e A X E|i n x e A X E|i n f m x e A B X E|f m x e A X E]; subst; try done.
    all: exfalso; apply numeral10 in A as (A1&A2&_); destruct i as [|c i]; [done|];
      cbn in A2; apply andb_true_iff in A2 as [A2 _]; apply is_digit_range in A2; injection E as E _; subst c; cbn in A2; lia.
  - rewrite parse_number_spec. split; [by intros [? ?]|]. done.
Qed.

Definition sign_of (s : rstr) : bool * bool * rstr :=
  match s with
  | c :: rest => if c =? 43 then (true, false, rest) else if c =? 45 then (true, true, rest) else (false, false, s)
  | [] => (false, false, [])
  end.

(** The value of what is left between white space. *)
Definition literal_value (s : rstr) : option f64 :=
  let '(had_sign, negative, body) := sign_of s in
  match radix_of body with
  | Some (r, ds) => if had_sign : bool then None else option_map (fun n => nearest n 0) (parse_int_digits ds r)
  | None => option_map (fun v => if negative : bool then f64_negate v else v) (unsigned_value body)
  end.

Lemma ud_first s v : ud s v -> exists c s', s = c :: s' /\ c <> 43 /\ c <> 45.
Proof.
  intros H. apply unsigned_value_spec in H. unfold unsigned_value in H. case_bool_decide as E.
  - subst. eexists _, _. split; [done|]. done.
  - apply parse_number_first in H as (c&s'&->&C). exists c, s'. split; [done|].
    destruct C as [C| ->]; [|lia]. apply is_digit_range in C. lia.
Qed.

Lemma ud_no_radix s v : ud s v -> radix_of s = None.
Proof.
  intros H. apply unsigned_value_spec in H. unfold unsigned_value in H. case_bool_decide as E; [by subst|].
  destruct (radix_of s) eqn:R; [|done]. apply radix_no_decimal in R. congruence.
Qed.

Lemma literal_value_spec s v : literal_value s = Some v <-> literal s v.
Proof.
  unfold literal_value. split.
  - intros H. destruct (sign_of s) as [[hs neg] body] eqn:S.
    assert ((hs = false /\ neg = false /\ s = body) \/ (hs = true /\ neg = false /\ s = 43 :: body) \/
            (hs = true /\ neg = true /\ s = 45 :: body)) as C.
    { destruct s as [|c s]; cbn in S; [injection S as <- <- <-; auto|].
      destruct (N.eqb_spec c 43) as [->|]; [injection S as <- <- <-; auto|].
      destruct (N.eqb_spec c 45) as [->|]; injection S as <- <- <-; auto. }
    destruct (radix_of body) as [[r ds]|] eqn:R.
    + destruct hs; [done|]. destruct C as [(_&->&->)|[(?&?)|(?&?)]]; [|done..].
      destruct (parse_int_digits ds r) as [n|] eqn:P; [|done]. injection H as <-.
      destruct (radix_of_drop _ _ _ R) as [_ Hr]. apply parse_int_spec in P; [|lia].
      apply radix_of_spec in R as (p&RP&->). by eapply nl_radix.
    + destruct (unsigned_value body) as [u|] eqn:U; [|done]. injection H as <-. apply unsigned_value_spec in U.
      destruct C as [(->&->&->)|[(->&->&->)|(->&->&->)]]; [by apply nl_plain|by apply nl_plus|by apply nl_minus].
  - intros H. destruct H as [s v H|s v H|s v H|p r s n P H].
    + destruct (ud_first _ _ H) as (c&s'&E&C1&C2).
      assert (sign_of s = (false, false, s)) as ->.
      { subst s. cbn. apply N.eqb_neq in C1, C2. by rewrite C1, C2. }
      rewrite (ud_no_radix _ _ H). apply unsigned_value_spec in H. by rewrite H.
    + cbn. rewrite (ud_no_radix _ _ H). apply unsigned_value_spec in H. by rewrite H.
    + cbn. rewrite (ud_no_radix _ _ H). apply unsigned_value_spec in H. by rewrite H.
    + assert (radix_of (p ++ s) = Some (r, s)) as R by (apply radix_of_spec; by exists p).
      assert (sign_of (p ++ s) = (false, false, p ++ s)) as -> by (by destruct P).
      rewrite R. destruct (radix_of_drop _ _ _ R) as [_ Hr].
      rewrite (proj2 (parse_int_spec r s n ltac:(lia)) H). done.
Qed.

(** ** The minifier and the optimizer *)

Lemma strip_one c s : strip_prefix [c] s = match s with x :: r => if c =? x then Some r else None | [] => None end.
Proof. by destruct s. Qed.

Lemma sign_strip t :
  match strip_prefix (txt "+") t with
  | Some rest => (true, false, rest)
  | None =>
      match strip_prefix (txt "-") t with
      | Some rest => (true, true, rest)
      | None => (false, false, t)
      end
  end = sign_of t.
Proof.
  change (txt "+") with [43]. change (txt "-") with [45]. rewrite !strip_one.
  destruct t as [|c t]; [done|]. unfold sign_of. rewrite (N.eqb_sym 43 c), (N.eqb_sym 45 c).
  destruct (c =? 43); [done|]. by destruct (c =? 45).
Qed.

Lemma coerce_eq s :
  coerce_str_to_num nearest s =
  let t := trim_matches is_ecmascript_whitespace s in
  if bool_decide (t = []) then f64_zero else or_nan (literal_value t).
Proof.
  unfold coerce_str_to_num. cbv zeta. set (t := trim_matches is_ecmascript_whitespace s). clearbody t. clear s.
  destruct (bool_decide_reflect (t = [])) as [|N]; [done|].
  unfold literal_value.
  rewrite sign_strip.
  destruct (sign_of t) as [[hs neg] body].
  destruct (bool_decide_reflect (body = [])) as [->|B]; [done|].
  unfold unsigned_value.
  destruct (bool_decide_reflect (body = txt "Infinity")) as [->|I]; [done|].
  rewrite radix_dispatch.
  destruct (radix_of body) as [[r ds]|] eqn:R.
  - destruct (radix_of_drop _ _ _ R) as [-> Hr]. unfold parse_int_digits_to_f64.
    destruct Hr as [->|[->| ->]]; cbn [N.eqb Pos.eqb]; by destruct hs.
  - destruct (existsb (N.eqb 95) body) eqn:U.
    + assert (parse_number nearest body = None) as ->; [|done].
      destruct (parse_number nearest body) as [v|] eqn:P; [|done].
      apply parse_number_spec in P as [P _]. apply existsb_exists in U as (c&Ic&<-%N.eqb_eq). exfalso.
      assert (Forall (fun c => c <> 95) body) as F; [|rewrite Forall_forall in F; eapply F; [by apply elem_of_list_In|done]].
      assert (forall i n, numeral 10 i n -> Forall (fun c => c <> 95) i) as K.
      { clear. intros i n (_&D&_)%numeral10. apply Forall_forall. intros c C%elem_of_list_In ->.
        rewrite forallb_forall in D. specialize (D _ C). done. }
      assert (forall x e, exponent x e -> Forall (fun c => c <> 95) x) as K'.
      { intros x e H. destruct H as [|c ds n [->| ->] H%K|c ds n [->| ->] H%K|c ds n [->| ->] H%K];
          repeat (constructor; [lia|]); done. }
      destruct P as [|i n x e A X|i n x e A X|i n f m x e A A' X|f m x e A X]; [done|..];
        try apply K in A; try apply K in A'; apply K' in X; repeat (apply Forall_app; split); try done;
        repeat (constructor; [lia|]); try done; by apply Forall_app.
    + rewrite well_formed_spec by done. destruct (parse_number nearest body) as [v|] eqn:P; [|done].
      by rewrite (parse_f64_unsigned _ _ P).
Qed.

Theorem coerce_reads s v : reads nearest f64_infinity f64_negate f64_zero s v -> coerce_str_to_num nearest s = v.
Proof.
  rewrite coerce_eq. cbv zeta. intros [w W|w t v' w' W W' L].
  - rewrite (trim_spaces _ whitespace_spec) by done. done.
  - destruct (literal_plain _ _ L) as [P N]. rewrite (trim_plain _ whitespace_spec) by done.
    rewrite bool_decide_eq_false_2 by done. apply literal_value_spec in L. by rewrite L.
Qed.

Theorem coerce_rejects s :
  (forall v, ~ reads nearest f64_infinity f64_negate f64_zero s v) -> coerce_str_to_num nearest s = f64_nan.
Proof.
  rewrite coerce_eq. cbv zeta. intros H.
  destruct (trim_split _ whitespace_spec s) as (w&w'&E&W&W').
  destruct (bool_decide_reflect (trim_matches is_ecmascript_whitespace s = [])) as [T|T].
  - exfalso. apply (H f64_zero). rewrite E, T. cbn [app]. apply reads_nothing. by apply Forall_app.
  - destruct (literal_value (trim_matches is_ecmascript_whitespace s)) as [v|] eqn:L; [|done].
    exfalso. apply (H v). rewrite E. apply reads_literal; [done..|]. by apply literal_value_spec.
Qed.

(** ** The VM *)

Lemma number_not_word s v x t : parse_number nearest s = Some v -> 97 <= x -> eq_ignore_case s (x :: t) = false.
Proof.
  intros H X. destruct (parse_number_first s v H) as (c&s'&E&C).
  assert (43 < c /\ c <> 45 /\ c < 58) as (C1&C2&C3).
  { destruct C as [C| ->]; [|lia]. apply is_digit_range in C. lia. }
  unfold eq_ignore_case. apply bool_decide_eq_false. rewrite E. cbn. unfold ascii_lower. intros [= A _].
  destruct ((65 <=? c) && (c <=? 90)) eqn:B; [|lia]. apply andb_true_iff in B. rewrite !N.leb_le in B. lia.
Qed.

Definition rust_value (body : rstr) : option f64 :=
  if eq_ignore_case body (txt "inf") || eq_ignore_case body (txt "infinity") then Some f64_infinity
  else if eq_ignore_case body (txt "nan") then Some f64_nan
  else parse_number nearest body.

Lemma parse_f64_eq t :
  parse_f64 nearest t =
  let '(hs, neg, body) := sign_of t in
  option_map (fun v => if neg : bool then f64_negate v else v) (rust_value body).
Proof.
  unfold parse_f64, rust_value. destruct t as [|[|p] s]; [done..|]. cbn [sign_of].
  do 6 (destruct p as [p|p|]; try done).
Qed.

Lemma strip_two a b s :
  strip_prefix [a; b] s = match s with x :: y :: r => if (a =? x) && (b =? y) then Some r else None | _ => None end.
Proof. destruct s as [|x [|y s]]; cbn; [done|by destruct (a =? x)|]. destruct (a =? x); [|done]. by destruct (b =? y). Qed.

Lemma strip_dispatch {A} (h b o : rstr -> A) (d : A) s :
  match strip_either (txt "0x") (txt "0X") s with
  | Some t => h t
  | None => match strip_either (txt "0b") (txt "0B") s with
            | Some t => b t
            | None => match strip_either (txt "0o") (txt "0O") s with Some t => o t | None => d end
            end
  end =
  match radix_of s with
  | Some (r, t) => if r =? 16 then h t else if r =? 2 then b t else o t
  | None => d
  end.
Proof.
  change (txt "0x") with [48; 120]. change (txt "0X") with [48; 88]. change (txt "0b") with [48; 98].
  change (txt "0B") with [48; 66]. change (txt "0o") with [48; 111]. change (txt "0O") with [48; 79].
  unfold strip_either. rewrite !strip_two. destruct s as [|z [|c s]]; [done..|]. cbn [radix_of].
  rewrite (N.eqb_sym 48 z), (N.eqb_sym 120 c), (N.eqb_sym 88 c), (N.eqb_sym 98 c), (N.eqb_sym 66 c),
    (N.eqb_sym 111 c), (N.eqb_sym 79 c).
  destruct (z =? 48); cbn [andb orb]; [|done].
  destruct (c =? 120); [done|]. destruct (c =? 88); [done|]. destruct (c =? 98); [done|]. destruct (c =? 66); [done|].
  destruct (c =? 111); [done|]. by destruct (c =? 79).
Qed.

Lemma radix_test s :
  (starts_with (txt "0x") s || starts_with (txt "0X") s || starts_with (txt "0b") s || starts_with (txt "0B") s ||
   starts_with (txt "0o") s || starts_with (txt "0O") s) = match radix_of s with Some _ => true | None => false end.
Proof.
  transitivity (if starts_with (txt "0x") s || starts_with (txt "0X") s then true
    else if starts_with (txt "0b") s || starts_with (txt "0B") s then true
    else if starts_with (txt "0o") s || starts_with (txt "0O") s then true else false).
  - repeat match goal with |- context [starts_with ?a s] => destruct (starts_with a s) end; done.
  - rewrite radix_dispatch. destruct (radix_of s) as [[r t]|]; [|done]. by repeat case_match.
Qed.

Lemma sign_of_infinity t hs neg body : sign_of t = (hs, neg, body) -> body = txt "Infinity" ->
  (if bool_decide (t = txt "Infinity") || bool_decide (t = txt "+Infinity") then Some f64_infinity
   else if bool_decide (t = txt "-Infinity") then Some (f64_negate f64_infinity) else None)
  = Some (if neg then f64_negate f64_infinity else f64_infinity).
Proof.
  intros S ->. destruct t as [|c t]; [done|]. cbn [sign_of] in S.
  destruct (N.eqb_spec c 43) as [->|]; [assert (t = txt "Infinity") as -> by congruence; assert (neg = false) as -> by congruence; done|].
  destruct (N.eqb_spec c 45) as [->|]; [assert (t = txt "Infinity") as -> by congruence; assert (neg = true) as -> by congruence; done|].
  assert (c :: t = txt "Infinity") as -> by congruence. assert (neg = false) as -> by congruence. done.
Qed.

Lemma sign_of_not_infinity t hs neg body : sign_of t = (hs, neg, body) -> body <> txt "Infinity" ->
  t <> txt "Infinity" /\ t <> txt "+Infinity" /\ t <> txt "-Infinity".
Proof. intros S N. split_and!; intros ->; injection S as <- <- <-; done. Qed.

Context (mul add : f64 -> f64 -> f64).

Lemma vm_eq s :
  let t := trim_matches is_ecma_whitespace s in
  (string_to_number nearest mul add s =
  if bool_decide (t = []) then f64_zero
  else match radix_of t with
       | Some (r, ds) => or_nan (parse_ascii_int_radix mul add ds r)
       | None => string_to_number nearest mul add s
       end) /\
  (t <> [] -> radix_of t = None ->
   match literal_value t with
   | Some v => string_to_number nearest mul add s = v
   | None => f64_is_nan (string_to_number nearest mul add s) = true
   end).
Proof.
  cbv zeta. unfold string_to_number. cbv zeta. set (t := trim_matches is_ecma_whitespace s). clearbody t. clear s.
  destruct (bool_decide_reflect (t = [])) as [|N]; [done|].
  assert (match strip_prefix (txt "+") t with
      | Some rest => (true, rest)
      | None => match strip_prefix (txt "-") t with
                | Some rest => (true, rest)
                | None => (false, t)
                end
      end = let '(hs, _, body) := sign_of t in (hs, body)) as Sg.
  { rewrite <-sign_strip. destruct (strip_prefix (txt "+") t); [done|]. by destruct (strip_prefix (txt "-") t). }
  rewrite Sg. clear Sg.
  destruct (sign_of t) as [[hs neg] body] eqn:S.
  split.
  - destruct (radix_of t) as [[r ds]|] eqn:R; [|done].
    assert (hs = false /\ neg = false /\ body = t) as (->&->&->).
    { apply radix_of_spec in R as (p&[c _|c _|c _]&->); cbn in S; by injection S as <- <- <-. }
    assert (exists c, t = 48 :: c) as [t' T] by (apply radix_of_spec in R as (p&[c _|c _|c _]&->); by eexists).
    rewrite !bool_decide_eq_false_2 by (rewrite T; done). cbn [orb andb].
    assert (forall x u, 97 <= x -> eq_ignore_case t (x :: u) = false) as K.
    { intros x u X. unfold eq_ignore_case. apply bool_decide_eq_false. rewrite T. cbn. intros [= A _]. lia. }
    change (txt "inf") with [105; 110; 102]. change (txt "infinity") with [105; 110; 102; 105; 110; 105; 116; 121].
    rewrite !K by lia. cbn [orb]. rewrite strip_dispatch, R. destruct (radix_of_drop _ _ _ R) as [_ [->|[->| ->]]]; done.
  - intros _ R. unfold literal_value. rewrite S. destruct (bool_decide_reflect (body = txt "Infinity")) as [I|I].
    + pose proof (sign_of_infinity _ _ _ _ S I) as Q. subst body. change (radix_of (txt "Infinity")) with (@None (BinNums.N * rstr)).
      unfold unsigned_value. rewrite bool_decide_eq_true_2 by done. cbn [option_map].
      destruct (bool_decide (t = txt "Infinity") || bool_decide (t = txt "+Infinity")).
      { exact (Some_inj _ _ Q). }
      destruct (bool_decide (t = txt "-Infinity")); [exact (Some_inj _ _ Q)|done].
    + destruct (sign_of_not_infinity _ _ _ _ S I) as (I1&I2&I3). rewrite !bool_decide_eq_false_2 by done. cbn [orb].
      unfold unsigned_value. rewrite (bool_decide_eq_false_2 (body = _)) by done.
      destruct (eq_ignore_case body (txt "inf") || eq_ignore_case body (txt "infinity")) eqn:W.
      { assert (parse_number nearest body = None) as ->.
        { destruct (parse_number nearest body) as [v|] eqn:P; [|done].
          change (txt "inf") with [105; 110; 102] in W. change (txt "infinity") with [105; 110; 102; 105; 110; 105; 116; 121] in W.
          by rewrite !(number_not_word _ _ _ _ P) in W by lia. }
        destruct (radix_of body) as [[r ds]|] eqn:R'; cbn [option_map]; [|done]. destruct hs; [done|].
        assert (body = t) as -> by (destruct t as [|c t]; cbn in S; repeat case_match; by simplify_eq). congruence. }
      rewrite radix_test.
      destruct (radix_of body) as [[r ds]|] eqn:R'.
      { destruct hs; [done|]. assert (body = t) as -> by (destruct t as [|c t]; cbn in S; repeat case_match; by simplify_eq). congruence. }
      rewrite andb_false_r. rewrite strip_dispatch, R, parse_f64_eq, S. unfold rust_value. rewrite W.
      destruct (parse_number nearest body) as [v|] eqn:P.
      * change (txt "nan") with [110; 97; 110]. rewrite (number_not_word _ _ _ _ P) by lia. done.
      * cbn [option_map]. destruct (eq_ignore_case body (txt "nan")); cbn [option_map or_nan]; [by destruct neg|done].
Qed.

Lemma int_radix_none r s v : 0 < r <= 16 -> int_radix_loop mul add r v s = None <->
  exists c, In c s /\ to_digit r c = None.
Proof.
  intros Hr. revert v. induction s as [|c s IH]; intros v; cbn; [split; [done|by intros (?&[]&_)]|].
  assert (to_digit r c = match to_digit 16 c with Some d => if r <=? d then None else Some d | None => None end) as E.
  { destruct (to_digit r c) as [d|] eqn:D; [apply to_digit_spec in D; [|lia]|]; destruct (to_digit 16 c) as [d'|] eqn:D'; try done.
    - apply to_digit_spec in D'; [|lia]. destruct D as [D1 D2], D' as [D1' D2'].
      assert (d = d') as -> by lia. destruct (N.leb_spec r d'); [lia|done].
    - exfalso. destruct D as [D1 D2]. assert (digit 16 c d) as K by (split; [lia|done]).
      apply to_digit_spec in K; [congruence|lia].
    - apply to_digit_spec in D'; [|lia]. destruct (N.leb_spec r d'); [done|]. destruct D' as [D1' D2'].
      assert (digit r c d') as K by (by split). apply to_digit_spec in K; [congruence|lia]. }
  destruct (to_digit 16 c) as [d|] eqn:D.
  - destruct (r <=? d) eqn:L.
    + split; [|done]. intros _. exists c. split; [by left|done].
    + rewrite IH. split; [intros (x&I&X); exists x; split; [by right|done]|].
      intros (x&[<-|I]&X); [congruence|by exists x].
  - split; [|done]. intros _. exists c. split; [by left|done].
Qed.

Lemma int_radix_exact (X : exact_on_small_integers nearest mul add) r s n k : 0 < r <= 16 -> numeral r s n ->
  k * r ^ N.of_nat (length s) + n < 2 ^ 53 ->
  int_radix_loop mul add r (f64_of_N k) s = Some (f64_of_N (k * r ^ N.of_nat (length s) + n)).
Proof.
  intros Hr H. assert (forall s t v, int_radix_loop mul add r v (s ++ t) =
    match int_radix_loop mul add r v s with Some v => int_radix_loop mul add r v t | None => None end) as K.
  { clear. induction s as [|c s IH]; intros t v; cbn; [done|]. destruct (to_digit 16 c); [|done].
    destruct (r <=? _); [done|]. apply IH. }
  assert (forall c d v, digit r c d -> int_radix_loop mul add r v [c] = Some (add (mul v (f64_of_N r)) (f64_of_N d))) as One.
  { intros c d v [D1 D2]. cbn. rewrite (proj2 (to_digit_spec 16 c d ltac:(lia))) by (split; [lia|done]).
    destruct (N.leb_spec r d); [lia|done]. }
  induction H as [c d D|s n c d H IH D]; intros B.
  - cbn [length] in *. change (N.of_nat 1) with 1 in *. rewrite N.pow_1_r in *.
    rewrite (One _ _ _ D). f_equal. apply X; [lia|done].
  - rewrite app_length in *. cbn [length] in *. rewrite Nat2N.inj_add in *. change (N.of_nat 1) with 1 in *.
    rewrite N.pow_add_r, N.pow_1_r in *.
    assert (k * r ^ N.of_nat (length s) + n <= k * (r ^ N.of_nat (length s) * r) + (n * r + d)) as L.
    { replace (k * (r ^ N.of_nat (length s) * r) + (n * r + d)) with ((k * r ^ N.of_nat (length s) + n) * r + d) by lia.
      rewrite <-(N.mul_1_r (k * r ^ N.of_nat (length s) + n)) at 1.
      apply (N.le_trans _ ((k * r ^ N.of_nat (length s) + n) * r)); [apply N.mul_le_mono_l; lia|lia]. }
    rewrite K, IH by lia. rewrite (One _ _ _ D). f_equal.
    replace (k * (r ^ N.of_nat (length s) * r) + (n * r + d)) with ((k * r ^ N.of_nat (length s) + n) * r + d) in * by lia.
    apply X; [lia|done].
Qed.

Theorem vm_reads s v :
  exact_on_small_integers nearest mul add ->
  reads nearest f64_infinity f64_negate f64_zero s v ->
  (forall w p r ds n w', s = w ++ (p ++ ds) ++ w' -> Forall space w -> Forall space w' -> radix_prefix p r -> numeral r ds n ->
     n < 2 ^ 53) ->
  string_to_number nearest mul add s = v.
Proof.
  intros X H B. destruct H as [w W|w t v w' W W' L].
  - destruct (vm_eq w) as [E _]. rewrite E, (trim_spaces _ vm_whitespace_spec) by done. done.
  - destruct (vm_eq (w ++ t ++ w')) as [E F]. destruct (literal_plain _ _ L) as [P N].
    rewrite (trim_plain _ vm_whitespace_spec) in * by done. rewrite bool_decide_eq_false_2 in E by done.
    apply literal_value_spec in L. destruct (radix_of t) as [[r ds]|] eqn:R.
    + rewrite E. unfold literal_value in L. destruct (radix_of_drop _ _ _ R) as [_ Hr].
      apply radix_of_spec in R as R'. destruct R' as (p&RP&Et).
      assert (sign_of t = (false, false, t)) as S by (rewrite Et; by destruct RP). rewrite S, R in L.
      destruct (parse_int_digits ds r) as [n|] eqn:PI; [|done]. injection L as <-. apply parse_int_spec in PI; [|lia].
      assert (n < 2 ^ 53) as Bn by (by eapply (B w p r ds n w'); [rewrite Et|..]).
      unfold parse_ascii_int_radix. rewrite bool_decide_eq_false_2 by (intros ->; by inversion PI as [|[|? ?] ? ? ? ? ? EE]; simplify_list_eq).
      change f64_zero with (f64_of_N 0). rewrite (int_radix_exact X r ds n 0) by (done || lia). cbn [or_nan]. rewrite N.mul_0_l, N.add_0_l.
      symmetry. by apply X.
    + specialize (F N eq_refl). by rewrite L in F.
Qed.

Theorem vm_rejects s :
  (forall v, ~ reads nearest f64_infinity f64_negate f64_zero s v) -> f64_is_nan (string_to_number nearest mul add s) = true.
Proof.
  intros H. destruct (vm_eq s) as [E F].
  destruct (trim_split _ vm_whitespace_spec s) as (w&w'&Es&W&W').
  set (t := trim_matches is_ecma_whitespace s) in *. clearbody t.
  destruct (bool_decide_reflect (t = [])) as [T|T].
  - exfalso. apply (H f64_zero). rewrite Es, T. cbn [app]. apply reads_nothing. by apply Forall_app.
  - assert (literal_value t = None) as L.
    { destruct (literal_value t) as [v|] eqn:L; [|done].
      exfalso. apply (H v). rewrite Es. apply reads_literal; [done..|]. by apply literal_value_spec. }
    destruct (radix_of t) as [[r ds]|] eqn:R; [|specialize (F T eq_refl); by rewrite L in F].
    rewrite E. unfold parse_ascii_int_radix. destruct (bool_decide_reflect (ds = [])) as [|D]; [done|].
    destruct (radix_of_drop _ _ _ R) as [_ Hr].
    assert (int_radix_loop mul add r f64_zero ds = None) as ->; [|done].
    apply int_radix_none; [lia|]. apply radix_of_spec in R as R'. destruct R' as (p&RP&Et).
    assert (sign_of t = (false, false, t)) as S by (rewrite Et; by destruct RP).
    unfold literal_value in L. rewrite S, R in L. destruct (parse_int_digits ds r) eqn:PI; [done|]. unfold parse_int_digits in PI.
    rewrite bool_decide_eq_false_2 in PI by done. cbn [orb] in PI. destruct (existsb (N.eqb 95) ds) eqn:U.
    + apply existsb_exists in U as (c&I&<-%N.eqb_eq). exists 95. split; [done|].
      destruct (to_digit r 95) as [d|] eqn:D'; [|done]. apply to_digit_spec in D' as [_ D']; lia.
    + destruct (forallb _ ds) eqn:Fb; [done|]. 
      assert (exists c, In c ds /\ (match to_digit r c with Some _ => true | None => false end) = false) as (c&I&C).
      { clear -Fb. induction ds as [|c ds IH]; [done|]. cbn in Fb. apply andb_false_iff in Fb as [Fb|Fb].
        - exists c. split; [by left|done].
        - destruct (IH Fb) as (x&I&X). exists x. split; [by right|done]. }
      exists c. split; [done|]. by destruct (to_digit r c).
Qed.
End nearest.

(** ** BigInt literals in strings *)

Lemma radix_dispatch_bigint {A} (h b o d : A) s :
  (if starts_with (txt "0b") s || starts_with (txt "0B") s then b
   else if starts_with (txt "0o") s || starts_with (txt "0O") s then o
   else if starts_with (txt "0x") s || starts_with (txt "0X") s then h else d) =
  match radix_of s with
  | Some (r, _) => if r =? 16 then h else if r =? 2 then b else o
  | None => d
  end.
Proof.
  change (txt "0x") with [48; 120]. change (txt "0X") with [48; 88]. change (txt "0b") with [48; 98].
  change (txt "0B") with [48; 66]. change (txt "0o") with [48; 111]. change (txt "0O") with [48; 79].
  rewrite !starts_two. destruct s as [|z [|c s]]; [done..|]. cbn [radix_of].
  rewrite (N.eqb_sym 48 z), (N.eqb_sym 120 c), (N.eqb_sym 88 c), (N.eqb_sym 98 c), (N.eqb_sym 66 c),
    (N.eqb_sym 111 c), (N.eqb_sym 79 c).
  destruct (z =? 48); cbn [andb orb]; [|done].
  destruct (N.eqb_spec c 120) as [->|]; [done|]. destruct (N.eqb_spec c 88) as [->|]; [done|].
  destruct (N.eqb_spec c 98) as [->|]; [done|]. destruct (N.eqb_spec c 66) as [->|]; [done|].
  destruct (N.eqb_spec c 111) as [->|]; [done|]. by destruct (N.eqb_spec c 79) as [->|].
Qed.

Definition bigint_value (t : rstr) : option Z :=
  let '(_, negative, body) := sign_of t in
  option_map (fun v => if negative : bool then (- Z.of_N v)%Z else Z.of_N v)
    match radix_of body with
    | Some (r, ds) => parse_int_digits ds r
    | None => parse_int_digits body 10
    end.

Lemma parse_bigint_eq s :
  parse_bigint s =
  let t := trim_matches is_ecmascript_whitespace s in
  if bool_decide (t = []) then None else bigint_value t.
Proof.
  unfold parse_bigint. cbv zeta. set (t := trim_matches is_ecmascript_whitespace s). clearbody t. clear s.
  destruct (bool_decide_reflect (t = [])) as [|N]; [done|].
  assert (match strip_prefix (txt "+") t with
      | Some rest => (false, rest)
      | None => match strip_prefix (txt "-") t with
                | Some rest => (true, rest)
                | None => (false, t)
                end
      end = let '(_, neg, body) := sign_of t in (neg, body)) as ->.
  { rewrite <-sign_strip. destruct (strip_prefix (txt "+") t); [done|]. by destruct (strip_prefix (txt "-") t). }
  unfold bigint_value. destruct (sign_of t) as [[hs neg] body].
  destruct (bool_decide_reflect (body = [])) as [->|B]; [done|].
  rewrite radix_dispatch_bigint. destruct (radix_of body) as [[r ds]|] eqn:R; [|done].
  destruct (radix_of_drop _ _ _ R) as [-> [->|[->| ->]]]; done.
Qed.

Lemma numeral_no_sign r s n c : r <= 16 -> numeral r s n -> c = 43 \/ c = 45 -> forall s', s <> c :: s'.
Proof.
  intros Hr H C s' ->. apply numeral_char in H. inversion H; subst. destruct C; subst; lia.
Qed.

Lemma numeral10_no_radix s n : numeral 10 s n -> radix_of s = None.
Proof.
  intros (N&D&_)%numeral10. destruct s as [|z [|c s]]; [done..|]. cbn in D. rewrite !andb_true_iff in D.
  destruct D as (_&D&_). apply is_digit_range in D. cbn.
  destruct (N.eqb_spec c 120); [lia|]. destruct (N.eqb_spec c 88); [lia|]. destruct (N.eqb_spec c 98); [lia|].
  destruct (N.eqb_spec c 66); [lia|]. destruct (N.eqb_spec c 111); [lia|]. destruct (N.eqb_spec c 79); [lia|].
  by destruct (z =? 48).
Qed.

Theorem bigint_correct s z :
  ~ Forall space s ->
  (forall w c p r ds w', s = w ++ (c :: p ++ ds) ++ w' -> Forall space w -> Forall space w' ->
     c = 43 \/ c = 45 -> ~ radix_prefix p r) ->
  parse_bigint s = Some z <-> reads_bigint s z.
Proof.
  intros NS NR. rewrite parse_bigint_eq. cbv zeta.
  destruct (trim_split _ whitespace_spec s) as (w&w'&Es&W&W').
  set (t := trim_matches is_ecmascript_whitespace s) in *.
  assert (t <> []) as T.
  { intros T. apply NS. rewrite Es, T. cbn. by apply Forall_app. }
  rewrite bool_decide_eq_false_2 by done. unfold bigint_value. split.
  - intros H. destruct (sign_of t) as [[hs neg] body] eqn:S.
    assert ((hs = false /\ neg = false /\ t = body) \/ (neg = false /\ t = 43 :: body) \/ (neg = true /\ t = 45 :: body)) as C.
    { destruct t as [|c t']; cbn in S; [injection S as <- <- <-; auto|].
      destruct (N.eqb_spec c 43) as [->|]; [injection S as <- <- <-; auto|].
      destruct (N.eqb_spec c 45) as [->|]; injection S as <- <- <-; auto. }
    destruct (radix_of body) as [[r ds]|] eqn:R.
    + destruct (parse_int_digits ds r) as [n|] eqn:P; [|done]. injection H as <-.
      destruct (radix_of_drop _ _ _ R) as [_ Hr]. apply parse_int_spec in P; [|lia].
      apply radix_of_spec in R as (p&RP&Eb). destruct C as [(->&->&Et)|[(->&Et)|(->&Et)]].
      * rewrite Es, Et, Eb. by eapply rb_radix.
      * exfalso. eapply (NR w 43 p r ds w'); try done; [|auto]. by rewrite Es, Et, Eb.
      * exfalso. eapply (NR w 45 p r ds w'); try done; [|auto]. by rewrite Es, Et, Eb.
    + destruct (parse_int_digits body 10) as [n|] eqn:P; [|done]. injection H as <-. apply parse_int_spec in P; [|lia].
      destruct C as [(->&->&Et)|[(->&Et)|(->&Et)]]; rewrite Es, Et; [by apply rb_plain|by apply rb_plus|by apply rb_minus].
  - intros H.
    assert (forall c s, 43 <= c <= 122 -> plain_text s -> plain_text (c :: s)) as Cn by (intros; by constructor).
    assert (forall r s n, r <= 16 -> numeral r s n -> plain_text s /\ s <> []) as Np.
    { intros r s' n Hr N. split; [|intros ->; by inversion N as [|[|? ?] ? ? ? ? ? EE]; simplify_list_eq].
      apply numeral_char in N. eapply Forall_impl; [exact N|]; cbn; intros; lia. }
    destruct H as [w0 Hw|w0 s0 n w0' Hw Hw' N|w0 s0 n w0' Hw Hw' N|w0 s0 n w0' Hw Hw' N|w0 p r s0 n w0' Hw Hw' RP N].
    + done.
    + destruct (Np _ _ _ (ltac:(lia) : 10 <= 16) N) as [P1 P2]. subst t. rewrite (trim_plain _ whitespace_spec) by done.
      assert (sign_of s0 = (false, false, s0)) as ->.
      { destruct s0 as [|c s0]; [done|]. cbn. destruct (N.eqb_spec c 43) as [->|]; [|destruct (N.eqb_spec c 45) as [->|]; [|done]].
        - exfalso. by eapply (numeral_no_sign 10 _ _ 43 ltac:(lia) N); [auto|].
        - exfalso. by eapply (numeral_no_sign 10 _ _ 45 ltac:(lia) N); [auto|]. }
      rewrite (numeral10_no_radix _ _ N), (proj2 (parse_int_spec 10 s0 n ltac:(lia)) N). done.
    + destruct (Np _ _ _ (ltac:(lia) : 10 <= 16) N) as [P1 P2]. subst t. rewrite (trim_plain _ whitespace_spec) by (first [done|apply Cn; [lia|done]]).
      cbn [sign_of]. rewrite N.eqb_refl, (numeral10_no_radix _ _ N), (proj2 (parse_int_spec 10 s0 n ltac:(lia)) N). done.
    + destruct (Np _ _ _ (ltac:(lia) : 10 <= 16) N) as [P1 P2]. subst t. rewrite (trim_plain _ whitespace_spec) by (first [done|apply Cn; [lia|done]]).
      cbn [sign_of]. rewrite N.eqb_refl. cbn [N.eqb Pos.eqb]. rewrite (numeral10_no_radix _ _ N), (proj2 (parse_int_spec 10 s0 n ltac:(lia)) N). done.
    + assert (r = 2 \/ r = 8 \/ r = 16) as Hr by (destruct RP; auto).
      destruct (Np r s0 n ltac:(lia) N) as [P1 P2].
      assert (plain_text (p ++ s0)).
      { apply Forall_app. split; [|done]. destruct RP as [c [->| ->]|c [->| ->]|c [->| ->]]; repeat (constructor; [lia|]); constructor. }
      subst t. rewrite (trim_plain _ whitespace_spec) by (try done; by destruct RP).
      assert (sign_of (p ++ s0) = (false, false, p ++ s0)) as -> by (by destruct RP).
      rewrite (proj2 (radix_of_spec (p ++ s0) r s0)) by (by exists p).
      rewrite (proj2 (parse_int_spec r s0 n ltac:(lia)) N). done.
Qed.
