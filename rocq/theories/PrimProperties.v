(** C25: BigInt arithmetic; C26: equality operators; C27: budgets; C54: number
    keys. *)
From Coq Require Import ZArith NArith Bool Lia.
From stdpp Require Import base decidable numbers sets list.
From Verif Require Import VmBase PrimModel PrimSpec PrimProofs.

(* ------------------------------------------------------------------ *)
(** * C25 *)

(** Evaluating an expression gives its exact value, and is refused exactly when
    some value on the way does not fit 128 bits of magnitude. *)
Theorem bigint_exact e :
  match bi_eval e with
  | Some x => int_of x = meaning e /\ all_supported e
  | None => ~ all_supported e
  end.
Proof. pose proof (bi_eval_spec e) as P. destruct (bi_eval e); tauto. Qed.
Print Assumptions bigint_exact.

Example bigint_exact_nonvacuous :
  (int_of <$> bi_eval (BAdd (BMul (BLit 3) (BNeg (BLit (2 ^ 90)))) (BDec (BLit 0)))) =
    Some (-3 * 2 ^ 90 - 1)%Z /\
  bi_eval (BMul (BLit (2 ^ 64)) (BLit (2 ^ 64))) = None /\
  (int_of <$> bi_eval (BInc (BNeg (BLit (2 ^ 128 - 1))))) = Some (2 - 2 ^ 128)%Z.
Proof. repeat split; vm_compute; reflexivity. Qed.

(** Each integer has one representation: two results are the same value, and
    compare equal, exactly when they denote the same integer. *)
Theorem bigint_one_representation x y :
  bigint_value x -> bigint_value y ->
  (bi_eqb x y = true <-> int_of x = int_of y) /\ (int_of x = int_of y -> x = y).
Proof.
  intros X Y. apply bigint_value_wf in X, Y. split; [by apply bi_eqb_spec|by apply int_of_inj].
Qed.
Print Assumptions bigint_one_representation.

Example bigint_one_representation_nonvacuous :
  exists x y, bi_eval (BNeg (BAdd (BLit 5) (BNeg (BLit 5)))) = Some x /\
  bi_eval (BMul (BNeg (BLit 7)) (BLit 0)) = Some y /\ bi_eqb x y = true.
Proof. eexists _, _. vm_compute. auto. Qed.

(** Truthiness and printing follow the integer. *)
Theorem bigint_observed x :
  bigint_value x ->
  to_boolean (PBigInt x) = negb (int_of x =? 0)%Z /\
  decimal_spelling (int_of x) (bi_to_decimal_string x).
Proof.
  intros X. apply bigint_value_wf in X. split; [|by apply to_decimal_spec].
  cbn. unfold bi_is_zero, int_of. f_equal. destruct (bi_neg x), (bi_mag x); reflexivity.
Qed.
Print Assumptions bigint_observed.

(** "-1300" *)
Example bigint_observed_nonvacuous :
  bi_to_decimal_string <$> bi_eval (BMul (BNeg (BLit 13)) (BLit 100)) =
  Some [45; 49; 51; 48; 48]%N.
Proof. vm_compute. reflexivity. Qed.

(* ------------------------------------------------------------------ *)
(** * C26 *)

(** [===] is IsStrictlyEqual. *)
Theorem strict_equality_spec a b :
  proper a -> proper b -> strict_equal a b = true <-> strictly a b.
Proof. apply strict_equal_spec. Qed.
Print Assumptions strict_equality_spec.

(** [==] always answers, does not depend on the order of its operands, and holds
    whenever [===] does. *)
Theorem loose_equality_total_symmetric string_to_number a b :
  (exists r, abstract_equality string_to_number a b = Some r) /\
  abstract_equality string_to_number a b = abstract_equality string_to_number b a /\
  (strict_equal a b = true -> abstract_equality string_to_number a b = Some true).
Proof.
  split; [apply abstract_equality_answers|]. split; [apply abstract_equality_sym|apply strict_loose].
Qed.
Print Assumptions loose_equality_total_symmetric.

(** [==] is IsLooselyEqual on every pair that does not set a BigInt against a
    Number, String or Boolean.  Missing: those pairs, on which the VM always
    answers false ([loose_equality_spec_refuted]). *)
Theorem loose_equality_spec_partial string_to_number string_to_bigint a b :
  string_to_bigint object_object = None ->
  proper a -> proper b -> ~ mixes_bigint a b ->
  abstract_equality string_to_number a b = Some true <->
  loosely string_to_number string_to_bigint object_object a b.
Proof.
  intros O Pa Pb M. split.
  - intros E. by apply loosely_sound.
  - intros L. by eapply loosely_complete.
Qed.
Print Assumptions loose_equality_spec_partial.

Example loose_equality_spec_nonvacuous (f : list N -> f64) :
  f object_object = f64_nan ->
  ~ mixes_bigint (PBool true) (PObject 3) /\
  abstract_equality f (PBool true) (PObject 3) = Some false /\
  abstract_equality f (PString object_object) (PObject 3) = Some true /\
  abstract_equality f PNull (PBool false) = Some false /\
  abstract_equality f PNull PUndefined = Some true.
Proof.
  intros E. split; [intros [[? ?]|[? ?]]; done|]. unfold abstract_equality. cbn -[f64_eqb].
  rewrite E. repeat split; vm_compute; reflexivity.
Qed.

(** [1n == 1] is true in ECMAScript and false here. *)
Theorem loose_equality_spec_refuted :
  exists a b, proper a /\ proper b /\
  forall string_to_number string_to_bigint,
    loosely string_to_number string_to_bigint object_object a b /\
    abstract_equality string_to_number a b = Some false.
Proof.
  exists (PBigInt (BigInt false 1)), (PNumber f64_one). split; [by exists (BLit 1)|]. split; [done|].
  intros f sb. split; [|reflexivity]. apply L_bigint_number. vm_compute. reflexivity.
Qed.
Print Assumptions loose_equality_spec_refuted.

(* ------------------------------------------------------------------ *)
(** * C27 *)

(** Under a fresh budget of [n] units, whatever else happens (nested blocks with
    budgets of their own, interrupts, clock readings): the first [n] ticks made
    under it are not out of fuel and all later ones are. *)
Theorem fuel_exact (n : N) dl every depth vm l :
  keeps_budget l ->
  forall k r,
  own_ticks depth (run_acts depth l (set_budget (Budget (Some n) dl every) vm)).1 !! k = Some r ->
  (r = OutOfFuel <-> (n <= N.of_nat k)%N).
Proof.
  intros K k r E. pose proof (run_acts_fuel l depth _ K k r E) as P. rewrite P. cbn.
  split; [intros (m & [= <-] & ?); done|intros; by exists n].
Qed.
Print Assumptions fuel_exact.

(** Without a fuel limit no tick is ever out of fuel. *)
Theorem no_fuel_limit dl every depth vm l :
  keeps_budget l ->
  OutOfFuel ∉ own_ticks depth (run_acts depth l (set_budget (Budget None dl every) vm)).1.
Proof.
  intros K E. apply elem_of_list_lookup in E as [k E].
  pose proof (run_acts_fuel l depth _ K k _ E) as P. destruct P as [P _].
  by destruct (P eq_refl) as (m & ? & _).
Qed.
Print Assumptions no_fuel_limit.

Example fuel_nonvacuous :
  let l := [ATick 0; AWithBudget (Budget (Some 1%N) None 1) [ATick 0; ATick 0; ASetBudget (Budget None None 1)];
            ATick 0; AInterrupt; ATick 0; AResetInterrupt; ATick 0; ATick 0]%N in
  keeps_budget l /\
  (run_acts 0 l (set_budget (Budget (Some 3%N) None 1) (Bvm (budget_state_new (Budget None None 1)) false))).1 =
  [(0, TickOk); (1, TickOk); (1, OutOfFuel); (0, TickOk); (0, Interrupted); (0, OutOfFuel); (0, OutOfFuel)]%nat.
Proof. split; [repeat constructor|vm_compute; reflexivity]. Qed.

(** A block with its own budget leaves the surrounding budget (fuel, deadline and
    tick count) as it was, whatever the block does. *)
Theorem budget_restored depth b body vm :
  vm_budget (run_act depth (AWithBudget b body) vm).2 = vm_budget vm.
Proof. rewrite run_act_with. by destruct (run_acts (S depth) body (set_budget b vm)). Qed.
Print Assumptions budget_restored.

(** After an interrupt, every tick fails until the flag is cleared. *)
Theorem interrupt_stops depth l vm :
  Forall no_reset l ->
  Forall (fun p => p.2 <> TickOk) (run_acts depth (AInterrupt :: l) vm).1.
Proof.
  intros F. cbn [run_acts run_act].
  destruct (run_acts_keeps_set l depth (Bvm (vm_budget vm) true) F eq_refl) as [_ G].
  destruct (run_acts depth l (Bvm (vm_budget vm) true)) as [o vm']. cbn in *.
  eapply Forall_impl; [exact G|]. intros [k r] H E. cbn in *. subst r. set_solver.
Qed.
Print Assumptions interrupt_stops.

(** Ticks report an interrupt only if one was requested, and a missed deadline
    only after it. *)
Theorem no_spurious_stop :
  (forall depth l vm, Forall no_interrupt l -> vm_interrupted vm = false ->
     Forall (fun p => p.2 <> Interrupted) (run_acts depth l vm).1) /\
  (forall now vm, (tick now vm).1 = DeadlineExceeded ->
     exists d, deadline (bs_budget (vm_budget vm)) = Some d /\ (d <= now)%N).
Proof.
  split.
  - intros depth l vm F I. by apply run_acts_keeps_clear.
  - intros now vm E. destruct (deadline (bs_budget (vm_budget vm))) as [d|] eqn:Ed.
    + exists d. split; [done|]. destruct (N.le_gt_cases d now); [done|].
      by destruct (tick_early now vm d Ed).
    + exfalso. unfold tick in E. case_bool_decide; cbn in E; [done|].
      destruct (vm_interrupted vm); cbn in E; [done|]. by rewrite Ed in E.
Qed.
Print Assumptions no_spurious_stop.

Example interrupt_nonvacuous :
  (run_acts 0 [ATick 0; AInterrupt; AWithBudget (Budget None None 1) [ATick 0]; ATick 0]%N
     (Bvm (budget_state_new (Budget None None 1)) false)).1 =
  [(0, TickOk); (1, Interrupted); (0, Interrupted)]%nat.
Proof. vm_compute. reflexivity. Qed.

(** A passed deadline stops execution within one checking interval: among any
    [check_time_every] consecutive ticks after it, one fails. *)
Theorem deadline_noticed vm d nows :
  deadline (bs_budget (vm_budget vm)) = Some d ->
  (bs_ticks (vm_budget vm) < 2 ^ 64)%N ->
  Forall (fun now => d <= now)%N nows ->
  (N.max (check_time_every (bs_budget (vm_budget vm))) 1 <= N.of_nat (length nows))%N ->
  Exists (fun p => p.2 <> TickOk) (run_acts 0 (ATick <$> nows) vm).1.
Proof.
  intros Ed Ht F Hl.
  destruct (decide (Exists (fun p : nat * tick_result => p.2 <> TickOk) (run_acts 0 (ATick <$> nows) vm).1)) as [|A];
    [done|exfalso].
  assert (Forall (fun p : nat * tick_result => p.2 = TickOk) (run_acts 0 (ticks_of nows) vm).1) as B.
  { apply Forall_forall. intros p Hp. destruct (decide (p.2 = TickOk)); [done|]. destruct A.
    apply Exists_exists. eauto. }
  pose proof (ticks_past_deadline nows vm d Ed F B) as P.
  set (t := bs_ticks (vm_budget vm)) in *.
  set (c := N.max (check_time_every (bs_budget (vm_budget vm))) 1) in *.
  assert (1 <= c)%N as Hc by (unfold c; lia). clearbody t c.
  destruct (N.lt_ge_cases (t + c) (2 ^ 64)) as [Hs|Hs].
  - destruct (multiple_in_window t c Hc) as (j & Hj & Z).
    specialize (P (N.to_nat j) ltac:(lia)). rewrite N2Nat.id, (N.mod_small (t + j)) in P by lia. done.
  - specialize (P (N.to_nat (2 ^ 64 - t)) ltac:(lia)). rewrite N2Nat.id in P.
    replace (t + (2 ^ 64 - t))%N with (2 ^ 64)%N in P by lia.
    rewrite N.mod_same, N.mod_0_l in P by lia. done.
Qed.
Print Assumptions deadline_noticed.

Example deadline_nonvacuous :
  (run_acts 0 [ATick 9; ATick 9; ATick 9]%N (Bvm (budget_state_new (Budget None (Some 5%N) 3)) false)).1 =
  [(0, TickOk); (0, TickOk); (0, DeadlineExceeded)]%nat.
Proof. vm_compute. reflexivity. Qed.

(* ------------------------------------------------------------------ *)
(** * C54 *)

(** Equality of number keys is an equivalence relation. *)
Theorem number_key_equivalence :
  (forall x, jsnum_eqb x x = true) /\
  (forall x y, jsnum_eqb x y = jsnum_eqb y x) /\
  (forall x y z, jsnum_eqb x y = true -> jsnum_eqb y z = true -> jsnum_eqb x z = true).
Proof. split; [exact jsnum_eqb_refl|]. split; [exact jsnum_eqb_sym|exact jsnum_eqb_trans]. Qed.
Print Assumptions number_key_equivalence.

(** Equal keys hash equally, zeros aside.  Missing: the two zeros
    ([number_key_hash_refuted]). *)
Theorem number_key_hash_partial x y :
  jsnum_eqb x y = true -> f64_is_zero x = false -> jsnum_hash x = jsnum_hash y.
Proof.
  unfold jsnum_eqb, jsnum_hash. destruct (f64_is_nan x) eqn:Ex; [by intros ->|].
  intros E Z. destruct (f64_eqb_not_nan _ _ E) as [_ ->]. unfold f64_eqb in E.
  rewrite Z in E. destruct (_ || _); [done|]. cbn in E. apply N.eqb_eq in E. by rewrite E.
Qed.
Print Assumptions number_key_hash_partial.

(** [0.0] and [-0.0] are equal keys with different hashes. *)
Theorem number_key_hash_refuted :
  exists x y, is_f64 x /\ is_f64 y /\ jsnum_eqb x y = true /\ jsnum_hash x <> jsnum_hash y.
Proof. exists (F64 0), (F64 (2 ^ 63)). repeat split; vm_compute; done. Qed.
Print Assumptions number_key_hash_refuted.

(** Away from NaN the order agrees with equality and is transitive.  Missing:
    NaN ([number_key_order_refuted]). *)
Theorem number_key_order_partial x y z :
  is_f64 x -> is_f64 y -> is_f64 z ->
  f64_is_nan x = false -> f64_is_nan y = false -> f64_is_nan z = false ->
  (jsnum_cmp x y = Eq <-> jsnum_eqb x y = true) /\
  jsnum_cmp y x = CompOpp (jsnum_cmp x y) /\
  (jsnum_cmp x y <> Gt -> jsnum_cmp y z <> Gt -> jsnum_cmp x z <> Gt).
Proof.
  intros Bx By Bz Nx Ny Nz. split; [by apply key_cmp_eq|].
  unfold jsnum_cmp, f64_partial_cmp. rewrite Nx, Ny, Nz. cbn.
  split; [apply Z.compare_antisym|].
  change (f64_key x <= f64_key y -> f64_key y <= f64_key z -> f64_key x <= f64_key z)%Z. lia.
Qed.
Print Assumptions number_key_order_partial.

Example number_key_nonvacuous :
  jsnum_cmp (F64 (2 ^ 63)) (F64 0) = Eq /\ jsnum_cmp f64_zero f64_one = Lt /\
  jsnum_hash f64_one <> jsnum_hash f64_zero /\ is_f64 f64_one.
Proof. repeat split; vm_compute; done. Qed.

(** With NaN the order is not transitive: 1 = NaN and NaN = 0, yet 0 < 1. *)
Theorem number_key_order_refuted :
  exists x y z, jsnum_cmp x y = Eq /\ jsnum_cmp y z = Eq /\ jsnum_cmp x z = Gt.
Proof. exists f64_one, f64_nan, f64_zero. repeat split; vm_compute; reflexivity. Qed.
Print Assumptions number_key_order_refuted.
