(** Proofs about the model in PrimModel.v. *)
From Coq Require Import ZArith NArith Bool Lia ZifyBool.
From stdpp Require Import base decidable numbers sets list.
From Verif Require Import VmBase PrimModel PrimSpec.

(* ------------------------------------------------------------------ *)
(** * BigInt *)

Definition bi_wf (x : js_bigint) : Prop :=
  (bi_mag x < two128)%N /\ (bi_mag x = 0%N -> bi_neg x = false).

Lemma two128_Z : Z.of_N two128 = (2 ^ 128)%Z.
Proof. reflexivity. Qed.
Global Opaque two128.

Lemma int_of_range x : bi_wf x -> supported (int_of x).
Proof.
  intros [H _]. unfold supported, int_of. rewrite <- two128_Z. destruct (bi_neg x); lia.
Qed.

Lemma int_of_negative x : bi_wf x -> bi_is_negative x = (int_of x <? 0)%Z.
Proof.
  intros [_ H]. unfold bi_is_negative, bi_is_zero, int_of.
  destruct (bi_neg x); cbn; [|lia]. destruct (N.eqb_spec (bi_mag x) 0); cbn; [|lia].
  specialize (H e). discriminate.
Qed.

Lemma int_of_inj x y : bi_wf x -> bi_wf y -> int_of x = int_of y -> x = y.
Proof.
  destruct x as [nx mx], y as [ny my]. unfold bi_wf, int_of. cbn.
  intros [_ Hx] [_ Hy] E.
  assert (mx = my) as -> by (destruct nx, ny; lia). f_equal.
  destruct nx, ny; try reflexivity; [apply Hx|symmetry; apply Hy]; lia.
Qed.

Lemma negate_spec x : bi_wf x -> bi_wf (bi_negate x) /\ int_of (bi_negate x) = (- int_of x)%Z.
Proof.
  destruct x as [n m]. unfold bi_wf, bi_negate, bi_is_zero, int_of. cbn. intros [H1 H2].
  destruct (N.eqb_spec m 0) as [->|Hm]; cbn.
  - specialize (H2 eq_refl). rewrite H2. auto.
  - split; [split; [done|]|]; [intros; done|]. destruct n; cbn; lia.
Qed.

Lemma checked_add_spec x y :
  bi_wf x -> bi_wf y ->
  match bi_checked_add x y with
  | Some r => bi_wf r /\ int_of r = (int_of x + int_of y)%Z
  | None => ~ supported (int_of x + int_of y)
  end.
Proof.
  intros Hx Hy. pose proof (int_of_negative x Hx) as Nx. pose proof (int_of_negative y Hy) as Ny.
  unfold bi_checked_add, checked_add128, supported. rewrite <- two128_Z.
  destruct x as [nx mx], y as [ny my]. destruct Hx as [Hx Zx], Hy as [Hy Zy].
  rewrite Nx, Ny. clear Nx Ny. unfold bi_wf, int_of in *. cbn [bi_neg bi_mag] in *.
  destruct (Z.ltb_spec (if nx then - Z.of_N mx else Z.of_N mx) 0) as [A|A],
           (Z.ltb_spec (if ny then - Z.of_N my else Z.of_N my) 0) as [B|B].
  - destruct nx, ny; try lia.
    destruct (N.ltb_spec (mx + my) two128); cbn; [|lia]. repeat split; lia.
  - destruct nx; [|lia].
    assert (ny = false \/ my = 0%N) as C by (destruct ny; [right; lia|auto]).
    assert (ny = false) as -> by (destruct C; auto). clear C.
    destruct (N.leb_spec my mx); cbn;
      [destruct (N.eqb_spec (mx - my) 0)|destruct (N.eqb_spec (my - mx) 0)]; cbn; repeat split; try lia.
  - destruct ny; [|lia].
    assert (nx = false \/ mx = 0%N) as C by (destruct nx; [right; lia|auto]).
    assert (nx = false) as -> by (destruct C; auto). clear C.
    destruct (N.leb_spec my mx); cbn;
      [destruct (N.eqb_spec (mx - my) 0)|destruct (N.eqb_spec (my - mx) 0)]; cbn; repeat split; try lia.
  - assert (nx = false) as -> by (destruct nx; [apply Zx; lia|auto]).
    assert (ny = false) as -> by (destruct ny; [apply Zy; lia|auto]).
    destruct (N.ltb_spec (mx + my) two128); cbn; [|lia]. repeat split; lia.
Qed.

Lemma checked_mul_spec x y :
  bi_wf x -> bi_wf y ->
  match bi_checked_mul x y with
  | Some r => bi_wf r /\ int_of r = (int_of x * int_of y)%Z
  | None => ~ supported (int_of x * int_of y)
  end.
Proof.
  intros Hx Hy. pose proof (int_of_negative x Hx) as Nx. pose proof (int_of_negative y Hy) as Ny.
  unfold bi_checked_mul, checked_mul128, supported. rewrite <- two128_Z.
  destruct x as [nx mx], y as [ny my]. destruct Hx as [Hx Zx], Hy as [Hy Zy].
  rewrite Nx, Ny. clear Nx Ny. unfold bi_wf, int_of in *. cbn [bi_neg bi_mag] in *.
  assert (Z.abs ((if nx then - Z.of_N mx else Z.of_N mx) * (if ny then - Z.of_N my else Z.of_N my))
          = Z.of_N (mx * my)) as Eabs by (destruct nx, ny; lia).
  rewrite Eabs.
  destruct (N.ltb_spec (mx * my) two128); cbn; [|lia].
  destruct (N.eqb_spec (mx * my) 0) as [E|E]; cbn.
  - split; [split; [|done]|]; [pose proof two128_Z; lia|]. destruct nx, ny; lia.
  - split; [split; [done|intros; lia]|].
    assert (mx <> 0 /\ my <> 0)%N as [? ?] by (split; intros ->; lia).
    destruct nx, ny; cbn.
    + replace (- Z.of_N mx <? 0)%Z with true by lia. replace (- Z.of_N my <? 0)%Z with true by lia. cbn. lia.
    + replace (- Z.of_N mx <? 0)%Z with true by lia. replace (Z.of_N my <? 0)%Z with false by lia. cbn. lia.
    + replace (Z.of_N mx <? 0)%Z with false by lia. replace (- Z.of_N my <? 0)%Z with true by lia. cbn. lia.
    + replace (Z.of_N mx <? 0)%Z with false by lia. replace (Z.of_N my <? 0)%Z with false by lia. cbn. lia.
Qed.

Lemma all_supported_here e : all_supported e -> supported (meaning e).
Proof. destruct e; intros [H _]; exact H. Qed.

Lemma from_wf n : (n < two128)%N -> bi_wf (bi_from_u128 n).
Proof. intros H. split; [exact H|reflexivity]. Qed.

Lemma bi_eval_spec e :
  match bi_eval e with
  | Some x => bi_wf x /\ int_of x = meaning e /\ all_supported e
  | None => ~ all_supported e
  end.
Proof.
  assert (1 < two128)%N as H1 by (pose proof two128_Z; lia).
  induction e as [n|e IH|e IHe f IHf|e IHe f IHf|e IH|e IH]; cbn [bi_eval all_supported meaning].
  - destruct (N.ltb_spec n two128); cbn.
    + split; [by apply from_wf|]. split; [done|]. split; [|done].
      unfold supported. rewrite <- two128_Z. lia.
    + unfold supported. rewrite <- two128_Z. lia.
  - destruct (bi_eval e) as [x|]; cbn; [|tauto]. destruct IH as (W & E & S).
    destruct (negate_spec x W) as [W' E']. split; [done|]. rewrite E', E. split; [done|].
    split; [|done]. unfold supported in *. rewrite Z.abs_opp.
    exact (all_supported_here e S).
  - destruct (bi_eval e) as [x|]; cbn; [|tauto]. destruct (bi_eval f) as [y|]; cbn; [|tauto].
    destruct IHe as (Wx & Ex & Sx), IHf as (Wy & Ey & Sy).
    pose proof (checked_add_spec x y Wx Wy) as P. destruct (bi_checked_add x y) as [r|].
    + destruct P as [Wr Er]. rewrite Ex, Ey in Er. split; [done|]. split; [done|]. split; [|done].
      rewrite <- Er. by apply int_of_range.
    + rewrite Ex, Ey in P. tauto.
  - destruct (bi_eval e) as [x|]; cbn; [|tauto]. destruct (bi_eval f) as [y|]; cbn; [|tauto].
    destruct IHe as (Wx & Ex & Sx), IHf as (Wy & Ey & Sy).
    pose proof (checked_mul_spec x y Wx Wy) as P. destruct (bi_checked_mul x y) as [r|].
    + destruct P as [Wr Er]. rewrite Ex, Ey in Er. split; [done|]. split; [done|]. split; [|done].
      rewrite <- Er. by apply int_of_range.
    + rewrite Ex, Ey in P. tauto.
  - destruct (bi_eval e) as [x|]; cbn; [|tauto]. destruct IH as (Wx & Ex & Sx).
    pose proof (checked_add_spec x (bi_from_u128 1) Wx (from_wf 1 H1)) as P.
    replace (int_of (bi_from_u128 1)) with 1%Z in P by reflexivity. rewrite Ex in P.
    destruct (bi_checked_add x (bi_from_u128 1)) as [r|]; [|tauto].
    destruct P as [Wr Er]. split; [done|]. split; [done|]. split; [|done].
    rewrite <- Er. by apply int_of_range.
  - destruct (bi_eval e) as [x|]; cbn [mbind option_bind]; [|tauto]. destruct IH as (Wx & Ex & Sx).
    destruct (negate_spec _ (from_wf 1 H1)) as [W1 _].
    pose proof (checked_add_spec x (bi_negate (bi_from_u128 1)) Wx W1) as P.
    replace (int_of (bi_negate (bi_from_u128 1))) with (-1)%Z in P by reflexivity. rewrite Ex in P.
    destruct (bi_checked_add x (bi_negate (bi_from_u128 1))) as [r|]; [|intros [S _]; by apply P].
    destruct P as [Wr Er]. split; [done|]. split; [done|]. split; [|done].
    change (supported (meaning e + -1)). rewrite <- Er. by apply int_of_range.
Qed.

Lemma bigint_value_wf x : bigint_value x -> bi_wf x.
Proof. intros [e E]. pose proof (bi_eval_spec e) as P. rewrite E in P. tauto. Qed.

Lemma bi_eqb_spec x y : bi_wf x -> bi_wf y -> bi_eqb x y = true <-> int_of x = int_of y.
Proof.
  intros Wx Wy. unfold bi_eqb. rewrite andb_true_iff, eqb_true_iff, N.eqb_eq.
  split; [intros [E1 E2]; destruct x, y; cbn in *; by subst|].
  intros E. apply int_of_inj in E; [|done|done]. by subst.
Qed.

(* ---- decimal *)

Lemma foldl_digits acc l :
  foldl (fun acc d => acc * 10 + (d - 48))%N acc l =
  (acc * 10 ^ N.of_nat (length l) + digits_value l)%N.
Proof.
  unfold digits_value. revert acc. induction l as [|d l IH]; intros acc; cbn [foldl length].
  - rewrite N.pow_0_r. lia.
  - rewrite IH, (IH (0 * 10 + (d - 48))%N). rewrite Nat2N.inj_succ, N.pow_succ_r'. lia.
Qed.

Lemma digits_cons d l :
  digits_value (d :: l) = ((d - 48) * 10 ^ N.of_nat (length l) + digits_value l)%N.
Proof. unfold digits_value at 1. cbn [foldl]. rewrite foldl_digits. lia. Qed.

Lemma digits_snoc l d : digits_value (l ++ [d]) = (digits_value l * 10 + (d - 48))%N.
Proof. unfold digits_value. by rewrite foldl_app. Qed.

Lemma decimal_go_spec fuel n acc :
  (N.size n < N.of_nat fuel)%N ->
  exists ds, decimal_go fuel n acc = ds ++ acc /\ digits_value ds = n /\
  Forall (fun d => 48 <= d <= 57)%N ds /\ ds <> [] /\
  (forall rest, ds = 48%N :: rest -> rest = [] /\ n = 0%N).
Proof.
  revert n acc. induction fuel as [|fuel IH]; intros n acc Hf; [lia|]. cbn [decimal_go].
  assert (n mod 10 < 10)%N as Hm by (apply N.mod_lt; lia).
  pose proof (N.div_mod n 10 ltac:(lia)) as Hd.
  destruct (N.eqb_spec (n / 10) 0) as [E|E].
  - exists [(48 + n mod 10)%N]. split; [done|]. rewrite digits_cons. cbn [length].
    split; [cbn; lia|]. split; [apply Forall_singleton; lia|]. split; [done|].
    intros rest [= E1 E2]. split; [done|lia].
  - destruct (IH (n / 10)%N ((48 + n mod 10)%N :: acc)) as (ds & E1 & E2 & E3 & E4 & E5).
    { assert (0 < n)%N by (destruct n; [done|lia]).
      assert (n / 10 <= n / 2)%N by (apply N.div_le_compat_l; lia).
      assert (N.log2 (n / 10) < N.log2 n)%N.
      { assert (N.log2 (n / 10) <= N.log2 (n / 2))%N by (apply N.log2_le_mono; lia).
        destruct (N.eq_dec n 1) as [->|]; [done|].
        assert (0 < N.log2 n)%N by (apply N.log2_pos; lia).
        assert (N.log2 (n / 2) = N.pred (N.log2 n)) as E0
          by (rewrite <- N.div2_div, N.div2_spec, N.log2_shiftr; lia).
        lia. }
      rewrite N.size_log2 in Hf by lia. rewrite N.size_log2 by lia. lia. }
    remember (n / 10)%N as q eqn:Eq. remember (n mod 10)%N as r eqn:Er. clear IH Hf Eq Er.
    exists (ds ++ [(48 + r)%N]). rewrite E1. split; [by rewrite <- (assoc_L app)|].
    split. { rewrite digits_snoc, E2. lia. }
    split; [apply Forall_app; split; [done|apply Forall_singleton; lia]|].
    split; [by destruct ds|].
    intros rest. destruct ds as [|d ds]; [done|]. cbn. intros [= -> _].
    destruct (E5 ds eq_refl) as [_ ?]. lia.
Qed.

Lemma decimal_of_N_spec n :
  canonical_digits (decimal_of_N n) /\ digits_value (decimal_of_N n) = n.
Proof.
  unfold decimal_of_N.
  destruct (decimal_go_spec (S (N.to_nat (N.size n))) n []) as (ds & E1 & E2 & E3 & E4 & E5); [lia|].
  rewrite E1, app_nil_r. split; [|done]. split; [done|]. split; [done|].
  intros rest ->. by destruct (E5 rest eq_refl).
Qed.

Lemma to_decimal_spec x : bi_wf x -> decimal_spelling (int_of x) (bi_to_decimal_string x).
Proof.
  intros W. exists (decimal_of_N (bi_mag x)). destruct (decimal_of_N_spec (bi_mag x)) as [C V].
  split; [done|]. rewrite V. split; [unfold int_of; destruct (bi_neg x); lia|].
  unfold bi_to_decimal_string. by rewrite (int_of_negative x W).
Qed.

(* ------------------------------------------------------------------ *)
(** * Equality *)

Lemma f64_eqb_sym x y : f64_eqb x y = f64_eqb y x.
Proof.
  unfold f64_eqb. rewrite orb_comm, (andb_comm (f64_is_zero x)), N.eqb_sym. reflexivity.
Qed.

Lemma bi_eqb_sym x y : bi_eqb x y = bi_eqb y x.
Proof.
  unfold bi_eqb. rewrite N.eqb_sym. f_equal. destruct (bi_neg x), (bi_neg y); reflexivity.
Qed.

Lemma strict_equal_sym a b : strict_equal a b = strict_equal b a.
Proof.
  destruct a, b; cbn; try reflexivity;
    [by destruct b0, b|apply f64_eqb_sym|apply bi_eqb_sym|apply bool_decide_ext; naive_solver
    |apply N.eqb_sym|apply N.eqb_sym].
Qed.

Lemma strict_equal_spec a b :
  proper a -> proper b -> strict_equal a b = true <-> strictly a b.
Proof.
  intros Pa Pb. split.
  - destruct a, b; cbn; try done; intros E.
    + constructor. + constructor.
    + apply eqb_prop in E as ->. constructor.
    + by constructor.
    + apply bi_eqb_spec in E; [by constructor|by apply bigint_value_wf|by apply bigint_value_wf].
    + apply bool_decide_eq_true in E as ->. constructor.
    + apply N.eqb_eq in E as ->. constructor.
    + apply N.eqb_eq in E as ->. constructor.
  - intros S. destruct S; cbn; try done.
    + apply eqb_reflx.
    + apply bi_eqb_spec; [by apply bigint_value_wf|by apply bigint_value_wf|done].
    + by apply bool_decide_eq_true.
    + apply N.eqb_refl. + apply N.eqb_refl.
Qed.

Lemma abstract_equality_answers f a b : exists r, abstract_equality f a b = Some r.
Proof.
  destruct a, b; cbn; try (eexists; reflexivity).
Qed.

Lemma abstract_equality_sym f a b : abstract_equality f a b = abstract_equality f b a.
Proof.
  unfold abstract_equality.
  destruct a, b; cbn; try reflexivity; f_equal;
    try apply f64_eqb_sym; try apply bi_eqb_sym; try apply N.eqb_sym;
    try (apply bool_decide_ext; naive_solver).
  - by destruct b0, b.
Qed.

Lemma strict_loose f a b : strict_equal a b = true -> abstract_equality f a b = Some true.
Proof. destruct a, b; cbn; try done; intros ->; reflexivity. Qed.

Section loosely_proofs.
Context (f : list N -> f64) (sb : list N -> option Z).
Context (Hobj : sb object_object = None).

Lemma loosely_numbers x y :
  loosely f sb object_object (PNumber x) (PNumber y) <-> f64_eqb x y = true.
Proof.
  split.
  - intros L. inversion L; subst. by inversion H0.
  - intros E. apply L_same; [done|by constructor].
Qed.

Lemma not_mixes_bool_left b y : ~ mixes_bigint (PBool b) y -> ~ mixes_bigint (PNumber (if b then f64_one else f64_zero)) y.
Proof. intros M [[? ?]|[? ?]]; [done|]. apply M. right. split; [done|]. set_solver. Qed.
Lemma not_mixes_bool_right b x : ~ mixes_bigint x (PBool b) -> ~ mixes_bigint x (PNumber (if b then f64_one else f64_zero)).
Proof. intros M [[? ?]|[? ?]]; [|done]. apply M. left. split; [done|]. set_solver. Qed.

Lemma loosely_complete a b :
  loosely f sb object_object a b -> proper a -> proper b -> ~ mixes_bigint a b ->
  abstract_equality f a b = Some true.
Proof.
  induction 1 as [x y T S| | |n s L IH|n s L IH|c s z E1 E2|c s z E1 E2|c y T L IH|c x T L IH
                 |x i T L IH|y i T L IH|c n E|c n E]; intros Pa Pb M.
  - apply strict_loose, strict_equal_spec; auto.
  - done. - done.
  - apply loosely_numbers in L. cbn. by rewrite L.
  - apply loosely_numbers in L. cbn. by rewrite L.
  - destruct M. left. split; [done|set_solver].
  - destruct M. right. split; [done|set_solver].
  - specialize (IH Logic.I Pb (not_mixes_bool_left c y M)).
    destruct y; try done; exact IH.
  - specialize (IH Pa Logic.I (not_mixes_bool_right c x M)).
    destruct x; try done; exact IH.
  - destruct x; cbn in T; try set_solver.
    + apply IH; try done. intros [[? ?]|[? ?]]; done.
    + inversion L; subst; [done|]. congruence.
    + apply IH; try done. intros [[? ?]|[? ?]]; done.
    + inversion L; subst. done.
  - destruct y; cbn in T; try set_solver.
    + apply IH; try done. intros [[? ?]|[? ?]]; done.
    + inversion L; subst; [done|]. congruence.
    + apply IH; try done. intros [[? ?]|[? ?]]; done.
    + inversion L; subst. done.
  - destruct M. left. split; [done|set_solver].
  - destruct M. right. split; [done|set_solver].
Qed.

Lemma loosely_sound a b :
  abstract_equality f a b = Some true -> proper a -> proper b ->
  loosely f sb object_object a b.
Proof.
  intros E Pa Pb.
  assert (forall x y, proper x -> proper y -> type_of x = type_of y -> strict_equal x y = true ->
          loosely f sb object_object x y) as Same.
  { intros x y Px Py T S. apply L_same; [done|]. by apply strict_equal_spec. }
  assert (forall x y, f64_eqb x y = true -> loosely f sb object_object (PNumber x) (PNumber y)) as Num
    by (intros; by apply loosely_numbers).
  destruct a, b; cbn in E; try discriminate;
    try (apply Same; cbn; [done|done|done|congruence]);
    try (by constructor);
    repeat match goal with
    | |- loosely _ _ _ (PBool _) _ => apply L_bool_left; [done|]
    | |- loosely _ _ _ _ (PBool _) => apply L_bool_right; [done|]
    | |- loosely _ _ _ (PObject _) _ => apply L_object_left; [set_solver|]
    | |- loosely _ _ _ _ (PObject _) => apply L_object_right; [set_solver|]
    | |- loosely _ _ _ (PNumber _) (PString _) => apply L_number_string
    | |- loosely _ _ _ (PString _) (PNumber _) => apply L_string_number
    | |- loosely _ _ _ (PNumber _) (PNumber _) => apply Num; congruence
    | |- loosely _ _ _ (PString _) (PString _) => apply Same; [done|done|done|]; cbn [strict_equal]; congruence
    end.
Qed.
End loosely_proofs.

(* ------------------------------------------------------------------ *)
(** * Budgets *)

Lemma run_act_with depth b body vm :
  run_act depth (AWithBudget b body) vm =
  let '(out, vm') := run_acts (S depth) body (set_budget b vm) in
  (out, Bvm (vm_budget vm) (vm_interrupted vm')).
Proof.
  cbn [run_act].
  assert (forall l vm0,
    (fix go (l : list act) (vm : bvm) {struct l} :=
       match l with
       | [] => ([], vm)
       | a :: l =>
           let '(o1, vm) := run_act (S depth) a vm in
           let '(o2, vm) := go l vm in
           (o1 ++ o2, vm)
       end) l vm0 = run_acts (S depth) l vm0) as E.
  { induction l as [|a l IH]; intros vm0; cbn [run_acts]; [done|].
    destruct (run_act (S depth) a vm0) as [o1 vm1]. by rewrite IH. }
  rewrite E. destruct (run_acts (S depth) body (set_budget b vm)) as [out vm']. reflexivity.
Qed.

Fixpoint act_size (a : act) : nat :=
  match a with AWithBudget _ body => S (sum_list_with act_size body) | _ => 1 end.
Lemma act_strong_ind (P : act -> Prop) :
  (forall now, P (ATick now)) -> P AInterrupt -> P AResetInterrupt -> (forall b, P (ASetBudget b)) ->
  (forall b body, Forall P body -> P (AWithBudget b body)) -> forall a, P a.
Proof.
  intros H1 H2 H3 H4 H5. fix IH 1. intros [now| | |b|b body]; [apply H1|exact H2|exact H3|apply H4|].
  apply H5. induction body as [|a body IHb]; constructor; [apply IH|exact IHb].
Qed.

Lemma run_acts_app depth l1 l2 vm :
  run_acts depth (l1 ++ l2) vm =
  let '(o1, vm1) := run_acts depth l1 vm in
  let '(o2, vm2) := run_acts depth l2 vm1 in (o1 ++ o2, vm2).
Proof.
  revert vm. induction l1 as [|a l1 IH]; intros vm; cbn [run_acts app].
  - by destruct (run_acts depth l2 vm).
  - destruct (run_act depth a vm) as [o vm1]. rewrite IH.
    destruct (run_acts depth l1 vm1) as [o1 vm2]. destruct (run_acts depth l2 vm2) as [o2 vm3].
    by rewrite (assoc_L app).
Qed.

(** Ticks happen at least as deep as the run. *)
Lemma run_act_depth a : forall depth vm,
  Forall (fun p => depth <= p.1)%nat (run_act depth a vm).1.
Proof.
  induction a as [now| | |b|b body IH] using act_strong_ind; intros depth vm.
  - cbn [run_act]. destruct (tick now vm) as [r vm']. cbn. by apply Forall_singleton.
  - constructor. - constructor. - constructor.
  - rewrite run_act_with.
    assert (forall vm0, Forall (fun p => S depth <= p.1)%nat (run_acts (S depth) body vm0).1) as F.
    { induction IH as [|a body Ha _ IHb]; intros vm0; cbn [run_acts]; [constructor|].
      specialize (Ha (S depth) vm0). destruct (run_act (S depth) a vm0) as [o1 vm1].
      specialize (IHb vm1). destruct (run_acts (S depth) body vm1) as [o2 vm2].
      apply Forall_app. auto. }
    specialize (F (set_budget b vm)).
    destruct (run_acts (S depth) body (set_budget b vm)) as [out vm']. cbn in *.
    eapply Forall_impl; [exact F|]. cbn. lia.
Qed.
Lemma run_acts_depth l depth vm : Forall (fun p => depth <= p.1)%nat (run_acts depth l vm).1.
Proof.
  revert vm. induction l as [|a l IH]; intros vm; cbn [run_acts]; [constructor|].
  pose proof (run_act_depth a depth vm) as Ha. destruct (run_act depth a vm) as [o1 vm1].
  specialize (IH vm1). destruct (run_acts depth l vm1) as [o2 vm2]. apply Forall_app. auto.
Qed.

Lemma own_ticks_deeper depth out :
  Forall (fun p => S depth <= p.1)%nat out -> own_ticks depth out = [].
Proof.
  unfold own_ticks. induction 1 as [|[k r] out H _ IH]; [done|]. cbn in H.
  rewrite filter_cons_False; [done|]. cbn. lia.
Qed.
Lemma own_ticks_app depth o1 o2 : own_ticks depth (o1 ++ o2) = own_ticks depth o1 ++ own_ticks depth o2.
Proof. unfold own_ticks. by rewrite filter_app, fmap_app. Qed.

(** The fuel left after a tick at this level. *)
Definition fuel_left (vm : bvm) : option N := fuel (bs_budget (vm_budget vm)).

Lemma tick_fuel now vm :
  match fuel_left vm with
  | Some 0%N => tick now vm = (OutOfFuel, vm)
  | Some n => (tick now vm).1 <> OutOfFuel /\ fuel_left (tick now vm).2 = Some (N.pred n)
  | None => (tick now vm).1 <> OutOfFuel /\ fuel_left (tick now vm).2 = None
  end.
Proof.
  unfold fuel_left, tick. destruct vm as [[[fl dl ct] tk] fi]. cbn.
  destruct fl as [[|n]|]; cbn; try reflexivity.
  - destruct fi; cbn; [done|]. destruct dl as [d|]; cbn; [|done].
    destruct (_ && _); cbn; done.
  - destruct fi; cbn; [done|]. destruct dl as [d|]; cbn; [|done].
    destruct (_ && _); cbn; done.
Qed.

Definition out_of_fuel_from (n : option N) (rs : list tick_result) : Prop :=
  forall k r, rs !! k = Some r -> (r = OutOfFuel <-> exists m, n = Some m /\ (m <= N.of_nat k)%N).

Lemma run_acts_fuel l depth vm :
  keeps_budget l -> out_of_fuel_from (fuel_left vm) (own_ticks depth (run_acts depth l vm).1).
Proof.
  revert vm. induction l as [|a l IH]; intros vm K; cbn [run_acts]; [intros k r; done|].
  apply Forall_cons_1 in K as [Ka K].
  assert (forall o vm1, own_ticks depth o = [] -> fuel_left vm1 = fuel_left vm ->
    run_act depth a vm = (o, vm1) ->
    out_of_fuel_from (fuel_left vm) (own_ticks depth
      (let '(o1, vm0) := run_act depth a vm in let '(o2, vm2) := run_acts depth l vm0 in (o1 ++ o2, vm2)).1)) as Q.
  { intros o vm1 E1 E2 ->. specialize (IH vm1 K). destruct (run_acts depth l vm1) as [o2 vm2].
    cbn [fst] in *. rewrite own_ticks_app, E1. cbn [app]. by rewrite <- E2. }
  destruct a as [now| | |b|b body].
  - cbn [run_act]. pose proof (tick_fuel now vm) as T. destruct (tick now vm) as [r vm1].
    specialize (IH vm1 K). destruct (run_acts depth l vm1) as [o2 vm2]. cbn [fst snd] in *.
    change ([(depth, r)] ++ o2) with ((depth, r) :: o2).
    unfold own_ticks. rewrite filter_cons_True by done. cbn [fmap list_fmap snd].
    fold (own_ticks depth o2). intros [|k] r'.
    + intros [= <-]. destruct (fuel_left vm) as [[|n]|].
      * injection T as -> ->. split; [intros _; exists 0%N; split; [done|lia]|done].
      * split; [tauto|]. intros (m & [= <-] & ?). lia.
      * split; [tauto|]. by intros (m & ? & _).
    + intros E. specialize (IH k r' E). destruct (fuel_left vm) as [[|n]|] eqn:Efl.
      * injection T as -> ->. rewrite IH, Efl. split; intros (m & [= <-] & ?); exists 0%N; split; auto; lia.
      * destruct T as [_ T]. rewrite IH, T. split; intros (m & [= <-] & ?); eexists; (split; [done|]); lia.
      * destruct T as [_ T]. rewrite IH, T. by split; intros (m & ? & _).
  - eapply (Q []); [reflexivity| |cbn [run_act]; reflexivity]; reflexivity.
  - eapply (Q []); [reflexivity| |cbn [run_act]; reflexivity]; reflexivity.
  - done.
  - pose proof (run_act_with depth b body vm) as E.
    pose proof (run_acts_depth body (S depth) (set_budget b vm)) as D.
    destruct (run_acts (S depth) body (set_budget b vm)) as [out vm']. cbn in D.
    eapply Q; [| |exact E]; [by apply own_ticks_deeper|reflexivity].
Qed.

(** Interrupts. *)
Lemma tick_flag now vm : vm_interrupted (tick now vm).2 = vm_interrupted vm.
Proof.
  unfold tick. case_bool_decide; cbn; [done|]. destruct (vm_interrupted vm) eqn:E; cbn; [done|].
  destruct (deadline _); cbn; [|done]. destruct (_ && _); done.
Qed.

Lemma tick_interrupted now vm : vm_interrupted vm = true -> (tick now vm).1 ∈ [OutOfFuel; Interrupted].
Proof.
  intros H. unfold tick. case_bool_decide; cbn; [set_solver|]. rewrite H. cbn. set_solver.
Qed.
Lemma tick_not_interrupted now vm : vm_interrupted vm = false -> (tick now vm).1 <> Interrupted.
Proof.
  intros H. unfold tick. case_bool_decide; cbn; [done|]. rewrite H. cbn.
  destruct (deadline _); cbn; [|done]. destruct (_ && _); done.
Qed.

Lemma run_act_keeps_set a : forall depth vm,
  no_reset a -> vm_interrupted vm = true -> vm_interrupted (run_act depth a vm).2 = true /\
  Forall (fun p => p.2 ∈ [OutOfFuel; Interrupted]) (run_act depth a vm).1.
Proof.
  induction a as [now| | |b|b body IH] using act_strong_ind; intros depth vm NR I.
  - cbn [run_act]. pose proof (tick_flag now vm) as F. pose proof (tick_interrupted now vm I) as G.
    destruct (tick now vm) as [r vm']. cbn in *. split; [congruence|by apply Forall_singleton].
  - split; [done|constructor].
  - done.
  - split; [done|constructor].
  - rewrite run_act_with. cbn [no_reset] in NR.
    assert (forall vm0, vm_interrupted vm0 = true ->
      vm_interrupted (run_acts (S depth) body vm0).2 = true /\
      Forall (fun p => p.2 ∈ [OutOfFuel; Interrupted]) (run_acts (S depth) body vm0).1) as F.
    { induction IH as [|a body Ha _ IHb]; intros vm0 I0; cbn [run_acts]; [split; [done|constructor]|].
      rewrite fmap_cons in NR. apply Forall_cons_1 in NR as [N1 N2]. specialize (IHb N2).
      specialize (Ha (S depth) vm0 N1 I0). destruct (run_act (S depth) a vm0) as [o1 vm1].
      destruct Ha as [Ha1 Ha2]. specialize (IHb vm1 Ha1).
      destruct (run_acts (S depth) body vm1) as [o2 vm2]. destruct IHb.
      split; [done|]. apply Forall_app. auto. }
    destruct (F (set_budget b vm) I) as [F1 F2].
    destruct (run_acts (S depth) body (set_budget b vm)) as [out vm']. cbn in *. auto.
Qed.

Lemma run_act_keeps_clear a : forall depth vm,
  no_interrupt a -> vm_interrupted vm = false -> vm_interrupted (run_act depth a vm).2 = false /\
  Forall (fun p => p.2 <> Interrupted) (run_act depth a vm).1.
Proof.
  induction a as [now| | |b|b body IH] using act_strong_ind; intros depth vm NR I.
  - cbn [run_act]. pose proof (tick_flag now vm) as F. pose proof (tick_not_interrupted now vm I) as G.
    destruct (tick now vm) as [r vm']. cbn in *. split; [congruence|by apply Forall_singleton].
  - done.
  - split; [done|constructor].
  - split; [done|constructor].
  - rewrite run_act_with. cbn [no_interrupt] in NR.
    assert (forall vm0, vm_interrupted vm0 = false ->
      vm_interrupted (run_acts (S depth) body vm0).2 = false /\
      Forall (fun p => p.2 <> Interrupted) (run_acts (S depth) body vm0).1) as F.
    { induction IH as [|a body Ha _ IHb]; intros vm0 I0; cbn [run_acts]; [split; [done|constructor]|].
      rewrite fmap_cons in NR. apply Forall_cons_1 in NR as [N1 N2]. specialize (IHb N2).
      specialize (Ha (S depth) vm0 N1 I0). destruct (run_act (S depth) a vm0) as [o1 vm1].
      destruct Ha as [Ha1 Ha2]. specialize (IHb vm1 Ha1).
      destruct (run_acts (S depth) body vm1) as [o2 vm2]. destruct IHb.
      split; [done|]. apply Forall_app. auto. }
    destruct (F (set_budget b vm) I) as [F1 F2].
    destruct (run_acts (S depth) body (set_budget b vm)) as [out vm']. cbn in *. auto.
Qed.

Lemma run_acts_keeps_set l depth vm :
  Forall no_reset l -> vm_interrupted vm = true -> vm_interrupted (run_acts depth l vm).2 = true /\
  Forall (fun p => p.2 ∈ [OutOfFuel; Interrupted]) (run_acts depth l vm).1.
Proof.
  intros F. revert vm. induction F as [|a l Ha _ IH]; intros vm I; cbn [run_acts]; [split; [done|constructor]|].
  destruct (run_act_keeps_set a depth vm Ha I) as [A1 A2]. destruct (run_act depth a vm) as [o1 vm1].
  destruct (IH vm1 A1) as [B1 B2]. destruct (run_acts depth l vm1) as [o2 vm2].
  split; [done|]. apply Forall_app. auto.
Qed.
Lemma run_acts_keeps_clear l depth vm :
  Forall no_interrupt l -> vm_interrupted vm = false -> vm_interrupted (run_acts depth l vm).2 = false /\
  Forall (fun p => p.2 <> Interrupted) (run_acts depth l vm).1.
Proof.
  intros F. revert vm. induction F as [|a l Ha _ IH]; intros vm I; cbn [run_acts]; [split; [done|constructor]|].
  destruct (run_act_keeps_clear a depth vm Ha I) as [A1 A2]. destruct (run_act depth a vm) as [o1 vm1].
  destruct (IH vm1 A1) as [B1 B2]. destruct (run_acts depth l vm1) as [o2 vm2].
  split; [done|]. apply Forall_app. auto.
Qed.

(** Deadlines. *)
Lemma tick_early now vm d :
  deadline (bs_budget (vm_budget vm)) = Some d -> (now < d)%N -> (tick now vm).1 <> DeadlineExceeded.
Proof.
  intros E H. unfold tick. case_bool_decide; cbn; [done|]. destruct (vm_interrupted vm); cbn; [done|].
  rewrite E. destruct (_ =? 0)%N; cbn; [|done]. destruct (N.leb_spec d now); [lia|done].
Qed.

Lemma tick_ok_state now vm :
  (tick now vm).1 = TickOk ->
  exists fl, vm_interrupted vm = false /\
  (tick now vm).2 = Bvm (BudgetState (Budget fl (deadline (bs_budget (vm_budget vm)))
    (check_time_every (bs_budget (vm_budget vm)))) (wrapping_succ64 (bs_ticks (vm_budget vm)))) false /\
  forall d, deadline (bs_budget (vm_budget vm)) = Some d -> (d <= now)%N ->
    (wrapping_succ64 (bs_ticks (vm_budget vm)) mod N.max (check_time_every (bs_budget (vm_budget vm))) 1 <> 0)%N.
Proof.
  unfold tick. case_bool_decide; cbn; [done|]. destruct (vm_interrupted vm); cbn; [done|].
  destruct (deadline _) as [d|] eqn:Ed; cbn.
  - destruct (_ && _) eqn:E; [done|]. intros _. eexists. split; [done|]. split; [done|].
    intros d' [= <-] Hn Z. apply andb_false_iff in E as [E|E].
    + apply N.eqb_neq in E. done. + apply N.leb_gt in E. lia.
  - intros _. eexists. split; [done|]. split; [done|]. done.
Qed.

Definition ticks_of (nows : list N) : list act := ATick <$> nows.

(** If every tick of a run past the deadline succeeds, no tick count of the run
    is a multiple of the interval. *)
Lemma ticks_past_deadline nows : forall vm d,
  deadline (bs_budget (vm_budget vm)) = Some d -> Forall (fun now => d <= now)%N nows ->
  Forall (fun p => p.2 = TickOk) (run_acts 0 (ticks_of nows) vm).1 ->
  forall j, (1 <= j <= length nows)%nat ->
    (((bs_ticks (vm_budget vm) + N.of_nat j) mod 2 ^ 64)
      mod N.max (check_time_every (bs_budget (vm_budget vm))) 1 <> 0)%N.
Proof.
  induction nows as [|now nows IH]; intros vm d Ed F A j Hj; [cbn in Hj; lia|].
  apply Forall_cons_1 in F as [F1 F2].
  change (ticks_of (now :: nows)) with (ATick now :: ticks_of nows) in A. cbn [run_acts run_act] in A.
  pose proof (tick_ok_state now vm) as T. destruct (tick now vm) as [r vm1].
  pose proof (IH vm1) as IHv. destruct (run_acts 0 (ticks_of nows) vm1) as [o2 vm2]. cbn [fst snd] in *.
  apply Forall_cons_1 in A as [A1 A2]. cbn in A1.
  destruct (T A1) as (fl & _ & -> & T3). cbn [vm_budget bs_ticks bs_budget deadline check_time_every] in *.
  destruct j as [|[|j]]; [lia| |].
  - exact (T3 d Ed F1).
  - specialize (IHv d Ed F2 A2 (S j) ltac:(cbn in Hj; lia)).
    intros Z. apply IHv. rewrite <- Z. unfold wrapping_succ64. f_equal.
    rewrite N.add_mod_idemp_l by done. f_equal. lia.
Qed.

Lemma multiple_in_window t c : (1 <= c)%N -> exists j, (1 <= j <= c)%N /\ ((t + j) mod c = 0)%N.
Proof.
  intros Hc. pose proof (N.mod_lt t c ltac:(lia)). pose proof (N.div_mod t c ltac:(lia)) as D.
  remember (t mod c)%N as r eqn:Er. remember (t / c)%N as q eqn:Eq. clear Er Eq.
  exists (c - r)%N. split; [lia|].
  replace (t + (c - r))%N with ((q + 1) * c)%N by nia. apply N.mod_mul. lia.
Qed.

(* ------------------------------------------------------------------ *)
(** * Number keys *)

Lemma jsnum_eqb_refl x : jsnum_eqb x x = true.
Proof.
  unfold jsnum_eqb, f64_eqb. destruct (f64_is_nan x) eqn:E; [done|]. cbn.
  rewrite N.eqb_refl. by destruct (f64_is_zero x && f64_is_zero x).
Qed.
Lemma jsnum_eqb_sym x y : jsnum_eqb x y = jsnum_eqb y x.
Proof.
  unfold jsnum_eqb. destruct (f64_is_nan x) eqn:Ex, (f64_is_nan y) eqn:Ey; try done.
  - unfold f64_eqb. rewrite Ex, Ey. done.
  - unfold f64_eqb. rewrite Ex, Ey. done.
  - apply f64_eqb_sym.
Qed.
Lemma f64_eqb_zero x y : f64_eqb x y = true -> f64_is_zero x = f64_is_zero y.
Proof.
  unfold f64_eqb. destruct (_ || _); [done|]. destruct (f64_is_zero x && f64_is_zero y) eqn:E.
  - apply andb_true_iff in E as [-> ->]. done.
  - intros B. apply N.eqb_eq in B. unfold f64_is_zero, f64_exp, f64_frac. by rewrite B.
Qed.
Lemma f64_eqb_not_nan x y : f64_eqb x y = true -> f64_is_nan x = false /\ f64_is_nan y = false.
Proof. unfold f64_eqb. destruct (f64_is_nan x), (f64_is_nan y); done. Qed.
Lemma f64_eqb_trans x y z : f64_eqb x y = true -> f64_eqb y z = true -> f64_eqb x z = true.
Proof.
  intros A B. destruct (f64_eqb_not_nan _ _ A) as [Nx Ny], (f64_eqb_not_nan _ _ B) as [_ Nz].
  pose proof (f64_eqb_zero _ _ A) as Zxy. pose proof (f64_eqb_zero _ _ B) as Zyz.
  unfold f64_eqb in *. rewrite Nx, Ny, Nz in *. cbn in *. rewrite Zxy, Zyz in *.
  destruct (f64_is_zero z); cbn in *; [done|]. rewrite N.eqb_eq in *. congruence.
Qed.
Lemma jsnum_eqb_trans x y z : jsnum_eqb x y = true -> jsnum_eqb y z = true -> jsnum_eqb x z = true.
Proof.
  unfold jsnum_eqb. destruct (f64_is_nan x) eqn:Ex.
  - intros ->. done.
  - intros A. destruct (f64_eqb_not_nan _ _ A) as [_ ->]. intros B. by eapply f64_eqb_trans.
Qed.

Lemma key_cmp_eq x y :
  is_f64 x -> is_f64 y -> f64_is_nan x = false -> f64_is_nan y = false ->
  jsnum_cmp x y = Eq <-> jsnum_eqb x y = true.
Proof.
  intros Bx By Nx Ny. unfold jsnum_cmp, f64_partial_cmp, jsnum_eqb, f64_eqb. rewrite Nx, Ny. cbn.
  rewrite Z.compare_eq_iff.
  assert (forall w, is_f64 w -> (f64_bits w mod 2 ^ 63)%N = 0%N <-> f64_is_zero w = true) as Zw.
  { intros w Bw. unfold f64_is_zero, f64_exp, f64_frac. rewrite andb_true_iff, !N.eqb_eq.
    change (2 ^ 63)%N with (2 ^ 52 * 2 ^ 11)%N. rewrite N.mod_mul_r by done.
    remember ((f64_bits w / 2 ^ 52) mod 2 ^ 11)%N as e. remember (f64_bits w mod 2 ^ 52)%N as g.
    clear Heqe Heqg. change (2 ^ 52)%N with 4503599627370496%N. lia. }
  assert (forall w, is_f64 w -> f64_bits w = (if f64_neg w then 2 ^ 63 + f64_bits w mod 2 ^ 63 else f64_bits w mod 2 ^ 63)%N) as Dw.
  { intros w Bw. unfold is_f64, f64_neg in *. rewrite N.testbit_eqb.
    pose proof (N.div_mod (f64_bits w) (2 ^ 63) ltac:(done)) as D.
    assert (f64_bits w / 2 ^ 63 < 2)%N as Q by (apply N.div_lt_upper_bound; [done|exact Bw]).
    rewrite N.mod_small by done.
    remember (f64_bits w / 2 ^ 63)%N as q. remember (f64_bits w mod 2 ^ 63)%N as r. clear Heqq Heqr.
    change (2 ^ 63)%N with 9223372036854775808%N in *.
    destruct (N.eqb_spec q 1); lia. }
  pose proof (Dw x Bx) as Dx. pose proof (Dw y By) as Dy.
  pose proof (Zw x Bx) as Zx. pose proof (Zw y By) as Zy. unfold f64_key.
  assert (f64_bits x mod 2 ^ 63 < 2 ^ 63)%N as Lx by (apply N.mod_lt; done).
  assert (f64_bits y mod 2 ^ 63 < 2 ^ 63)%N as Ly by (apply N.mod_lt; done).
  remember (f64_bits x mod 2 ^ 63)%N as rx. remember (f64_bits y mod 2 ^ 63)%N as ry.
  clear Heqrx Heqry Zw Dw. change (2 ^ 63)%N with 9223372036854775808%N in *.
  assert ((rx = 0%N /\ f64_is_zero x = true) \/ (rx <> 0%N /\ f64_is_zero x = false)) as Cx
    by (destruct (f64_is_zero x); [left|right]; intuition congruence).
  assert ((ry = 0%N /\ f64_is_zero y = true) \/ (ry <> 0%N /\ f64_is_zero y = false)) as Cy
    by (destruct (f64_is_zero y); [left|right]; intuition congruence).
  clear Zx Zy.
  destruct Cx as [[? ->]|[? ->]], Cy as [[? ->]|[? ->]]; cbn [andb];
    rewrite ?N.eqb_eq, ?Dx, ?Dy; clear Dx Dy; destruct (f64_neg x), (f64_neg y);
    (split; intros; try reflexivity); try lia.
Qed.
