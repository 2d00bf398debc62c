(** C37: interning. *)
From Coq Require Import NArith Lia.
From stdpp Require Import base decidable numbers gmap list.
From Verif Require Import InternModel InternProofs.

(** For any fingerprint function, any number of threads and any interleaving of
    their turns: two calls that have returned got the same id exactly when they
    interned the same value, and looking the id up gives that value. *)
Theorem interning_injective {V} `{EqDecision V} (make_id : V -> N -> N) history t i j v w a b :
  t = table_run make_id (Table ∅ []) history ->
  calls t !! i = Some (Returned v a) -> calls t !! j = Some (Returned w b) ->
  (a = b <-> v = w) /\ entries t !! a = Some v.
Proof.
  intros -> Ei Ej. destruct (table_run_ok make_id history (Table ∅ [])) as [[K F] _].
  { split; [intros id v0; cbn; by rewrite lookup_empty|constructor]. }
  pose proof (Forall_lookup_1 _ _ _ _ F Ei) as A. pose proof (Forall_lookup_1 _ _ _ _ F Ej) as B. cbn in A, B.
  split; [|done]. split; [intros ->; congruence|]. intros ->. by eapply entries_unique.
Qed.
Print Assumptions interning_injective.

(** A history with a constant fingerprint on salt 0: three calls, two values,
    interleaved. *)
Example interning_nonvacuous :
  let mk (v s : N) := (if decide (s = 0) then 7 else 100 * v + s)%N in
  let t := table_run mk (Table ∅ []) [Start 1%N; Start 2%N; Turn 1; Start 1%N; Turn 0; Turn 2; Turn 2; Turn 0] in
  calls t = [Returned 1%N 101%N; Returned 2%N 7%N; Returned 1%N 101%N].
Proof. vm_compute. reflexivity. Qed.

(** Ids and their values never change: whatever happens later, the table keeps
    every entry, and calls keep the id they returned. *)
Theorem interning_stable {V} `{EqDecision V} (make_id : V -> N -> N) before later i v a :
  let t := table_run make_id (Table ∅ []) before in
  let t' := table_run make_id t later in
  calls t !! i = Some (Returned v a) ->
  calls t' !! i = Some (Returned v a) /\ entries t' !! a = Some v.
Proof.
  intros t t' E. split; [by apply returned_stays|].
  destruct (table_run_ok make_id before (Table ∅ [])) as [K _].
  { split; [intros id v0; cbn; by rewrite lookup_empty|constructor]. }
  fold t in K. destruct (table_run_ok make_id later t K) as [_ S]. fold t' in S.
  eapply lookup_weaken; [|exact S]. destruct K as [_ F].
  exact (Forall_lookup_1 _ _ _ _ F E).
Qed.
Print Assumptions interning_stable.

(** A call returns as soon as one of its candidate ids is free or already its
    own. *)
Theorem interning_returns {V} `{EqDecision V} (make_id : V -> N -> N) (m : gmap N V) v n :
  (n < 2 ^ 64)%N ->
  (m !! make_id v n = None \/ m !! make_id v n = Some v) ->
  exists id m', insert_with_collision make_id (S (N.to_nat n)) m v 0 = Some (id, m') /\ m' !! id = Some v.
Proof.
  intros L M. apply insert_alone_returns. exists n. split; [lia|]. split; [lia|]. exact M.
Qed.
Print Assumptions interning_returns.

Example interning_returns_nonvacuous :
  let mk (v s : N) := (if decide (s = 0) then 7 else 100 * v + s)%N in
  ({[7%N := 5%N]} : gmap N N) !! mk 6%N 1%N = None /\
  fst <$> insert_with_collision mk 2 ({[7%N := 5%N]} : gmap N N) 6%N 0%N = Some 601%N.
Proof. vm_compute. done. Qed.

(** The same for names: over any history of calls from an empty table, equal
    names get equal ids, different names different ids, and ids name what was
    interned. *)
Theorem names_injective hash_name l ids ns :
  intern_names hash_name (Names ∅ ∅) l = Some (ids, ns) ->
  length ids = length l /\
  forall i j n m a b s t,
  l !! i = Some (s, n) -> l !! j = Some (t, m) -> ids !! i = Some a -> ids !! j = Some b ->
  (a = b <-> n = m) /\ by_id ns !! a = Some n.
Proof.
  intros E. destruct (intern_names_ok hash_name l (Names ∅ ∅) ids ns) as (K & _ & F); [|done|].
  { intros name id. cbn. by rewrite !lookup_empty. }
  split; [symmetry; by eapply Forall2_length|].
  intros i j n m a b s t Li Lj Ai Bj.
  pose proof (Forall2_lookup_lr _ _ _ _ _ _ F Li Ai) as A.
  pose proof (Forall2_lookup_lr _ _ _ _ _ _ F Lj Bj) as B. cbn in A, B.
  split; [|done]. split; [intros ->; congruence|]. intros ->. by eapply names_unique.
Qed.
Print Assumptions names_injective.

Example names_nonvacuous :
  let h (n : list N) (s : N) := (if decide (s = 0) then 7 else 100 * N.of_nat (length n) + s)%N in
  fst <$> intern_names h (Names ∅ ∅) [(1%nat, [65; 66]); (2%nat, [65]); (1%nat, [65; 66]); (1%nat, [65])]%N = Some [7; 101; 7; 101]%N.
Proof. vm_compute. reflexivity. Qed.

(** Saving a table and loading it gives the same table, so every id keeps its
    meaning. *)
Theorem snapshot_round_trip {V} `{EqDecision V} (m : gmap N V) : restore (snapshot m) ∅ = Some m.
Proof. apply restore_snapshot_ok. Qed.
Print Assumptions snapshot_round_trip.

Example snapshot_nonvacuous :
  snapshot ({[9 := 1; 3 := 4]} : gmap N N)%N = [(3, 4); (9, 1)]%N.
Proof. vm_compute. reflexivity. Qed.
