(** C15: the [Symbol.for] registry is an injective map from strings to symbols,
    for every history of calls and collections, and never forgets an entry.
    A history is disciplined when each call's handle arguments are live; the bound on
    [h_gc_runs] says fewer than 2^32 collections have run (see C04). *)
From stdpp Require Import base decidable list numbers sets.
From Coq Require Import NArith ZArith Lia.
From Verif Require Import VmBase HeapModel HeapObjModel HeapSpec HeapInvProofs HeapHistory HeapHistoryProofs HeapApiProofs RegistryProofs.

Open Scope N_scope.

(** A later call with an equal string returns the same symbol, always succeeds and
    changes nothing. *)
Theorem symbol_for_same h0 k1 h1 s cs k2 :
  disciplined_state h0 -> live h0 k1 -> symbol_for k1 h0 = (h1, Ok s) ->
  disciplined_history cs h1 -> h_gc_runs (run cs h1) < two32 ->
  get_string (run cs h1) k2 = get_string h0 k1 ->
  symbol_for k2 (run cs h1) = (run cs h1, Ok s).
Proof.
  intros D0 Hk E1 D Hr Hs. destruct (registered_after h0 k1 h1 s cs D0 Hk E1 D Hr) as (H1 & H2 & N2 & u & R & Hu & K & Hin).
  rewrite Hu in Hs. unfold symbol_for, mbind, mread. rewrite Hs.
  destruct (registry_get_spec _ R u K) as [(y & -> & Hy)|(_ & Hn)].
  - by rewrite (reg_fun _ R u s y K Hin Hy).
  - exfalso. apply Hn. apply elem_of_list_fmap. by exists (u, s).
Qed.
Print Assumptions symbol_for_same.

(** A later call with a different string returns a different symbol. *)
Theorem symbol_for_different h0 k1 h1 s1 cs k2 h3 s2 :
  disciplined_state h0 -> live h0 k1 -> symbol_for k1 h0 = (h1, Ok s1) ->
  disciplined_history cs h1 -> live (run cs h1) k2 -> symbol_for k2 (run cs h1) = (h3, Ok s2) -> h_gc_runs h3 < two32 ->
  get_string (run cs h1) k2 <> get_string h0 k1 -> s2 <> s1.
Proof.
  intros D0 Hk E1 D Hk2 E2 Hr Hs ->. assert (H1 : heap_ok h1) by (eapply disciplined_ok, symbol_for_state; eauto).
  assert (H2 : heap_ok (run cs h1)) by (by destruct (good_run cs h1 H1)).
  pose proof (symbol_for_runs _ _ _ _ H2 E2) as U.
  destruct (registered_after h0 k1 h1 s1 cs D0 Hk E1 D) as (_ & _ & N2 & u & R & Hu & K & Hin); [lia|].
  destruct (symbol_for_reg k2 (run cs h1) h3 (Ok s1) R) as (R' & K' & B & P); auto; [lia|].
  destruct (P s1 eq_refl) as (v & Hv & Hin2). apply Hs. rewrite Hu, Hv. f_equal. eapply reg_inj; eauto.
Qed.
Print Assumptions symbol_for_different.

(** A registered symbol is never collected, whatever is or is not rooted: it stays a
    symbol whose description is the key. *)
Theorem symbol_for_survives h0 k h1 s cs :
  disciplined_state h0 -> live h0 k -> symbol_for k h0 = (h1, Ok s) ->
  disciplined_history cs h1 -> h_gc_runs (run cs h1) < two32 ->
  exists n d, live_as (run cs h1) s (HSymbol n (Some d)) /\ get_string (run cs h1) d = get_string h0 k.
Proof.
  intros D0 Hk E1 D Hr. destruct (registered_after h0 k h1 s cs D0 Hk E1 D Hr) as (_ & _ & _ & u & R & Hu & K & Hin).
  destruct (reg_live _ R u s K Hin) as (n & d & A & B). exists n, d. split; [done|congruence].
Qed.
Print Assumptions symbol_for_survives.

(** A symbol made by [Symbol()] is never one the registry handed out before. *)
Theorem new_symbol_not_registered h0 k h1 s cs d h3 y :
  disciplined_state h0 -> live h0 k -> symbol_for k h0 = (h1, Ok s) -> disciplined_history cs h1 ->
  (forall x, d = Some x -> live (run cs h1) x) -> new_symbol d (run cs h1) = (h3, Ok y) -> h_gc_runs h3 < two32 -> y <> s.
Proof.
  intros D0 Hk E1 D Hd E3 Hr ->. assert (H1 : heap_ok h1) by (eapply disciplined_ok, symbol_for_state; eauto).
  assert (H2 : heap_ok (run cs h1)) by (by destruct (good_run cs h1 H1)).
  destruct (HeapObjProofs.good_new_symbol d _ _ _ H2 E3) as (H3 & _ & V). pose proof (ev_runs _ _ V).
  destruct (registered_after h0 k h1 s cs D0 Hk E1 D) as (_ & _ & N2 & u & R & Hu & K & Hin); [lia|].
  destruct (reg_live _ R u s K Hin) as (n & dd & A & B).
  refine (newer_not_live _ _ s H2 V (allocates_newer (OpNewSymbol d) _ _ _ _ eq_refl H2 E3) _ _ (ex_intro _ _ A)); [|lia].
  apply (allocates_safe (OpNewSymbol d) _ _ _ _ eq_refl H2 N2); [|done]. intros x Hx. apply Hd. destruct d; cbn in Hx; set_solver.
Qed.
Print Assumptions new_symbol_not_registered.

(** The hypotheses are met: "b" is registered, then "a" and "bc" on either side of
    it, the collector runs before every allocation and twice more, and a second string "b" and a string "z" are made. *)
Example symbol_for_example : exists h3 s3,
  let h2 := run rg_hist rg_h2 in
  disciplined_state rg_h1 /\ live rg_h1 rg_k /\ symbol_for rg_k rg_h1 = (rg_h2, Ok rg_s) /\
  disciplined_history rg_hist rg_h2 /\ h_gc_runs h2 = 28 /\ live h2 (HId 6 0) /\ live h2 (HId 7 0) /\
  get_string h2 (HId 6 0) = get_string rg_h1 rg_k /\ symbol_for (HId 6 0) h2 = (h2, Ok rg_s) /\
  get_string h2 (HId 7 0) <> get_string rg_h1 rg_k /\ symbol_for (HId 7 0) h2 = (h3, Ok s3) /\ s3 <> rg_s /\ h_gc_runs h3 < two32.
Proof.
  eexists _, _. cbv zeta. split; [apply rg_disciplined|]. split; [apply rg_live|]. split; [apply rg_first|]. split; [apply rg_history|].
  split; [vm_compute; reflexivity|]. split; [apply liveb_live; vm_compute; reflexivity|]. split; [apply liveb_live; vm_compute; reflexivity|].
  split; [vm_compute; reflexivity|]. split; [vm_compute; reflexivity|]. split; [vm_compute; discriminate|].
  split; [vm_compute; reflexivity|]. split; [vm_compute; discriminate|]. vm_compute. reflexivity.
Qed.
