(** C11, C12: property keys. *)
From stdpp Require Import base decidable list numbers sorting.
From Coq Require Import NArith.
From Verif Require Import VmBase HeapModel HeapObjModel HeapSpec HeapHistory HeapApiProofs KeyModel KeySpec KeyProofs.

Open Scope N_scope.

(** ** C12: a key is an array index exactly when it is the canonical decimal
    numeral of an integer below 2^32 - 1. *)
Theorem array_index_exact : forall h k n, array_index h k = Some n <-> index_key h k n.
Proof. exact array_index_spec. Qed.
Print Assumptions array_index_exact.

(** A numeral denotes one integer only. *)
Theorem decimal_units_injective : forall n m, decimal_units n = decimal_units m -> n = m.
Proof. exact decimal_inj. Qed.
Print Assumptions decimal_units_injective.

(** The key built from an integer is its canonical numeral, so it is recognised as
    that index (and as no index from 2^32 - 1 on). *)
Theorem index_key_round_trip : forall n, n < 2 ^ 64 ->
  exists units, index_key_units n = Some units /\ units = decimal_units n /\
    forall h s, live_as h s (HString units) ->
      array_index h (PKString s) = if n <? 2 ^ 32 - 1 then Some n else None.
Proof.
  intros n Hn. exists (decimal_units n). split; [by apply index_key_units_spec|]. split; [done|].
  intros h s Hs. destruct (N.ltb_spec n (2 ^ 32 - 1)) as [L|L].
  - apply array_index_spec. by exists s.
  - destruct (array_index h (PKString s)) as [m|] eqn:E; [|done]. apply array_index_spec in E as (s' & [= <-] & Hs' & Hm).
    apply get_string_live in Hs, Hs'. rewrite Hs in Hs'. injection Hs' as Hs'. apply decimal_inj in Hs'. subst m.
    by apply N.lt_nge in Hm.
Qed.
Print Assumptions index_key_round_trip.

(** "4294967294" is an index; "4294967295", "01" and "" are not. *)
Example array_index_cases :
  let h := run [OpAllocString [52; 50; 57; 52; 57; 54; 55; 50; 57; 52]; OpAllocString [52; 50; 57; 52; 57; 54; 55; 50; 57; 53];
                OpAllocString [48; 49]; OpAllocString []] demo_heap in
  map (fun i => array_index h (PKString (HId i 0))) [0; 1; 2; 3]%nat = [Some 4294967294; None; None; None].
Proof. vm_compute. reflexivity. Qed.

(** ** C11: the own keys are the table's keys, each once, in specification order. *)
Theorem own_keys_in_order : forall h o ks, own_property_keys h o = Ok ks ->
  exists b, get_object_base h o = Ok b /\ own_key_order h (map pe_key (ob_properties b)) ks.
Proof.
  intros h o ks. unfold own_property_keys. destruct (get_object_base h o) as [b|e|]; [|discriminate..].
  intros [= <-]. exists b. split; [done|]. apply keys_of_props_order.
Qed.
Print Assumptions own_keys_in_order.

(** Keys inserted as "b", "10", symbol, "9", "a" come out as "9", "10", "b", "a", symbol. *)
Example own_keys_case :
  let ks := [PKString (HId 1 0); PKString (HId 2 0); PKSymbol (HId 5 0); PKString (HId 3 0); PKString (HId 4 0)] in
  let h := run ([OpAllocObject; OpAllocString [98]; OpAllocString [49; 48]; OpAllocString [57]; OpAllocString [97]; OpNewSymbol None]
                ++ map (fun k => OpDefineOwn (HId 0 0) k (value_patch VNull)) ks) demo_heap in
  own_property_keys h (HId 0 0) = Ok [PKString (HId 3 0); PKString (HId 2 0); PKString (HId 1 0); PKString (HId 4 0); PKSymbol (HId 5 0)].
Proof. vm_compute. reflexivity. Qed.
