(** Property keys made from integers. *)
From stdpp Require Import base list numbers.
From Coq Require Import NArith.
From Verif Require Import VmBase.

Open Scope N_scope.

(** webidl/src/to_js.rs 75-81: the digit loop of [index_to_property_key], filling a
    20-element buffer from its end. Fuel is the room left in the buffer; [None] is the
    index-out-of-bounds panic. *)
Fixpoint index_digits (fuel : nat) (n : N) (acc : js_string) : option js_string :=
  if n =? 0 then Some acc
  else match fuel with
       | O => None
       | S fuel => index_digits fuel (n / 10) (48 + n mod 10 :: acc)
       end.
(** webidl/src/to_js.rs 63-88 [index_to_property_key]: the code units handed to the
    runtime ([usize] is 64 bits wide here; allocating the string is the heap model's
    [alloc_string]). *)
Definition index_key_units (n : N) : option js_string :=
  if n =? 0 then Some [48] else index_digits 20 n [].
