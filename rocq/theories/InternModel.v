(** Model of the interning tables of types-ts-interned/src/store.rs: hash-derived
    ids with salted retries, used from several threads, and snapshots. *)
From Coq Require Import NArith.
From stdpp Require Import base decidable numbers gmap list.
From Verif Require Import RustStr.
Local Open Scope N_scope.

(** [u64::wrapping_add(1)] on the salt (Rust core). *)
Definition next_salt (s : N) : N := (s + 1) mod 2 ^ 64.

Section intern.
(** The values of one table (types, shapes, objects or signatures), and
    [make_id]: the fingerprint of a value under a salt
    (types-ts-interned/src/store.rs 255-273).  Nothing is assumed about it. *)
Context {V : Type} `{EqDecision V} (make_id : V -> N -> N).

(** One turn of the loop of [insert_with_collision]
    (types-ts-interned/src/store.rs 317-333): the table's entry for the candidate
    id is inspected and filled under the entry's lock, so a turn is atomic. *)
Inductive turn := TReturn (id : N) | TRetry (salt : N).
Definition insert_turn (m : gmap N V) (v : V) (salt : N) : turn * gmap N V :=
  let id := make_id v salt in
  match m !! id with
  | Some w => if decide (w = v) then (TReturn id, m) else (TRetry (next_salt salt), m)
  | None => (TReturn id, <[id := v]> m)
  end.

(** The whole call, alone on the table; [None] when it is still retrying after
    [turns] turns. *)
Fixpoint insert_with_collision (turns : nat) (m : gmap N V) (v : V) (salt : N) : option (N * gmap N V) :=
  match turns with
  | O => None
  | S turns =>
      match insert_turn m v salt with
      | (TReturn id, m) => Some (id, m)
      | (TRetry salt, m) => insert_with_collision turns m v salt
      end
  end.

(** Several threads on one table: calls start, and running calls take turns in
    any order. *)
Inductive call := Running (v : V) (salt : N) | Returned (v : V) (id : N).
Record table := Table { entries : gmap N V; calls : list call }.
Inductive event := Start (v : V) | Turn (i : nat).

Definition table_step (t : table) (e : event) : table :=
  match e with
  | Start v => Table (entries t) (calls t ++ [Running v 0])
  | Turn i =>
      match calls t !! i with
      | Some (Running v salt) =>
          match insert_turn (entries t) v salt with
          | (TReturn id, m) => Table m (<[i := Returned v id]> (calls t))
          | (TRetry salt, m) => Table m (<[i := Running v salt]> (calls t))
          end
      | _ => t
      end
  end.
Definition table_run (t : table) (es : list event) : table := foldl table_step t es.

(** types-ts-interned/src/store.rs 336-354 [insert_with_expected_id]; [None] is
    the panic. *)
Definition insert_with_expected_id (m : gmap N V) (id : N) (v : V) : option (gmap N V) :=
  match m !! id with
  | Some w => if decide (w = v) then Some m else None
  | None => Some (<[id := v]> m)
  end.

(** types-ts-interned/src/store.rs 388-394: one table of [snapshot], its entries
    in the order of their ids. *)
Definition snapshot (m : gmap N V) : list (N * V) :=
  sort_by (fun a b => N.compare a.1 b.1) (map_to_list m).
(** types-ts-interned/src/store.rs 467-469: one table of [from_snapshot_inner]. *)
Fixpoint restore (l : list (N * V)) (m : gmap N V) : option (gmap N V) :=
  match l with
  | [] => Some m
  | (id, v) :: l => m ← insert_with_expected_id m id v; restore l m
  end.
End intern.
Arguments Running {V}. Arguments Returned {V}. Arguments Start {V}. Arguments Turn {V}. Arguments Table {V}.
Arguments entries {V}. Arguments calls {V}.

(** types-ts-interned/src/store.rs 64-135 [NameInterner] (without the
    [strict-determinism] feature, which panics on a collision instead). *)
Record names := Names { by_name : gmap (list N) N; by_id : gmap N (list N) }.

Section names.
Context (hash_name : list N -> N -> N).

Fixpoint intern_name_loop (turns : nat) (ns : names) (name : list N) (salt : N) : option (N * names) :=
  match turns with
  | O => None
  | S turns =>
      let id := hash_name name salt in
      match by_id ns !! id with
      | None => Some (id, Names (<[name := id]> (by_name ns)) (<[id := name]> (by_id ns)))
      | Some existing =>
          if decide (existing = name)
          then Some (id, Names (<[name := id]> (by_name ns)) (by_id ns))
          else intern_name_loop turns ns name (next_salt salt)
      end
  end.
Definition intern_name (turns : nat) (ns : names) (name : list N) : option (N * names) :=
  match by_name ns !! name with
  | Some id => Some (id, ns)
  | None => intern_name_loop turns ns name 0
  end.

(** A history of calls; each is given as many turns as it likes. *)
Fixpoint intern_names (ns : names) (l : list (nat * list N)) : option (list N * names) :=
  match l with
  | [] => Some ([], ns)
  | (turns, name) :: l =>
      '(id, ns) ← intern_name turns ns name;
      '(ids, ns) ← intern_names ns l;
      Some (id :: ids, ns)
  end.
End names.
