(** Stores used as examples and counterexamples. *)
From Coq Require Import ZArith.
From stdpp Require Import base decidable numbers list.
From Verif Require Import RelateModel RelateSpec.

Local Open Scope N_scope.

(** Strict options, and the limits a context has by default (relate.rs 108-129). *)
Definition strict_options : options := Options true true false false.
Definition default_limits : limits := Limits None 64 128 64.

(** A store that lists its types; type 0 is [any], types not listed are [any]. *)
Definition listed (ks : list kind) (norm opt : tid -> tid) : env :=
  Env (fun t => nth (N.to_nat t) ks KAny) norm opt (fun t => t) 0 (fun _ => None)
    (fun _ => None) (fun _ => 0) strict_options default_limits.
Definition same (t : tid) : tid := t.

Definition field (name ty : N) : prop := Prop_ (PStr name) ty false false None false None None.
Definition field_opt (name ty : N) : prop := Prop_ (PStr name) ty true false None false None None.
Definition record (ps : list prop) : kind := KObject (Shape ps [] [] []).
Definition func (ps : list tid) (r : tid) : kind :=
  KCallable [Signature 0 None (map (fun t => Param t false false) ps) r].

Definition plain_mode : mode := Mode false false.
Definition is_assignable (s d : tid) : key := Key s d Assignable plain_mode.
Definition is_comparable (s d : tid) : key := Key s d Comparable plain_mode.
Definition is_strict_subtype (s d : tid) : key := Key s d StrictSubtype plain_mode.

(** An unbounded cache. *)
Definition keep_all (l : list (key * bool)) : list (key * bool) := l.

(** ** A store without recursive types
    1 string, 2 number, 3 undefined, 4 {a: number, b?: string},
    5 string | undefined, 6 number[], 7 a reference to 4, 8 string | number,
    9 a literal string, 10 {a: string | number}, 11 (x: string | number) => number,
    12 (x: string) => string | number. *)
Definition flat_kinds : list kind :=
  [KAny; KString; KNumber; KUndefined;
   record [field 0 2; field_opt 1 1]; KUnion [1; 3]; KArray 2 false; KRef (Some 4);
   KUnion [1; 2]; KStrLit 5; record [field 0 8]; func [8] 2; func [1] 8].
Definition flat : env :=
  listed flat_kinds (fun t => if t =? 7 then 4 else t) (fun t => if t =? 1 then 5 else t).
Definition flat_depth (t : tid) : nat :=
  nth (N.to_nat t) [0; 0; 0; 0; 2; 1; 1; 3; 1; 0; 2; 2; 2]%nat 0%nat.

(** ** Recursive types
    3 A = {n: C, v: string}, 4 B = {n: D, v: number}, 5 C = {up: A}, 6 D = {up: B},
    7 {a: A, c: C}, 8 {a: B}, 9 {c: D}, 10 {a: B} | {c: D}. *)
Definition loop_kinds : list kind :=
  [KAny; KString; KNumber; record [field 0 5; field 1 1]; record [field 0 6; field 1 2];
   record [field 2 3]; record [field 2 4]; record [field 3 3; field 4 5];
   record [field 3 4]; record [field 4 6]; KUnion [8; 9]].
Definition loop : env := listed loop_kinds same same.

(** ** Nested arrays
    1 string, 2 number, then arrays: 3 string[], 4 number[], 5 string[][], ... *)
Definition tower_kinds (levels : nat) : list kind :=
  KAny :: KString :: KNumber ::
    flat_map (fun i => [KArray (2 * N.of_nat i + 1) false; KArray (2 * N.of_nat i + 2) false])
      (seq 0 levels).
Definition tower : env := listed (tower_kinds 40) same same.

(** ** Types outside [plain]
    1 string, 2 number, 3 undefined, 4 a type parameter T, 5 T | undefined,
    6 a conditional type of string and number, 7 that or undefined,
    8 the type {}, 9 {} | undefined, 10 string | undefined, 11 Uppercase<string>,
    12 never, 13 boolean. *)
Definition odd_kinds : list kind :=
  [KAny; KString; KNumber; KUndefined; KParam 0; KUnion [4; 3]; KCond 1 2; KUnion [6; 3];
   KEmpty; KUnion [8; 3]; KUnion [1; 3]; KMapping; KNever; KBoolean].
Definition odd : env := listed odd_kinds same same.

(** ** Tuples and index signatures
    1 string, 2 number, 3 undefined, 4 boolean, 5 number | undefined,
    6 [string, number, boolean], 7 [string, number?], 8 [string],
    9 string[], 10 [...string[]], 11 [string, string], 12 number[],
    13 {foo: string, [n: number]: number}, 14 {a: number}, 15 {[k: symbol]: string},
    16 their intersection, 17 {[k: string]: number}, 18 symbol. *)
Definition element (t : tid) : elem := Elem t false false false.
Definition tuple_kinds : list kind :=
  [KAny; KString; KNumber; KUndefined; KBoolean; KUnion [2; 3];
   KTuple [element 1; element 2; element 4]; KTuple [element 1; Elem 2 true false false];
   KTuple [element 1]; KArray 1 false; KTuple [Elem 9 false true false];
   KTuple [element 1; element 1]; KArray 2 false;
   KObject (Shape [field 0 1] [] [] [Indexer 2 2 false]);
   record [field 1 2]; KObject (Shape [] [] [] [Indexer 18 1 false]);
   KInter [14; 15]; KObject (Shape [] [] [] [Indexer 1 2 false]); KSymbol].
Definition tuples : env :=
  Env (fun t => nth (N.to_nat t) tuple_kinds KAny) same (fun t => if t =? 2 then 5 else t)
    (fun t => if t =? 9 then 1 else t) 0
    (fun ms => if decide (ms = [14; 15])
               then Some (Shape [field 1 2] [] [] [Indexer 18 1 false]) else None)
    (fun _ => None) (fun _ => 0) strict_options default_limits.

(** How many elements a value of a tuple type without a rest element may have. *)
Definition tuple_length (es : list elem) (n : nat) : Prop :=
  (length (filter (fun e => e_optional e = false) es) <= n <= length es)%nat.
