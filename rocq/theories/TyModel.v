(** Model of type normalisation in types-ts-interned/src/store.rs: the order on
    types, unions and intersections.

    A [TypeId] is modelled by the type it stands for.  This is what interning
    gives (C37, InternProperties.v): equal ids exactly for equal types.  [type_id]
    below is the number behind the id, used by the code to break ties. *)
From Coq Require Import NArith ZArith.
From stdpp Require Import base decidable numbers list.
From Verif Require Import RustStr RustOrd.

(** types-ts-interned/src/kind.rs 123-199 [TypeKind].  The kinds that [union] and
    [intersection] treat specially are spelled out; [TOther d k args] is any other
    kind, with a key [k] for its own data (flags, definition and parameter ids,
    ...) and the types it refers to. *)
Inductive other_kind :=
| KVoid | KNull | KUndefined | KThis | KInfer | KTuple | KArray | KObject | KCallable
| KRef | KTypeParam | KPredicate | KConditional | KMapped | KIndexedAccess | KKeyOf
| KEmptyObject | KIntrinsic.

Inductive ty :=
| TAny | TUnknown | TNever
| TBoolean | TNumber | TString | TBigInt | TSymbol | TUniqueSymbol
| TBoolLit (b : bool)
| TNumLit (n : Z)          (* OrderedFloat: a totally ordered set of numbers *)
| TStrLit (s : list N)     (* the characters of the interned name *)
| TBigLit (z : Z)
| TTemplate (k : N) (args : list ty)
| TUnion (ms : list ty)
| TInter (ms : list ty)
| TOther (d : other_kind) (k : N) (args : list ty).

(** types-ts-interned/src/kind.rs 193-231 [discriminant]. *)
Definition other_discriminant (d : other_kind) : N :=
  match d with
  | KVoid => 3 | KNull => 4 | KUndefined => 5 | KThis => 16 | KInfer => 17 | KTuple => 18
  | KArray => 19 | KObject => 22 | KCallable => 23 | KRef => 24 | KTypeParam => 25
  | KPredicate => 26 | KConditional => 27 | KMapped => 28 | KIndexedAccess => 30
  | KKeyOf => 31 | KEmptyObject => 32 | KIntrinsic => 33
  end%N.
Definition discriminant (t : ty) : N :=
  match t with
  | TAny => 0 | TUnknown => 1 | TNever => 2
  | TBoolean => 6 | TNumber => 7 | TString => 8 | TBigInt => 9 | TSymbol => 10
  | TUniqueSymbol => 11
  | TBoolLit _ => 12 | TNumLit _ => 13 | TStrLit _ => 14 | TBigLit _ => 15
  | TUnion _ => 20 | TInter _ => 21
  | TTemplate _ _ => 29
  | TOther d _ _ => other_discriminant d
  end%N.

(** [Ordering::then]. *)
Definition cthen (c d : comparison) : comparison := match c with Eq => d | r => r end.

Section order.
Context (type_id : ty -> N).

(** types-ts-interned/src/store.rs 972-1151 [type_cmp].  Equal types are Equal;
    then discriminants, then the kind's own comparison (slices by
    [compare_slices], 1312-1327: element by element, then length), then the id.
    Simplification: the kinds under [TOther] and template literals compare their
    own data first and the types they refer to after it; in the code some kinds
    mix the two, or compare contents of shapes and signatures. *)
Fixpoint type_cmp (a b : ty) {struct a} : comparison :=
  let slices := fix slices (l m : list ty) {struct l} : comparison :=
    match l, m with
    | [], [] => Eq
    | [], _ :: _ => Lt
    | _ :: _, [] => Gt
    | x :: l, y :: m => cthen (type_cmp x y) (slices l m)
    end in
  if N.eqb (type_id a) (type_id b) then Eq
  else
    cthen (N.compare (discriminant a) (discriminant b))
      (cthen
         match a, b with
         | TBoolLit x, TBoolLit y => bool_cmp x y
         | TNumLit x, TNumLit y => Z.compare x y
         | TStrLit x, TStrLit y => lex_cmp x y
         | TBigLit x, TBigLit y => Z.compare x y
         | TUnion l, TUnion m => slices l m
         | TInter l, TInter m => slices l m
         | TTemplate j l, TTemplate k m => cthen (N.compare j k) (slices l m)
         | TOther _ j l, TOther _ k m => cthen (N.compare j k) (slices l m)
         | _, _ => Eq
         end
         (N.compare (type_id a) (type_id b))).

(** [Vec::dedup] (Rust core): drop elements equal to the one before. *)
Fixpoint dedup_from (x : ty) (l : list ty) : list ty :=
  match l with
  | [] => []
  | y :: l => if N.eqb (type_id x) (type_id y) then dedup_from x l else y :: dedup_from y l
  end.
Definition dedup (l : list ty) : list ty :=
  match l with [] => [] | x :: l => x :: dedup_from x l end.

(** types-ts-interned/src/store.rs 967-970 [sort_and_dedup]. *)
Definition sort_and_dedup (l : list ty) : list ty := dedup (sort_by type_cmp l).

Definition is_any t := match t with TAny => true | _ => false end.
Definition is_unknown t := match t with TUnknown => true | _ => false end.
Definition is_never t := match t with TNever => true | _ => false end.
Definition is_boolean t := match t with TBoolean => true | _ => false end.
Definition is_number t := match t with TNumber => true | _ => false end.
Definition is_string t := match t with TString => true | _ => false end.
Definition is_bigint t := match t with TBigInt => true | _ => false end.
Definition is_symbol t := match t with TSymbol => true | _ => false end.
Definition is_bool_lit t := match t with TBoolLit _ => true | _ => false end.
Definition is_num_lit t := match t with TNumLit _ => true | _ => false end.
Definition is_str_lit t := match t with TStrLit _ => true | _ => false end.
Definition is_big_lit t := match t with TBigLit _ => true | _ => false end.
Definition is_template t := match t with TTemplate _ _ => true | _ => false end.
Definition is_unique_symbol t := match t with TUniqueSymbol => true | _ => false end.

(** types-ts-interned/src/store.rs 773-784: the members of a union, nested unions
    opened. *)
Definition union_members (ms : list ty) : list ty :=
  ms ≫= fun m => match m with
    | TAny | TUnknown | TNever => []
    | TUnion inner => inner
    | _ => [m]
    end.

(** types-ts-interned/src/store.rs 807-815: what [retain] keeps. *)
Definition union_keeps (flat : list ty) (t : ty) : bool :=
  match t with
  | TBoolLit _ => negb (existsb is_boolean flat)
  | TNumLit _ => negb (existsb is_number flat)
  | TStrLit _ => negb (existsb is_string flat)
  | TTemplate _ _ => negb (existsb is_string flat)
  | TBigLit _ => negb (existsb is_bigint flat)
  | TUniqueSymbol => negb (existsb is_symbol flat)
  | _ => true
  end.

(** types-ts-interned/src/store.rs 817-829: the end of [union]. *)
Definition close_union (flat : list ty) : ty :=
  match flat with
  | [] => TNever
  | [t] => t
  | [TBoolLit _; TBoolLit _] => TBoolean
  | _ => TUnion flat
  end.

(** types-ts-interned/src/store.rs 770-830 [union], on members that [canon] has
    already been applied to. *)
Definition union_of_canonical (ms : list ty) : ty :=
  if existsb is_any ms then TAny
  else if existsb is_unknown ms then TUnknown
  else
    let flat := union_members ms in
    close_union (sort_and_dedup (List.filter (union_keeps flat) flat)).

(** types-ts-interned/src/store.rs 836-844. *)
Definition inter_members (ms : list ty) : list ty :=
  ms ≫= fun m => match m with
    | TAny | TUnknown | TNever => []
    | TInter inner => inner
    | _ => [m]
    end.

(** types-ts-interned/src/store.rs 869-886: the [retain] calls. *)
Definition inter_keeps (flat : list ty) (t : ty) : bool :=
  negb (existsb is_bool_lit flat && is_boolean t) &&
  negb (existsb is_num_lit flat && is_number t) &&
  negb (existsb is_str_lit flat && is_string t) &&
  negb (existsb is_big_lit flat && is_bigint t) &&
  negb (existsb is_template flat && is_string t) &&
  negb (existsb is_unique_symbol flat && is_symbol t).

(** types-ts-interned/src/store.rs 898-962: the families of primitive values met so
    far, as bits, and the literal of each family. *)
Record families := Families {
  bits : N;
  bool_literal : option ty; number_literal : option ty;
  string_literal : option ty; bigint_literal : option ty;
}.
Definition no_families : families := Families 0 None None None None.

(** [if let Some(prev) = lit { if prev != *member { return never } } else { ... }] *)
Definition same_literal (prev : option ty) (t : ty) : bool :=
  match prev with Some p => N.eqb (type_id p) (type_id t) | None => true end.
Definition set_literal (prev : option ty) (t : ty) : option ty :=
  match prev with Some p => Some p | None => Some t end.

(** One iteration of the loop; [None] is [return never]. *)
Definition family_step (f : families) (t : ty) : option families :=
  let '(Families bs bl nl sl gl) := f in
  f ← match t with
      | TString | TTemplate _ _ => Some (Families (N.lor bs 1) bl nl sl gl)
      | TStrLit _ =>
          if same_literal sl t then Some (Families (N.lor bs 1) bl nl (set_literal sl t) gl) else None
      | TNumber => Some (Families (N.lor bs 2) bl nl sl gl)
      | TNumLit _ =>
          if same_literal nl t then Some (Families (N.lor bs 2) bl (set_literal nl t) sl gl) else None
      | TBoolean => Some (Families (N.lor bs 4) bl nl sl gl)
      | TBoolLit _ =>
          if same_literal bl t then Some (Families (N.lor bs 4) (set_literal bl t) nl sl gl) else None
      | TBigInt => Some (Families (N.lor bs 8) bl nl sl gl)
      | TBigLit _ =>
          if same_literal gl t then Some (Families (N.lor bs 8) bl nl sl (set_literal gl t)) else None
      | TSymbol | TUniqueSymbol => Some (Families (N.lor bs 16) bl nl sl gl)
      | _ => Some f
      end;
  if N.eqb (N.land (bits f) (bits f - 1)) 0 then Some f else None.
Fixpoint family_loop (f : families) (l : list ty) : option families :=
  match l with
  | [] => Some f
  | t :: l => f ← family_step f t; family_loop f l
  end.

(** types-ts-interned/src/store.rs 832-965 [intersection], on members that [canon]
    has already been applied to. *)
Definition inter_of_canonical (ms : list ty) : ty :=
  if existsb is_never ms then TNever
  else if existsb is_any ms then TAny
  else
    let flat := inter_members ms in
    let flat := List.filter (inter_keeps flat) flat in
    match flat with
    | [] => TUnknown
    | _ =>
        match sort_and_dedup flat with
        | [t] => t
        | flat =>
            match family_loop no_families flat with
            | None => TNever
            | Some _ => TInter flat
            end
        end
    end.

(** types-ts-interned/src/store.rs 691-697 [canon]. *)
Fixpoint canon (t : ty) : ty :=
  match t with
  | TUnion ms => union_of_canonical (List.map canon ms)
  | TInter ms => inter_of_canonical (List.map canon ms)
  | _ => t
  end.

(** types-ts-interned/src/store.rs 770 [union], 832 [intersection]. *)
Definition union (ms : list ty) : ty := union_of_canonical (List.map canon ms).
Definition intersection (ms : list ty) : ty := inter_of_canonical (List.map canon ms).

(** types-ts-interned/src/store.rs 682-689, 699-768 [intern_type] on kinds other
    than unions and intersections: the types referred to are made canonical. *)
Definition intern_other (d : other_kind) (k : N) (args : list ty) : ty := TOther d k (List.map canon args).
Definition intern_template (k : N) (args : list ty) : ty := TTemplate k (List.map canon args).
End order.
