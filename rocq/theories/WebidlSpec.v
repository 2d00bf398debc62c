(** What WebIDL conversions promise, without reference to how they are done. *)
From stdpp Require Import base decidable numbers list.
From Verif Require Import WebidlModel.

(** [m] is one of the types a union is made of, at any depth of nesting. *)
Inductive member (m : idl) : idl -> Prop :=
  | member_here : (forall ts, m <> TUnion ts) -> member m m
  | member_union t ts : t ∈ ts -> member m t -> member m (TUnion ts).

(** Values of a type, where no sequence has more than [k] elements. *)
Inductive has_type (k : nat) : idl -> ival -> Prop :=
  | has_undef : has_type k TUndef VUndef
  | has_bool b : has_type k TBool (VBool b)
  | has_double n : has_type k TDouble (VDouble n)
  | has_string n : has_type k TString (VString n)
  | has_object n : has_type k TObject (VObject (JObj n))
  | has_seq t vs : length vs <= k -> Forall (has_type k t) vs -> has_type k (TSeq t) (VSeq vs)
  | has_async t n m b : has_type k (TAsync t) (VAsync (JObj n) m b)
  | has_frozen t n : has_type k (TFrozen t) (VFrozen (JObj n))
  | has_null t : has_type k (TNullable t) VNull
  | has_nullable t v : has_type k t v -> has_type k (TNullable t) v
  | has_union ts m v : member m (TUnion ts) -> has_type k m v ->
      has_type k (TUnion ts) (VUnion m v).

(** The number of arguments that count: those given, up to the longest
    overload. *)
Definition effective_count (os : list overload) (args : list jsval) (n : nat) : Prop :=
  n <= length args /\
  (forall o, o ∈ os -> length (o_types o) <= n \/ n = length args) /\
  (n = 0 \/ exists o, o ∈ os /\ n <= length (o_types o)).

(** The value handed over for argument [i] of overload [o]. *)
Definition good_value (k : nat) (o : overload) (args : list jsval) (i : nat) (x : arg)
  : Prop :=
  match x with
  | Missing => o_optional o !! i = Some true /\ args !! i = Some JUndef
  | Value v => exists t, o_types o !! i = Some t /\ has_type k t v
  end.

(** WebIDL's requirement on overloads with the same number of arguments: up to
    the position that tells them apart they agree. *)
Definition agree_before (os : list overload) : Prop :=
  forall n i, let s := List.filter (fun o => length (o_types o) =? n) os in
  pairwise distinguishable (map (type_at i) s) = false ->
  forall o1 o2, o1 ∈ s -> o2 ∈ s ->
  o_types o1 !! i = o_types o2 !! i /\ o_optional o1 !! i = o_optional o2 !! i.

(** How often a method of an argument itself (not of the elements of a sequence
    in it) was looked up. *)
Definition fetches (i : nat) (s : symbol) (l : log) : nat :=
  length (List.filter
    (fun '((i', depth), e) =>
       (i' =? i) && (depth =? 0) &&
       match e with AskMethod _ s' => bool_decide (s' = s) | _ => false end) l).

(** Types with at most one kind of iterable among their members. *)
Fixpoint single (t : idl) : bool :=
  match t with
  | TNullable t => single t
  | TUnion _ =>
      let types := flattened t in
      (if existsb is_async types then negb (existsb is_seq types || existsb is_frozen types)
       else negb (existsb is_seq types && existsb is_frozen types))
  | _ => true
  end.

Definition iterable (t : idl) : bool := contains_async t || contains_seq t || contains_frozen t.

(** Types that are an iterable or have none in them. *)
Definition direct (t : idl) : bool := is_async t || is_seq t || is_frozen t || negb (iterable t).

(** Overload sets for which each method is looked up once. *)
Definition fetch_safe (os : list overload) : Prop :=
  (forall o t, o ∈ os -> t ∈ o_types o -> single t = true) /\
  (forall n, let s := List.filter (fun o => length (o_types o) =? n) os in
   1 < length s ->
   (forall o t, o ∈ s -> t ∈ o_types o -> direct t = true) /\
   (forall o1 o2 i t1 t2, o1 ∈ s -> o2 ∈ s ->
      o_types o1 !! i = Some t1 -> o_types o2 !! i = Some t2 ->
      is_async t1 = true -> is_seq t2 || is_frozen t2 = false)).

(** Types without [T?]. *)
Fixpoint no_nullable (t : idl) : bool :=
  match t with
  | TSeq t | TAsync t | TFrozen t => no_nullable t
  | TUnion ts => forallb no_nullable ts
  | TNullable _ => false
  | _ => true
  end.
