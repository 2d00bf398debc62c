(** WebIDL conversions and overload resolution: the crate [webidl].

    The JavaScript engine behind the trait [JsRuntime] is a record of arbitrary
    functions of everything that has been asked of it so far, so that getters,
    iterators and conversions may answer differently each time.  Every request
    that can run JavaScript is written to a log, tagged with the argument it is
    made for and with the number of sequences around the value it is about. *)
From stdpp Require Import base decidable numbers list.

(** A JavaScript value: [R::Value] with the type checks of webidl/src/lib.rs
    137-162.  Strings, symbols, numbers and objects are names. *)
Inductive jsval : Type :=
  | JUndef
  | JNull
  | JBool (b : bool)
  | JNum (n : N)
  | JStr (n : N)
  | JSym (n : N)
  | JObj (n : N).
#[global] Instance jsval_eq_dec : EqDecision jsval.
Proof. solve_decision. Defined.

(** webidl/src/types.rs 2-14, [IdlType]. *)
Inductive idl : Type :=
  | TUndef
  | TBool
  | TDouble
  | TString
  | TObject
  | TSeq (t : idl)
  | TAsync (t : idl)
  | TFrozen (t : idl)
  | TUnion (ts : list idl)
  | TNullable (t : idl).

(** webidl/src/types.rs 97-128, [IdlValue], [AsyncSequence] (its kind is [true]
    for [Async]), [UnionValue]. *)
Inductive ival : Type :=
  | VUndef
  | VNull
  | VBool (b : bool)
  | VDouble (n : N)
  | VString (n : N)
  | VObject (v : jsval)
  | VSeq (vs : list ival)
  | VAsync (object method : jsval) (async : bool)
  | VFrozen (v : jsval)
  | VUnion (t : idl) (v : ival).

(** webidl/src/lib.rs 88-91, [WellKnownSymbol]. *)
Inductive symbol : Type := SIterator | SAsyncIterator.
#[global] Instance symbol_eq_dec : EqDecision symbol.
Proof. solve_decision. Defined.

(** Requests to the runtime. *)
Inductive event : Type :=
  | AskBoolean (v : jsval)
  | AskNumber (v : jsval)
  | AskString (v : jsval)
  | AskMethod (obj : N) (s : symbol)
  | AskIterator (obj : N) (method : jsval)
  | AskStep (iterator : N)
  | AskArray (len : nat)
  | AskKey (index : nat)
  | AskData (obj : N) (index : nat) (v : jsval)
  | AskFreeze (obj : N).

(** Where a request comes from: the number of the argument being converted, and
    the number of sequences around the value. *)
Notation place := (nat * nat)%type.
Notation log := (list (place * event)).

(** webidl/src/error.rs: an exception of the runtime, a TypeError made by this
    crate, or a limit; [Panic] and [Fuel] are artefacts of the model and do not
    happen (WebidlProofs). *)
Inductive err : Type :=
  | Thrown (n : N)
  | TypeErr
  | Limit
  | Panic
  | Fuel.

Inductive res (A : Type) : Type :=
  | Ok (a : A)
  | Err (e : err).
Arguments Ok {A} a.
Arguments Err {A} e.

(** webidl/src/lib.rs 117-237, [JsRuntime]: the operations used by conversions.
    Each answers with a result or an exception.  [get_method] here includes
    [well_known_symbol]. *)
Record runtime : Type := Runtime {
  rt_limit : nat;
  rt_string_object : N -> bool;
  rt_boolean : log -> jsval -> bool + N;
  rt_number : log -> jsval -> N + N;
  rt_string : log -> jsval -> N + N;
  rt_method : log -> N -> symbol -> option jsval + N;
  rt_iterator : log -> N -> jsval -> N + N;
  rt_step : log -> N -> option jsval + N;
  rt_array : log -> nat -> N + N;
  rt_key : log -> nat -> unit + N;
  rt_data : log -> N -> nat -> jsval -> unit + N;
  rt_freeze : log -> N -> unit + N;
}.

(** Computations: the log is threaded through and only grows. *)
Definition M (A : Type) : Type := log -> res A * log.
Definition ret {A} (a : A) : M A := fun l => (Ok a, l).
Definition fail {A} (e : err) : M A := fun l => (Err e, l).
Definition bind {A B} (m : M A) (k : A -> M B) : M B := fun l =>
  match m l with
  | (Ok a, l) => k a l
  | (Err e, l) => (Err e, l)
  end.

Definition ask {A} (at_ : place) (e : event) (answer : log -> A + N) : M A := fun l =>
  let l' := l ++ [(at_, e)] in
  match answer l' with
  | inl a => (Ok a, l')
  | inr n => (Err (Thrown n), l')
  end.

Definition is_undefined (v : jsval) : bool := match v with JUndef => true | _ => false end.
Definition is_null (v : jsval) : bool := match v with JNull => true | _ => false end.
Definition as_object (v : jsval) : option N := match v with JObj n => Some n | _ => None end.
Definition is_object (v : jsval) : bool := match v with JObj _ => true | _ => false end.
Definition is_string_object (rt : runtime) (v : jsval) : bool :=
  match v with JObj n => rt_string_object rt n | _ => false end.

(** webidl/src/types.rs 28-42, [flattened_member_types]. *)
Fixpoint flattened (t : idl) : list idl :=
  match t with
  | TUnion ts => flat_map flattened ts
  | _ => [t]
  end.

(** types.rs 44-50. *)
Fixpoint includes_undefined (t : idl) : bool :=
  match t with
  | TUnion ts => existsb includes_undefined ts
  | TUndef => true
  | _ => false
  end.

(** types.rs 61-67. *)
Fixpoint contains_string (t : idl) : bool :=
  match t with
  | TUnion ts => existsb contains_string ts
  | TNullable t => contains_string t
  | TString => true
  | _ => false
  end.

(** types.rs 69-76. *)
Fixpoint contains_async (t : idl) : bool :=
  match t with
  | TUnion ts => existsb contains_async ts
  | TNullable t => contains_async t
  | TAsync _ => true
  | _ => false
  end.

(** types.rs 78-85. *)
Fixpoint contains_seq (t : idl) : bool :=
  match t with
  | TUnion ts => existsb contains_seq ts
  | TNullable t => contains_seq t
  | TSeq _ => true
  | _ => false
  end.

(** types.rs 87-94. *)
Fixpoint contains_frozen (t : idl) : bool :=
  match t with
  | TUnion ts => existsb contains_frozen ts
  | TNullable t => contains_frozen t
  | TFrozen _ => true
  | _ => false
  end.

Definition is_async (t : idl) : bool := match t with TAsync _ => true | _ => false end.
Definition is_seq (t : idl) : bool := match t with TSeq _ => true | _ => false end.
Definition is_frozen (t : idl) : bool := match t with TFrozen _ => true | _ => false end.
Definition is_string_type (t : idl) : bool := match t with TString => true | _ => false end.
Definition is_nullable (t : idl) : bool := match t with TNullable _ => true | _ => false end.

(** Nesting of a type: the fuel of [convert]. *)
Fixpoint height (t : idl) : nat :=
  match t with
  | TSeq t | TAsync t | TFrozen t | TNullable t => S (height t)
  | TUnion ts => S (foldr Nat.max 0 (map height ts))
  | _ => 1
  end.

(** webidl/src/convert.rs 210-226, the loop of [create_sequence_from_iterable]:
    [room] is [max_sequence_length - out.len()]. *)
Fixpoint collect (rt : runtime) (at_ : place) (convert_element : jsval -> M ival)
    (iterator : N) (room : nat) : M (list ival) :=
  bind (ask at_ (AskStep iterator) (fun l => rt_step rt l iterator)) (fun next =>
  match next with
  | None => ret []
  | Some v =>
      match room with
      | 0 => fail Limit
      | S room =>
          bind (convert_element v) (fun x =>
          bind (collect rt at_ convert_element iterator room) (fun xs => ret (x :: xs)))
      end
  end).

(** convert.rs 197-226, [create_sequence_from_iterable]. *)
Definition create_sequence (rt : runtime) (at_ : place) (v : jsval) (method : jsval)
    (convert_element : jsval -> M ival) : M (list ival) :=
  match as_object v with
  | None => fail TypeErr
  | Some obj =>
      bind (ask at_ (AskIterator obj method) (fun l => rt_iterator rt l obj method))
        (fun iterator => collect rt at_ convert_element iterator (rt_limit rt))
  end.

(** The element loop of [alloc_array] callers, convert.rs 178-184 and 247-251. *)
Fixpoint fill_array (rt : runtime) (at_ : place) (obj : N) (i : nat) (vs : list jsval)
  : M unit :=
  match vs with
  | [] => ret tt
  | v :: vs =>
      bind (ask at_ (AskKey i) (fun l => rt_key rt l i)) (fun _ =>
      bind (ask at_ (AskData obj i v) (fun l => rt_data rt l obj i v)) (fun _ =>
      fill_array rt at_ obj (S i) vs))
  end.

Definition mapM {A B} (f : A -> M B) : list A -> M (list B) :=
  fix go l :=
    match l with
    | [] => ret []
    | a :: l => bind (f a) (fun b => bind (go l) (fun bs => ret (b :: bs)))
    end.

(** convert.rs 159-195, [convert_idl_to_js].  Recursion is on the value; the
    type is followed alongside. *)
Fixpoint to_js (rt : runtime) (at_ : place) (v : ival) (t : idl) {struct v} : M jsval :=
  match t, v with
  | TUndef, VUndef => ret JUndef
  | TNullable _, VNull => ret JNull
  | TBool, VBool b => ret (JBool b)
  | TDouble, VDouble n => ret (JNum n)
  | TString, VString n => ret (JStr n)
  | TObject, VObject o => ret o
  | TSeq t, VSeq vs =>
      bind (mapM (fun v => to_js rt at_ v t) vs) (fun js =>
      bind (ask at_ (AskArray (length js)) (fun l => rt_array rt l (length js)))
        (fun obj =>
      bind (fill_array rt at_ obj 0 js) (fun _ => ret (JObj obj))))
  | TFrozen _, VFrozen o => ret o
  | TAsync _, VAsync o _ _ => ret o
  | TUnion _, VUnion t' v' => to_js rt at_ v' t'
  | _, _ => fail TypeErr
  end.

(** convert.rs 228-256, [create_frozen_array]. *)
Definition create_frozen (rt : runtime) (at_ : place) (t : idl) (vs : list ival)
  : M jsval :=
  bind (mapM (fun v => to_js rt at_ v t) vs) (fun js =>
  if rt_limit rt <? length js then fail Limit
  else
    bind (ask at_ (AskArray (length js)) (fun l => rt_array rt l (length js))) (fun obj =>
    bind (fill_array rt at_ obj 0 js) (fun _ =>
    bind (ask at_ (AskFreeze obj) (fun l => rt_freeze rt l obj)) (fun _ =>
    ret (JObj obj))))).

Definition get_method (rt : runtime) (at_ : place) (obj : N) (s : symbol)
  : M (option jsval) :=
  ask at_ (AskMethod obj s) (fun l => rt_method rt l obj s).

(** convert.rs 60-73 and 80-93: the method a sequence is read with. *)
Definition iterator_method (rt : runtime) (at_ : place) (v : jsval)
    (hint : option jsval) : M jsval :=
  match hint with
  | Some m => ret m
  | None =>
      match as_object v with
      | None => fail TypeErr
      | Some obj =>
          bind (get_method rt at_ obj SIterator) (fun m =>
          match m with
          | Some m => ret m
          | None => fail TypeErr
          end)
      end
  end.

(** convert.rs 100-138: the method of an async sequence and its kind. *)
Definition async_method (rt : runtime) (at_ : place) (v : jsval)
    (hint : option (jsval * bool)) : M (jsval * bool) :=
  match as_object v with
  | None => fail TypeErr
  | Some obj =>
      match hint with
      | Some h => ret h
      | None =>
          bind (get_method rt at_ obj SAsyncIterator) (fun m =>
          match m with
          | Some m => ret (m, true)
          | None =>
              bind (get_method rt at_ obj SIterator) (fun m =>
              match m with
              | Some m => ret (m, false)
              | None => fail TypeErr
              end)
          end)
      end
  end.

(** A found method, or [None] to try the next rule. *)
Definition attempt {A B} (m : M (option A)) (found : A -> M B) (next : M B) : M B :=
  bind m (fun x => match x with Some a => found a | None => next end).

Definition union_of (t : idl) (m : M ival) : M ival := bind m (fun v => ret (VUnion t v)).

(** convert.rs 33-157, [convert_js_to_idl_with_hints], and 258-400,
    [convert_js_to_union], as one function. *)
Fixpoint convert (n : nat) (rt : runtime) (at_ : place) (t : idl) (v : jsval)
    (hint : option jsval) (ahint : option (jsval * bool)) {struct n} : M ival :=
  match n with
  | 0 => fail Fuel
  | S n =>
      match t with
      | TUndef => if is_undefined v then ret VUndef else fail TypeErr
      | TBool =>
          bind (ask at_ (AskBoolean v) (fun l => rt_boolean rt l v)) (fun b => ret (VBool b))
      | TDouble =>
          bind (ask at_ (AskNumber v) (fun l => rt_number rt l v)) (fun x => ret (VDouble x))
      | TString =>
          bind (ask at_ (AskString v) (fun l => rt_string rt l v)) (fun x => ret (VString x))
      | TObject => if is_object v then ret (VObject v) else fail TypeErr
      | TSeq elem =>
          bind (iterator_method rt at_ v hint) (fun m =>
          bind (create_sequence rt at_ v m
                  (fun x => convert n rt (fst at_, S (snd at_)) elem x None None))
            (fun vs => ret (VSeq vs)))
      | TFrozen elem =>
          bind (iterator_method rt at_ v hint) (fun m =>
          bind (create_sequence rt at_ v m
                  (fun x => convert n rt (fst at_, S (snd at_)) elem x None None))
            (fun vs =>
          bind (create_frozen rt at_ elem vs) (fun o => ret (VFrozen o))))
      | TAsync _ =>
          bind (async_method rt at_ v ahint) (fun '(m, k) => ret (VAsync v m k))
      | TNullable inner =>
          if is_null v || is_undefined v then ret VNull
          else convert n rt at_ inner v None None
      | TUnion _ =>
          let types := flattened t in
          let string_fallback :=
            match List.find is_string_type types with
            | Some s => union_of s (convert n rt at_ s v None None)
            | None => fail TypeErr
            end in
          if includes_undefined t && is_undefined v then ret (VUnion TUndef VUndef)
          else
            match
              (if is_null v || is_undefined v then List.find is_nullable types else None)
            with
            | Some nt => ret (VUnion nt VNull)
            | None =>
                match as_object v with
                | None => string_fallback
                | Some obj =>
                    let frozen :=
                      match List.find is_frozen types with
                      | Some ft =>
                          attempt (get_method rt at_ obj SIterator)
                            (fun m => union_of ft (convert n rt at_ ft v (Some m) None))
                            string_fallback
                      | None => string_fallback
                      end in
                    let sequence :=
                      match List.find is_seq types with
                      | Some st =>
                          attempt (get_method rt at_ obj SIterator)
                            (fun m => union_of st (convert n rt at_ st v (Some m) None))
                            frozen
                      | None => frozen
                      end in
                    match List.find is_async types with
                    | Some st =>
                        if negb (existsb contains_string types)
                           || negb (is_string_object rt v) then
                          attempt (get_method rt at_ obj SAsyncIterator)
                            (fun m => union_of st (convert n rt at_ st v None (Some (m, true))))
                            (attempt (get_method rt at_ obj SIterator)
                               (fun m => union_of st
                                  (convert n rt at_ st v None (Some (m, false))))
                               sequence)
                        else sequence
                    | None => sequence
                    end
                end
            end
      end
  end.

(** convert.rs 25-31, [convert_js_to_idl]. *)
Definition convert_js_to_idl (rt : runtime) (at_ : place) (t : idl) (v : jsval) : M ival :=
  convert (height t) rt at_ t v None None.

(** convert.rs 33, with hints. *)
Definition convert_with_hints (rt : runtime) (at_ : place) (t : idl) (v : jsval)
    (hint : option jsval) (ahint : option (jsval * bool)) : M ival :=
  convert (height t) rt at_ t v hint ahint.

(** webidl/src/overload.rs 3-26: [Overload] (optionality is [true] for
    [Optional]), [OverloadArg], [OverloadResult]. *)
Record overload : Type := Overload {
  o_id : N;
  o_types : list idl;
  o_optional : list bool;
}.

Inductive arg : Type :=
  | Missing
  | Value (v : ival).

(** overload.rs 212-236, [TypeCategory], [category]. *)
Inductive cat : Type :=
  | CUndefined | CBoolean | CNumeric | CString | CObject | CAsync | CSequence | COther.
#[global] Instance cat_eq_dec : EqDecision cat.
Proof. solve_decision. Defined.

Fixpoint category (t : idl) : cat :=
  match t with
  | TUnion _ => COther
  | TNullable t => category t
  | TUndef => CUndefined
  | TBool => CBoolean
  | TDouble => CNumeric
  | TString => CString
  | TObject => CObject
  | TAsync _ => CAsync
  | TSeq _ | TFrozen _ => CSequence
  end.

(** overload.rs 238-250, [are_distinguishable], second arm (the first type is
    not a union). *)
Fixpoint distinguishable_from (a b : idl) : bool :=
  match b with
  | TUnion bs => forallb (distinguishable_from a) bs
  | _ => bool_decide (category a <> category b)
  end.
Fixpoint distinguishable (a b : idl) : bool :=
  match a with
  | TUnion as_ => forallb (fun m => distinguishable m b) as_
  | _ => distinguishable_from a b
  end.

(** [o.types[i]]. *)
Definition type_at (i : nat) (o : overload) : idl := default TUndef (o_types o !! i).

(** overload.rs 190-210, [distinguishing_argument_index]. *)
Fixpoint pairwise {A} (r : A -> A -> bool) (l : list A) : bool :=
  match l with
  | [] => true
  | a :: l => forallb (r a) l && pairwise r l
  end.
Definition distinguishing_index (s : list overload) : option nat :=
  match s with
  | [] => None
  | o :: _ =>
      List.find (fun i => pairwise distinguishable (map (type_at i) s))
        (seq 0 (length (o_types o)))
  end.

(** overload.rs 60-69 and 173-181: one argument. *)
Definition convert_arg (rt : runtime) (o : overload) (args : list jsval) (i : nat)
  : M arg :=
  match args !! i, o_types o !! i with
  | Some v, Some t =>
      if default false (o_optional o !! i) && is_undefined v then ret Missing
      else bind (convert_js_to_idl rt (i, 0) t v) (fun x => ret (Value x))
  | _, _ => fail Panic
  end.

Definition convert_args (rt : runtime) (o : overload) (args : list jsval) (is : list nat)
  : M (list arg) :=
  mapM (convert_arg rt o args) is.

(** The arguments from [from] on, for the selected overload, after [values]:
    overload.rs 169-188. *)
Definition finish (rt : runtime) (o : overload) (args : list jsval) (argcount from : nat)
    (values : list arg) : M (N * list arg) :=
  bind (convert_args rt o args (seq from (argcount - from))) (fun more =>
  ret (o_id o, values ++ more)).

(** Selection by an iterator method that was found: overload.rs 103-118 and
    133-152. *)
Definition select_with (rt : runtime) (s : list overload) (keep : idl -> bool)
    (args : list jsval) (argcount d : nat) (v : jsval)
    (hint : option jsval) (ahint : option (jsval * bool)) (values : list arg)
  : M (N * list arg) :=
  match List.filter (fun o => keep (type_at d o)) s with
  | [o] =>
      bind (convert_with_hints rt (d, 0) (type_at d o) v hint ahint) (fun x =>
      finish rt o args argcount (S d) (values ++ [Value x]))
  | _ => fail TypeErr
  end.

(** overload.rs 73-167, the distinguishing argument. *)
Definition distinguish (rt : runtime) (s : list overload) (args : list jsval)
    (argcount d : nat) (values : list arg) : M (N * list arg) :=
  match args !! d with
  | None => fail Panic
  | Some v =>
      let any (p : idl -> bool) := existsb (fun o => p (type_at d o)) s in
      let by_string :=
        let s' :=
          if (1 <? length s) && any contains_string
          then List.filter (fun o => contains_string (type_at d o)) s else s in
        match s' with
        | [o] => finish rt o args argcount d values
        | _ => fail TypeErr
        end in
      match as_object v with
      | None => by_string
      | Some obj =>
          let by_iterator :=
            if any contains_seq || any contains_frozen then
              attempt (get_method rt (d, 0) obj SIterator)
                (fun m =>
                   select_with rt s
                     (if any contains_seq then contains_seq else contains_frozen)
                     args argcount d v (Some m) None values)
                by_string
            else by_string in
          if any contains_async
             && negb (any contains_string && is_string_object rt v) then
            attempt (get_method rt (d, 0) obj SAsyncIterator)
              (fun m =>
                 select_with rt s contains_async args argcount d v None
                   (Some (m, true)) values)
              (attempt (get_method rt (d, 0) obj SIterator)
                 (fun m =>
                    select_with rt s contains_async args argcount d v None
                      (Some (m, false)) values)
                 by_iterator)
          else by_iterator
      end
  end.

(** overload.rs 33-188, [resolve_overload]. *)
Definition resolve_overload (rt : runtime) (overloads : list overload)
    (args : list jsval) : M (N * list arg) :=
  let maxarg := foldr Nat.max 0 (map (fun o => length (o_types o)) overloads) in
  let argcount := Nat.min maxarg (length args) in
  match List.filter (fun o => length (o_types o) =? argcount) overloads with
  | [] => fail TypeErr
  | [o] => finish rt o args argcount 0 []
  | (o :: _) as s =>
      match distinguishing_index s with
      | None => fail TypeErr
      | Some d =>
          bind (convert_args rt o args (seq 0 d)) (fun values =>
          distinguish rt s args argcount d values)
      end
  end.
