(** Model of the engine that relates TypeScript types:
    types-ts-interned/src/relate.rs.

    The type store is a record of functions on type ids.  The engine interns
    types while it runs; here the store already holds every type a run makes
    (ids are stable, see C37), so those calls are functions of the store.

    A function of relate.rs that may call [relate_internal] is modelled by the
    tree of its calls: [Ask] is one call, the branches are what follows on each
    answer.  [relate] runs such trees. *)
From Coq Require Import ZArith.
From stdpp Require Import base decidable numbers list.

Local Open Scope N_scope.

(** types-ts-interned/src/ids.rs: TypeId. *)
Definition tid := N.

(** types-ts-interned/src/shape.rs 7-13: Accessibility. *)
Inductive access := Public | Protected | Private.

(** shape.rs 36-42: PropKey; names are interned. *)
Inductive pkey := PStr (name : N) | PNum (i : Z) | PSym (name : N).

(** shape.rs 15-34, 74-79: PropData and Property. *)
Record prop := Prop_ {
  p_key : pkey; p_ty : tid; p_optional : bool; p_readonly : bool;
  p_access : option access; p_method : bool;
  p_origin : option N; p_declared_on : option N }.

(** shape.rs 81-87: Indexer. *)
Record indexer := Indexer { i_key : tid; i_value : tid; i_readonly : bool }.

(** types-ts-interned/src/signature.rs 37-60: Param and Signature.  Names of
    parameters and the declarations of type parameters are left out, but for
    their number. *)
Record param := Param { pm_ty : tid; pm_optional : bool; pm_rest : bool }.
Record signature := Signature {
  sg_tparams : nat; sg_this : option tid; sg_params : list param; sg_ret : tid }.

(** shape.rs 89-96: Shape. *)
Record shape := Shape {
  s_props : list prop; s_calls : list signature;
  s_constructs : list signature; s_indexers : list indexer }.

(** types-ts-interned/src/kind.rs 98-104: TupleElem. *)
Record elem := Elem { e_ty : tid; e_optional : bool; e_rest : bool; e_readonly : bool }.

(** kind.rs 124-199: TypeKind.  A reference carries what the expander hook
    answers for it.  Left out: This, Infer, Predicate, Mapped, TemplateLiteral,
    IndexedAccess, KeyOf, NoInfer and BuiltinIteratorReturn; Mapping stands for
    the four string intrinsics, which the engine treats alike. *)
Inductive kind :=
  | KAny | KUnknown | KNever | KVoid | KNull | KUndefined
  | KBoolean | KNumber | KString | KBigInt | KSymbol | KUniqueSymbol
  | KBoolLit (b : bool) | KNumLit (n : N) | KStrLit (s : N) | KBigLit (z : Z)
  | KArray (t : tid) (readonly : bool)
  | KTuple (elems : list elem)
  | KUnion (members : list tid)
  | KInter (members : list tid)
  | KObject (sh : shape)
  | KCallable (overloads : list signature)
  | KRef (expansion : option tid)
  | KParam (n : N)
  | KCond (true_ty false_ty : tid)
  | KMapping
  | KEmpty.

(** types-ts-interned/src/options.rs 8-21: TypeOptions. *)
Record options := Options {
  o_strict_null : bool; o_strict_fn : bool; o_exact_optional : bool;
  o_unchecked_index : bool }.

(** relate.rs 88-129: RelationLimits.  The step limit is [None] when it has its
    default value, which switches it off. *)
Record limits := Limits {
  l_steps : option nat; l_depth : nat; l_in_progress : nat; l_key_match : nat }.

(** What a context is made of (relate.rs 266-276): the store, seen through the
    functions the engine uses, the options and the limits.
    [st_norm]: normalize_type 2946-2986, the evaluator, taken as a function.
    [st_opt]: the union of a type with undefined (optional_type 2935-2940).
    [st_spread]: spread_element_type 2131-2175.
    [st_merge]: merge_intersection 2895-2921 with the shape it interns.
    [st_index]: parse_canonical_index_string 3523-3544.
    [st_decimal]: the interned decimal numeral (3502-3504). *)
Record env := Env {
  st_kind : tid -> kind;
  st_norm : tid -> tid;
  st_opt : tid -> tid;
  st_spread : tid -> tid;
  st_any : tid;
  st_merge : list tid -> option shape;
  st_index : N -> option Z;
  st_decimal : Z -> N;
  st_opts : options;
  st_limits : limits }.

(** relate.rs 47-52: RelationKind; 54-66: RelationMode's two flags. *)
Inductive rkind := Assignable | Comparable | StrictSubtype.
Record mode := Mode { m_bivariant : bool; m_skip : bool }.

(** relate.rs 181-186: RelationKey. *)
Record key := Key { k_src : tid; k_dst : tid; k_kind : rkind; k_mode : mode }.

Global Instance rkind_dec : EqDecision rkind.
Proof. solve_decision. Defined.
Global Instance mode_dec : EqDecision mode.
Proof. solve_decision. Defined.
Global Instance key_dec : EqDecision key.
Proof. solve_decision. Defined.
Global Instance pkey_dec : EqDecision pkey.
Proof. solve_decision. Defined.
Global Instance access_dec : EqDecision access.
Proof. solve_decision. Defined.

(** mode | BIVARIANT_PARAMS. *)
Definition bivariant (m : mode) : mode := Mode true (m_skip m).

(** ** Calls of [relate_internal] *)

(** [Ask e k f]: a call at a depth of [e] more than the next one. *)
Inductive tree :=
  | Ret (b : bool)
  | Ask (extra : nat) (k : key) (f : bool -> tree).

Fixpoint bind (t : tree) (f : bool -> tree) : tree :=
  match t with
  | Ret b => f b
  | Ask e k g => Ask e k (fun b => bind (g b) f)
  end.

(** [if !related.result { return false }] followed by the rest. *)
Definition both (t u : tree) : tree := bind t (fun b => if b then u else Ret false).
(** [if related.result { return true }] followed by the rest. *)
Definition either (t u : tree) : tree := bind t (fun b => if b then Ret true else u).

Fixpoint every {A} (f : A -> tree) (l : list A) : tree :=
  match l with
  | [] => Ret true
  | x :: r => both (f x) (every f r)
  end.
Fixpoint some {A} (f : A -> tree) (l : list A) : tree :=
  match l with
  | [] => Ret false
  | x :: r => either (f x) (some f r)
  end.

Section Plan.
  Context (E : env).

  (** The call of [relate_internal] for assignability. *)
  Definition ask (extra : nat) (m : mode) (s d : tid) : tree :=
    Ask extra (Key s d Assignable m) Ret.

  (** relate.rs 2923-2944: optional_type, by flavour. *)
  Definition property_type (t : tid) (optional : bool) : tid :=
    if optional && negb (o_exact_optional (st_opts E)) then st_opt E t else t.
  Definition parameter_type (t : tid) (optional : bool) : tid :=
    if optional then st_opt E t else t.
  Definition indexer_type (t : tid) : tid :=
    if o_unchecked_index (st_opts E) then st_opt E t else t.

  (** relate.rs 1770-1941: assignable_special, for the kinds kept. *)
  Definition is_composite (k : kind) : bool :=
    match k with
    | KUnion _ | KInter _ | KRef _ | KCond _ _ => true
    | _ => false
    end.
  Definition is_nullish (k : kind) : bool :=
    match k with KNull | KUndefined => true | _ => false end.

  Definition special (s d : kind) : option bool :=
    let strict := o_strict_null (st_opts E) in
    if negb strict && (is_nullish s || is_nullish d) then Some true else
    match s, d with
    | KParam a, KParam b => Some (a =? b)
    | _, KParam _ => Some true
    | KParam _, _ => Some (match d with KAny | KUnknown => true | _ => false end)
    | KMapping, KString => Some true
    | _, KMapping =>
        match s with
        | KAny | KNever => None
        | KString | KStrLit _ | KMapping => Some true
        | KUnion _ | KInter _ | KRef _ | KCond _ _ => None
        | _ => Some false
        end
    | KAny, _ => Some true
    | _, KAny => Some true
    | _, KUnknown => Some true
    | KUnknown, _ => Some false
    | KEmpty, _ => Some (match d with KEmpty => true | _ => false end)
    | KNever, _ => Some true
    | _, KNever => Some false
    | KVoid, KVoid => Some true
    | KVoid, KUndefined => Some true
    | KUndefined, KVoid => Some true
    | KVoid, KEmpty => Some (negb strict)
    | KVoid, _ => if is_composite d then None else Some false
    | _, KEmpty => Some (negb strict || negb (is_nullish s))
    | KNull, KNull => Some true
    | KUndefined, KUndefined => Some true
    | (KNull | KUndefined), _ => if is_composite d then None else Some false
    | _, (KNull | KUndefined) => if is_composite s then None else Some false
    | KBoolLit _, KBoolean => Some true
    | KNumLit _, KNumber => Some true
    | KStrLit _, KString => Some true
    | KBigLit _, KBigInt => Some true
    | KUniqueSymbol, KSymbol => Some true
    | _, _ => None
    end.

  (** relate.rs 1943-1985: relate_array. *)
  Definition relate_array (off : nat) (m : mode) (st dt : tid) (sro dro : bool) : tree :=
    if negb dro && sro then Ret false else ask off m st dt.

  (** relate.rs 1988-2119: relate_array_to_tuple. *)
  Definition relate_array_to_tuple (off : nat) (m : mode) (t : tid) (ro : bool)
      (ds : list elem) : tree :=
    if ro && negb (forallb e_readonly ds) then Ret false
    else if negb (existsb e_rest ds) then Ret false
    else if forallb e_rest ds then
      match List.find e_rest ds with
      | Some r => ask off m t (st_spread E (e_ty r))
      | None => Ret false
      end
    else if existsb (fun e => negb (e_rest e) && negb (e_optional e)) ds then Ret false
    else every (fun e => ask off m t (parameter_type (e_ty e) (e_optional e)))
           (List.filter (fun e => negb (e_rest e)) ds).

  (** relate.rs 2177-2245: relate_tuple_to_array. *)
  Definition relate_tuple_to_array (off : nat) (m : mode) (ss : list elem)
      (t : tid) (ro : bool) : tree :=
    if negb ro && existsb e_readonly ss then Ret false
    else every (fun e =>
           ask off m
             (parameter_type (if e_rest e then st_spread E (e_ty e) else e_ty e)
                (e_optional e)) t) ss.

  (** relate.rs 2247-2504: relate_tuple; [tuple_from] is its loop (2290-2495). *)
  Definition required (es : list elem) : nat :=
    length (List.filter (fun e => negb (e_optional e) && negb (e_rest e)) es).

  Fixpoint tuple_from (off : nat) (m : mode) (ss ds : list elem) : tree :=
    match ds with
    | [] => Ret true
    | d :: ds' =>
        match ss with
        | [] =>
            if e_rest d || e_optional d then tuple_from off m [] ds' else Ret false
        | s :: ss' =>
            if e_rest d then
              every (fun r =>
                if negb (e_readonly d) && e_readonly r then Ret false
                else ask off m (parameter_type (e_ty r) (e_optional r || e_rest r))
                       (parameter_type (e_ty d) (e_optional d || e_rest d))) ss
            else if e_rest s then
              every (fun x =>
                if negb (e_readonly x) && e_readonly s then Ret false
                else ask off m (parameter_type (e_ty s) (e_optional s || e_rest s))
                       (parameter_type (e_ty x) (e_optional x || e_rest x))) ds
            else if negb (e_optional d) && e_optional s then Ret false
            else if negb (e_readonly d) && e_readonly s then Ret false
            else
              both (ask off m (parameter_type (e_ty s) (e_optional s))
                      (parameter_type (e_ty d) (e_optional d)))
                (tuple_from off m ss' ds')
        end
    end.

  Definition relate_tuple (off : nat) (m : mode) (ss ds : list elem) : tree :=
    let has_rest := existsb e_rest ss in
    if Nat.ltb (length ds) (required ss) && negb has_rest
       && Nat.eqb (required ds) (length ds)
    then Ret false
    else if Nat.ltb (length ss) (required ds) && negb has_rest then Ret false
    else tuple_from off m ss ds.

  (** relate.rs 2648-2893: relate_signature. *)
  Definition sig_required (ps : list param) : nat :=
    length (List.filter (fun p => negb (pm_optional p) && negb (pm_rest p)) ps).

  Definition rest_param (ps : list param) : option param := List.find pm_rest ps.

  (** effective_param_type 2781-2806: a rest parameter stands for every later
      position. *)
  Definition effective_param (ps : list param) (i : nat) : tid :=
    match nth_error ps i with
    | Some p =>
        parameter_type (if pm_rest p then st_spread E (pm_ty p) else pm_ty p)
          (pm_optional p)
    | None =>
        match rest_param ps with
        | Some r => parameter_type (st_spread E (pm_ty r)) (pm_optional r)
        | None => st_any E
        end
    end.

  Definition relate_signature (off : nat) (m : mode) (s d : signature) : tree :=
    if negb (Nat.eqb (sg_tparams s) (sg_tparams d)) then Ret false else
    let biv := negb (o_strict_fn (st_opts E)) || m_bivariant m in
    both
      (match sg_this s, sg_this d with
       | Some a, Some b => ask off m b a
       | Some _, None => Ret false
       | None, Some b => ask off m b (st_any E)
       | None, None => Ret true
       end)
      (if Nat.ltb (sig_required (sg_params d)) (sig_required (sg_params s)) then Ret false
       else
         both
           (every (fun i =>
              let st := effective_param (sg_params s) i in
              let dt := effective_param (sg_params d) i in
              if biv then either (ask off m st dt) (ask off m dt st)
              else ask off m dt st)
              (List.filter (fun i =>
                 Nat.ltb i (length (sg_params d))
                 || match rest_param (sg_params d) with Some _ => true | None => false end)
                 (seq 0 (max (length (sg_params s)) (length (sg_params d))))))
           (match st_kind E (sg_ret d) with
            | KVoid => Ret true
            | _ => ask off m (sg_ret s) (sg_ret d)
            end)).

  (** relate.rs 2506-2561: relate_callable; each wanted signature must be met by
      one of those at hand. *)
  Definition relate_callable (off : nat) (m : mode) (ss ds : list signature) : tree :=
    every (fun d => some (fun s => relate_signature off m s d) ss) ds.

  (** relate.rs 2563-2603: relate_callable_to_object. *)
  Definition relate_callable_to_object (off : nat) (m : mode) (ss : list signature)
      (d : shape) : tree :=
    match s_props d, s_constructs d, s_indexers d with
    | [], [], [] => relate_callable off (bivariant m) ss (s_calls d)
    | _, _, _ => Ret false
    end.

  (** relate.rs 2605-2645: relate_object_to_callable. *)
  Definition relate_object_to_callable (off : nat) (m : mode) (s : shape)
      (ds : list signature) : tree :=
    match s_props s, s_constructs s, s_indexers s with
    | [], [], [] => relate_callable off (bivariant m) (s_calls s) ds
    | _, _, _ => Ret false
    end.

  (** relate.rs 3324-3356: private_compatible, without the hook. *)
  Definition access_of (p : prop) : access :=
    match p_access p with Some a => a | None => Public end.
  Definition same_some (a b : option N) : bool :=
    match a, b with Some x, Some y => x =? y | _, _ => false end.
  Definition private_compatible (s d : prop) : bool :=
    match access_of s, access_of d with
    | Public, Public => true
    | Public, _ | _, Public => false
    | a, b =>
        if decide (a = b) then
          same_some (p_declared_on s) (p_declared_on d)
          || same_some (p_origin s) (p_origin d)
        else false
    end.

  (** relate.rs 3475-3507: find_property, with the other spelling of a
      canonical array index.  The binary search is a search. *)
  Definition lookup_prop (sh : shape) (k : pkey) : option prop :=
    List.find (fun p => bool_decide (p_key p = k)) (s_props sh).
  Definition other_spelling (k : pkey) : option pkey :=
    match k with
    | PStr n => match st_index E n with Some i => Some (PNum i) | None => None end
    | PNum i => if (0 <=? i)%Z then Some (PStr (st_decimal E i)) else None
    | PSym _ => None
    end.
  Definition find_property (sh : shape) (k : pkey) : option prop :=
    match lookup_prop sh k with
    | Some p => Some p
    | None =>
        match other_spelling k with
        | Some k' => lookup_prop sh k'
        | None => None
        end
    end.

  (** relate.rs 144-149 PropKeyKind; 3467-3473 prop_key_kind, with the test for
      canonical indices of 3365-3370 and 3385-3390. *)
  Inductive key_kind := KeyString | KeyNumber | KeySymbol.
  Definition prop_key_kind (k : pkey) : key_kind :=
    match k with
    | PStr n => match st_index E n with Some _ => KeyNumber | None => KeyString end
    | PNum _ => KeyNumber
    | PSym _ => KeySymbol
    end.

  (** relate.rs 3434-3465: indexer_key_accepts_prop_kind_inner.  A key type of
      another kind would be related to string, number or symbol; here it accepts
      nothing. *)
  Fixpoint accepts (fuel : nat) (t : tid) (k : key_kind) : bool :=
    match fuel with
    | O => false
    | S n =>
        match st_kind E t with
        | KString | KStrLit _ =>
            match k with KeyString | KeyNumber => true | KeySymbol => false end
        | KNumber | KNumLit _ => match k with KeyNumber => true | _ => false end
        | KSymbol | KUniqueSymbol => match k with KeySymbol => true | _ => false end
        | KUnion ms => existsb (fun x => accepts n x k) ms
        | KInter ms => forallb (fun x => accepts n x k) ms
        | _ => false
        end
    end.
  Definition key_accepts (t : tid) (k : key_kind) : bool :=
    accepts (l_key_match (st_limits E)) t k.

  Definition key_kinds : list key_kind := [KeyString; KeyNumber; KeySymbol].

  (** relate.rs 3409-3421: indexer_key_covers. *)
  Definition covers (src_accepts dst_accepts : key_kind -> bool) : bool :=
    forallb (fun k => negb (dst_accepts k) || src_accepts k) key_kinds.

  (** relate.rs 3423-3429: indexer_key_specificity. *)
  Definition specificity (t : tid) : nat :=
    length (List.filter (key_accepts t) key_kinds).

  (** Iterator::min_by_key: the first of the least. *)
  Fixpoint least (l : list indexer) : option indexer :=
    match l with
    | [] => None
    | i :: r =>
        match least r with
        | Some j =>
            if Nat.leb (specificity (i_key i)) (specificity (i_key j)) then Some i
            else Some j
        | None => Some i
        end
    end.

  (** relate.rs 3358-3376: indexer_for_prop; 3394-3407: find_matching_indexer. *)
  Definition indexer_for_prop (sh : shape) (k : pkey) : option indexer :=
    least (List.filter (fun i => key_accepts (i_key i) (prop_key_kind k)) (s_indexers sh)).
  Definition find_matching_indexer (sh : shape) (d : indexer) : option indexer :=
    least (List.filter (fun i => covers (key_accepts (i_key i)) (key_accepts (i_key d)))
             (s_indexers sh)).

  (** relate.rs 2991-3322: relate_object; the loop over the wanted properties
      (3013-3130), over the wanted index signatures (3132-3217), and over the
      signatures (3219-3316). *)
  Definition relate_property (off : nat) (m : mode) (src : shape) (d : prop) : tree :=
    match find_property src (p_key d) with
    | Some s =>
        if negb (private_compatible s d) then Ret false
        else if negb (p_readonly d) && p_readonly s then Ret false
        else if negb (p_optional d) && p_optional s then Ret false
        else
          ask off (if p_method s || p_method d then bivariant m else m)
            (property_type (p_ty s) (p_optional s))
            (property_type (p_ty d) (p_optional d))
    | None =>
        if p_optional d then Ret true
        else
          match indexer_for_prop src (p_key d) with
          | Some i =>
              if negb (p_readonly d) && i_readonly i then Ret false
              else ask off m (indexer_type (i_value i))
                     (property_type (p_ty d) (p_optional d))
          | None => Ret false
          end
    end.

  Definition relate_indexer (off : nat) (m : mode) (src : shape) (d : indexer) : tree :=
    match find_matching_indexer src d with
    | Some s =>
        if negb (i_readonly d) && i_readonly s then Ret false
        else ask off m (indexer_type (i_value s)) (indexer_type (i_value d))
    | None =>
        match s_indexers src with
        | [] =>
            every (fun p =>
                if key_accepts (i_key d) (prop_key_kind (p_key p)) then
                  ask off m (property_type (p_ty p) (p_optional p))
                    (indexer_type (i_value d))
                else Ret true) (s_props src)
        | _ => Ret false
        end
    end.

  Definition relate_object (off : nat) (m : mode) (s d : shape) : tree :=
    both (every (relate_property off m s) (s_props d))
      (both (every (relate_indexer off m s) (s_indexers d))
         (both (relate_callable (S off) (bivariant m) (s_calls s) (s_calls d))
            (relate_callable (S off) (bivariant m) (s_constructs s) (s_constructs d)))).

  Definition empty_shape (sh : shape) : bool :=
    match s_props sh, s_calls sh, s_constructs sh, s_indexers sh with
    | [], [], [], [] => true
    | _, _, _, _ => false
    end.

  (** relate.rs 1441-1506: an array where an object type is wanted. *)
  Definition relate_array_to_object (off : nat) (m : mode) (t : tid) (d : shape) : tree :=
    if empty_shape d then Ret true
    else
      match least (List.filter (fun i =>
                covers (fun k => match k with KeyNumber => true | _ => false end)
                  (key_accepts (i_key i))) (s_indexers d)) with
      | Some i => ask off m t (i_value i)
      | None => Ret false
      end.

  (** relate.rs 1396-1572: the last match of [assignable].  Calls made at
      [depth + 1] by the functions above ask one level deeper. *)
  Definition structural (off : nat) (m : mode) (sk dk : kind) : tree :=
    match sk, dk with
    | KBoolLit a, KBoolLit b => Ret (Bool.eqb a b)
    | KNumLit a, KNumLit b => Ret (a =? b)
    | KStrLit a, KStrLit b => Ret (a =? b)
    | KBigLit a, KBigLit b => Ret (Z.eqb a b)
    | KArray a sro, KArray b dro => relate_array (S off) m a b sro dro
    | KArray a _, KObject d => relate_array_to_object off m a d
    | KTuple _, KObject d => Ret (empty_shape d)
    | KTuple ss, KTuple ds => relate_tuple (S off) m ss ds
    | KArray a ro, KTuple ds => relate_array_to_tuple (S off) m a ro ds
    | KTuple ss, KArray b ro => relate_tuple_to_array (S off) m ss b ro
    | KCallable ss, KCallable ds => relate_callable (2 + off) m ss ds
    | KCallable ss, KObject d => relate_callable_to_object (3 + off) m ss d
    | KObject s, KCallable ds => relate_object_to_callable (3 + off) m s ds
    | KObject s, KObject d => relate_object (S off) m s d
    | _, _ => Ret false
    end.

  (** relate.rs 1108-1572, after the references: conditional types, unions,
      intersections, then [structural]. *)
  Definition compound (off : nat) (m : mode) (s d : tid) : tree :=
    match st_kind E s, st_kind E d with
    | KCond t f, _ => both (ask off m t d) (ask off m f d)
    | _, KCond t f => both (ask off m s t) (ask off m s f)
    | KUnion ms, _ => every (fun x => ask off m x d) ms
    | _, KUnion ms => some (fun x => ask off m s x) ms
    | _, KInter ms => every (fun x => ask off m s x) ms
    | KInter ms, dk =>
        let members := some (fun x => ask off m x d) ms in
        match dk with
        | KObject dsh =>
            match st_merge E ms with
            | Some sh => relate_object (S off) m sh dsh
            | None => members
            end
        | _ => members
        end
    | sk, dk => structural off m sk dk
    end.

  (** The expansion of a reference, when it is another type (1058-1107). *)
  Definition expansion (t : tid) : option tid :=
    match st_kind E t with
    | KRef (Some e) => if e =? t then None else Some e
    | _ => None
    end.

  (** relate.rs 843-1572: assignable, with nothing recorded.  Variance
      annotations of type parameters (868-998) are left out. *)
  Definition assignable (off : nat) (m : mode) (s d : tid) : tree :=
    if s =? d then Ret true
    else if negb (m_skip m)
            && negb ((st_norm E s =? s) && (st_norm E d =? d))
    then ask off m (st_norm E s) (st_norm E d)
    else
      match special (st_kind E s) (st_kind E d) with
      | Some b => Ret b
      | None =>
          match expansion s with
          | Some e => ask off m e d
          | None =>
              match expansion d with
              | Some e => ask off m s e
              | None => compound off m s d
              end
          end
      end.

  (** relate.rs 699-770: what a key that is not known yet calls for. *)
  Definition is_param (k : kind) : option N :=
    match k with KParam n => Some n | _ => None end.
  Definition plan (k : key) : tree :=
    let s := k_src k in
    let d := k_dst k in
    let m := k_mode k in
    match k_kind k with
    | Assignable => assignable 0 m s d
    | Comparable =>
        match is_param (st_kind E s), is_param (st_kind E d) with
        | Some a, Some b => Ret (a =? b)
        | Some _, None | None, Some _ => Ret false
        | None, None => both (assignable 1 m s d) (assignable 1 m d s)
        end
    | StrictSubtype =>
        both (assignable 1 m s d) (bind (assignable 1 m d s) (fun b => Ret (negb b)))
    end.

  (** ** The engine *)

  (** relate.rs 266-276: the answers known so far and the steps made. *)
  Record state := State { c_cache : list (key * bool); c_steps : nat }.

  Definition lookup_key (k : key) (l : list (key * bool)) : option bool :=
    match List.find (fun e => bool_decide (e.1 = k)) l with
    | Some e => Some e.2
    | None => None
    end.

  Fixpoint run (rel : nat -> key -> state -> bool * state) (t : tree) (st : state)
      : bool * state :=
    match t with
    | Ret b => (b, st)
    | Ask e k f => let '(b, st') := rel e k st in run rel (f b) st'
    end.

  (** relate.rs 601-778: relate_internal.  [n] is the depth left; [open] are the
      keys in progress.  [keep]: what the bounded cache (cache.rs, ClockCache
      135-193) keeps of its entries after an insertion. *)
  Fixpoint relate (keep : list (key * bool) -> list (key * bool))
      (n : nat) (opened : list key) (k : key) (st : state) : bool * state :=
    match n with
    | O => (true, st)
    | S n' =>
        match lookup_key k (c_cache st) with
        | Some b => (b, st)
        | None =>
            if bool_decide (k ∈ opened) then (true, st)
            else if match l_steps (st_limits E) with
                    | Some limit => Nat.leb limit (c_steps st)
                    | None => false
                    end
            then (true, st)
            else
              let st1 :=
                match l_steps (st_limits E) with
                | Some _ => State (c_cache st) (S (c_steps st))
                | None => st
                end in
              if Nat.leb (l_in_progress (st_limits E)) (length opened)
              then (true, st1)
              else
                let '(b, st2) :=
                  run (fun e k' => relate keep (n' - e) (k :: opened) k') (plan k) st1 in
                (b, State (keep ((k, b) :: c_cache st2)) (c_steps st2))
        end
    end.

  (** relate.rs 430-600: is_assignable, is_assignable_no_normalize,
      is_comparable and is_strict_subtype. *)
  Definition query (keep : list (key * bool) -> list (key * bool)) (k : key)
      (cache : list (key * bool)) : bool * list (key * bool) :=
    let '(b, st) := relate keep (l_depth (st_limits E)) [] k (State cache 0) in
    (b, c_cache st).

  (** A context after a sequence of queries. *)
  Fixpoint after (keep : list (key * bool) -> list (key * bool)) (qs : list key)
      (cache : list (key * bool)) : list (key * bool) :=
    match qs with
    | [] => cache
    | q :: r => after keep r (snd (query keep q cache))
    end.
End Plan.
