(** The rules by which one TypeScript type may be used where another is wanted.

    Recursive types make the rules circular.  A relation on types is
    [consistent] if each of its pairs follows by a rule, where the parts of
    arrays, tuples, objects and functions may again be pairs of the relation.
    Two types are [assignable_to] when some consistent relation has them: the
    largest such relation, which is how recursive types are compared.  Following
    a reference or looking into a union makes no part, so it may not go on for
    ever.

    The relation has an index: with [true], parameters are compared in either
    direction, as for methods. *)
From Coq Require Import ZArith.
From stdpp Require Import base decidable numbers list.
From Verif Require Import RelateModel.

Local Open Scope N_scope.

Definition relation := bool -> tid -> tid -> Prop.

(** A type as seen through an optional property, an optional parameter or an
    index signature. *)
Definition seen_property (E : env) (t : tid) (optional : bool) (u : tid) : Prop :=
  (optional = true /\ o_exact_optional (st_opts E) = false /\ u = st_opt E t)
  \/ ((optional = false \/ o_exact_optional (st_opts E) = true) /\ u = t).
Definition seen_parameter (E : env) (t : tid) (optional : bool) (u : tid) : Prop :=
  (optional = true /\ u = st_opt E t) \/ (optional = false /\ u = t).
Definition seen_indexed (E : env) (t u : tid) : Prop :=
  (o_unchecked_index (st_opts E) = true /\ u = st_opt E t)
  \/ (o_unchecked_index (st_opts E) = false /\ u = t).

(** ** Values without parts *)
Inductive basic : kind -> kind -> Prop :=
  | basic_void : basic KVoid KVoid
  | basic_null : basic KNull KNull
  | basic_undefined : basic KUndefined KUndefined
  | basic_void_undefined : basic KVoid KUndefined
  | basic_undefined_void : basic KUndefined KVoid
  | basic_boolean b : basic (KBoolLit b) KBoolean
  | basic_number n : basic (KNumLit n) KNumber
  | basic_string s : basic (KStrLit s) KString
  | basic_bigint z : basic (KBigLit z) KBigInt
  | basic_symbol : basic KUniqueSymbol KSymbol
  | basic_same_boolean b : basic (KBoolLit b) (KBoolLit b)
  | basic_same_number n : basic (KNumLit n) (KNumLit n)
  | basic_same_string s : basic (KStrLit s) (KStrLit s)
  | basic_same_bigint z : basic (KBigLit z) (KBigLit z)
  | basic_mapping_string : basic KMapping KString
  | basic_string_mapping : basic KString KMapping
  | basic_literal_mapping s : basic (KStrLit s) KMapping
  | basic_mapping_mapping : basic KMapping KMapping.

(** What the type [{}] takes: every value but null and undefined. *)
Definition has_value (k : kind) : Prop :=
  match k with
  | KBoolean | KNumber | KString | KBigInt | KSymbol | KUniqueSymbol
  | KBoolLit _ | KNumLit _ | KStrLit _ | KBigLit _
  | KArray _ _ | KTuple _ | KObject _ | KCallable _ | KMapping | KEmpty => True
  | _ => False
  end.

(** ** Functions *)

(** The type of the argument at a position; a rest parameter takes all the
    positions from its own on. *)
Definition argument (E : env) (ps : list param) (i : nat) (t : tid) : Prop :=
  (exists p, nth_error ps i = Some p
     /\ seen_parameter E (if pm_rest p then st_spread E (pm_ty p) else pm_ty p)
          (pm_optional p) t)
  \/ (nth_error ps i = None
      /\ exists before r later, ps = before ++ r :: later /\ pm_rest r = true
         /\ Forall (fun p => pm_rest p = false) before
         /\ seen_parameter E (st_spread E (pm_ty r)) (pm_optional r) t).

(** The parameters that must be given. *)
Definition wanted (ps : list param) : nat :=
  length (filter (fun p => pm_optional p = false /\ pm_rest p = false) ps).

Record sig_fits (E : env) (R : relation) (biv : bool) (s d : signature) : Prop := {
  fits_generic : sg_tparams s = sg_tparams d;
  fits_this : forall a, sg_this s = Some a -> exists b, sg_this d = Some b /\ R biv b a;
  fits_no_this : forall b, sg_this s = None -> sg_this d = Some b -> R biv b (st_any E);
  fits_count : (wanted (sg_params s) <= wanted (sg_params d))%nat;
  (** each argument the wanted function may be given is one this one takes; a
      position this one does not have takes any value *)
  fits_arguments : forall i dt,
    (i < max (length (sg_params s)) (length (sg_params d)))%nat ->
    argument E (sg_params d) i dt ->
    exists st,
      (argument E (sg_params s) i st
       \/ ((forall u, ~ argument E (sg_params s) i u) /\ st = st_any E))
      /\ (R biv dt st
          \/ ((biv = true \/ o_strict_fn (st_opts E) = false) /\ R biv st dt));
  fits_result : st_kind E (sg_ret d) = KVoid \/ R biv (sg_ret s) (sg_ret d) }.

Definition sigs_fit (E : env) (R : relation) (biv : bool) (ss ds : list signature) : Prop :=
  forall d, d ∈ ds -> exists s, s ∈ ss /\ sig_fits E R biv s d.

(** ** Objects *)

(** The property of a shape with a name; "0" and 0 are one name, its own
    spelling first. *)
Definition spelled (E : env) (k k' : pkey) : Prop :=
  match k, k' with
  | PStr n, PNum i => st_index E n = Some i
  | PNum i, PStr n => (0 <= i)%Z /\ n = st_decimal E i
  | _, _ => False
  end.
Definition has_prop (E : env) (sh : shape) (k : pkey) (p : prop) : Prop :=
  p ∈ s_props sh
  /\ (p_key p = k
      \/ (spelled E k (p_key p) /\ forall q, q ∈ s_props sh -> p_key q <> k)).

(** Members that are not public must be the same declaration. *)
Definition visible (p : prop) : Prop := p_access p = None \/ p_access p = Some Public.
Definition compatible (s d : prop) : Prop :=
  (visible s /\ visible d)
  \/ (~ visible s /\ p_access s = p_access d
      /\ ((exists o, p_declared_on s = Some o /\ p_declared_on d = Some o)
          \/ (exists o, p_origin s = Some o /\ p_origin d = Some o))).

(** The names an index signature speaks about: a string index speaks about
    numbers as well. *)
Inductive name_kind := Strings | Numbers | Symbols.
Definition name_of (E : env) (k : pkey) (n : name_kind) : Prop :=
  match k, n with
  | PStr s, Strings => st_index E s = None
  | PStr s, Numbers => st_index E s <> None
  | PNum _, Numbers => True
  | PSym _, Symbols => True
  | _, _ => False
  end.
Definition speaks (E : env) (i : indexer) (n : name_kind) : Prop :=
  match st_kind E (i_key i), n with
  | KString, (Strings | Numbers) => True
  | KNumber, Numbers => True
  | KSymbol, Symbols => True
  | _, _ => False
  end.
(** The index signature that decides about names of a kind: a number index comes
    before a string index. *)
Definition decides (E : env) (sh : shape) (n : name_kind) (i : indexer) : Prop :=
  i ∈ s_indexers sh /\ speaks E i n
  /\ (n = Numbers -> st_kind E (i_key i) = KNumber
        \/ forall j, j ∈ s_indexers sh -> st_kind E (i_key j) <> KNumber).
(** The names an index signature is written for. *)
Definition written_for (E : env) (i : indexer) (n : name_kind) : Prop :=
  match n with
  | Strings => st_kind E (i_key i) = KString
  | Numbers => st_kind E (i_key i) = KNumber
  | Symbols => st_kind E (i_key i) = KSymbol
  end.

Inductive prop_fits (E : env) (R : relation) (biv : bool) (src : shape) (d : prop) : Prop :=
  | fits_prop s st dt :
      has_prop E src (p_key d) s ->
      compatible s d ->
      (p_readonly s = true -> p_readonly d = true) ->
      (p_optional s = true -> p_optional d = true) ->
      seen_property E (p_ty s) (p_optional s) st ->
      seen_property E (p_ty d) (p_optional d) dt ->
      R (biv || p_method s || p_method d) st dt ->
      prop_fits E R biv src d
  | fits_absent :
      (forall s, ~ has_prop E src (p_key d) s) -> p_optional d = true ->
      prop_fits E R biv src d
  | fits_indexed n i st dt :
      (forall s, ~ has_prop E src (p_key d) s) -> p_optional d = false ->
      name_of E (p_key d) n -> decides E src n i ->
      (i_readonly i = true -> p_readonly d = true) ->
      seen_indexed E (i_value i) st ->
      seen_property E (p_ty d) (p_optional d) dt ->
      R biv st dt ->
      prop_fits E R biv src d.

Inductive indexer_fits (E : env) (R : relation) (biv : bool) (src : shape) (d : indexer) : Prop :=
  | fits_indexer n i st dt :
      written_for E d n -> decides E src n i ->
      (i_readonly i = true -> i_readonly d = true) ->
      seen_indexed E (i_value i) st -> seen_indexed E (i_value d) dt ->
      R biv st dt ->
      indexer_fits E R biv src d
  | fits_known dt :
      s_indexers src = [] -> seen_indexed E (i_value d) dt ->
      (forall p n st, p ∈ s_props src -> name_of E (p_key p) n -> speaks E d n ->
         seen_property E (p_ty p) (p_optional p) st -> R biv st dt) ->
      indexer_fits E R biv src d.

Record shape_fits (E : env) (R : relation) (biv : bool) (s d : shape) : Prop := {
  fits_props : forall p, p ∈ s_props d -> prop_fits E R biv s p;
  fits_indexers : forall i, i ∈ s_indexers d -> indexer_fits E R biv s i;
  fits_calls : sigs_fit E R true (s_calls s) (s_calls d);
  fits_constructs : sigs_fit E R true (s_constructs s) (s_constructs d) }.

(** ** The rules *)
Inductive rule (E : env) (R : relation) : relation :=
  | rule_same b t : rule E R b t t
  (** TypeScript makes an exception for [never] here (see the refutations) *)
  | rule_from_any b s d : st_kind E s = KAny -> rule E R b s d
  | rule_to_any b s d : st_kind E d = KAny -> rule E R b s d
  | rule_to_unknown b s d : st_kind E d = KUnknown -> rule E R b s d
  | rule_from_never b s d : st_kind E s = KNever -> rule E R b s d
  | rule_basic b s d : basic (st_kind E s) (st_kind E d) -> rule E R b s d
  (** a type parameter whose argument is not known takes any type but another
      parameter *)
  | rule_to_param b s d n :
      st_kind E d = KParam n -> (forall k, st_kind E s <> KParam k) -> rule E R b s d
  | rule_same_param b s d n :
      st_kind E s = KParam n -> st_kind E d = KParam n -> rule E R b s d
  | rule_to_empty b s d :
      st_kind E d = KEmpty -> has_value (st_kind E s) -> rule E R b s d
  | rule_from_union b s d ms :
      st_kind E s = KUnion ms -> (forall x, x ∈ ms -> rule E R b x d) -> rule E R b s d
  | rule_to_union b s d ms x :
      st_kind E d = KUnion ms -> x ∈ ms -> rule E R b s x -> rule E R b s d
  | rule_to_inter b s d ms :
      st_kind E d = KInter ms -> (forall x, x ∈ ms -> rule E R b s x) -> rule E R b s d
  | rule_from_inter b s d ms x :
      st_kind E s = KInter ms -> x ∈ ms -> rule E R b x d -> rule E R b s d
  | rule_from_merged b s d ms sh sh' :
      st_kind E s = KInter ms -> st_merge E ms = Some sh -> st_kind E d = KObject sh' ->
      shape_fits E R b sh sh' -> rule E R b s d
  | rule_from_ref b s d e :
      st_kind E s = KRef (Some e) -> rule E R b e d -> rule E R b s d
  | rule_to_ref b s d e :
      st_kind E d = KRef (Some e) -> rule E R b s e -> rule E R b s d
  | rule_from_cond b s d x y :
      st_kind E s = KCond x y -> rule E R b x d -> rule E R b y d -> rule E R b s d
  | rule_to_cond b s d x y :
      st_kind E d = KCond x y -> rule E R b s x -> rule E R b s y -> rule E R b s d
  | rule_array b s d x y ro ro' :
      st_kind E s = KArray x ro -> st_kind E d = KArray y ro' ->
      (ro = true -> ro' = true) -> R b x y -> rule E R b s d
  | rule_array_object b s d x ro :
      st_kind E s = KArray x ro -> st_kind E d = KObject (Shape [] [] [] []) ->
      rule E R b s d
  | rule_array_indexed b s d x ro i :
      st_kind E s = KArray x ro -> st_kind E d = KObject (Shape [] [] [] [i]) ->
      st_kind E (i_key i) = KNumber -> R b x (i_value i) ->
      rule E R b s d
  | rule_tuple b s d xs ys :
      st_kind E s = KTuple xs -> st_kind E d = KTuple ys ->
      Forall2 (fun x y =>
        (e_readonly x = true -> e_readonly y = true) /\ R b (e_ty x) (e_ty y)) xs ys ->
      rule E R b s d
  | rule_tuple_object b s d xs :
      st_kind E s = KTuple xs -> st_kind E d = KObject (Shape [] [] [] []) ->
      rule E R b s d
  | rule_tuple_array b s d xs y ro :
      st_kind E s = KTuple xs -> st_kind E d = KArray y ro ->
      Forall (fun x => (e_readonly x = true -> ro = true) /\ R b (e_ty x) y) xs ->
      rule E R b s d
  | rule_callable b s d ss ds :
      st_kind E s = KCallable ss -> st_kind E d = KCallable ds ->
      sigs_fit E R b ss ds -> rule E R b s d
  | rule_callable_object b s d ss ds :
      st_kind E s = KCallable ss -> st_kind E d = KObject (Shape [] ds [] []) ->
      sigs_fit E R true ss ds -> rule E R b s d
  | rule_object_callable b s d ss ds :
      st_kind E s = KObject (Shape [] ss [] []) -> st_kind E d = KCallable ds ->
      sigs_fit E R true ss ds -> rule E R b s d
  | rule_object b s d sh sh' :
      st_kind E s = KObject sh -> st_kind E d = KObject sh' ->
      shape_fits E R b sh sh' -> rule E R b s d.

Definition consistent (E : env) (R : relation) : Prop :=
  forall b s d, R b s d -> rule E R b s d.

Definition assignable_to (E : env) : relation :=
  fun b s d => exists R, consistent E R /\ R b s d.

(** ** What the questions mean *)
Definition meaning (E : env) (k : key) : Prop :=
  let R := assignable_to E (m_bivariant (k_mode k)) in
  match k_kind k with
  | Assignable => R (k_src k) (k_dst k)
  | Comparable =>
      (exists n, st_kind E (k_src k) = KParam n /\ st_kind E (k_dst k) = KParam n)
      \/ ((forall n, st_kind E (k_src k) <> KParam n)
          /\ (forall n, st_kind E (k_dst k) <> KParam n)
          /\ R (k_src k) (k_dst k) /\ R (k_dst k) (k_src k))
  | StrictSubtype => R (k_src k) (k_dst k) /\ ~ R (k_dst k) (k_src k)
  end.

(** The cache may lose entries, not invent them. *)
Definition forgetful (keep : list (key * bool) -> list (key * bool)) : Prop :=
  forall l e, e ∈ keep l -> e ∈ l.

(** ** Stores *)

(** What the store and the checker guarantee: an evaluated type is the type or
    what a reference stands for; properties have different names, index
    signatures are for strings, numbers and symbols, one each. *)
Record well_formed (E : env) : Prop := {
  wf_norm : forall t, st_norm E t = t \/ st_kind E t = KRef (Some (st_norm E t));
  wf_any : st_kind E (st_any E) = KAny;
  wf_strict : o_strict_null (st_opts E) = true;
  wf_keys : (0 < l_key_match (st_limits E))%nat;
  wf_shape : forall t sh,
    (st_kind E t = KObject sh
     \/ exists ms, st_kind E t = KInter ms /\ st_merge E ms = Some sh) ->
    NoDup (p_key <$> s_props sh)
    /\ NoDup ((fun i => st_kind E (i_key i)) <$> s_indexers sh)
    /\ Forall (fun i => st_kind E (i_key i) ∈ [KString; KNumber; KSymbol]) (s_indexers sh) }.

(** Left out of the comparison with the rules: [{}], tuples whose length is not
    fixed, and types with a number index and other members (see the
    refutations). *)
Definition fixed_tuples (E : env) : Prop :=
  forall t es, st_kind E t = KTuple es ->
    Forall (fun e => e_optional e = false /\ e_rest e = false) es.
Definition index_alone (E : env) : Prop :=
  forall t sh i, st_kind E t = KObject sh -> i ∈ s_indexers sh ->
    st_kind E (i_key i) = KNumber -> sh = Shape [] [] [] [i].
Definition no_empty (E : env) : Prop := forall t, st_kind E t <> KEmpty.

(** Types without parameters, intersections, unresolved conditional types and
    string intrinsics, where [any], [unknown] and [never] are not hidden in
    unions or behind references. *)
Definition plain_kind (E : env) (k : kind) : Prop :=
  match k with
  | KParam _ | KInter _ | KCond _ _ | KMapping => False
  | KUnion ms => ms <> [] /\ forall x, x ∈ ms -> st_kind E x ∉ [KAny; KUnknown; KNever]
  | KRef (Some e) => st_kind E e ∉ [KAny; KUnknown; KNever]
  | _ => True
  end.
Definition plain (E : env) : Prop := forall t, plain_kind E (st_kind E t).

(** Types that are not recursive: [h] bounds how deep they go. *)
Definition part_of_sig (E : env) (s : signature) (t : tid) : Prop :=
  sg_this s = Some t \/ (exists i, argument E (sg_params s) i t) \/ sg_ret s = t.
Definition part_of_shape (E : env) (sh : shape) (t : tid) : Prop :=
  (exists p, p ∈ s_props sh /\ seen_property E (p_ty p) (p_optional p) t)
  \/ (exists i, i ∈ s_indexers sh /\ (seen_indexed E (i_value i) t \/ t = i_value i))
  \/ (exists s, s ∈ s_calls sh ++ s_constructs sh /\ part_of_sig E s t).
Definition part_of (E : env) (k : kind) (t : tid) : Prop :=
  match k with
  | KArray x _ => t = x
  | KTuple es => exists e, e ∈ es /\
      (t = e_ty e
       \/ ((e_optional e = true \/ e_rest e = true)
           /\ t ∈ [st_opt E (e_ty e); st_spread E (e_ty e); st_opt E (st_spread E (e_ty e))]))
  | KUnion ms => t ∈ ms
  | KInter ms => t ∈ ms \/ exists sh, st_merge E ms = Some sh /\ part_of_shape E sh t
  | KObject sh => part_of_shape E sh t
  | KCallable ss => exists s, s ∈ ss /\ part_of_sig E s t
  | KRef (Some e) => t = e
  | KCond x y => t = x \/ t = y
  | _ => False
  end.
Definition measured (E : env) (h : tid -> nat) : Prop :=
  h (st_any E) = 0%nat
  /\ forall t u, part_of E (st_kind E t) u -> (h u < h t)%nat.

(** The limits leave room for types of that depth. *)
Definition roomy (E : env) (h : tid -> nat) (k : key) : Prop :=
  (4 * (h (k_src k) + h (k_dst k)) + 2 <= l_depth (st_limits E))%nat.
Definition unlimited (E : env) : Prop :=
  l_steps (st_limits E) = None
  /\ (l_depth (st_limits E) <= l_in_progress (st_limits E))%nat.
