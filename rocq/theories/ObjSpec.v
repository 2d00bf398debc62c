(** Objects as a script sees them: string keys and string values by their code
    units, numbers up to SameValue, properties in insertion order.  The
    specification of [[DefineOwnProperty]] is ECMA-262 10.1.6.3 and 10.4.2.1 over
    these abstract objects; it shares no definition with the model. *)
From stdpp Require Import base decidable list numbers.
From Coq Require Import NArith.
From Verif Require Import VmBase HeapModel HeapObjModel HeapSpec KeySpec.

Open Scope N_scope.

(** * Abstract values, keys, descriptors *)

(** Equality of abstract values is SameValue (ECMA-262 7.2.10).  [AStale]: a
    string value whose handle no longer denotes a string. *)
Inductive aval :=
| AUndefined | ANull | ABool (b : bool) | ANaN | ANum (n : f64) | ABig (b : js_bigint)
| AStr (u : js_string) | ASym (s : heap_id) | AObj (o : heap_id) | AStale (s : heap_id).
Global Instance aval_eq_dec : EqDecision aval.
Proof. solve_decision. Defined.

Definition abs_value (h : heap) (v : value) : aval :=
  match v with
  | VUndefined => AUndefined
  | VNull => ANull
  | VBool b => ABool b
  | VNumber n => if f64_is_nan n then ANaN else ANum n
  | VBigInt b => ABig b
  | VString s => match get_string h s with Ok u => AStr u | _ => AStale s end
  | VSymbol s => ASym s
  | VObject o => AObj o
  end.

Inductive akey := AKStr (u : js_string) | AKSym (s : heap_id) | AKStale (s : heap_id).
Global Instance akey_eq_dec : EqDecision akey.
Proof. solve_decision. Defined.

Definition abs_key (h : heap) (k : property_key) : akey :=
  match k with
  | PKString s => match get_string h s with Ok u => AKStr u | _ => AKStale s end
  | PKSymbol s => AKSym s
  end.

(** The key is the array index [i] (ECMA-262 6.1.7). *)
Definition akey_index (k : akey) (i : N) : Prop := k = AKStr (decimal_units i) /\ i < 2 ^ 32 - 1.
Definition akey_length : akey := AKStr [108; 101; 110; 103; 116; 104].

Inductive akind := AData (v : aval) (writable : bool) | AAccessor (get set : aval).
Global Instance akind_eq_dec : EqDecision akind.
Proof. solve_decision. Defined.
Record adesc := ADesc { a_enumerable : bool; a_configurable : bool; a_kind : akind }.
Global Instance adesc_eq_dec : EqDecision adesc.
Proof. solve_decision. Defined.

Definition abs_desc (h : heap) (d : property_descriptor) : adesc :=
  ADesc (pd_enumerable d) (pd_configurable d)
    (match pd_kind d with
     | PData v w => AData (abs_value h v) w
     | PAccessor g s => AAccessor (abs_value h g) (abs_value h s)
     end).

(** The fields a caller asks for. *)
Record apatch := APatch {
  ap_enumerable : option bool; ap_configurable : option bool;
  ap_value : option aval; ap_writable : option bool;
  ap_get : option aval; ap_set : option aval }.
Definition abs_patch (h : heap) (p : descriptor_patch) : apatch :=
  APatch (pp_enumerable p) (pp_configurable p) (abs_value h <$> pp_value p) (pp_writable p)
         (abs_value h <$> pp_get p) (abs_value h <$> pp_set p).
Definition ap_data (p : apatch) : Prop := ap_value p <> None \/ ap_writable p <> None.
Definition ap_accessor (p : apatch) : Prop := ap_get p <> None \/ ap_set p <> None.
Global Instance ap_data_dec p : Decision (ap_data p). Proof. unfold ap_data. apply _. Defined.
Global Instance ap_accessor_dec p : Decision (ap_accessor p). Proof. unfold ap_accessor. apply _. Defined.

(** * Abstract objects *)
Record aobj := AObject {
  ao_prototype : option heap_id;
  ao_extensible : bool;
  ao_array : option N;                   (* internal length of an array exotic object *)
  ao_props : list (akey * adesc) }.

Definition abs_entry (h : heap) (e : property_entry) : akey * adesc := (abs_key h (pe_key e), abs_desc h (pe_desc e)).
Definition abs_base (h : heap) (b : object_base) : aobj :=
  AObject (ob_prototype b) (ob_extensible b)
    (match ob_kind b with KArray n => Some n | KOrdinary => None end)
    (map (abs_entry h) (ob_properties b)).
(** What the handle [o] denotes ([None]: not an object). *)
Definition abs_object (h : heap) (o : heap_id) : option aobj :=
  match get_object_base h o with Ok b => Some (abs_base h b) | _ => None end.

(** The own property [k]. *)
Fixpoint alookup (k : akey) (ps : list (akey * adesc)) : option adesc :=
  match ps with
  | [] => None
  | (k', d) :: ps => if decide (k' = k) then Some d else alookup k ps
  end.
Definition own (v : aobj) (k : akey) : option adesc := alookup k (ao_props v).
(** Redefine a property in place, or add it at the end. *)
Fixpoint aput (k : akey) (d : adesc) (ps : list (akey * adesc)) : list (akey * adesc) :=
  match ps with
  | [] => [(k, d)]
  | (k', d') :: ps => if decide (k' = k) then (k', d) :: ps else (k', d') :: aput k d ps
  end.
Fixpoint aremove (k : akey) (ps : list (akey * adesc)) : list (akey * adesc) :=
  match ps with
  | [] => []
  | (k', d') :: ps => if decide (k' = k) then ps else (k', d') :: aremove k ps
  end.
Definition with_props (v : aobj) (ps : list (akey * adesc)) : aobj :=
  AObject (ao_prototype v) (ao_extensible v) (ao_array v) ps.

(** * ECMA-262 10.1.6.3 ValidateAndApplyPropertyDescriptor *)

(** The change is refused; one rule per rejecting step. *)
Inductive rejects (extensible : bool) : option adesc -> apatch -> Prop :=
| rj_extensible p : extensible = false -> rejects extensible None p                          (* 2.a *)
| rj_configurable d p : a_configurable d = false -> ap_configurable p = Some true ->
    rejects extensible (Some d) p                                                            (* 5.a *)
| rj_enumerable d p e : a_configurable d = false -> ap_enumerable p = Some e -> e <> a_enumerable d ->
    rejects extensible (Some d) p                                                            (* 5.b *)
| rj_to_accessor d p v w : a_configurable d = false -> a_kind d = AData v w -> ap_accessor p ->
    rejects extensible (Some d) p                                                            (* 5.c *)
| rj_to_data d p g s : a_configurable d = false -> a_kind d = AAccessor g s -> ap_data p ->
    rejects extensible (Some d) p                                                            (* 5.c *)
| rj_get d p g s x : a_configurable d = false -> a_kind d = AAccessor g s -> ap_get p = Some x -> x <> g ->
    rejects extensible (Some d) p                                                            (* 5.d.i *)
| rj_set d p g s x : a_configurable d = false -> a_kind d = AAccessor g s -> ap_set p = Some x -> x <> s ->
    rejects extensible (Some d) p                                                            (* 5.d.ii *)
| rj_writable d p v : a_configurable d = false -> a_kind d = AData v false -> ap_writable p = Some true ->
    rejects extensible (Some d) p                                                            (* 5.e.i *)
| rj_value d p v x : a_configurable d = false -> a_kind d = AData v false -> ap_value p = Some x -> x <> v ->
    rejects extensible (Some d) p.                                                           (* 5.e.ii *)

Definition or_else {A} (x : option A) (y : A) : A := match x with Some a => a | None => y end.

(** The property afterwards: the requested fields, else the previous ones, else
    false / undefined (also when the property changes kind). *)
Definition merged (cur : option adesc) (p : apatch) : adesc :=
  ADesc (or_else (ap_enumerable p) (match cur with Some d => a_enumerable d | None => false end))
        (or_else (ap_configurable p) (match cur with Some d => a_configurable d | None => false end))
        (match a_kind <$> cur with
         | Some (AAccessor g s) =>
             if decide (ap_data p)
             then AData (or_else (ap_value p) AUndefined) (or_else (ap_writable p) false)
             else AAccessor (or_else (ap_get p) g) (or_else (ap_set p) s)
         | Some (AData v w) =>
             if decide (ap_accessor p)
             then AAccessor (or_else (ap_get p) AUndefined) (or_else (ap_set p) AUndefined)
             else AData (or_else (ap_value p) v) (or_else (ap_writable p) w)
         | None =>
             if decide (ap_accessor p)
             then AAccessor (or_else (ap_get p) AUndefined) (or_else (ap_set p) AUndefined)
             else AData (or_else (ap_value p) AUndefined) (or_else (ap_writable p) false)
         end).

(** OrdinaryDefineOwnProperty on an abstract object: outcome and object afterwards. *)
Inductive ordinary_define_spec (v : aobj) (k : akey) (p : apatch) : bool -> aobj -> Prop :=
| ods_rejected : rejects (ao_extensible v) (own v k) p -> ordinary_define_spec v k p false v
| ods_defined : ~ rejects (ao_extensible v) (own v k) p ->
    ordinary_define_spec v k p true (with_props v (aput k (merged (own v k) p) (ao_props v))).

(** * ECMA-262 10.4.2 Array exotic objects *)

Definition anum (n : N) : aval := ANum (f64_of_N n).
(** The number that a valid array length denotes. *)
Definition alength (n : N) (writable : bool) : adesc := ADesc false false (AData (anum n) writable).

(** An array: its first property is [length], a non-configurable, non-enumerable
    data property holding the internal length; no key occurs twice. *)
Record array_shape (v : aobj) (len : N) (writable : bool) (elems : list (akey * adesc)) : Prop := {
  ar_len : ao_array v = Some len;
  ar_range : len < 2 ^ 32;
  ar_props : ao_props v = (akey_length, alength len writable) :: elems;
  ar_nodup : NoDup (map fst (ao_props v)) }.
(** Every index present is below [length]. *)
Definition array_bounded (len : N) (elems : list (akey * adesc)) : Prop :=
  forall k d i, (k, d) ∈ elems -> akey_index k i -> i < len.

Definition array_with (v : aobj) (len : N) (writable : bool) (elems : list (akey * adesc)) : aobj :=
  AObject (ao_prototype v) (ao_extensible v) (Some len) ((akey_length, alength len writable) :: elems).

(** [cut len n elems stop]: truncating to length [n] stops at [stop], just above the
    highest element at or above [n] that cannot be deleted. *)
Definition cut (len n : N) (elems : list (akey * adesc)) (stop : N) : Prop :=
  n <= stop /\
  (forall k d i, (k, d) ∈ elems -> akey_index k i -> stop <= i < len -> a_configurable d = true) /\
  (stop = n \/ exists k d i, (k, d) ∈ elems /\ akey_index k i /\ i < len /\ stop = i + 1 /\ n <= i /\ a_configurable d = false).
(** The elements left below [stop]: same order, indices at or above it gone. *)
Definition keeps_below (len stop : N) (elems elems' : list (akey * adesc)) : Prop :=
  elems' `sublist_of` elems /\
  forall k d, (k, d) ∈ elems -> ((k, d) ∈ elems' <-> ~ exists i, akey_index k i /\ stop <= i < len).

(** The array length a value denotes: a number that is an integer in [0, 2^32). *)
Definition length_value (x : aval) (n : N) : Prop :=
  exists f, x = ANum f /\ f64_is_finite f = true /\ f64_ltb_zero f = false /\ f64_int_mag f = Some n /\ n < 2 ^ 32.
Definition with_value (p : apatch) (x : aval) : apatch :=
  APatch (ap_enumerable p) (ap_configurable p) (Some x) (ap_writable p) (ap_get p) (ap_set p).

(** [[DefineOwnProperty]] of an array of length [len] with elements [es] (10.4.2.1,
    10.4.2.4).  An invalid length is refused; ECMA-262 has a RangeError thrown,
    which is the caller's business here. *)
Inductive array_define_spec (v : aobj) (len : N) (w : bool) (es : list (akey * adesc)) (k : akey) (p : apatch) : bool -> aobj -> Prop :=
| ads_other_rejected : k <> akey_length -> (forall i, ~ akey_index k i) -> rejects (ao_extensible v) (own v k) p ->
    array_define_spec v len w es k p false v
| ads_other : k <> akey_length -> (forall i, ~ akey_index k i) -> ~ rejects (ao_extensible v) (own v k) p ->
    array_define_spec v len w es k p true (array_with v len w (aput k (merged (own v k) p) es))
| ads_index_readonly i : akey_index k i -> len <= i -> w = false -> array_define_spec v len w es k p false v
| ads_index_rejected i : akey_index k i -> i < len \/ w = true -> rejects (ao_extensible v) (own v k) p ->
    array_define_spec v len w es k p false v
| ads_index i : akey_index k i -> i < len \/ w = true -> ~ rejects (ao_extensible v) (own v k) p ->
    array_define_spec v len w es k p true (array_with v (N.max len (i + 1)) w (aput k (merged (own v k) p) es))
| ads_length_attrs_rejected : k = akey_length -> ap_value p = None -> rejects (ao_extensible v) (Some (alength len w)) p ->
    array_define_spec v len w es k p false v
| ads_length_attrs : k = akey_length -> ap_value p = None -> ~ rejects (ao_extensible v) (Some (alength len w)) p ->
    array_define_spec v len w es k p true (array_with v len (or_else (ap_writable p) w) es)
| ads_length_invalid x : k = akey_length -> ap_value p = Some x -> (forall n, ~ length_value x n) ->
    array_define_spec v len w es k p false v
| ads_length_rejected x n : k = akey_length -> ap_value p = Some x -> length_value x n ->
    (n < len /\ w = false) \/ rejects (ao_extensible v) (Some (alength len w)) (with_value p (anum n)) ->
    array_define_spec v len w es k p false v
| ads_length_grow x n : k = akey_length -> ap_value p = Some x -> length_value x n -> len <= n ->
    ~ rejects (ao_extensible v) (Some (alength len w)) (with_value p (anum n)) ->
    array_define_spec v len w es k p true (array_with v n (or_else (ap_writable p) w) es)
| ads_length_shrink x n stop es' : k = akey_length -> ap_value p = Some x -> length_value x n -> n < len -> w = true ->
    ~ rejects (ao_extensible v) (Some (alength len w)) (with_value p (anum n)) ->
    cut len n es stop -> keeps_below len stop es es' ->
    array_define_spec v len w es k p (bool_decide (stop = n)) (array_with v stop (or_else (ap_writable p) w) es').

(** [[Delete]] (10.1.10.1): refused for a non-configurable property. *)
Inductive delete_spec (v : aobj) (k : akey) : bool -> aobj -> Prop :=
| dls_absent : own v k = None -> delete_spec v k true v
| dls_kept d : own v k = Some d -> a_configurable d = false -> delete_spec v k false v
| dls_deleted d : own v k = Some d -> a_configurable d = true -> delete_spec v k true (with_props v (aremove k (ao_props v))).

(** * ECMA-262 6.1.7.3: essential invariants between two states of an object *)
Record essential (v v' : aobj) : Prop := {
  es_extensible : ao_extensible v = false -> ao_extensible v' = false;
  es_absent : forall k, ao_extensible v = false -> own v k = None -> own v' k = None;
  es_fixed : forall k d, own v k = Some d -> a_configurable d = false ->
    exists d', own v' k = Some d' /\ a_configurable d' = false /\ a_enumerable d' = a_enumerable d /\
      match a_kind d, a_kind d' with
      | AAccessor g s, AAccessor g' s' => g' = g /\ s' = s
      | AData x w, AData x' w' => w = false -> x' = x /\ w' = false
      | _, _ => False
      end }.

(** *** [[DefineOwnProperty]] on any object *)
Inductive define_spec (v : aobj) (k : akey) (p : apatch) (ok : bool) (v' : aobj) : Prop :=
| dfs_ordinary : ao_array v = None -> ordinary_define_spec v k p ok v' -> define_spec v k p ok v'
| dfs_array n w es : array_shape v n w es -> array_define_spec v n w es k p ok v' -> define_spec v k p ok v'.

(** What may be left behind when memory runs out: nothing changed, or a shrink of
    an array's length stopped part of the way through its deletions. *)
Inductive define_oom (v : aobj) (k : akey) (p : apatch) : aobj -> Prop :=
| doo_unchanged : define_oom v k p v
| doo_cut n es x m es' : array_shape v n true es -> k = akey_length -> ap_value p = Some x -> length_value x m -> m < n ->
    ~ rejects (ao_extensible v) (Some (alength n true)) (with_value p (anum m)) ->
    es' `sublist_of` es ->
    (forall k d, (k, d) ∈ es -> (k, d) ∉ es' -> a_configurable d = true /\ exists j, akey_index k j /\ m <= j < n) ->
    define_oom v k p (array_with v m true es').

(** A patch that is both a data and an accessor patch is refused. *)
Definition patch_mixed (p : apatch) : Prop := ap_data p /\ ap_accessor p.

(** The string handles in a key or patch denote strings (the type [GcString] in the
    code: a handle of that type is only ever made for a string). *)
Definition good_key (k : akey) : Prop := match k with AKStale _ => False | _ => True end.
Definition stale (a : aval) : Prop := match a with AStale _ => True | _ => False end.
Definition patch_good (p : apatch) : Prop :=
  (forall x, ap_value p = Some x -> ~ stale x) /\ (forall x, ap_get p = Some x -> ~ stale x) /\ (forall x, ap_set p = Some x -> ~ stale x).

(** The object at [o] is an ordinary object, or an array whose first property is
    its length. *)
Definition well_formed (h : heap) (o : heap_id) (v : aobj) : Prop :=
  abs_object h o = Some v /\
  (ao_array v = None \/ (exists n w es, array_shape v n w es) /\ exists b, get_heap_object h o = Ok (HObject b)).
