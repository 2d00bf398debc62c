(** WebIDL: what conversion and overload resolution hand to the callee, for
    every runtime. *)
From stdpp Require Import base decidable numbers list.
From Verif Require Import WebidlModel WebidlSpec WebidlProofs WebidlFetchProofs.

(** A runtime: object 7 is iterable and yields two strings, object 8 is a
    string object that is iterable too, nothing is thrown. *)
Definition steps (l : log) : nat :=
  length (List.filter (fun x => match x.2 with AskStep _ => true | _ => false end) l).
Definition sample_rt : runtime := {|
  rt_limit := 10;
  rt_string_object n := (n =? 8)%N;
  rt_boolean _ v := inl (negb (is_undefined v));
  rt_number _ v := inl 5%N;
  rt_string _ v := inl 6%N;
  rt_method _ o s :=
    match s with
    | SIterator => if ((o =? 7) || (o =? 8))%N then inl (Some (JObj 70)) else inl None
    | SAsyncIterator => inl None
    end;
  rt_iterator _ o m := inl 71%N;
  rt_step l it := if steps l <=? 2 then inl (Some (JStr 1)) else inl None;
  rt_array _ n := inl 90%N;
  rt_key _ i := inl tt;
  rt_data _ o i v := inl tt;
  rt_freeze _ o := inl tt;
|}.

(** C64: a conversion that succeeds gives a value of the type asked for, with
    no sequence longer than the limit. *)
Theorem conversion_has_type : forall rt at_ t v l x l',
  convert_js_to_idl rt at_ t v l = (Ok x, l') -> has_type (rt_limit rt) t x.
Proof. intros rt at_ t v l x l'. apply tri_ok, convert_js_to_idl_typed. Qed.
Print Assumptions conversion_has_type.

Example conversion_example :
  fst (convert_js_to_idl sample_rt (0, 0) (TUnion [TBool; TNullable TDouble; TSeq TString]) (JObj 7) [])
    = Ok (VUnion (TSeq TString) (VSeq [VString 6; VString 6])) /\
  fst (convert_js_to_idl sample_rt (0, 0) (TUnion [TBool; TNullable TDouble; TSeq TString]) JNull [])
    = Ok (VUnion (TNullable TDouble) VNull) /\
  fst (convert_js_to_idl sample_rt (0, 0) (TAsync TString) (JObj 7) [])
    = Ok (VAsync (JObj 7) (JObj 70) false).
Proof. vm_compute. done. Qed.

(** It fails only with an exception of the runtime, a TypeError or the limit,
    and does not run for ever: an iterator that never ends is cut off. *)
Theorem conversion_fails_cleanly : forall rt at_ t v l e l',
  convert_js_to_idl rt at_ t v l = (Err e, l') ->
  (exists n, e = Thrown n) \/ e = TypeErr \/ e = Limit.
Proof.
  intros rt at_ t v l e l' H. pose proof (convert_js_to_idl_typed rt at_ t v l) as Ht.
  rewrite H in Ht. cbn in Ht. destruct Ht as [H1 H2]. destruct e; try done; eauto.
Qed.
Print Assumptions conversion_fails_cleanly.

Theorem endless_iterator_cut_off : forall rt at_ t elem v l x l',
  (forall l it, exists v, rt_step rt l it = inl (Some v)) ->
  t = TSeq elem \/ t = TFrozen elem ->
  convert_js_to_idl rt at_ t v l <> (Ok x, l').
Proof. apply convert_endless. Qed.
Print Assumptions endless_iterator_cut_off.

(** Never-ending iterators exist: this one yields the same string for ever. *)
Definition endless_rt : runtime := {|
  rt_limit := 3;
  rt_string_object := rt_string_object sample_rt;
  rt_boolean := rt_boolean sample_rt; rt_number := rt_number sample_rt;
  rt_string := rt_string sample_rt; rt_method := rt_method sample_rt;
  rt_iterator := rt_iterator sample_rt;
  rt_step _ _ := inl (Some (JStr 1));
  rt_array := rt_array sample_rt; rt_key := rt_key sample_rt;
  rt_data := rt_data sample_rt; rt_freeze := rt_freeze sample_rt;
|}.
Example endless_example :
  fst (convert_js_to_idl endless_rt (0, 0) (TSeq TString) (JObj 7) []) = Err Limit.
Proof. vm_compute. done. Qed.

(** C53: overload resolution picks an overload that has as many parameters as
    arguments count, and hands over one value for each. *)
Theorem overload_selected : forall rt os args l id vs l',
  resolve_overload rt os args l = (Ok (id, vs), l') ->
  exists o n, o ∈ os /\ id = o_id o /\ effective_count os args n /\
  length (o_types o) = n /\ length vs = n.
Proof.
  intros rt os args l id vs l' H. apply resolve_result in H as (o & n & H).
  exists o, n. tauto.
Qed.
Print Assumptions overload_selected.

(** When the overloads agree up to the argument that tells them apart, as WebIDL
    demands, each value has the type the selected overload declares, or is left
    out where the overload allows it. *)
Theorem overload_values_typed : forall rt os args l id vs l',
  agree_before os ->
  resolve_overload rt os args l = (Ok (id, vs), l') ->
  exists o, o ∈ os /\ id = o_id o /\
  forall i x, vs !! i = Some x -> good_value (rt_limit rt) o args i x.
Proof.
  intros rt os args l id vs l' Ha H. apply resolve_result in H as (o & n & H).
  exists o. split; [tauto|]. split; [tauto|]. apply H, Ha.
Qed.
Print Assumptions overload_values_typed.

Definition sample_set : list overload :=
  [Overload 1 [TBool; TSeq TString; TDouble] [false; false; true];
   Overload 2 [TBool; TString; TObject] [false; false; false];
   Overload 3 [TDouble] [false]].

Example overload_example :
  agree_before sample_set /\
  fst (resolve_overload sample_rt sample_set [JNull; JObj 7; JUndef; JNum 3] [])
    = Ok (1%N, [Value (VBool true); Value (VSeq [VString 6; VString 6]); Missing]) /\
  fst (resolve_overload sample_rt sample_set [JNull; JObj 9; JObj 7] [])
    = Ok (2%N, [Value (VBool true); Value (VString 6); Value (VObject (JObj 7))]).
Proof.
  split; [|vm_compute; done].
  intros n i s H o1 o2 H1 H2. subst s. cbn in H, H1, H2.
  destruct (decide (n = 3)) as [->|H3].
  - cbn in H, H1, H2.
    destruct i as [|[|i]]; [|cbn in H; done|].
    + apply elem_of_cons in H1 as [->|H1%elem_of_list_singleton];
        apply elem_of_cons in H2 as [->|H2%elem_of_list_singleton]; subst; done.
    + destruct i as [|i]; [cbn in H; done|].
      apply elem_of_cons in H1 as [->|H1%elem_of_list_singleton];
        apply elem_of_cons in H2 as [->|H2%elem_of_list_singleton]; subst; done.
  - destruct n as [|[|[|[|n]]]]; try done; cbn in H1, H2; try by apply elem_of_nil in H1.
Qed.

(** Without that agreement the earlier arguments are converted for whichever
    overload comes first: here the second overload is selected but its first
    parameter, a string, receives a number. *)
Theorem overload_prefix_refuted :
  let os := [Overload 1 [TDouble; TSeq TDouble] []; Overload 2 [TString; TString] [];
             Overload 3 [TDouble; TBool] []] in
  fst (resolve_overload sample_rt os [JStr 1; JStr 2] [])
    = Ok (2%N, [Value (VDouble 5); Value (VString 6)]).
Proof. vm_compute. done. Qed.
Print Assumptions overload_prefix_refuted.

(** An iterator method of an argument is looked up at most once, whatever the
    outcome, ... *)
Theorem iterator_looked_up_once_partial : forall rt os args i s r l,
  fetch_safe os ->
  resolve_overload rt os args [] = (r, l) -> fetches i s l <= 1.
Proof. apply resolve_fetches. Qed.
Print Assumptions iterator_looked_up_once_partial.

Theorem conversion_looks_up_once_partial : forall rt i t v s r l,
  single t = true ->
  convert_js_to_idl rt (i, 0) t v [] = (r, l) -> fetches i s l <= 1.
Proof. apply convert_fetches. Qed.
Print Assumptions conversion_looks_up_once_partial.

Example looked_up_example :
  single (TNullable (TUnion [TString; TSeq (TUnion [TSeq TString; TFrozen TString])])) = true /\
  fetch_safe sample_set /\
  fetches 1 SIterator
    (snd (resolve_overload sample_rt sample_set [JNull; JObj 7; JUndef; JNum 3] [])) = 1.
Proof.
  split; [done|]. split; [|vm_compute; done].
  split.
  - intros o t Ho Ht.
    repeat (apply elem_of_cons in Ho as [->|Ho];
            [repeat (apply elem_of_cons in Ht as [->|Ht]; [done|]); by apply elem_of_nil in Ht|]).
    by apply elem_of_nil in Ho.
  - intros n s Hn. destruct (decide (n = 3)) as [->|H3].
    + subst s. cbn. split.
      * intros o t Ho Ht.
        repeat (apply elem_of_cons in Ho as [->|Ho];
          [repeat (apply elem_of_cons in Ht as [->|Ht]; [done|]); by apply elem_of_nil in Ht|]).
        by apply elem_of_nil in Ho.
      * intros o1 o2 i t1 t2 H1 H2 E1 E2 Ha.
        apply elem_of_list_lookup_2 in E1.
        repeat (apply elem_of_cons in H1 as [->|H1];
          [repeat (apply elem_of_cons in E1 as [->|E1]; [done|]); by apply elem_of_nil in E1|]).
        by apply elem_of_nil in H1.
    + destruct n as [|[|[|[|n]]]]; try done; cbn in Hn; lia.
Qed.

(** ... except where an iterable stands under [?] or in a union: the method
    found while selecting the overload is thrown away and looked up again; ... *)
Theorem iterator_looked_up_twice_refuted :
  let os := [Overload 1 [TNullable (TSeq TString)] []; Overload 2 [TString] []] in
  let '(r, l) := resolve_overload sample_rt os [JObj 7] [] in
  r = Ok (1%N, [Value (VSeq [VString 6; VString 6])]) /\ fetches 0 SIterator l = 2.
Proof. vm_compute. done. Qed.
Print Assumptions iterator_looked_up_twice_refuted.

(** ... and where asynchronous and plain sequences compete for an object that
    is neither. *)
Theorem missing_iterator_looked_up_twice_refuted :
  let os := [Overload 1 [TAsync TString] []; Overload 2 [TSeq TString] []; Overload 3 [TString] []] in
  let '(r, l) := resolve_overload sample_rt os [JObj 9] [] in
  r = Ok (3%N, [Value (VString 6)]) /\ fetches 0 SIterator l = 2.
Proof. vm_compute. done. Qed.
Print Assumptions missing_iterator_looked_up_twice_refuted.

(** C65: a value of a type without [?] converts back to JavaScript unless the
    runtime throws. *)
Theorem back_to_javascript_partial : forall k rt at_ t x l e l',
  has_type k t x -> no_nullable t = true ->
  to_js rt at_ x t l = (Err e, l') -> exists n, e = Thrown n.
Proof.
  intros k rt at_ t x l e l' H Hn E. eapply (to_js_accepts k rt at_ x t H Hn l).
  by rewrite E.
Qed.
Print Assumptions back_to_javascript_partial.

Example back_example :
  has_type 10 (TUnion [TBool; TSeq TString]) (VUnion (TSeq TString) (VSeq [VString 6])) /\
  fst (to_js sample_rt (0, 0) (VUnion (TSeq TString) (VSeq [VString 6])) (TUnion [TBool; TSeq TString]) [])
    = Ok (JObj 90).
Proof.
  split; [|vm_compute; done]. apply has_union.
  - apply (member_union _ (TSeq TString)).
    + apply elem_of_list_further, elem_of_list_here.
    + by apply member_here.
  - apply has_seq; [cbn; lia|]. apply Forall_singleton, has_string.
Qed.

(** A present value of type [T?] does not, so [FrozenArray<DOMString?>] accepts
    no array with a string in it. *)
Theorem nullable_rejected_refuted :
  has_type 10 (TNullable TString) (VString 6) /\
  fst (to_js sample_rt (0, 0) (VString 6) (TNullable TString) []) = Err TypeErr /\
  fst (convert_js_to_idl sample_rt (0, 0) (TFrozen (TNullable TString)) (JObj 7) []) = Err TypeErr.
Proof. split; [apply has_nullable, has_string|]. vm_compute. done. Qed.
Print Assumptions nullable_rejected_refuted.
