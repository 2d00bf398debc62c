(** Which root sets an operation can touch: every operation only pushes on the
    stacks of the current scope, and only the persistent-root operations change
    the persistent-root tables. *)
From stdpp Require Import base decidable list numbers sets.
From Coq Require Import NArith ZArith Lia.
From RecordUpdate Require Import RecordUpdate.
From Verif Require Import VmBase HeapModel HeapObjModel HeapSpec HeapGcProofs HeapInvProofs HeapObjProofs
  ObjectOpsModel ObjectOpsProofs.

Open Scope N_scope.

Definition pers_eq (h h' : heap) : Prop :=
  h_proots h' = h_proots h /\ h_proots_free h' = h_proots_free h /\
  h_peroots h' = h_peroots h /\ h_peroots_free h' = h_peroots_free h /\
  (forall e, e ∈ h_registry h -> e ∈ h_registry h').
Definition stack_ext (h h' : heap) : Prop :=
  h_roots h `prefix_of` h_roots h' /\ h_env_roots h `prefix_of` h_env_roots h'.
Definition tidy {A} (m : M A) : Prop :=
  forall h h' r, m h = (h', r) -> stack_ext h h' /\ pers_eq h h'.

Lemma stack_ext_refl h : stack_ext h h. Proof. split; done. Qed.
Lemma stack_ext_trans a b c : stack_ext a b -> stack_ext b c -> stack_ext a c.
Proof. intros [H1 H2] [H3 H4]. split; etrans; eauto. Qed.
Lemma pers_eq_refl h : pers_eq h h. Proof. repeat split; done. Qed.
Lemma pers_eq_trans a b c : pers_eq a b -> pers_eq b c -> pers_eq a c.
Proof. unfold pers_eq. intros (?&?&?&?&?) (?&?&?&?&?). repeat split; auto; congruence. Qed.
Lemma same_fields_tidy h h' : h_roots h' = h_roots h -> h_env_roots h' = h_env_roots h -> pers_eq h h' ->
  stack_ext h h' /\ pers_eq h h'.
Proof. intros E1 E2 P. split; auto. split; by rewrite ?E1, ?E2. Qed.

Lemma tidy_ret {A} (a : A) : tidy (mret a).
Proof. intros h h' r E. unfold mret in E. simplify_eq. split; [apply stack_ext_refl|apply pers_eq_refl]. Qed.
Lemma tidy_fail {A} e : tidy (mfail (A:=A) e).
Proof. intros h h' r E. unfold mfail in E. simplify_eq. split; [apply stack_ext_refl|apply pers_eq_refl]. Qed.
Lemma tidy_mget {A} (f : heap -> A) : tidy (mget f).
Proof. intros h h' r E. unfold mget in E. simplify_eq. split; [apply stack_ext_refl|apply pers_eq_refl]. Qed.
Lemma tidy_mread {A} (f : heap -> res A) : tidy (mread f).
Proof. intros h h' r E. unfold mread in E. simplify_eq. split; [apply stack_ext_refl|apply pers_eq_refl]. Qed.
Lemma tidy_bind {A B} (m : M A) (k : A -> M B) : tidy m -> (forall a, tidy (k a)) -> tidy (mbind m k).
Proof.
  intros Hm Hk h h' r E. unfold mbind in E. destruct (m h) as [h1 r1] eqn:E1.
  destruct (Hm _ _ _ E1) as [S P]. destruct r1 as [a|e|]; simplify_eq; [|done|done].
  destruct (Hk a _ _ _ E) as [S' P']. split; [eapply stack_ext_trans|eapply pers_eq_trans]; eauto.
Qed.
Lemma with_scope_restores {A} (m : M A) h h' r : tidy m -> with_scope m h = (h', r) ->
  h_roots h' = h_roots h /\ h_env_roots h' = h_env_roots h /\ pers_eq h h'.
Proof.
  intros Hm E. unfold with_scope in E. destruct (m h) as [h1 r1] eqn:E1.
  destruct (Hm _ _ _ E1) as [[[l1 S1] [l2 S2]] P]. simplify_eq. cbn. rewrite S1, S2.
  split; [by rewrite take_app|]. split; [by rewrite take_app|]. destruct P as (?&?&?&?&?). by repeat split.
Qed.
Lemma tidy_with_scope {A} (m : M A) : tidy m -> tidy (with_scope m).
Proof.
  intros Hm h h' r E. destruct (with_scope_restores m h h' r Hm E) as (E1 & E2 & P).
  by apply same_fields_tidy.
Qed.
Lemma tidy_mmodify f : (forall h, stack_ext h (f h) /\ pers_eq h (f h)) -> tidy (mmodify f).
Proof. intros Hf h h' r E. unfold mmodify in E. simplify_eq. apply Hf. Qed.

Lemma collect_with_frame extra h h' : collect_with extra h = Some h' ->
  h_roots h' = h_roots h /\ h_env_roots h' = h_env_roots h /\ pers_eq h h' /\ h_registry h' = h_registry h.
Proof.
  unfold collect_with. destruct (mark_loop _ _ _); [|done]. destruct (sweep _ _ _ _ _) as [[[[??]?]?]|]; [|done].
  intros E. simplify_eq. cbn. repeat split; done.
Qed.
Lemma tidy_ensure add extra : tidy (ensure_can_allocate_with add extra).
Proof.
  intros h h' r E. unfold ensure_can_allocate_with in E.
  destruct (if h_gc_threshold h <? _ then collect_with extra h else Some h) as [h1|] eqn:E1.
  - assert (F : h_roots h1 = h_roots h /\ h_env_roots h1 = h_env_roots h /\ pers_eq h h1).
    { destruct (h_gc_threshold h <? _); [|by simplify_eq; repeat split].
      destruct (collect_with_frame extra h h1 E1) as (?&?&?&?). auto. }
    destruct F as (F1 & F2 & F3). destruct (h_max_bytes h1 <? _); simplify_eq; by apply same_fields_tidy.
  - simplify_eq. by apply same_fields_tidy.
Qed.
Lemma tidy_ensure_plain n : tidy (ensure_can_allocate n).
Proof. apply tidy_ensure. Qed.
Lemma tidy_collect : tidy collect_garbage.
Proof.
  intros h h' r E. unfold collect_garbage in E. destruct (collect_with [] h) as [h1|] eqn:E1; simplify_eq.
  - destruct (collect_with_frame [] h h' E1) as (?&?&?&?). by apply same_fields_tidy.
  - by apply same_fields_tidy.
Qed.
Lemma tidy_reserve {B} cap len (upd : N -> heap -> heap) (r1 : res B) (r2 : res B) :
  (forall c h, h_roots (upd c h) = h_roots h /\ h_env_roots (upd c h) = h_env_roots h /\ pers_eq h (upd c h)) ->
  tidy (fun h => match reserve_cap (cap h) (len h) with Ok c => (upd c h, r1) | _ => (h, r2) end).
Proof.
  intros Hu h h' r E. destruct (reserve_cap _ _) as [c|e|]; simplify_eq; try by apply same_fields_tidy.
  destruct (Hu c h) as (?&?&?). by apply same_fields_tidy.
Qed.
Lemma tidy_reserve_for_new_slot : tidy reserve_for_new_slot.
Proof.
  intros h h' r E. unfold reserve_for_new_slot in E. cbn zeta in E.
  repeat match type of E with (match ?x with _ => _ end) = _ => destruct x end; simplify_eq; by apply same_fields_tidy.
Qed.
Lemma tidy_take_slot : tidy take_slot.
Proof.
  intros h h' r E. unfold take_slot in E. destruct (h_free h).
  - destruct (reserve_for_new_slot h) as [h1 r1] eqn:E1. destruct (tidy_reserve_for_new_slot _ _ _ E1) as [S P].
    destruct r1; simplify_eq; try done; split; done.
  - simplify_eq. by apply same_fields_tidy.
Qed.
Lemma tidy_store_new i o n : tidy (store_new i o n).
Proof.
  intros h h' r E. unfold store_new in E. destruct (h_slots h !! i); [|simplify_eq; by apply same_fields_tidy].
  cbn zeta in E. destruct (two32 <=? N.of_nat i); simplify_eq; by apply same_fields_tidy.
Qed.
Lemma tidy_alloc o n : tidy (alloc_unchecked o n).
Proof.
  unfold alloc_unchecked. apply tidy_bind; [apply tidy_ensure|]. intros _. apply tidy_bind; [apply tidy_take_slot|].
  intros i. apply tidy_store_new.
Qed.
Lemma tidy_update_object id f : tidy (update_object id f).
Proof.
  intros h h' r E. unfold update_object in E.
  repeat match type of E with (match ?x with _ => _ end) = _ => destruct x end; simplify_eq; by apply same_fields_tidy.
Qed.
Lemma tidy_update_slot_bytes id f : tidy (update_slot_bytes id f).
Proof.
  intros h h' r E. unfold update_slot_bytes in E. cbn zeta in E.
  repeat match type of E with (match ?x with _ => _ end) = _ => destruct x end; simplify_eq; by apply same_fields_tidy.
Qed.
Lemma tidy_push_roots_with vs extra : tidy (push_roots_with vs extra).
Proof.
  assert (T : tidy (mmodify (fun h => h <| h_roots := h_roots h ++ vs |>))).
  { apply tidy_mmodify. intros h. split; [split; cbn; [by eexists|done]|by repeat split]. }
  intros h h' r E. unfold push_roots_with in E. destruct vs as [|v vs]; [simplify_eq; by apply same_fields_tidy|].
  cbn zeta in E. destruct (_ =? 0); [by apply T in E|].
  revert E. apply tidy_bind; [apply tidy_ensure|]. intros _. apply tidy_bind; [|intros _; apply T].
  apply (tidy_reserve (fun h => c_roots (h_caps h)) (fun _ => nlen (h_roots h) + nlen (v :: vs))
    (fun c h => h <| h_caps ::= set c_roots (fun _ => c) |>)). intros; by repeat split.
Qed.
Lemma tidy_push_env_root e : tidy (push_env_root e).
Proof.
  assert (T : tidy (mmodify (fun h => h <| h_env_roots := h_env_roots h ++ [e] |>))).
  { apply tidy_mmodify. intros h. split; [split; cbn; [done|by eexists]|by repeat split]. }
  intros h h' r E. unfold push_env_root in E. cbn zeta in E. destruct (_ =? 0); [by apply T in E|].
  revert E. apply tidy_bind; [apply tidy_ensure|]. intros _. apply tidy_bind; [|intros _; apply T].
  apply (tidy_reserve (fun h => c_env_roots (h_caps h)) (fun _ => nlen (h_env_roots h) + 1)
    (fun c h => h <| h_caps ::= set c_env_roots (fun _ => c) |>)). intros; by repeat split.
Qed.

Create HintDb tidy discriminated.
Global Hint Resolve tidy_ret tidy_fail tidy_mget tidy_mread tidy_ensure tidy_ensure_plain tidy_alloc tidy_update_object
  tidy_update_slot_bytes tidy_push_roots_with tidy_push_env_root tidy_with_scope tidy_collect : tidy.
Global Hint Extern 4 (tidy (mbind _ _)) => apply tidy_bind; [|intros ?] : tidy.
Global Hint Extern 5 (tidy (match ?x with _ => _ end)) => destruct x : tidy.
Ltac tidy := auto 40 with tidy.
Lemma tidy_push_roots vs : tidy (push_roots vs). Proof. apply tidy_push_roots_with. Qed.
Lemma tidy_push_root v : tidy (push_root v). Proof. apply tidy_push_roots_with. Qed.
Lemma tidy_update_base i f : tidy (update_base i f). Proof. apply tidy_update_object. Qed.
Lemma tidy_update_bindings i f : tidy (update_bindings i f). Proof. apply tidy_update_object. Qed.
Lemma tidy_update_promise i f : tidy (update_promise i f). Proof. apply tidy_update_object. Qed.
Lemma tidy_update_function i f : tidy (update_function i f). Proof. apply tidy_update_object. Qed.
Global Hint Resolve tidy_push_roots tidy_push_root tidy_update_base tidy_update_bindings tidy_update_promise
  tidy_update_function : tidy.

(** ** Every object-level operation *)
Lemma tidy_heap_array_set_length o n : tidy (heap_array_set_length o n). Proof. apply tidy_update_object. Qed.
Lemma tidy_array_set_length_writable o n : tidy (array_set_length_writable o n).
Proof. unfold array_set_length_writable. tidy. Qed.
Lemma tidy_alloc_string u : tidy (alloc_string u). Proof. unfold alloc_string. tidy. Qed.
Lemma tidy_new_symbol d : tidy (new_symbol d).
Proof.
  unfold new_symbol. apply tidy_with_scope. apply tidy_bind; [tidy|]. intros _. apply tidy_bind; [tidy|]. intros _.
  apply tidy_bind; [tidy|]. intros n. apply tidy_bind; [|tidy]. apply tidy_mmodify. intros. by apply same_fields_tidy.
Qed.
Lemma tidy_alloc_object : tidy alloc_object. Proof. unfold alloc_object. tidy. Qed.
Lemma tidy_alloc_object_with_properties p ps : tidy (alloc_object_with_properties p ps).
Proof. unfold alloc_object_with_properties. tidy. Qed.
Global Hint Resolve tidy_heap_array_set_length tidy_array_set_length_writable tidy_alloc_string tidy_new_symbol
  tidy_alloc_object tidy_alloc_object_with_properties : tidy.
Lemma tidy_alloc_array n : tidy (alloc_array n). Proof. unfold alloc_array. tidy. Qed.
Lemma tidy_alloc_promise p : tidy (alloc_promise_with_prototype p). Proof. unfold alloc_promise_with_prototype. tidy. Qed.
Lemma tidy_object_set_prototype o p : tidy (object_set_prototype o p). Proof. unfold object_set_prototype. tidy. Qed.
Lemma tidy_object_set_extensible o p : tidy (object_set_extensible o p). Proof. unfold object_set_extensible. tidy. Qed.
Lemma tidy_delete_own o k : tidy (object_delete_own_property o k).
Proof.
  intros h h' r E. unfold object_delete_own_property in E.
  repeat match type of E with (match ?x with _ => _ end) = _ => destruct x end; simplify_eq;
    try by apply same_fields_tidy.
  revert E. match goal with |- ?m h = _ -> _ => change (tidy m) || idtac end.
  apply tidy_bind; [tidy|]. intros _. tidy.
Qed.
Lemma tidy_define_array_fixup o a n k : tidy (define_array_fixup o a n k).
Proof. unfold define_array_fixup. tidy. Qed.
Global Hint Resolve tidy_alloc_array tidy_alloc_promise tidy_object_set_prototype tidy_object_set_extensible
  tidy_delete_own tidy_define_array_fixup : tidy.
Lemma tidy_heap_define_property o k d : tidy (heap_define_property o k d).
Proof. unfold heap_define_property. do 3 (apply tidy_bind; [tidy|]; intros ?). destruct a1 as [[[[??]?]?]?]. tidy. Qed.
Global Hint Resolve tidy_heap_define_property : tidy.
Lemma tidy_define_property o k d : tidy (define_property o k d). Proof. unfold define_property. tidy. Qed.
Lemma tidy_set_existing o k d : tidy (object_set_existing_data_property_value o k d).
Proof. unfold object_set_existing_data_property_value. tidy. Qed.
Lemma tidy_heap_ordinary_delete o k : tidy (heap_ordinary_delete o k). Proof. unfold heap_ordinary_delete. tidy. Qed.
Lemma tidy_registry_insert k s : tidy (symbol_registry_insert k s).
Proof.
  unfold symbol_registry_insert. apply tidy_bind; [tidy|]. intros _. apply tidy_bind.
  - apply (tidy_reserve (fun h => c_registry (h_caps h)) (fun h => nlen (h_registry h) + 1)
    (fun c h => h <| h_caps ::= set c_registry (fun _ => c) |>)). intros; by repeat split.
  - intros _. do 2 (apply tidy_bind; [tidy|]; intros ?). destruct a0 as [|i]; [tidy|]. apply tidy_mmodify.
    intros. apply same_fields_tidy; [done|done|]. do 4 (split; [done|]). cbn. intros e He.
    rewrite <- (take_drop i (h_registry h)) in He. set_solver.
Qed.
Global Hint Resolve tidy_define_property tidy_set_existing tidy_heap_ordinary_delete tidy_registry_insert : tidy.
Lemma tidy_symbol_for k : tidy (symbol_for k). Proof. unfold symbol_for. tidy. Qed.
Lemma tidy_env_initialize e n v : tidy (env_initialize_binding e n v). Proof. unfold env_initialize_binding. tidy. Qed.
Lemma tidy_env_set_mutable e n v : tidy (env_set_mutable_binding e n v). Proof. unfold env_set_mutable_binding. tidy. Qed.
Lemma tidy_env_initialize_symbol e n v : tidy (env_initialize_symbol_binding e n v).
Proof. unfold env_initialize_symbol_binding. tidy. Qed.
Lemma tidy_env_set_mutable_symbol e n v : tidy (env_set_mutable_symbol_binding e n v).
Proof. unfold env_set_mutable_symbol_binding. tidy. Qed.
Lemma tidy_env_add_binding e b : tidy (env_add_binding e b).
Proof.
  intros h h' r E. unfold env_add_binding in E.
  repeat match type of E with (match ?x with _ => _ end) = _ => destruct x end; simplify_eq;
    try by apply same_fields_tidy.
  revert E. apply tidy_bind; [tidy|]. intros _. tidy.
Qed.
Global Hint Resolve tidy_symbol_for tidy_env_initialize tidy_env_set_mutable tidy_env_initialize_symbol
  tidy_env_set_mutable_symbol tidy_env_add_binding : tidy.
Lemma tidy_alloc_declarative o bs : tidy (alloc_declarative_env_record o bs).
Proof. unfold alloc_declarative_env_record. tidy. Qed.
Lemma tidy_alloc_object_env b o w : tidy (alloc_object_env_record b o w).
Proof. unfold alloc_object_env_record. tidy. Qed.
Lemma tidy_env_create o : tidy (env_create o). Proof. unfold env_create. tidy. Qed.
Lemma tidy_env_create_binding e n m : tidy (env_create_binding e n m). Proof. unfold env_create_binding. tidy. Qed.
Lemma tidy_promise_set_is_handled p b : tidy (promise_set_is_handled p b). Proof. unfold promise_set_is_handled. tidy. Qed.
Lemma tidy_promise_set_state p st r : tidy (promise_set_state_and_result p st r).
Proof. unfold promise_set_state_and_result. tidy. Qed.
Lemma tidy_promise_settle p st r : tidy (promise_settle_and_take_reactions p st r).
Proof. unfold promise_settle_and_take_reactions. tidy. Qed.
Lemma tidy_append_reaction p f r : tidy (promise_append_reaction p f r).
Proof.
  intros h h' x E. unfold promise_append_reaction in E.
  repeat match type of E with (match ?x with _ => _ end) = _ => destruct x end; simplify_eq;
    try by apply same_fields_tidy.
  revert E. apply tidy_bind; [tidy|]. intros _. tidy.
Qed.
Global Hint Resolve tidy_alloc_declarative tidy_alloc_object_env tidy_env_create tidy_env_create_binding
  tidy_promise_set_is_handled tidy_promise_set_state tidy_promise_settle tidy_append_reaction : tidy.
Lemma tidy_scope_append_reaction p f r : tidy (scope_append_reaction p f r). Proof. unfold scope_append_reaction. tidy. Qed.
Lemma tidy_promise_fulfill p v : tidy (promise_fulfill p v). Proof. unfold promise_fulfill. tidy. Qed.
Lemma tidy_promise_reject p v : tidy (promise_reject p v). Proof. unfold promise_reject. tidy. Qed.
Lemma tidy_compute_function_name n p : tidy (compute_function_name n p).
Proof. unfold compute_function_name. tidy. Qed.
Global Hint Resolve tidy_scope_append_reaction tidy_promise_fulfill tidy_promise_reject tidy_compute_function_name : tidy.
Lemma tidy_set_function_name f n p : tidy (set_function_name f n p). Proof. unfold set_function_name. tidy. Qed.
Lemma tidy_set_function_length f n : tidy (set_function_length f n). Proof. unfold set_function_length. tidy. Qed.
Lemma tidy_make_constructor f : tidy (make_constructor f). Proof. unfold make_constructor. tidy. Qed.
Global Hint Resolve tidy_set_function_name tidy_set_function_length tidy_make_constructor : tidy.
Lemma tidy_alloc_native_function a b c d e f : tidy (alloc_native_function a b c d e f).
Proof. unfold alloc_native_function. tidy. Qed.
Lemma tidy_alloc_ecma_function a b c d e f g : tidy (alloc_ecma_function a b c d e f g).
Proof. unfold alloc_ecma_function. tidy. Qed.
Lemma tidy_alloc_bound_function_raw a b c d e f g : tidy (alloc_bound_function_raw a b c d e f g).
Proof. unfold alloc_bound_function_raw. tidy. Qed.
Global Hint Resolve tidy_alloc_bound_function_raw : tidy.
Lemma tidy_alloc_bound_function a b c d e : tidy (alloc_bound_function a b c d e).
Proof. unfold alloc_bound_function. tidy. Qed.
Lemma tidy_alloc_user_function a b c : tidy (alloc_user_function a b c).
Proof. unfold alloc_user_function. tidy. Qed.
Lemma tidy_set_host_slots o hs : tidy (object_set_host_slots o hs).
Proof.
  intros h h' x E. unfold object_set_host_slots in E.
  repeat match type of E with (match ?x with _ => _ end) = _ => destruct x end; simplify_eq;
    by apply same_fields_tidy.
Qed.
Global Hint Resolve tidy_alloc_native_function tidy_alloc_ecma_function tidy_alloc_bound_function
  tidy_alloc_user_function tidy_set_host_slots : tidy.

(** ** Object internal methods *)
Lemma tidy_validate_and_apply o k e p c : tidy (validate_and_apply o k e p c).
Proof. unfold validate_and_apply. tidy. Qed.
Global Hint Resolve tidy_validate_and_apply : tidy.
Lemma tidy_ordinary_define o k p : tidy (ordinary_define_own_property o k p).
Proof. unfold ordinary_define_own_property. tidy. Qed.
Lemma tidy_ordinary_delete o k : tidy (ordinary_delete o k).
Proof. unfold ordinary_delete. tidy. Qed.
Global Hint Resolve tidy_ordinary_define tidy_ordinary_delete : tidy.
Lemma tidy_array_delete_loop o lk ol nl nw ks : tidy (array_delete_loop o lk ol nl nw ks).
Proof. induction ks; cbn [array_delete_loop]; tidy. Qed.
Global Hint Resolve tidy_array_delete_loop : tidy.
Lemma tidy_array_set_length o lk p : tidy (array_set_length o lk p).
Proof. unfold array_set_length. tidy. Qed.
Global Hint Resolve tidy_array_set_length : tidy.
Lemma tidy_array_define o k p : tidy (array_define_own_property o k p).
Proof. unfold array_define_own_property. tidy. Qed.
Global Hint Resolve tidy_array_define : tidy.
Lemma tidy_define_own_property o k p : tidy (define_own_property o k p).
Proof. unfold define_own_property. tidy. Qed.
Global Hint Resolve tidy_define_own_property : tidy.
Lemma tidy_define_property_or_throw o k p : tidy (define_property_or_throw o k p).
Proof. unfold define_property_or_throw. tidy. Qed.
Lemma tidy_create_data_property o k v : tidy (create_data_property o k v).
Proof. unfold create_data_property. tidy. Qed.
Global Hint Resolve tidy_define_property_or_throw tidy_create_data_property : tidy.
Lemma tidy_create_data_property_or_throw o k v : tidy (create_data_property_or_throw o k v).
Proof. unfold create_data_property_or_throw. tidy. Qed.
Lemma tidy_delete_property_or_throw o k : tidy (delete_property_or_throw o k).
Proof. unfold delete_property_or_throw. tidy. Qed.
Lemma tidy_ordinary_get call o k r : (forall f t a, tidy (call f t a)) -> tidy (ordinary_get call o k r).
Proof. intros Hc. unfold ordinary_get. tidy. Qed.
Lemma tidy_ordinary_set call o k v r : (forall f t a, tidy (call f t a)) -> tidy (ordinary_set call o k v r).
Proof. intros Hc. unfold ordinary_set. tidy. Qed.
Global Hint Resolve tidy_create_data_property_or_throw tidy_delete_property_or_throw tidy_ordinary_get
  tidy_ordinary_set : tidy.
