(** The symbol registry: only [Symbol.for] changes it, and it is a finite map. *)
From stdpp Require Import base decidable list numbers sets sorting.
From Coq Require Import NArith ZArith Lia.
From RecordUpdate Require Import RecordUpdate.
From Verif Require Import VmBase HeapModel HeapObjModel HeapSpec HeapGcProofs HeapInvProofs HeapObjProofs
  ObjectOpsModel ObjectOpsProofs HeapTidyProofs HeapSafeProofs HeapHistory HeapHistoryProofs HeapFrameProofs HeapApiProofs ObjViewProofs ObjHistoryProofs ProtoApiProofs.

Open Scope N_scope.

Definition regk {A} (m : M A) : Prop := forall h h' r, m h = (h', r) -> h_registry h' = h_registry h.
Lemma regk_ret {A} (a : A) : regk (mret a).
Proof. intros h h' r E. unfold mret in E. by simplify_eq. Qed.
Lemma regk_fail {A} e : regk (mfail (A:=A) e).
Proof. intros h h' r E. unfold mfail in E. by simplify_eq. Qed.
Lemma regk_mget {A} (f : heap -> A) : regk (mget f).
Proof. intros h h' r E. unfold mget in E. by simplify_eq. Qed.
Lemma regk_mread {A} (f : heap -> res A) : regk (mread f).
Proof. intros h h' r E. unfold mread in E. by simplify_eq. Qed.
Lemma regk_bind {A B} (m : M A) (k : A -> M B) : regk m -> (forall a, regk (k a)) -> regk (mbind m k).
Proof.
  intros Hm Hk h h' r E. unfold mbind in E. destruct (m h) as [h1 r1] eqn:E1. pose proof (Hm _ _ _ E1) as S.
  destruct r1 as [a|e|]; simplify_eq; [|done|done]. rewrite (Hk a _ _ _ E). done.
Qed.
Lemma regk_with_scope {A} (m : M A) : regk m -> regk (with_scope m).
Proof.
  intros Hm h h' r E. unfold with_scope in E. destruct (m h) as [h1 r1] eqn:E1. rewrite <- (Hm _ _ _ E1). by simplify_eq.
Qed.
Lemma regk_mmodify f : (forall h, h_registry (f h) = h_registry h) -> regk (mmodify f).
Proof. intros Hf h h' r E. unfold mmodify in E. simplify_eq. apply Hf. Qed.
Lemma regk_ensure add extra : regk (ensure_can_allocate_with add extra).
Proof.
  intros h h' r E. unfold ensure_can_allocate_with in E.
  destruct (if h_gc_threshold h <? _ then collect_with extra h else Some h) as [h1|] eqn:E1.
  - assert (F : h_registry h1 = h_registry h).
    { destruct (h_gc_threshold h <? _); [|by simplify_eq]. destruct (collect_with_frame extra h h1 E1) as (?&?&?&?). auto. }
    destruct (h_max_bytes h1 <? _); by simplify_eq.
  - by simplify_eq.
Qed.
Lemma regk_ensure_plain n : regk (ensure_can_allocate n).
Proof. apply regk_ensure. Qed.
Lemma regk_collect : regk collect_garbage.
Proof.
  intros h h' r E. unfold collect_garbage in E. destruct (collect_with [] h) as [h1|] eqn:E1; simplify_eq; [|done].
  by destruct (collect_with_frame [] h h' E1) as (?&?&?&?).
Qed.
Ltac regk0 E := cbn zeta in E; repeat match type of E with (match ?x with _ => _ end) = _ => destruct x end; simplify_eq; done.
Lemma regk_reserve_for_new_slot : regk reserve_for_new_slot.
Proof. intros h h' r E. unfold reserve_for_new_slot in E. regk0 E. Qed.
Lemma regk_take_slot : regk take_slot.
Proof.
  intros h h' r E. unfold take_slot in E. destruct (h_free h); [|by simplify_eq].
  destruct (reserve_for_new_slot h) as [h1 r1] eqn:E1. pose proof (regk_reserve_for_new_slot _ _ _ E1). destruct r1; by simplify_eq.
Qed.
Lemma regk_store_new i o n : regk (store_new i o n).
Proof. intros h h' r E. unfold store_new in E. regk0 E. Qed.
Lemma regk_alloc o n : regk (alloc_unchecked o n).
Proof.
  unfold alloc_unchecked. apply regk_bind; [apply regk_ensure|]. intros _. apply regk_bind; [apply regk_take_slot|].
  intros i. apply regk_store_new.
Qed.
Lemma regk_update_object id f : regk (update_object id f).
Proof. intros h h' r E. unfold update_object in E. regk0 E. Qed.
Lemma regk_update_slot_bytes id f : regk (update_slot_bytes id f).
Proof. intros h h' r E. unfold update_slot_bytes in E. regk0 E. Qed.
Lemma regk_push_roots_with vs extra : regk (push_roots_with vs extra).
Proof.
  intros h h' r E. unfold push_roots_with in E. destruct vs as [|v vs]; [by simplify_eq|].
  cbn zeta in E. destruct (_ =? 0); [revert E; by apply regk_mmodify|].
  revert E. apply regk_bind; [apply regk_ensure|]. intros _. apply regk_bind; [|intros _; by apply regk_mmodify].
  intros ? ? ? E. regk0 E.
Qed.
Lemma regk_push_env_root e : regk (push_env_root e).
Proof.
  intros h h' r E. unfold push_env_root in E. cbn zeta in E. destruct (_ =? 0); [revert E; by apply regk_mmodify|].
  revert E. apply regk_bind; [apply regk_ensure|]. intros _. apply regk_bind; [|intros _; by apply regk_mmodify].
  intros ? ? ? E. regk0 E.
Qed.

Create HintDb regk discriminated.
Global Hint Resolve regk_ret regk_fail regk_mget regk_mread regk_ensure regk_ensure_plain regk_alloc regk_update_object
  regk_update_slot_bytes regk_push_roots_with regk_push_env_root regk_with_scope regk_collect : regk.
Global Hint Extern 4 (regk (mbind _ _)) => apply regk_bind; [|intros ?] : regk.
Global Hint Extern 5 (regk (match ?x with _ => _ end)) => destruct x : regk.
Ltac regk := auto 40 with regk.
Lemma regk_push_roots vs : regk (push_roots vs). Proof. apply regk_push_roots_with. Qed.
Lemma regk_push_root v : regk (push_root v). Proof. apply regk_push_roots_with. Qed.
Lemma regk_update_base i f : regk (update_base i f). Proof. apply regk_update_object. Qed.
Lemma regk_update_bindings i f : regk (update_bindings i f). Proof. apply regk_update_object. Qed.
Lemma regk_update_promise i f : regk (update_promise i f). Proof. apply regk_update_object. Qed.
Lemma regk_update_function i f : regk (update_function i f). Proof. apply regk_update_object. Qed.
Global Hint Resolve regk_push_roots regk_push_root regk_update_base regk_update_bindings regk_update_promise
  regk_update_function : regk.

(** ** Every object-level operation *)
Lemma regk_heap_array_set_length o n : regk (heap_array_set_length o n). Proof. apply regk_update_object. Qed.
Lemma regk_array_set_length_writable o n : regk (array_set_length_writable o n).
Proof. unfold array_set_length_writable. regk. Qed.
Lemma regk_alloc_string u : regk (alloc_string u). Proof. unfold alloc_string. regk. Qed.
Lemma regk_new_symbol d : regk (new_symbol d).
Proof.
  unfold new_symbol. apply regk_with_scope. apply regk_bind; [regk|]. intros _. apply regk_bind; [regk|]. intros _.
  apply regk_bind; [regk|]. intros n. apply regk_bind; [|regk]. by apply regk_mmodify.
Qed.
Lemma regk_alloc_object : regk alloc_object. Proof. unfold alloc_object. regk. Qed.
Lemma regk_alloc_object_with_properties p ps : regk (alloc_object_with_properties p ps).
Proof. unfold alloc_object_with_properties. regk. Qed.
Global Hint Resolve regk_heap_array_set_length regk_array_set_length_writable regk_alloc_string regk_new_symbol
  regk_alloc_object regk_alloc_object_with_properties : regk.
Lemma regk_alloc_array n : regk (alloc_array n). Proof. unfold alloc_array. regk. Qed.
Lemma regk_alloc_promise p : regk (alloc_promise_with_prototype p). Proof. unfold alloc_promise_with_prototype. regk. Qed.
Lemma regk_object_set_prototype o p : regk (object_set_prototype o p). Proof. unfold object_set_prototype. regk. Qed.
Lemma regk_object_set_extensible o p : regk (object_set_extensible o p). Proof. unfold object_set_extensible. regk. Qed.
Lemma regk_delete_own o k : regk (object_delete_own_property o k).
Proof.
  intros h h' r E. unfold object_delete_own_property in E.
  repeat match type of E with (match ?x with _ => _ end) = _ => destruct x end; simplify_eq;
    try done.
  revert E. match goal with |- ?m h = _ -> _ => change (regk m) || idtac end.
  apply regk_bind; [regk|]. intros _. regk.
Qed.
Lemma regk_define_array_fixup o a n k : regk (define_array_fixup o a n k).
Proof. unfold define_array_fixup. regk. Qed.
Global Hint Resolve regk_alloc_array regk_alloc_promise regk_object_set_prototype regk_object_set_extensible
  regk_delete_own regk_define_array_fixup : regk.
Lemma regk_heap_define_property o k d : regk (heap_define_property o k d).
Proof. unfold heap_define_property. do 3 (apply regk_bind; [regk|]; intros ?). destruct a1 as [[[[??]?]?]?]. regk. Qed.
Global Hint Resolve regk_heap_define_property : regk.
Lemma regk_define_property o k d : regk (define_property o k d). Proof. unfold define_property. regk. Qed.
Lemma regk_set_existing o k d : regk (object_set_existing_data_property_value o k d).
Proof. unfold object_set_existing_data_property_value. regk. Qed.
Lemma regk_heap_ordinary_delete o k : regk (heap_ordinary_delete o k). Proof. unfold heap_ordinary_delete. regk. Qed.
Global Hint Resolve regk_define_property regk_set_existing regk_heap_ordinary_delete : regk.
Lemma regk_env_initialize e n v : regk (env_initialize_binding e n v). Proof. unfold env_initialize_binding. regk. Qed.
Lemma regk_env_set_mutable e n v : regk (env_set_mutable_binding e n v). Proof. unfold env_set_mutable_binding. regk. Qed.
Lemma regk_env_initialize_symbol e n v : regk (env_initialize_symbol_binding e n v).
Proof. unfold env_initialize_symbol_binding. regk. Qed.
Lemma regk_env_set_mutable_symbol e n v : regk (env_set_mutable_symbol_binding e n v).
Proof. unfold env_set_mutable_symbol_binding. regk. Qed.
Lemma regk_env_add_binding e b : regk (env_add_binding e b).
Proof.
  intros h h' r E. unfold env_add_binding in E.
  repeat match type of E with (match ?x with _ => _ end) = _ => destruct x end; simplify_eq;
    try done.
  revert E. apply regk_bind; [regk|]. intros _. regk.
Qed.
Global Hint Resolve regk_env_initialize regk_env_set_mutable regk_env_initialize_symbol
  regk_env_set_mutable_symbol regk_env_add_binding : regk.
Lemma regk_alloc_declarative o bs : regk (alloc_declarative_env_record o bs).
Proof. unfold alloc_declarative_env_record. regk. Qed.
Lemma regk_alloc_object_env b o w : regk (alloc_object_env_record b o w).
Proof. unfold alloc_object_env_record. regk. Qed.
Lemma regk_env_create o : regk (env_create o). Proof. unfold env_create. regk. Qed.
Lemma regk_env_create_binding e n m : regk (env_create_binding e n m). Proof. unfold env_create_binding. regk. Qed.
Lemma regk_promise_set_is_handled p b : regk (promise_set_is_handled p b). Proof. unfold promise_set_is_handled. regk. Qed.
Lemma regk_promise_set_state p st r : regk (promise_set_state_and_result p st r).
Proof. unfold promise_set_state_and_result. regk. Qed.
Lemma regk_promise_settle p st r : regk (promise_settle_and_take_reactions p st r).
Proof. unfold promise_settle_and_take_reactions. regk. Qed.
Lemma regk_append_reaction p f r : regk (promise_append_reaction p f r).
Proof.
  intros h h' x E. unfold promise_append_reaction in E.
  repeat match type of E with (match ?x with _ => _ end) = _ => destruct x end; simplify_eq;
    try done.
  revert E. apply regk_bind; [regk|]. intros _. regk.
Qed.
Global Hint Resolve regk_alloc_declarative regk_alloc_object_env regk_env_create regk_env_create_binding
  regk_promise_set_is_handled regk_promise_set_state regk_promise_settle regk_append_reaction : regk.
Lemma regk_scope_append_reaction p f r : regk (scope_append_reaction p f r). Proof. unfold scope_append_reaction. regk. Qed.
Lemma regk_promise_fulfill p v : regk (promise_fulfill p v). Proof. unfold promise_fulfill. regk. Qed.
Lemma regk_promise_reject p v : regk (promise_reject p v). Proof. unfold promise_reject. regk. Qed.
Lemma regk_compute_function_name n p : regk (compute_function_name n p).
Proof. unfold compute_function_name. regk. Qed.
Global Hint Resolve regk_scope_append_reaction regk_promise_fulfill regk_promise_reject regk_compute_function_name : regk.
Lemma regk_set_function_name f n p : regk (set_function_name f n p). Proof. unfold set_function_name. regk. Qed.
Lemma regk_set_function_length f n : regk (set_function_length f n). Proof. unfold set_function_length. regk. Qed.
Lemma regk_make_constructor f : regk (make_constructor f). Proof. unfold make_constructor. regk. Qed.
Global Hint Resolve regk_set_function_name regk_set_function_length regk_make_constructor : regk.
Lemma regk_alloc_native_function a b c d e f : regk (alloc_native_function a b c d e f).
Proof. unfold alloc_native_function. regk. Qed.
Lemma regk_alloc_ecma_function a b c d e f g : regk (alloc_ecma_function a b c d e f g).
Proof. unfold alloc_ecma_function. regk. Qed.
Lemma regk_alloc_bound_function_raw a b c d e f g : regk (alloc_bound_function_raw a b c d e f g).
Proof. unfold alloc_bound_function_raw. regk. Qed.
Global Hint Resolve regk_alloc_bound_function_raw : regk.
Lemma regk_alloc_bound_function a b c d e : regk (alloc_bound_function a b c d e).
Proof. unfold alloc_bound_function. regk. Qed.
Lemma regk_alloc_user_function a b c : regk (alloc_user_function a b c).
Proof. unfold alloc_user_function. regk. Qed.
Lemma regk_set_host_slots o hs : regk (object_set_host_slots o hs).
Proof.
  intros h h' x E. unfold object_set_host_slots in E.
  repeat match type of E with (match ?x with _ => _ end) = _ => destruct x end; simplify_eq;
    done.
Qed.
Global Hint Resolve regk_alloc_native_function regk_alloc_ecma_function regk_alloc_bound_function
  regk_alloc_user_function regk_set_host_slots : regk.

(** ** Object internal methods *)
Lemma regk_validate_and_apply o k e p c : regk (validate_and_apply o k e p c).
Proof. unfold validate_and_apply. regk. Qed.
Global Hint Resolve regk_validate_and_apply : regk.
Lemma regk_ordinary_define o k p : regk (ordinary_define_own_property o k p).
Proof. unfold ordinary_define_own_property. regk. Qed.
Lemma regk_ordinary_delete o k : regk (ordinary_delete o k).
Proof. unfold ordinary_delete. regk. Qed.
Global Hint Resolve regk_ordinary_define regk_ordinary_delete : regk.
Lemma regk_array_delete_loop o lk ol nl nw ks : regk (array_delete_loop o lk ol nl nw ks).
Proof. induction ks; cbn [array_delete_loop]; regk. Qed.
Global Hint Resolve regk_array_delete_loop : regk.
Lemma regk_array_set_length o lk p : regk (array_set_length o lk p).
Proof. unfold array_set_length. regk. Qed.
Global Hint Resolve regk_array_set_length : regk.
Lemma regk_array_define o k p : regk (array_define_own_property o k p).
Proof. unfold array_define_own_property. regk. Qed.
Global Hint Resolve regk_array_define : regk.
Lemma regk_define_own_property o k p : regk (define_own_property o k p).
Proof. unfold define_own_property. regk. Qed.
Global Hint Resolve regk_define_own_property : regk.
Lemma regk_define_property_or_throw o k p : regk (define_property_or_throw o k p).
Proof. unfold define_property_or_throw. regk. Qed.
Lemma regk_create_data_property o k v : regk (create_data_property o k v).
Proof. unfold create_data_property. regk. Qed.
Global Hint Resolve regk_define_property_or_throw regk_create_data_property : regk.
Lemma regk_create_data_property_or_throw o k v : regk (create_data_property_or_throw o k v).
Proof. unfold create_data_property_or_throw. regk. Qed.
Lemma regk_delete_property_or_throw o k : regk (delete_property_or_throw o k).
Proof. unfold delete_property_or_throw. regk. Qed.
Lemma regk_ordinary_get call o k r : (forall f t a, regk (call f t a)) -> regk (ordinary_get call o k r).
Proof. intros Hc. unfold ordinary_get. regk. Qed.
Lemma regk_ordinary_set call o k v r : (forall f t a, regk (call f t a)) -> regk (ordinary_set call o k v r).
Proof. intros Hc. unfold ordinary_set. regk. Qed.
Global Hint Resolve regk_create_data_property_or_throw regk_delete_property_or_throw regk_ordinary_get
  regk_ordinary_set : regk.
Lemma regk_void {A} (m : M A) : regk m -> regk (void m).
Proof. intros Hm. unfold void. apply regk_bind; [exact Hm|]. intros _. apply regk_ret. Qed.
Lemma regk_add_root v : regk (add_root v).
Proof.
  intros h h' r E. unfold add_root in E. destruct (h_proots_free h) as [|i f].
  - revert E. apply regk_bind; [apply regk_ensure|]. intros _. apply regk_bind.
    + intros ? ? ? E. unfold reserve_for_new_proot in E. regk0 E.
    + intros _ ? ? ? E. regk0 E.
  - regk0 E.
Qed.
Lemma regk_add_env_root v : regk (add_env_root v).
Proof.
  unfold add_env_root. apply regk_with_scope, regk_bind; [apply regk_push_env_root|]. intros _ h h' r E. destruct (h_peroots_free h) as [|i f].
  - revert E. apply regk_bind; [apply regk_ensure|]. intros _. apply regk_bind.
    + intros ? ? ? E. unfold reserve_for_new_peroot in E. regk0 E.
    + intros _ ? ? ? E. regk0 E.
  - regk0 E.
Qed.
Lemma regk_set_root i v : regk (set_root i v).
Proof. intros h h' r E. unfold set_root in E. regk0 E. Qed.
Lemma regk_remove_root i : regk (remove_root i).
Proof. intros h h' r E. unfold remove_root in E. regk0 E. Qed.
Lemma regk_set_env_root i v : regk (set_env_root i v).
Proof. intros h h' r E. unfold set_env_root in E. regk0 E. Qed.
Lemma regk_remove_env_root i : regk (remove_env_root i).
Proof. intros h h' r E. unfold remove_env_root in E. regk0 E. Qed.
Lemma regk_exec o : (forall body, o <> OpScope body) -> (forall k, o <> OpSymbolFor k) -> regk (exec o).
Proof.
  intros N1 N2. destruct o; try (by destruct (N1 body)); try (by edestruct N2); cbn [exec]; try apply regk_void;
    auto using regk_collect, regk_add_root, regk_add_env_root, regk_set_root, regk_remove_root, regk_set_env_root, regk_remove_env_root with regk; try apply regk_update_object.
  apply regk_ordinary_set. intros f t a. apply regk_fail.
Qed.

(** ** What the registry denotes *)
Definition str_lt (a b : js_string) : Prop := units_compare a b = Lt.
Lemma units_refl a : units_compare a a = Eq.
Proof. induction a as [|x a IH]; cbn; [done|]. by rewrite N.compare_refl. Qed.
Lemma units_eq a b : units_compare a b = Eq -> a = b.
Proof.
  revert b. induction a as [|x a IH]; intros [|y b]; cbn; try done. destruct (x ?= y) eqn:E; try done. apply N.compare_eq in E as ->.
  intros H. f_equal. auto.
Qed.
Lemma units_flip a b : units_compare b a = CompOpp (units_compare a b).
Proof. revert b. induction a as [|x a IH]; intros [|y b]; cbn; try done. rewrite (N.compare_antisym x y). destruct (x ?= y); cbn; auto. Qed.
Lemma str_lt_trans a b c : str_lt a b -> str_lt b c -> str_lt a c.
Proof.
  unfold str_lt. revert b c. induction a as [|x a IH]; intros [|y b] [|z c]; cbn; try done.
  destruct (x ?= y) eqn:E1; try done; destruct (y ?= z) eqn:E2; try done; rewrite ?N.compare_lt_iff, ?N.compare_eq_iff in *; subst; intros H1 H2.
  - rewrite N.compare_refl. eauto.
  - rewrite (proj2 (N.compare_lt_iff y z)); done.
  - rewrite (proj2 (N.compare_lt_iff x z)); done.
  - rewrite (proj2 (N.compare_lt_iff x z)); [done|]. lia.
Qed.
Lemma str_lt_irrefl a : ~ str_lt a a.
Proof. unfold str_lt. by rewrite units_refl. Qed.

Definition entry_ok (h : heap) (e : registry_entry) (p : js_string * heap_id) : Prop :=
  get_string h (rg_key e) = Ok (fst p) /\ rg_sym e = snd p /\ exists n, live_as h (snd p) (HSymbol n (Some (rg_key e))).
Record reg_ok (h : heap) (R : list (js_string * heap_id)) : Prop := {
  rk_entries : Forall2 (entry_ok h) (h_registry h) R;
  rk_sorted : StronglySorted str_lt (map fst R);
  rk_syms : NoDup (map snd R) }.

Lemma sorted_lookup l i j a b : StronglySorted str_lt l -> l !! i = Some a -> l !! j = Some b -> (i < j)%nat -> str_lt a b.
Proof.
  intros HS. revert i j. induction HS as [|x l HS IH Hx]; intros i j Hi Hj Hij; [done|].
  destruct j; [lia|]. destruct i; cbn in *.
  - injection Hi as ->. rewrite Forall_forall in Hx. apply Hx. by eapply elem_of_list_lookup_2.
  - eapply IH; eauto. lia.
Qed.
Lemma sorted_inj l i j a : StronglySorted str_lt l -> l !! i = Some a -> l !! j = Some a -> i = j.
Proof.
  intros HS Hi Hj. destruct (lt_eq_lt_dec i j) as [[?|?]|?]; [|done|];
    [destruct (str_lt_irrefl a); eapply (sorted_lookup l i j); eauto|destruct (str_lt_irrefl a); eapply (sorted_lookup l j i); eauto].
Qed.

(** Two entries for one string are the same entry, and so are two for one symbol. *)
Lemma reg_fun h R u y y' : reg_ok h R -> (u, y) ∈ R -> (u, y') ∈ R -> y = y'.
Proof.
  intros K [i Hi]%elem_of_list_lookup [j Hj]%elem_of_list_lookup.
  assert (i = j); [|congruence]. apply (sorted_inj (map fst R) i j u (rk_sorted _ _ K)); rewrite list_lookup_fmap; [by rewrite Hi|by rewrite Hj].
Qed.
Lemma reg_inj h R u u' y : reg_ok h R -> (u, y) ∈ R -> (u', y) ∈ R -> u = u'.
Proof.
  intros K [i Hi]%elem_of_list_lookup [j Hj]%elem_of_list_lookup.
  assert (i = j); [|congruence]. apply (NoDup_lookup (map snd R) i j y (rk_syms _ _ K)); rewrite list_lookup_fmap; [by rewrite Hi|by rewrite Hj].
Qed.
Lemma reg_live h R u y : reg_ok h R -> (u, y) ∈ R -> exists n d, live_as h y (HSymbol n (Some d)) /\ get_string h d = Ok u.
Proof.
  intros K [i Hi]%elem_of_list_lookup. destruct (Forall2_lookup_r _ _ _ _ _ (rk_entries _ _ K) Hi) as (e & He & A & B & n & C).
  cbn in *. eauto.
Qed.

Lemma search_spec fuel h R u : reg_ok h R -> forall low high, (high <= length R)%nat -> (high - low < fuel)%nat -> (low <= high)%nat ->
  (forall j s, (j < low)%nat -> map fst R !! j = Some s -> str_lt s u) ->
  (forall j s, (high <= j)%nat -> map fst R !! j = Some s -> str_lt u s) ->
  (exists i y, registry_search fuel h u low high = Ok (inl i) /\ R !! i = Some (u, y)) \/
  (exists i, registry_search fuel h u low high = Ok (inr i) /\ (i <= length R)%nat /\
    (forall j s, (j < i)%nat -> map fst R !! j = Some s -> str_lt s u) /\
    (forall j s, (i <= j)%nat -> map fst R !! j = Some s -> str_lt u s)).
Proof.
  intros K. induction fuel as [|fuel IH]; intros low high Hh Hf Hlh Hlo Hhi; [lia|]. cbn [registry_search].
  destruct (Nat.ltb_spec low high) as [Hlt|Hge].
  2: { right. exists low. split; [done|]. split; [lia|]. split; [done|]. intros j s Hj. apply Hhi. lia. }
  cbv zeta. assert (Hm : (low <= low + (high - low) / 2 < high)%nat).
  { assert (((high - low) / 2 < high - low)%nat) by (apply Nat.div_lt; lia). lia. }
  remember (low + (high - low) / 2)%nat as mid eqn:Emid. clear Emid.
  destruct (R !! mid) as [[s y]|] eqn:HR; [|apply lookup_ge_None in HR; lia].
  destruct (Forall2_lookup_r _ _ _ _ _ (rk_entries _ _ K) HR) as (e & -> & A & B & _). cbn in A. rewrite A. cbn [rbind].
  assert (Hs : map fst R !! mid = Some s) by (rewrite list_lookup_fmap, HR; done).
  destruct (units_compare s u) eqn:Hc.
  - apply units_eq in Hc as ->. left. eauto.
  - apply IH; try lia; [|done]. intros j t Hj Ht. destruct (decide (j = mid)) as [->|Hne]; [by simplify_eq|].
    eapply str_lt_trans; [|exact Hc]. eapply (sorted_lookup _ j mid); [apply (rk_sorted _ _ K)|..]; eauto. lia.
  - apply IH; try lia; [done|]. assert (Hc' : str_lt u s) by (unfold str_lt; rewrite units_flip, Hc; done).
    intros j t Hj Ht. destruct (decide (j = mid)) as [->|Hne]; [by simplify_eq|].
    eapply str_lt_trans; [exact Hc'|]. eapply (sorted_lookup _ mid j); [apply (rk_sorted _ _ K)|..]; eauto. lia.
Qed.
Lemma binary_search_spec h R u : reg_ok h R ->
  (exists i y, symbol_registry_binary_search h u = Ok (inl i) /\ R !! i = Some (u, y)) \/
  (exists i, symbol_registry_binary_search h u = Ok (inr i) /\ (i <= length R)%nat /\
    (forall j s, (j < i)%nat -> map fst R !! j = Some s -> str_lt s u) /\
    (forall j s, (i <= j)%nat -> map fst R !! j = Some s -> str_lt u s)).
Proof.
  intros K. unfold symbol_registry_binary_search. rewrite (Forall2_length _ _ _ (rk_entries _ _ K)).
  apply search_spec; auto; try lia. intros j s Hj Hs. apply lookup_lt_Some in Hs. rewrite map_length in Hs. lia.
Qed.
Lemma registry_get_spec h R u : reg_ok h R ->
  (exists y, symbol_registry_get h u = Ok (Some y) /\ (u, y) ∈ R) \/
  (symbol_registry_get h u = Ok None /\ u ∉ map fst R).
Proof.
  intros K. unfold symbol_registry_get. destruct (binary_search_spec h R u K) as [(i & y & -> & Hi)|(i & -> & Hi & Hlo & Hhi)]; cbn [rbind].
  - left. destruct (Forall2_lookup_r _ _ _ _ _ (rk_entries _ _ K) Hi) as (e & -> & A & B & _). exists y. cbn in B. subst y. split; [done|].
    by eapply elem_of_list_lookup_2.
  - right. split; [done|]. intros [j Hj]%elem_of_list_lookup. destruct (decide (j < i)%nat) as [Hji|Hji].
    + apply (str_lt_irrefl u). eauto.
    + apply (str_lt_irrefl u). apply (Hhi j); auto. lia.
Qed.

Lemma reg_kept h h' R : heap_ok h -> no_dangling h -> no_dangling h' -> evolves h h' -> h_gc_runs h' < h_gc_runs h + two32 ->
  h_registry h' = h_registry h -> reg_ok h R -> reg_ok h' R.
Proof.
  intros H N N' V Hr E K. constructor; [|apply K|apply K]. rewrite E. apply Forall2_same_length_lookup_2.
  { apply (Forall2_length _ _ _ (rk_entries _ _ K)). }
  intros i e [s y] He Hp. destruct (Forall2_lookup_lr _ _ _ _ _ _ (rk_entries _ _ K) He Hp) as (A & B & n & C). cbn in *.
  assert (He' : e ∈ h_registry h) by (by eapply elem_of_list_lookup_2).
  split; cbn; [|split; [done|exists n]].
  - rewrite <- A. apply evolves_string; auto; [apply N|apply N']; apply rt_registry_key; [done|by rewrite E].
  - assert (live h' y) as [x Hx] by (subst y; apply N', rt_registry_sym; by rewrite E).
    pose proof (evolves_same _ _ _ _ _ H V Hr C Hx) as Q. destruct x; cbn in Q; try done. destruct Q as [-> ->]. done.
Qed.
Lemma reg_same h h' R : h_registry h' = h_registry h -> h_slots h' = h_slots h -> reg_ok h R -> reg_ok h' R.
Proof.
  intros E1 E2 K. constructor; [|apply K|apply K]. rewrite E1. eapply Forall2_impl; [apply K|].
  intros e p (A & B & n & hs & C). split; [by rewrite (get_string_slots h)|]. split; [done|]. exists n, hs. unfold live_with in *. by rewrite E2.
Qed.

(** ** Adding an entry *)
Lemma sorted_insert (l : list js_string) i u : StronglySorted str_lt l -> (i <= length l)%nat ->
  (forall j s, (j < i)%nat -> l !! j = Some s -> str_lt s u) ->
  (forall j s, (i <= j)%nat -> l !! j = Some s -> str_lt u s) ->
  StronglySorted str_lt (take i l ++ u :: drop i l).
Proof.
  intros HS. revert i. induction HS as [|x l HS IH Hx]; intros i Hi Hlo Hhi.
  - destruct i; cbn; repeat constructor.
  - destruct i as [|i]; cbn.
    + constructor; [by constructor|]. apply Forall_forall. intros y [j Hj]%elem_of_list_lookup. apply (Hhi j y); [lia|done].
    + constructor.
      * apply IH; [cbn in Hi; lia|..]; intros j s Hj Hs; [apply (Hlo (S j))|apply (Hhi (S j))]; try done; lia.
      * rewrite Forall_forall in Hx. apply Forall_forall. intros y [Hy|[->|Hy]%elem_of_cons]%elem_of_app.
        -- apply Hx. apply elem_of_take in Hy as (j & Hj & _). by eapply elem_of_list_lookup_2.
        -- apply (Hlo 0%nat x); [lia|done].
        -- apply Hx. rewrite <- (take_drop i l). apply elem_of_app. by right.
Qed.
Lemma map_insert {A B} (f : A -> B) i x l : map f (take i l ++ x :: drop i l) = take i (map f l) ++ f x :: drop i (map f l).
Proof. rewrite map_app. cbn. rewrite firstn_map, skipn_map. done. Qed.
Lemma in_insert {A} i (x : A) l y : y ∈ take i l ++ x :: drop i l <-> y = x \/ y ∈ l.
Proof. rewrite <- (take_drop i l) at 3. rewrite !elem_of_app, elem_of_cons. tauto. Qed.

Lemma reg_add h R i u key sym n : reg_ok h R -> (i <= length R)%nat ->
  (forall j s, (j < i)%nat -> map fst R !! j = Some s -> str_lt s u) ->
  (forall j s, (i <= j)%nat -> map fst R !! j = Some s -> str_lt u s) ->
  get_string h key = Ok u -> live_as h sym (HSymbol n (Some key)) -> sym ∉ map snd R ->
  reg_ok (h <| h_registry := take i (h_registry h) ++ REntry key sym :: drop i (h_registry h) |>) (take i R ++ (u, sym) :: drop i R).
Proof.
  intros K Hi Hlo Hhi Hu Hs Hn. constructor.
  - cbn. apply Forall2_app; [|constructor].
    + apply Forall2_take. apply (rk_entries _ _ K).
    + split; [exact Hu|]. split; [done|]. exists n. exact Hs.
    + apply Forall2_drop. apply (rk_entries _ _ K).
  - rewrite map_insert. apply sorted_insert; auto; [apply K|by rewrite map_length].
  - rewrite map_insert. cbn. rewrite <- (take_drop i (map snd R)) in Hn. pose proof (rk_syms _ _ K) as D. rewrite <- (take_drop i (map snd R)) in D.
    rewrite <- Permutation_middle. by constructor.
Qed.

(** Running one of the calls [Symbol.for] makes before it inserts. *)
Lemma reg_advance {A} X L (m : M A) F h h' r R : safe X L m F -> good m -> regk m -> heap_ok h -> no_dangling h ->
  (forall x, x ∈ X -> stack_rooted h x) -> (forall x, x ∈ L -> live h x) -> reg_ok h R -> m h = (h', r) ->
  h_gc_runs h' < h_gc_runs h + two32 ->
  heap_ok h' /\ no_dangling h' /\ evolves h h' /\ reg_ok h' R /\ stack_ext h h' /\
  forall a, r = Ok a -> (forall x, x ∈ fst (F a) -> stack_rooted h' x) /\ (forall x, x ∈ snd (F a) -> live h' x).
Proof.
  intros S G Q H N HX HL K E Hr. destruct (S _ _ _ H N HX HL E) as (H1 & N1 & S1 & P). destruct (G _ _ _ H E) as (_ & _ & V).
  split; [done|]. split; [done|]. split; [done|]. split; [|auto]. eapply (reg_kept h); eauto. 
Qed.
Definition grows (R R' : list (js_string * heap_id)) : Prop := forall p, p ∈ R -> p ∈ R'.

Lemma live_not_registered h R sym : reg_ok h R -> ~ live h sym -> sym ∉ map snd R.
Proof.
  intros K Hn ([u y] & -> & Hp)%elem_of_list_fmap. destruct (reg_live h R u y K Hp) as (n & d & C & _). apply Hn. cbn. by eexists.
Qed.

Lemma insert_reg key sym n u h h' r R X : [key; sym] ⊆ X -> heap_ok h -> no_dangling h -> (forall x, x ∈ X -> stack_rooted h x) -> reg_ok h R ->
  get_string h key = Ok u -> live_as h sym (HSymbol n (Some key)) -> sym ∉ map snd R -> u ∉ map fst R ->
  symbol_registry_insert key sym h = (h', r) -> h_gc_runs h' < h_gc_runs h + two32 ->
  exists R', reg_ok h' R' /\ grows R R' /\ (r = Ok tt -> (u, sym) ∈ R').
Proof.
  intros Hsub H N HX K Hu Hs Hns Hnu E Hr. assert (Hk : key ∈ X) by (apply Hsub; set_solver). assert (Hy : sym ∈ X) by (apply Hsub; set_solver).
  destruct (registry_insert_spec key sym h H) as (h1 & H1 & G & Hc).
  destruct (gstep_closed _ _ _ G N) as (N1 & _ & S1); [set_solver|].
  assert (HX1 : forall x, x ∈ X -> live h1 x) by (intros x Hx; apply N1, stack_rooted_rooted; eapply stack_rooted_ext; eauto).
  pose proof (gstep_evolves _ _ _ H G) as V1. assert (Hr1 : h_gc_runs h1 = h_gc_runs h').
  { destruct Hc as [(e & E1)|(c & H2 & [(e & E1)|(v & x & _ & _ & E1)])].
    - rewrite E1 in E. by injection E as <- <-.
    - rewrite E1 in E. by injection E as <- <-.
    - destruct x; [|destruct E1 as [E1 _]]; rewrite E1 in E; by injection E as <- <-. }
  assert (K1 : reg_ok h1 R) by (apply (reg_kept h); auto; [lia|apply G]).
  assert (Hu1 : get_string h1 key = Ok u).
  { rewrite <- Hu. apply evolves_string; auto; [lia|]. apply N, stack_rooted_rooted. auto. }
  destruct Hc as [(e & E1)|(c & H2 & Hc)].
  { rewrite E1 in E. injection E as <- <-. exists R. split; [done|]. split; [by intros p|done]. }
  cbn zeta in Hc. set (h2 := h1 <| h_caps ::= set c_registry (fun _ => c) |>) in *.
  assert (K2 : reg_ok h2 R) by (by apply (reg_same h1)).
  destruct Hc as [(e & E1)|(v & x & Ev & Ex & E1)].
  { rewrite E1 in E. injection E as <- <-. exists R. split; [done|]. split; [by intros p|done]. }
  assert (v = u) as -> by (change (get_string h1 key = Ok v) in Ev; congruence).
  destruct (binary_search_spec h2 R u K2) as [(i & y & F & Hi)|(i & F & Hi & Hlo & Hhi)]; rewrite F in Ex; injection Ex as <-.
  { exfalso. apply Hnu. apply elem_of_list_fmap. exists (u, y). split; [done|]. by eapply elem_of_list_lookup_2. }
  destruct E1 as [E1 H3]. rewrite E1 in E. injection E as <- <-. exists (take i R ++ (u, sym) :: drop i R).
  assert (Hs2 : live_as h2 sym (HSymbol n (Some key))).
  { destruct (HX1 sym Hy) as [x Hx]. assert (Q : same_kind (HSymbol n (Some key)) x) by (eapply (evolves_same h h1); eauto; lia).
    destruct x; cbn in Q; try done. destruct Q as [<- <-]. exact Hx. }
  split; [exact (reg_add h2 R i u key sym n K2 Hi Hlo Hhi Hu1 Hs2 Hns)|]. split; [intros p Hp; apply in_insert; auto|]. intros _. apply in_insert. auto.
Qed.

Lemma symbol_for_reg key h h' r R : heap_ok h -> no_dangling h -> live h key -> reg_ok h R ->
  symbol_for key h = (h', r) -> h_gc_runs h' < h_gc_runs h + two32 ->
  exists R', reg_ok h' R' /\ grows R R' /\ forall y, r = Ok y -> exists u, get_string h key = Ok u /\ (u, y) ∈ R'.
Proof.
  intros H N Hk K E Hr. unfold symbol_for in E. unfold mbind at 1 in E. unfold mread at 1 in E.
  destruct (get_string h key) as [u|e|] eqn:Hu;
    [|injection E as <- <-; exists R; split; [done|]; split; [by intros p|done]..].
  unfold mbind at 1 in E. unfold mread at 1 in E.
  destruct (registry_get_spec h R u K) as [(y & Hy & Hin)|(Hy & Hnu)]; rewrite Hy in E.
  { unfold mret in E. injection E as <- <-. exists R. split; [done|]. split; [by intros p|]. intros z [= <-]. eauto. }
  assert (Q0 : exists R', reg_ok h' R' /\ grows R R' /\ forall y, r = Ok y -> (u, y) ∈ R').
  2: { destruct Q0 as (R' & A & B & C). exists R'. split; [done|]. split; [done|]. intros y Ey. exists u. split; [done|auto]. }
  assert (Eb : forall h1, evolves h h1 -> reg_ok h1 R -> h' = h1 -> (forall y, r <> Ok y) -> exists R', reg_ok h' R' /\ grows R R' /\ forall y, r = Ok y -> (u, y) ∈ R').
  { intros h1 _ K1 -> Hne. exists R. split; [done|]. split; [by intros p|]. intros y Hy'. by destruct (Hne y). }
  unfold mbind at 1 in E. destruct (ensure_can_allocate_with _ _ h) as [h1 r1] eqn:E1.
  assert (V01 : evolves h h1) by (by destruct (good_ensure _ _ _ _ _ H E1) as (_ & _ & ?)).
  assert (Hr1 : h_gc_runs h1 <= h_gc_runs h').
  { destruct r1 as [[]| |]; [|by injection E as <- <-..]. destruct (good_ensure _ _ _ _ _ H E1) as (H1 & _).
    assert (Gs : forall m : M heap_id, good m -> m h1 = (h', r) -> h_gc_runs h1 <= h_gc_runs h') by (intros m Gm Em; apply ev_runs; by destruct (Gm _ _ _ H1 Em) as (_ & _ & ?)).
    eapply Gs; [|exact E]. apply good_with_scope. do 4 (apply good_bind; [auto with good|]; intros ?). auto with good. }
  destruct (reg_advance [] [key] _ _ h h1 r1 R (safe_ensure [] [key] _ (trace_value (VString key)) ltac:(done)) (good_ensure _ _) (regk_ensure _ _) H N
    ltac:(intros x Hx; by apply elem_of_nil in Hx) ltac:(intros x ->%elem_of_list_singleton; done) K E1 ltac:(lia)) as (H1 & N1 & _ & K1 & _ & P1).
  destruct r1 as [[]|e|]; [|injection E as <- <-; by apply (Eb h1)..].
  destruct (P1 tt eq_refl) as [_ Lk1]. specialize (Lk1 key ltac:(cbn; set_solver)).
  unfold with_scope in E. match type of E with (match ?m h1 with _ => _ end) = _ => destruct (m h1) as [h6 r6] eqn:Eb1 end.
  injection E as <- <-. change (h_gc_runs h6 < h_gc_runs h + two32) in Hr. change (h_gc_runs h1 <= h_gc_runs h6) in Hr1.
  assert (Q6 : exists R', reg_ok h6 R' /\ grows R R' /\ forall y, r6 = Ok y -> (u, y) ∈ R').
  2: { destruct Q6 as (R' & A & B & C). exists R'. split; [by apply (reg_same h6)|]. auto. }
  clear Eb. assert (Eb : forall hx, reg_ok hx R -> h6 = hx -> (forall y, r6 <> Ok y) -> exists R', reg_ok h6 R' /\ grows R R' /\ forall y, r6 = Ok y -> (u, y) ∈ R').
  { intros hx Kx -> Hne. exists R. split; [done|]. split; [by intros p|]. intros y Hy'. by destruct (Hne y). }
  (* root the key *)
  unfold mbind at 1 in Eb1. destruct (push_root (VString key) h1) as [h2 r2] eqn:E2.
  destruct (good_push_root _ _ _ _ H1 E2) as (H2 & _ & V12).
  assert (Hr2 : h_gc_runs h2 <= h_gc_runs h6).
  { destruct r2 as [[]| |]; [|by injection Eb1 as <- <-..].
    assert (Gs : forall m : M heap_id, good m -> m h2 = (h6, r6) -> h_gc_runs h2 <= h_gc_runs h6) by (intros m Gm Em; apply ev_runs; by destruct (Gm _ _ _ H2 Em) as (_ & _ & ?)).
    eapply Gs; [|exact Eb1]. do 3 (apply good_bind; [auto with good|]; intros ?). auto with good. }
  destruct (reg_advance [] [key] _ _ h1 h2 r2 R (safe_push_root [] [key] (VString key) ltac:(done)) (good_push_root _) (regk_push_root _) H1 N1
    ltac:(intros x Hx; by apply elem_of_nil in Hx) ltac:(intros x ->%elem_of_list_singleton; done) K1 E2 ltac:(pose proof (ev_runs _ _ V01); lia)) as (_ & N2 & _ & K2 & _ & P2).
  destruct r2 as [[]|e|]; [|injection Eb1 as <- <-; by apply (Eb h2)..].
  destruct (P2 tt eq_refl) as [Sk2 _]. specialize (Sk2 key ltac:(cbn; set_solver)).
  (* create the symbol *)
  unfold mbind at 1 in Eb1. destruct (new_symbol (Some key) h2) as [h3 r3] eqn:E3.
  destruct (good_new_symbol _ _ _ _ H2 E3) as (H3 & _ & V23).
  assert (Hr3 : h_gc_runs h3 <= h_gc_runs h6).
  { destruct r3 as [sym| |]; [|by injection Eb1 as <- <-..].
    assert (Gs : forall m : M heap_id, good m -> m h3 = (h6, r6) -> h_gc_runs h3 <= h_gc_runs h6) by (intros m Gm Em; apply ev_runs; by destruct (Gm _ _ _ H3 Em) as (_ & _ & ?)).
    eapply Gs; [|exact Eb1]. do 2 (apply good_bind; [auto with good|]; intros ?). auto with good. }
  pose proof (ev_runs _ _ V01) as U1. pose proof (ev_runs _ _ V12) as U2. pose proof (ev_runs _ _ V23) as U3.
  destruct (reg_advance [key] [] _ _ h2 h3 r3 R (safe_new_symbol [key] [] (Some key) ltac:(done)) (good_new_symbol _) (regk_new_symbol _) H2 N2
    ltac:(intros x ->%elem_of_list_singleton; done) ltac:(intros x Hx; by apply elem_of_nil in Hx) K2 E3 ltac:(lia)) as (_ & N3 & _ & K3 & S23 & P3).
  destruct r3 as [sym|e|]; [|injection Eb1 as <- <-; by apply (Eb h3)..].
  destruct (P3 sym eq_refl) as [_ Ly3]. specialize (Ly3 sym ltac:(cbn; set_solver)).
  destruct (allocates_makes (OpNewSymbol (Some key)) _ eq_refl h2 h3 sym H2 E3 Ly3 ltac:(lia)) as (ob & Hob & Pob).
  pose proof (allocates_newer (OpNewSymbol (Some key)) _ h2 h3 sym eq_refl H2 E3) as Nw.
  pose proof (newer_not_live _ _ _ H2 V23 Nw Ly3 ltac:(lia)) as Fresh.
  assert (Sk3 : stack_rooted h3 key) by (by eapply stack_rooted_ext).
  (* root it *)
  unfold mbind at 1 in Eb1. destruct (push_root (VSymbol sym) h3) as [h4 r4] eqn:E4.
  destruct (good_push_root _ _ _ _ H3 E4) as (H4 & _ & V34). pose proof (ev_runs _ _ V34) as U4.
  assert (Hr4 : h_gc_runs h4 <= h_gc_runs h6).
  { destruct r4 as [[]| |]; [|by injection Eb1 as <- <-..].
    assert (Gs : forall m : M heap_id, good m -> m h4 = (h6, r6) -> h_gc_runs h4 <= h_gc_runs h6) by (intros m Gm Em; apply ev_runs; by destruct (Gm _ _ _ H4 Em) as (_ & _ & ?)).
    eapply Gs; [|exact Eb1]. do 1 (apply good_bind; [auto with good|]; intros ?). auto with good. }
  destruct (reg_advance [key] [sym] _ _ h3 h4 r4 R (safe_push_root [key] [sym] (VSymbol sym) ltac:(cbn; set_solver)) (good_push_root _) (regk_push_root _) H3 N3
    ltac:(intros x ->%elem_of_list_singleton; done) ltac:(intros x ->%elem_of_list_singleton; done) K3 E4 ltac:(lia)) as (_ & N4 & _ & K4 & S34 & P4).
  destruct r4 as [[]|e|]; [|injection Eb1 as <- <-; by apply (Eb h4)..].
  destruct (P4 tt eq_refl) as [Sy4 _]. specialize (Sy4 sym ltac:(cbn; set_solver)).
  assert (Sk4 : stack_rooted h4 key) by (by eapply stack_rooted_ext).
  (* insert *)
  unfold mbind at 1 in Eb1. destruct (symbol_registry_insert key sym h4) as [h5 r5] eqn:E5.
  destruct (good_registry_insert _ _ _ _ _ H4 E5) as (H5 & _ & V45). pose proof (ev_runs _ _ V45) as U5.
  assert (h6 = h5) as -> by (destruct r5; unfold mret in Eb1; by simplify_eq).
  assert (Hu4 : get_string h4 key = Ok u).
  { assert (Lk : live h4 key) by (by apply N4, stack_rooted_rooted).
    assert (V04 : evolves h h4) by exact (evolves_trans _ _ _ V01 (evolves_trans _ _ _ V12 (evolves_trans _ _ _ V23 V34))).
    rewrite <- Hu. apply evolves_string; auto. lia. }
  assert (exists n, live_as h4 sym (HSymbol n (Some key))) as [n Hn].
  { destruct (N4) as [NR _]. destruct (NR sym (stack_rooted_rooted _ _ Sy4)) as [x Hx]. pose proof (evolves_same _ _ _ _ _ H3 V34 ltac:(lia) Hob Hx) as Q.
    destruct Pob as [m ->]. destruct x; cbn in Q; try done. destruct Q as [-> <-]. eauto. }
  destruct (insert_reg key sym n u h4 h5 r5 R [key; sym] ltac:(done) H4 N4) as (R' & A & B & C); auto.
  { intros x Hx. apply elem_of_cons in Hx as [->|Hx]; [done|]. apply elem_of_list_singleton in Hx as ->. done. }
  { eapply live_not_registered; [exact K2|done]. }
  { lia. }
  exists R'. split; [done|]. split; [done|]. intros y Hy'. destruct r5 as [[]| |]; unfold mret in Eb1; simplify_eq. auto.
Qed.

(** ** Histories *)
Definition registry_step (c : op) : Prop := forall h R, heap_ok h -> no_dangling h -> disciplined c h ->
  h_gc_runs (fst (exec c h)) < h_gc_runs h + two32 -> reg_ok h R -> exists R', reg_ok (fst (exec c h)) R' /\ grows R R'.
Lemma run_registry cs : Forall registry_step cs -> forall h R, heap_ok h -> no_dangling h -> disciplined_history cs h ->
  h_gc_runs (run cs h) < h_gc_runs h + two32 -> reg_ok h R -> exists R', reg_ok (run cs h) R' /\ grows R R'.
Proof.
  induction 1 as [|c cs Hc _ IH]; intros h R H N D Hr A; [exists R; split; [done|by intros p]|]. cbn [run disciplined_history] in *. destruct D as [D1 D2].
  destruct (exec_evolves c h H) as [H1 V1]. destruct (good_run cs _ H1) as [H2 V2]. destruct (safe_exec c h H N D1) as [N1 _].
  pose proof (ev_runs _ _ V1). pose proof (ev_runs _ _ V2). destruct (Hc h R) as (R1 & A1 & B1); auto; [lia|].
  destruct (IH _ R1 H1 N1 D2) as (R2 & A2 & B2); auto; [lia|]. exists R2. split; [done|]. intros p Hp. auto.
Qed.
Lemma all_registry c : registry_step c.
Proof.
  induction c as [body IH|c Hns] using op_ind'; intros h R H N D Hr A.
  - rewrite disciplined_scope in D. rewrite exec_scope_state in *. destruct (run_registry body IH h R H N D Hr A) as (R' & A' & B').
    exists R'. split; [|done]. by apply (reg_same (run body h)).
  - assert (Dc : (exists k, c = OpSymbolFor k) \/ ~ exists k, c = OpSymbolFor k) by (destruct c; try (right; intros (? & ?); done); left; eauto).
    destruct Dc as [[k ->]|Hs].
    + cbn [exec] in *. rewrite void_fst in *. destruct (symbol_for k h) as [h1 r] eqn:E. cbn [fst] in *.
      destruct (symbol_for_reg k h h1 r R) as (R' & A' & B' & _); eauto. apply D. cbn. set_solver.
    + destruct (exec_evolves c h H) as [H1 V1]. destruct (safe_exec c h H N D) as [N1 _]. exists R. split; [|by intros p].
      eapply (reg_kept h); eauto. eapply (regk_exec c); [done|intros k ->; apply Hs; eauto|]. apply surjective_pairing.
Qed.
Lemma history_registry cs h R : heap_ok h -> no_dangling h -> disciplined_history cs h ->
  h_gc_runs (run cs h) < h_gc_runs h + two32 -> reg_ok h R -> exists R', reg_ok (run cs h) R' /\ grows R R'.
Proof. apply run_registry. apply Forall_forall. intros c _. apply all_registry. Qed.
Lemma heap_new_registry ly mb gt : reg_ok (heap_new ly mb gt) [].
Proof. constructor; cbn; constructor. Qed.
Lemma state_registry h : disciplined_state h -> h_gc_runs h < two32 -> exists R, reg_ok h R.
Proof.
  intros (ly & mb & gt & os & Hl & D & ->) Hr.
  destruct (history_registry os (heap_new ly mb gt) []) as (R & A & _); eauto using heap_new_ok, heap_new_safe, heap_new_registry.
Qed.

(** ** Two calls with a history between them *)
Lemma symbol_for_state k h h' r : disciplined_state h -> live h k -> symbol_for k h = (h', r) -> disciplined_state h'.
Proof.
  intros D Hk E. assert (h' = run [OpSymbolFor k] h) as -> by (cbn; by rewrite void_fst, E).
  apply disciplined_state_run; [done|]. cbn. split; [|done]. intros x Hx. apply elem_of_list_singleton in Hx as ->. done.
Qed.
Lemma disciplined_ok h : disciplined_state h -> heap_ok h.
Proof. intros D. by apply reachable_state_ok, disciplined_reachable. Qed.
Lemma symbol_for_runs k h h' r : heap_ok h -> symbol_for k h = (h', r) -> h_gc_runs h <= h_gc_runs h'.
Proof. intros H E. apply ev_runs. by destruct (good_symbol_for k _ _ _ H E) as (_ & _ & ?). Qed.
Lemma run_runs cs h : heap_ok h -> h_gc_runs h <= h_gc_runs (run cs h).
Proof. intros H. destruct (good_run cs h H) as [_ V]. by apply ev_runs. Qed.

Lemma registered_after h0 k h1 s cs : disciplined_state h0 -> live h0 k -> symbol_for k h0 = (h1, Ok s) -> disciplined_history cs h1 ->
  h_gc_runs (run cs h1) < two32 ->
  heap_ok h1 /\ heap_ok (run cs h1) /\ no_dangling (run cs h1) /\
  exists u R, get_string h0 k = Ok u /\ reg_ok (run cs h1) R /\ (u, s) ∈ R.
Proof.
  intros D0 Hk E1 D Hr. pose proof (disciplined_ok _ D0) as H0. pose proof (symbol_for_state _ _ _ _ D0 Hk E1) as D1.
  pose proof (disciplined_ok _ D1) as H1. pose proof (symbol_for_runs _ _ _ _ H0 E1) as U1. pose proof (run_runs cs h1 H1) as U2.
  split; [done|]. pose proof (disciplined_state_run cs h1 D1 D) as D2. split; [by apply disciplined_ok|]. split; [by apply disciplined_no_dangling|].
  destruct (state_registry h0 D0) as [R0 K0]; [lia|].
  destruct (symbol_for_reg k h0 h1 (Ok s) R0) as (R1 & K1 & _ & P1); auto; [by apply disciplined_no_dangling|lia|].
  destruct (P1 s eq_refl) as (u & Hu & Hin).
  destruct (history_registry cs h1 R1) as (R2 & K2 & B2); auto; [by apply disciplined_no_dangling|lia|]. exists u, R2. auto.
Qed.

(** ** An example: five keys registered in unsorted order, with a collection between *)
Definition rg_h1 : heap := run [OpAllocString [98]; OpPushRoots [VString (HId 0 0)]] (heap_new demo_layout 1000000 0).
Definition rg_k : heap_id := HId 0 0.
Definition rg_h2 : heap := fst (symbol_for rg_k rg_h1).
Definition rg_s : heap_id := HId 1 0.
Definition rg_hist : list op :=
  [OpAllocString [97]; OpPushRoots [VString (HId 2 0)]; OpSymbolFor (HId 2 0); OpAllocString [98; 99]; OpPushRoots [VString (HId 4 0)];
   OpSymbolFor (HId 4 0); OpCollect; OpAllocString [98]; OpPushRoots [VString (HId 6 0)]; OpCollect; OpAllocString [122]; OpPushRoots [VString (HId 7 0)]].
Lemma rg_disciplined : disciplined_state rg_h1.
Proof.
  exists demo_layout, 1000000, 0, [OpAllocString [98]; OpPushRoots [VString (HId 0 0)]]. split; [apply demo_limits|]. split; [|done].
  apply disc_b_ok. vm_compute. reflexivity.
Qed.
Lemma rg_first : symbol_for rg_k rg_h1 = (rg_h2, Ok rg_s).
Proof. vm_compute. reflexivity. Qed.
Lemma rg_history : disciplined_history rg_hist rg_h2.
Proof. apply disc_b_ok. vm_compute. reflexivity. Qed.
Lemma rg_live : live rg_h1 rg_k.
Proof. apply liveb_live. vm_compute. reflexivity. Qed.
