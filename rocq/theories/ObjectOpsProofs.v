(** The operations of ObjectOpsModel.v keep the heap invariant. *)
From stdpp Require Import base decidable list numbers sets.
From Coq Require Import NArith ZArith Lia.
From RecordUpdate Require Import RecordUpdate.
From Verif Require Import VmBase HeapModel HeapObjModel HeapSpec HeapGcProofs HeapInvProofs HeapObjProofs
  ObjectOpsModel.

Open Scope N_scope.

Lemma np_patch_validate p : np (patch_validate p).
Proof. unfold patch_validate. auto with np. Qed.
Lemma np_object_is_extensible h o : np (object_is_extensible h o).
Proof. unfold object_is_extensible. auto with np. Qed.
Lemma np_array_length h o : np (array_length h o).
Proof. unfold array_length. auto with np. Qed.
Lemma np_array_length_writable h o : np (array_length_writable h o).
Proof. unfold array_length_writable. auto 10 with np. Qed.
Lemma np_array_length_key h o : np (array_length_key h o).
Proof. unfold array_length_key. auto 10 with np. Qed.
Lemma np_own_property_keys h o : np (own_property_keys h o).
Proof. unfold own_property_keys. auto 10 with np. Qed.
Lemma np_object_is_array h o : np (object_is_array h o).
Proof. unfold object_is_array. auto 10 with np. Qed.
Lemma np_is_callable h v : np (is_callable h v).
Proof. unfold is_callable. auto 10 with np. Qed.
Lemma np_get_property h o k : np (get_property h o k).
Proof. unfold get_property. auto 10 with np. Qed.
Global Hint Resolve np_patch_validate np_object_is_extensible np_array_length np_array_length_writable
  np_array_length_key np_own_property_keys np_object_is_array np_is_callable np_get_property : np.

Lemma good_validate_and_apply o k e p c : good (validate_and_apply o k e p c).
Proof. unfold validate_and_apply. auto 20 with good. Qed.
Global Hint Resolve good_validate_and_apply : good.
Lemma good_ordinary_define o k p : good (ordinary_define_own_property o k p).
Proof. unfold ordinary_define_own_property. auto 20 with good. Qed.
Lemma good_ordinary_delete o k : good (ordinary_delete o k).
Proof. unfold ordinary_delete. auto 20 with good. Qed.
Global Hint Resolve good_ordinary_define good_ordinary_delete : good.
Lemma good_array_delete_loop o lk ol nl nw ks : good (array_delete_loop o lk ol nl nw ks).
Proof. induction ks; cbn [array_delete_loop]; auto 30 with good. Qed.
Global Hint Resolve good_array_delete_loop : good.
Lemma good_array_set_length o lk p : good (array_set_length o lk p).
Proof. unfold array_set_length. auto 30 with good. Qed.
Global Hint Resolve good_array_set_length : good.
Lemma good_array_define o k p : good (array_define_own_property o k p).
Proof. unfold array_define_own_property. auto 30 with good. Qed.
Global Hint Resolve good_array_define : good.
Lemma good_define_own_property o k p : good (define_own_property o k p).
Proof. unfold define_own_property. auto 30 with good. Qed.
Global Hint Resolve good_define_own_property : good.
Lemma good_define_property_or_throw o k p : good (define_property_or_throw o k p).
Proof. unfold define_property_or_throw. auto 30 with good. Qed.
Lemma good_create_data_property o k v : good (create_data_property o k v).
Proof. unfold create_data_property. auto 30 with good. Qed.
Global Hint Resolve good_define_property_or_throw good_create_data_property : good.
Lemma good_create_data_property_or_throw o k v : good (create_data_property_or_throw o k v).
Proof. unfold create_data_property_or_throw. auto 30 with good. Qed.
Lemma good_delete_property_or_throw o k : good (delete_property_or_throw o k).
Proof. unfold delete_property_or_throw. auto 30 with good. Qed.
Lemma good_ordinary_get call o k r : (forall f t a, good (call f t a)) -> good (ordinary_get call o k r).
Proof. intros Hc. unfold ordinary_get. auto 30 with good. Qed.
Lemma good_ordinary_set call o k v r : (forall f t a, good (call f t a)) -> good (ordinary_set call o k v r).
Proof. intros Hc. unfold ordinary_set. auto 30 with good. Qed.
Global Hint Resolve good_create_data_property_or_throw good_delete_property_or_throw good_ordinary_get
  good_ordinary_set : good.
