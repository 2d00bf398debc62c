(** No operation called with live handles leaves a dangling reference. *)
From stdpp Require Import base decidable list numbers sets.
From Coq Require Import NArith ZArith Lia.
From RecordUpdate Require Import RecordUpdate.
From Verif Require Import VmBase HeapModel HeapObjModel HeapSpec HeapGcProofs HeapInvProofs HeapObjProofs
  ObjectOpsModel ObjectOpsProofs HeapTidyProofs HeapSafeProofs.

Open Scope N_scope.

Notation none := (fun _ => ([] : list heap_id, [] : list heap_id)).
Notation gives x := ([] : list heap_id, x : list heap_id).

Ltac sscope := eapply safe_post; [apply safe_with_scope; [tidy|]|..].
Ltac sens := sbind (fun _ : unit => gives []); [apply safe_ensure0|].
Ltac sensl := sbindl (fun _ : unit => gives []); [apply safe_ensure0|].

Lemma safe_none {A} X L (m : M A) F : safe X L m F -> safe X L m none.
Proof. intros H. eapply safe_post; [exact H|inc|inc]. Qed.

Lemma safe_alloc_object X L : safe X L alloc_object (fun id => gives [id]).
Proof. unfold alloc_object. apply safe_layout. intros l. sensl. apply safel_alloc; [by right|inc]. Qed.

Lemma trace_values_app a b : trace_values (a ++ b) = trace_values a ++ trace_values b.
Proof. unfold trace_values. by rewrite flat_map_app. Qed.
Lemma trace_opt_object (p : option heap_id) : trace_values (map VObject (opt_list p)) = opt_list p.
Proof. destruct p; done. Qed.
Lemma trace_key_value k : trace_value (key_value k) = trace_key k.
Proof. by destruct k. Qed.
Lemma trace_desc_values d : trace_values (desc_values d) = trace_desc d.
Proof. unfold trace_desc, desc_values. destruct (pd_kind d); cbn; by rewrite ?app_nil_r. Qed.

Lemma trace_entries_values ps : trace_values (flat_map entry_values ps) = flat_map trace_entry ps.
Proof.
  induction ps as [|e es IH]; [done|]. change (flat_map entry_values (e :: es)) with (entry_values e ++ flat_map entry_values es).
  rewrite trace_values_app, IH. change (flat_map trace_entry (e :: es)) with (trace_entry e ++ flat_map trace_entry es).
  f_equal. unfold entry_values, trace_entry. rewrite <- trace_key_value, <- trace_desc_values. done.
Qed.

Lemma safe_alloc_object_with_properties X L p ps :
  opt_list p ++ trace_values (flat_map entry_values ps) ⊆ X ++ L ->
  safe X L (alloc_object_with_properties p ps) (fun id => gives [id]).
Proof.
  intros Hs. unfold alloc_object_with_properties. sscope.
  - sbind (fun _ : unit => (opt_list p ++ trace_values (flat_map entry_values ps), [] : list heap_id)).
    { eapply safe_post; [apply safe_push_roots|..]; rewrite trace_values_app, trace_opt_object; [done|inc|inc]. }
    apply safe_layout. intros l. sensl. apply safel_alloc; [by right|]. cbn. unfold trace_base. cbn.
    rewrite trace_entries_values. inc.
  - inc.
  - inc.
Qed.
Lemma safe_alloc_array X L n : safe X L (alloc_array n) (fun id => gives [id]).
Proof.
  unfold alloc_array. destruct (_ <? _); [apply safe_fail|]. sscope.
  - sbind (fun k : heap_id => gives [k]); [apply safe_alloc_string|].
    sbind (fun _ : unit => ([a], [] : list heap_id)).
    { apply safe_push_root. inc. }
    apply safe_layout. intros l. sensl. apply safel_alloc; [by right|]. cbn. inc.
  - inc.
  - inc.
Qed.
Lemma safe_alloc_promise X L p : opt_list p ⊆ X ++ L -> safe X L (alloc_promise_with_prototype p) (fun id => gives [id]).
Proof.
  intros Hp. unfold alloc_promise_with_prototype. sscope.
  - sbind (fun _ : unit => (opt_list p, [] : list heap_id)).
    { destruct p; [apply safe_push_root; inc|]. eapply safe_post; [apply safe_ret|inc|inc]. }
    apply safe_layout. intros l. sensl. apply safel_alloc; [right; by rewrite promise_bytes_ok|]. cbn.
    unfold trace_promise, trace_base, promise_new, base_new. cbn. rewrite !app_nil_r. inc.
  - inc.
  - inc.
Qed.

(** ** Environments *)
Lemma trace_bindings_values bs : flat_map trace_binding bs = trace_values (flat_map binding_values bs).
Proof.
  induction bs as [|b bs IH]; [done|]. cbn. rewrite trace_values_app, IH. f_equal. unfold trace_binding, binding_values.
  rewrite trace_values_app. destruct (eb_name b); cbn; by rewrite ?app_nil_r.
Qed.
Lemma insert_by_elem {A} (key : A -> N) x l y : y ∈ insert_by key x l <-> y = x \/ y ∈ l.
Proof. induction l as [|z l IH]; cbn; [set_solver|]. destruct (_ <=? _); set_solver. Qed.
Lemma sort_by_elem {A} (key : A -> N) l y : y ∈ sort_by key l <-> y ∈ l.
Proof. induction l as [|z l IH]; cbn; [done|]. rewrite insert_by_elem. set_solver. Qed.
Lemma flat_map_mono {A B} (f : A -> list B) l l' : (forall x, x ∈ l -> x ∈ l') -> flat_map f l ⊆ flat_map f l'.
Proof. intros H x. rewrite !in_flat_map_elem. intros (y & Hy & Hx). eauto. Qed.

Lemma safe_alloc_declarative X L o bs : opt_list o ++ flat_map trace_binding bs ⊆ X ++ L ->
  safe X L (alloc_declarative_env_record o bs) (fun id => gives [id]).
Proof.
  intros Hs. rewrite trace_bindings_values in Hs. unfold alloc_declarative_env_record. sscope.
  - sbind (fun _ : bool => gives L); [apply safe_mget|]. destruct (negb a); [apply safe_fail|].
    sbind (fun _ : unit => (opt_list o ++ trace_values (flat_map binding_values bs), [] : list heap_id)).
    { destruct o as [o|].
      - sbind (fun _ : unit => (trace_values (flat_map binding_values bs), [o])).
        { apply safe_push_roots_with. inc. }
        eapply safe_post; [apply safe_push_env_root|..]; [inc|inc|inc].
      - eapply safe_post; [apply safe_push_roots|..]; [inc|inc|inc]. }
    apply safe_layout. intros l. sensl. destruct (has_adjacent_dup _ _); [apply safel_safe, safe_fail|].
    apply safel_alloc.
    + right. rewrite env_bytes_ok. simpl. unfold nlen. by rewrite sort_by_length.
    + cbn. assert (Hm : flat_map trace_binding (sort_by eb_symbol bs) ⊆ flat_map trace_binding bs).
      { apply flat_map_mono. intros y. apply sort_by_elem. }
      rewrite trace_bindings_values in Hm at 1. rewrite (trace_bindings_values bs) in Hm.
      rewrite trace_bindings_values. inc.
  - inc.
  - inc.
Qed.
Lemma safe_alloc_object_env X L b o w : b :: opt_list o ⊆ X ++ L ->
  safe X L (alloc_object_env_record b o w) (fun id => gives [id]).
Proof.
  intros Hs. unfold alloc_object_env_record. sscope.
  - sbind (fun _ : bool => gives L); [apply safe_mget|]. destruct (negb a); [apply safe_fail|].
    sbind (fun _ : unit => (b :: opt_list o, [] : list heap_id)).
    { destruct o as [o|].
      - sbind (fun _ : unit => ([b], [o])).
        { eapply safe_post; [apply safe_push_roots_with|..]; [inc|inc|inc]. }
        eapply safe_post; [apply safe_push_env_root|..]; [inc|inc|inc].
      - eapply safe_post; [apply safe_push_roots|..]; [inc|inc|inc]. }
    apply safe_layout. intros l. sensl. apply safel_alloc; [by left|]. cbn. inc.
  - inc.
  - inc.
Qed.
Lemma safe_env_create X L o : opt_list o ⊆ X ++ L -> safe X L (env_create o) (fun id => gives [id]).
Proof.
  intros Hs. unfold env_create. sscope.
  - sbind (fun _ : unit => (opt_list o, [] : list heap_id)).
    { destruct o; [eapply safe_post; [apply safe_push_env_root|..]; [inc|inc|inc]|].
      eapply safe_post; [apply safe_ret|inc|inc]. }
    apply safe_layout. intros l. sensl. apply safel_alloc; [by right|]. cbn. inc.
  - inc.
  - inc.
Qed.
Lemma safe_update_bindings X L e f :
  (forall bs bs', f bs = Ok bs' -> length bs' = length bs /\
     flat_map trace_binding bs' ⊆ flat_map trace_binding bs ++ X ++ L) -> (forall bs, np (f bs)) ->
  safe X L (update_bindings e f) (fun _ => gives L).
Proof.
  intros Hf Hn. apply safe_update_object.
  - intros l o o'. destruct o as [| | | |[]|]; try done. destruct (f bindings) eqn:E; simpl; [|done|done].
    intros [= <-]. split; [done|]. simpl. unfold nlen. by rewrite (proj1 (Hf _ _ E)).
  - intros o. destruct o as [| | | |[]|]; auto with np.
  - intros o o'. destruct o as [| | | |[]|]; try done. destruct (f bindings) eqn:E; simpl; [|done|done].
    intros [= <-]. destruct (Hf _ _ E) as [_ Hi]. cbn. inc.
Qed.
Lemma update_binding_at_trace i g bs bs' Y :
  (forall b b', g b = Ok b' -> trace_binding b' ⊆ trace_binding b ++ Y) ->
  update_binding_at i g bs = Ok bs' -> flat_map trace_binding bs' ⊆ flat_map trace_binding bs ++ Y.
Proof.
  intros Hg. unfold update_binding_at. destruct (bs !! i) as [b|] eqn:Hb; [|done].
  destruct (g b) as [b'| |] eqn:E; simpl; [|done|done]. intros [= <-] x.
  rewrite elem_of_app, !in_flat_map_elem. intros (y & Hy & Hx).
  apply elem_of_list_lookup in Hy as (j & Hj). destruct (decide (i = j)) as [->|Hne].
  - rewrite list_lookup_insert in Hj by (eapply lookup_lt_Some; eauto). injection Hj as <-.
    apply (Hg _ _ E) in Hx. apply elem_of_app in Hx as [Hx|Hx]; [left|right; done].
    exists b. split; [eapply elem_of_list_lookup_2; eauto|done].
  - rewrite list_lookup_insert_ne in Hj by done. left. exists y. split; [eapply elem_of_list_lookup_2; eauto|done].
Qed.
Lemma initialize_trace b b' v : initialize_binding b v = Ok b' -> trace_binding b' ⊆ trace_binding b ++ trace_value v.
Proof. unfold initialize_binding. destruct (eb_initialized b); [done|]. intros [= <-]. unfold trace_binding. cbn. inc. Qed.
Lemma assign_trace b b' v : assign_binding b v = Ok b' -> trace_binding b' ⊆ trace_binding b ++ trace_value v.
Proof.
  unfold assign_binding. destruct (negb (eb_initialized b)); [done|]. destruct (negb (eb_mutable b)); [done|].
  intros [= <-]. unfold trace_binding. cbn. inc.
Qed.
Ltac binding_update v Ht E := split; [exact (update_binding_at_length _ _ _ _ E)|];
  let P := fresh "P" in
  pose proof (update_binding_at_trace _ _ _ _ (trace_value v) (fun b b' => Ht b b' v) E) as P; inc.
Lemma safe_env_initialize X L e n v : trace_value v ⊆ X ++ L -> safe X L (env_initialize_binding e n v) (fun _ => gives L).
Proof.
  intros Hv. unfold env_initialize_binding. sbind (fun _ : list env_binding => gives L); [apply safe_mread0|].
  sbind (fun _ : option nat => gives L); [apply safe_mread0|]. destruct a0; [|apply safe_fail].
  apply safe_update_bindings; [intros bs bs' E; binding_update v initialize_trace E|].
  intros bs. apply np_update_binding_at. auto with np.
Qed.
Lemma safe_env_set_mutable X L e n v : trace_value v ⊆ X ++ L -> safe X L (env_set_mutable_binding e n v) (fun _ => gives L).
Proof.
  intros Hv. unfold env_set_mutable_binding. sbind (fun _ : list env_binding => gives L); [apply safe_mread0|].
  sbind (fun _ : option nat => gives L); [apply safe_mread0|]. destruct a0; [|apply safe_fail].
  apply safe_update_bindings; [intros bs bs' E; binding_update v assign_trace E|].
  intros bs. apply np_update_binding_at. auto with np.
Qed.
Lemma safe_env_initialize_symbol X L e n v : trace_value v ⊆ X ++ L ->
  safe X L (env_initialize_symbol_binding e n v) (fun _ => gives L).
Proof.
  intros Hv. apply safe_update_bindings.
  - intros bs bs' E. destruct (symbol_binding_index bs n); [|done]. binding_update v initialize_trace E.
  - intros bs. destruct (symbol_binding_index bs n); [|auto with np]. apply np_update_binding_at. auto with np.
Qed.
Lemma safe_env_set_mutable_symbol X L e n v : trace_value v ⊆ X ++ L ->
  safe X L (env_set_mutable_symbol_binding e n v) (fun _ => gives L).
Proof.
  intros Hv. apply safe_update_bindings.
  - intros bs bs' E. destruct (symbol_binding_index bs n); [|done]. binding_update v assign_trace E.
  - intros bs. destruct (symbol_binding_index bs n); [|auto with np]. apply np_update_binding_at. auto with np.
Qed.

(** A collection followed by the rewriting of one object. *)
Lemma safe_grow {A} X L (m : M A) :
  (forall h h' r, heap_ok h -> m h = (h', r) ->
     (h' = h /\ forall a, r <> Ok a) \/
     exists h1, heap_ok h1 /\ gstep [] h h1 /\
      ((h' = h1 /\ forall a, r <> Ok a) \/
       exists id o o', ustep id o o' h1 h' /\ trace_object o' ⊆ trace_object o ++ X)) -> safe X L m none.
Proof.
  intros Hm h h' r H C HX HL E. destruct (Hm h h' r H E) as [[-> Hr]|(h1 & H1 & G & Hc)].
  { split; auto. split; auto. split; [apply stack_ext_refl|]. intros a Ha. by destruct (Hr a). }
  destruct (gstep_closed _ _ _ G C) as (C1 & _ & S1); [inc|].
  assert (HX1 : forall x, x ∈ X -> stack_rooted h1 x) by (intros; eapply stack_rooted_ext; eauto).
  destruct Hc as [[-> Hr]|(id & o & o' & U & Ht)].
  { split; auto. split; auto. split; auto. intros a Ha. by destruct (Hr a). }
  destruct (ustep_closed _ _ _ _ _ U C1) as [C2 S2].
  { intros x Hx. apply Ht in Hx as [Hx|Hx]%elem_of_app.
    - eapply (proj2 C1); [apply (us_live _ _ _ _ _ U)|]. by apply trace_object_in.
    - apply C1, stack_rooted_rooted; auto. }
  split; [apply U|]. split; auto. split; [eapply stack_ext_trans; eauto|]. intros a Ha. split; inc.
Qed.
Lemma safe_env_add_binding X L e b : trace_binding b ⊆ X -> safe X L (env_add_binding e b) none.
Proof.
  intros Hb. apply safe_grow. intros h h' r H E.
  destruct (env_add_binding_spec e b h H) as [(err & E1)|(o & o' & _ & h1 & H1 & G & [(err & E1)|(h2 & Ef & E1 & U)])];
    rewrite E1 in E; simplify_eq; [left; done|right..]; exists h1 || exists h'; (split; [done|]); (split; [done|]).
  - left; done.
  - right. exists e, o, o'. split; auto. unfold add_binding_fn in Ef. destruct o as [| | | |[]|]; try done.
    destruct (search_key _ _ _); [done|]. cbn in Ef. injection Ef as <-. cbn. unfold insert_at.
    rewrite flat_map_app. cbn.
    assert (forall y, y ∈ flat_map trace_binding bindings <->
       y ∈ flat_map trace_binding (take n bindings) \/ y ∈ flat_map trace_binding (drop n bindings)) as Hy.
    { intros y. rewrite <- elem_of_app, <- flat_map_app, take_drop. done. }
    intros x Hx. specialize (Hy x). specialize (Hb x). rewrite !elem_of_app in *. tauto.
Qed.
Lemma safe_env_create_binding X L e n m : e ∈ X ++ L -> safe X L (env_create_binding e n m) none.
Proof.
  intros He. unfold env_create_binding. sbind (fun _ : bool => gives L); [apply safe_mread0|].
  destruct a; [apply safe_fail|]. apply (safe_none _ _ _ none). sscope.
  - sbind (fun _ : unit => ([e], [] : list heap_id)); [apply safe_push_env_root; inc|].
    sbind (fun k : heap_id => gives [k]); [apply safe_alloc_string|].
    sbind (fun _ : unit => ([a0], [] : list heap_id)); [apply safe_push_root; inc|].
    apply safe_env_add_binding. unfold trace_binding. cbn. inc.
  - inc.
  - inc.
Qed.

(** ** Objects *)
Lemma trace_base_set_array_length b n : trace_base (base_set_array_length b n) ⊆ trace_base b.
Proof.
  unfold base_set_array_length. destruct (ob_kind b); [done|]. cbn. unfold trace_base.
  destruct (ob_properties b) as [|e es] eqn:Hp; [cbn; by rewrite Hp|].
  destruct (pd_kind (pe_desc e)) eqn:Hk; cbn; rewrite ?Hp; cbn; unfold trace_entry, trace_desc; cbn; inc.
Qed.
Lemma trace_alter f (Y : list heap_id) i ps : (forall e, trace_entry (f e) ⊆ trace_entry e ++ Y) ->
  flat_map trace_entry (alter f i ps) ⊆ flat_map trace_entry ps ++ Y.
Proof.
  intros Hf. revert i. induction ps as [|e es IH]; intros i; [intros x Hx; by apply elem_of_nil in Hx|]. destruct i as [|i].
  - change (trace_entry (f e) ++ flat_map trace_entry es ⊆ (trace_entry e ++ flat_map trace_entry es) ++ Y).
    specialize (Hf e). intros x Hx. specialize (Hf x). rewrite !elem_of_app in *. tauto.
  - change (trace_entry e ++ flat_map trace_entry (alter f i es) ⊆ (trace_entry e ++ flat_map trace_entry es) ++ Y).
    specialize (IH i). intros x Hx. specialize (IH x). rewrite !elem_of_app in *. tauto.
Qed.
Lemma trace_alter_desc i d ps :
  flat_map trace_entry (alter (fun e => e <| pe_desc := d |>) i ps) ⊆ flat_map trace_entry ps ++ trace_desc d.
Proof. apply trace_alter. intros e. unfold trace_entry. cbn [pe_key pe_desc set]. intros x Hx. rewrite !elem_of_app in *. tauto. Qed.
Lemma safe_heap_array_set_length X L o n : safe X L (heap_array_set_length o n) (fun _ => gives L).
Proof.
  apply safe_update_base; [|auto with np]. intros b b'. destruct (base_array_length b); [|done]. intros [= <-].
  split; [apply base_like_set_array_length|]. pose proof (trace_base_set_array_length b n). inc.
Qed.
Lemma safe_array_set_length_writable X L o w : safe X L (array_set_length_writable o w) (fun _ => gives L).
Proof.
  unfold array_set_length_writable. sbind (fun _ : property_entry => gives L); [apply safe_mread0|].
  apply safe_update_base; [|auto with np]. intros b b'. destruct (ob_properties b) as [|e es] eqn:Hp; [done|].
  destruct (pd_kind (pe_desc e)) eqn:Hk; [|done]. intros [= <-]. split.
  - split; cbn; [|by rewrite Hp]. unfold base_kind_eq. cbn. destruct (ob_kind b); auto.
  - assert (He : trace_entry (e <| pe_desc := pe_desc e <| pd_kind := PData v w |> |>) = trace_entry e).
    { unfold trace_entry, trace_desc. cbn [pe_key pe_desc pd_kind set]. by rewrite Hk. }
    unfold trace_base. cbn [ob_prototype ob_properties set]. rewrite Hp. cbn [flat_map].
    match goal with |- context [trace_entry ?e1] => change (trace_entry e1 = trace_entry e) in He; rewrite He end.
    intros x Hx. rewrite !elem_of_app in *. tauto.
Qed.
Lemma safe_object_set_prototype X L o p : opt_list p ⊆ X ++ L -> safe X L (object_set_prototype o p) (fun _ => gives L).
Proof.
  intros Hp. unfold object_set_prototype.
  eapply safe_bind; [apply safe_mread0|]. intros ?. cbn [fst snd].
  destruct (bool_decide _); [apply safe_fail|]. eapply safe_bind; [apply safe_mread0|]. intros ?. cbn [fst snd].
  apply safe_update_base; [|auto with np]. intros b b' [= <-]. split.
  - split; auto. unfold base_kind_eq. cbn. destruct (ob_kind b); auto.
  - unfold trace_base. cbn. inc.
Qed.
Lemma safe_object_set_extensible X L o e : safe X L (object_set_extensible o e) (fun _ => gives L).
Proof.
  apply safe_update_base; [|auto with np]. intros b b' [= <-]. split.
  - split; auto. unfold base_kind_eq. cbn. destruct (ob_kind b); auto.
  - unfold trace_base. cbn. inc.
Qed.
Lemma safe_define_array_fixup X L o a n k : safe X L (define_array_fixup o a n k) (fun _ => gives L).
Proof.
  unfold define_array_fixup. sbind (fun _ : unit => gives L).
  - destruct n; [|apply safe_ret]. apply safe_update_base; [|auto with np]. intros b b' [= <-].
    split; [apply base_like_set_array_length|]. pose proof (trace_base_set_array_length b n). inc.
  - destruct k; [|apply safe_ret]. destruct a; [|apply safe_ret]. apply safe_update_base.
    + intros b b'. destruct (base_array_length b); [|intros [= <-]; split; [apply base_like_refl|inc]]. cbv zeta.
      destruct (_ <? _); intros [= <-]; [|split; [apply base_like_refl|inc]].
      split; [apply base_like_set_array_length|]. pose proof (trace_base_set_array_length b ((n0 + 1) mod two32)). inc.
    + intros b. destruct (base_array_length b); auto with np.
Qed.
Lemma safe_set_existing X L o k v : trace_value v ⊆ X ++ L ->
  safe X L (object_set_existing_data_property_value o k v) (fun _ => gives L).
Proof.
  intros Hv. unfold object_set_existing_data_property_value.
  sbind (fun _ : bool => gives L); [apply safe_mget|]. sbind (fun _ : option N => gives L); [apply safe_mget|].
  sbind (fun _ : object_base => gives L); [apply safe_mread0|]. sbind (fun _ : option nat => gives L); [apply safe_mget|].
  destruct a2 as [n|]; [|apply safe_fail]. apply safe_update_base.
  - intros b b'. destruct (a && _).
    + destruct v; try done. destruct (array_length_from_f64 _) as [m|]; [|done]. intros [= <-].
      split; [apply base_like_set_array_length|]. pose proof (trace_base_set_array_length b m). inc.
    + destruct (ob_properties b !! n) as [e|] eqn:He; [|done]. destruct (pd_kind _) as [v0 w|] eqn:Hk; [|done]. cbv zeta.
      match goal with |- context [b <| ob_properties ::= ?f |>] =>
        set (b1 := b <| ob_properties ::= f |>);
        assert (Hb : base_like b b1) by (apply base_like_props; intros; apply alter_length) end.
      assert (Ht : trace_base b1 ⊆ trace_base b ++ trace_value v).
      { unfold trace_base, b1. cbn.
        assert (Hp : flat_map trace_entry (alter (fun e => e <| pe_desc ::= (fun d => d <| pd_kind := PData v w |>) |>) n (ob_properties b))
           ⊆ flat_map trace_entry (ob_properties b) ++ trace_value v).
        { apply trace_alter. intros e1. unfold trace_entry, trace_desc. cbn. intros x Hx. rewrite !elem_of_app in *. tauto. }
        intros x Hx. specialize (Hp x). rewrite !elem_of_app in *. tauto. }
      destruct a0 as [ix|]; [|intros [= <-]; split; [done|inc]].
      destruct (base_array_length _); [|intros [= <-]; split; [done|inc]].
      destruct (_ <? _); intros [= <-]; [|split; [done|inc]].
      split; [eapply base_like_trans; [exact Hb|apply base_like_set_array_length]|].
      pose proof (trace_base_set_array_length b1 ((ix + 1) mod two32)). inc.
  - intros b. destruct (a && _); [auto with np|]. destruct (_ !! _); [|auto with np].
    destruct (pd_kind _); [|auto with np]. cbv zeta. auto with np.
Qed.
Lemma trace_remove_nth i ps : flat_map trace_entry (remove_nth i ps) ⊆ flat_map trace_entry ps.
Proof.
  apply flat_map_mono. intros e. unfold remove_nth. rewrite elem_of_app. intros [He|He].
  - eapply elem_of_take in He as (j & Hj & _). eapply elem_of_list_lookup_2; eauto.
  - rewrite <- (take_drop (S i) ps). apply elem_of_app. by right.
Qed.
Lemma safe_delete_own X L o k : safe X L (object_delete_own_property o k) (fun _ => gives L).
Proof.
  intros h h' r H C HX HL E. destruct (delete_own_spec o k h H) as [[E1 _]|(ob & b & Hl & Hb & [[_ E1]|(i & h1 & _ & E1 & U)])];
    rewrite E1 in E; simplify_eq.
  - split; [done|split; [done|split; [apply stack_ext_refl|done]]].
  - split; [done|split; [done|split; [apply stack_ext_refl|]]]. intros a _. split; [inc|auto].
  - destruct (ustep_closed _ _ _ _ _ U C) as [C1 S1].
    { intros x Hx. eapply (proj2 C); [apply Hl|]. apply trace_object_in.
      assert (Ht : trace_object (set_base ob (b <| ob_properties ::= remove_nth i |>)) ⊆ trace_object ob ++ []).
      { eapply trace_set_base; eauto. unfold trace_base. cbn. pose proof (trace_remove_nth i (ob_properties b)). inc. }
      apply Ht in Hx. rewrite app_nil_r in Hx. done. }
    split; [apply U|]. split; auto. split; auto. intros a _. split; [inc|]. intros x Hx.
    exact (proj1 (ustep_live _ _ _ _ _ x U) (HL x Hx)).
Qed.
Lemma trace_base_with b k d pos : trace_base (base_with b k d pos) ⊆ trace_base b ++ trace_key k ++ trace_desc d.
Proof.
  unfold base_with, trace_base. destruct pos as [i|]; cbn.
  - pose proof (trace_alter_desc i d (ob_properties b)) as P.
    intros x Hx. specialize (P x). rewrite !elem_of_app in *. tauto.
  - rewrite flat_map_app. cbn. unfold trace_entry at 2. cbn. rewrite app_nil_r.
    intros x Hx. rewrite !elem_of_app in *. tauto.
Qed.
Lemma safe_heap_define_property X L o k d : trace_key k ++ trace_desc d ⊆ X ->
  safe X L (heap_define_property o k d) none.
Proof.
  intros Hs h h' r H C HX HL E. rewrite heap_define_property_unfold in E.
  destruct (define_target o k h) as [t|e|] eqn:Ht;
    [|simplify_eq; split; [done|split; [done|split; [apply stack_ext_refl|done]]]..].
  match type of E with context [define_new_length ?a ?b ?c ?d] => destruct (define_new_length a b c d) as [nl|e|] end;
    [|simplify_eq; split; [done|split; [done|split; [apply stack_ext_refl|done]]]..].
  unfold mbind in E. destruct (define_core o k d t h) as [h1 r1] eqn:E1.
  assert (P : heap_ok h1 /\ no_dangling h1 /\ stack_ext h h1).
  { destruct (define_core_spec o k d h t H Ht)
      as (s & ob & b & Hsl & Hg & Ho & Hb & Et & h2 & H2 & G & [(e & E2 & _)|(h3 & E2 & U)]); rewrite E2 in E1; simplify_eq.
    - destruct (gstep_closed _ _ _ G C) as (C1 & _ & S1); [set_solver|]. auto.
    - destruct (gstep_closed _ _ _ G C) as (C1 & _ & S1); [set_solver|].
      destruct (ustep_closed _ _ _ _ _ U C1) as (C2 & S2).
      + intros x Hx. eapply trace_set_base in Hx; [|done|apply trace_base_with].
        apply elem_of_app in Hx as [Hx|Hx].
        * eapply (proj2 C1); [apply (us_live _ _ _ _ _ U)|]. by apply trace_object_in.
        * apply C1, stack_rooted_rooted. eapply stack_rooted_ext; [apply S1|]. auto.
      + split; [apply U|]. split; auto. eapply stack_ext_trans; eauto. }
  destruct P as (H1 & C1 & S1).
  destruct r1 as [a|e|]; simplify_eq; [|split; [done|split; [done|split; [done|done]]]..].
  destruct (safe_define_array_fixup [] [] o _ nl _ h1 h' r H1 C1 ltac:(set_solver) ltac:(set_solver) E) as (H2 & C2 & S2 & _).
  split; auto. split; auto. split; [eapply stack_ext_trans; eauto|]. intros a' _. split; set_solver.
Qed.
