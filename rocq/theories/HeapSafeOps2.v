(** Rooting safety, continued: property definition, promises, the symbol
    registry, functions and persistent roots. *)
From stdpp Require Import base decidable list numbers sets.
From Coq Require Import NArith ZArith Lia.
From RecordUpdate Require Import RecordUpdate.
From Verif Require Import VmBase HeapModel HeapObjModel HeapSpec HeapGcProofs HeapInvProofs HeapObjProofs
  ObjectOpsModel ObjectOpsProofs HeapTidyProofs HeapSafeProofs HeapSafeOps.

Open Scope N_scope.

(** [safe_post] with the goal stated in one go. *)
Ltac spost := eapply safe_post; [|inc|inc].
Lemma safe_ret' {A} X L (a : A) F : fst (F a) ⊆ X -> snd (F a) ⊆ X ++ L -> safe X L (mret a) F.
Proof.
  intros H1 H2 h h' r H C HX HL E. unfold mret in E. simplify_eq. split; auto. split; auto. split; [apply stack_ext_refl|].
  intros b Hb. simplify_eq. split; [auto|]. intros x Hx. apply H2 in Hx as [Hx|Hx]%elem_of_app; auto.
  apply C, stack_rooted_rooted. auto.
Qed.
(** [inc] without reducing the lists. *)
Ltac inc' := let x := fresh "x" in let Hx := fresh "Hx" in intros x Hx;
  repeat match goal with H : ?a ⊆ ?b |- _ => specialize (H x) end;
  cbn [fst snd] in *; rewrite ?app_nil_r in *;
  rewrite ?elem_of_app, ?elem_of_cons, ?elem_of_nil, ?elem_of_app, ?elem_of_cons, ?elem_of_nil in *; tauto.
Ltac sscopew F := eapply safe_post; [apply (safe_with_scope _ _ _ F); [tidy|]|..].

Lemma safe_define_property X L o k d : o :: trace_key k ++ trace_desc d ⊆ X ++ L ->
  safe X L (define_property o k d) (fun _ => gives (o :: trace_key k ++ trace_desc d)).
Proof.
  intros Hs. unfold define_property. sscopew (fun _ : unit => (o :: trace_key k ++ trace_desc d, [] : list heap_id)).
  - sbind (fun _ : unit => (o :: trace_key k ++ trace_desc d, [] : list heap_id)).
    { eapply safe_post; [apply safe_push_roots|..];
        change (VObject o :: key_value k :: desc_values d) with ([VObject o] ++ [key_value k] ++ desc_values d);
        rewrite !trace_values_app, trace_desc_values; unfold trace_values; cbn [flat_map]; rewrite !app_nil_r, trace_key_value; [|inc|inc].
      cbn. inc. }
    eapply safe_post; [apply safe_heap_define_property; inc|inc|inc].
  - inc.
  - inc.
Qed.
Lemma safe_heap_ordinary_delete X L o k : safe X L (heap_ordinary_delete o k) (fun _ => gives L).
Proof.
  unfold heap_ordinary_delete. eapply safe_bind; [apply safe_mread0|]. cbn [fst snd]. rewrite app_nil_r.
  intros [d|]; [|apply safe_ret]. destruct (negb _); [apply safe_ret|].
  eapply safe_bind; [apply safe_delete_own|]. cbn [fst snd]. rewrite app_nil_r. intros _. apply safe_ret.
Qed.

(** ** Promises *)
Lemma get_promise_live h p q : get_promise h p = Ok q -> live_as h p (HPromise q).
Proof.
  intros Hq. unfold get_promise in Hq. destruct (get_heap_object_cases h p) as [(o & E1 & Ho)|[E1 _]]; rewrite E1 in Hq; [|done].
  cbn in Hq. destruct o; try done. by injection Hq as <-.
Qed.
Lemma safe_promise_set_is_handled X L p b : safe X L (promise_set_is_handled p b) (fun _ => gives L).
Proof.
  unfold promise_set_is_handled, update_promise. apply safe_update_object.
  - intros l o o' E. destruct o; try done. cbn in E. simplify_eq. done.
  - intros o. destruct o; auto with np.
  - intros o o' E. destruct o; try done. cbn in E. simplify_eq. cbn [trace_object]. unfold trace_promise. cbn. inc.
Qed.
Lemma trace_promise_settled p st r : trace_promise (p <| pr_state := st |> <| pr_result := r |> <| pr_fulfill := None |> <| pr_reject := None |>)
  ⊆ trace_promise p ++ trace_opt_value r.
Proof. unfold trace_promise. cbn. intros x Hx. rewrite !elem_of_app in *. set_solver. Qed.
Lemma trace_promise_set_fields p st r : trace_promise (promise_set_fields p st r) ⊆ trace_promise p ++ trace_opt_value r.
Proof.
  destruct st; unfold promise_set_fields; try apply trace_promise_settled.
  unfold trace_promise. cbn. destruct (pr_fulfill p), (pr_reject p); cbn; intros x Hx; rewrite !elem_of_app in *; set_solver.
Qed.
Lemma safe_promise_set_state X L p st r : trace_opt_value r ⊆ X ++ L ->
  safe X L (promise_set_state_and_result p st r) (fun _ => gives L).
Proof.
  intros Hr. apply safe_ustep. intros h h' x H E. unfold promise_set_state_and_result in E.
  destruct (promise_dec h p) as [(q & Hq)|Hd].
  - destruct (promise_shrink (A:=unit) p (fun p => promise_set_fields p st r) h q (mret tt) H Hq)
      as (h1 & U & _ & E1); [apply payload_promise_set_fields|].
    rewrite E1 in E. simplify_eq. right. eexists _, _, _. split; [exact U|]. split.
    + cbn [trace_object]. pose proof (trace_promise_set_fields q st r) as P. intros y Hy. specialize (P y Hy). specialize (Hr y).
      rewrite !elem_of_app in *. tauto.
    + intros a _. split; [done|]. inc.
  - unfold mbind in E. rewrite update_promise_fail in E by auto. simplify_eq. left. done.
Qed.
Lemma safe_promise_settle X L p st r : trace_value r ⊆ X ++ L ->
  safe X L (promise_settle_and_take_reactions p st r)
    (fun rs => gives (flat_map trace_reaction (fst rs) ++ flat_map trace_reaction (snd rs) ++ L)).
Proof.
  intros Hr. unfold promise_settle_and_take_reactions. destruct (bool_decide (st = Pending)); [apply safe_fail|].
  intros h h' x H C HX HL E. unfold mbind at 1 in E. unfold mread at 1 in E.
  destruct (get_promise h p) as [q|e|] eqn:Hq;
    [|simplify_eq; split; [done|split; [done|split; [apply stack_ext_refl|done]]]..].
  destruct (negb _).
  { refine (_ (safe_ret X L ([], []) h h' x H C HX HL E)). intros (A1 & A2 & A3 & A4). split; auto. split; auto. split; auto.
    intros a Ha. unfold mret in E. simplify_eq. exact (A4 _ eq_refl). }
  pose proof (get_promise_live _ _ _ Hq) as Hl.
  destruct (promise_shrink p (fun q => q <| pr_state := st |> <| pr_result := Some r |>
     <| pr_fulfill := None |> <| pr_reject := None |>) h q (mret (default [] (pr_fulfill q), default [] (pr_reject q))) H Hl)
    as (h1 & U & E1 & _); [apply payload_promise_settled|].
  rewrite E1 in E. unfold mret in E. simplify_eq.
  assert (Hlq : forall y, y ∈ trace_promise q -> live h y).
  { intros y Hy. eapply (proj2 C); [exact Hl|]. apply trace_object_in. exact Hy. }
  assert (HX' : forall y, y ∈ X -> live h y) by (intros; apply C, stack_rooted_rooted; auto).
  destruct (ustep_closed _ _ _ _ _ U C) as [C1 S1].
  { intros y Hy. apply trace_promise_settled in Hy. rewrite elem_of_app in Hy. destruct Hy as [Hy|Hy]; auto.
    unfold trace_opt_value, trace_values in Hy. cbn in Hy. rewrite app_nil_r in Hy. apply Hr in Hy. rewrite elem_of_app in Hy. naive_solver. }
  split; [apply U|]. split; auto. split; auto. intros a Ha. simplify_eq. split; [set_solver|]. cbn [fst snd].
  intros y Hy. apply (ustep_live _ _ _ _ _ _ U). rewrite !elem_of_app in Hy.
  destruct Hy as [Hy|[Hy|Hy]]; [..|auto]; apply Hlq; unfold trace_promise; rewrite !elem_of_app.
  - right. right. left. destruct (pr_fulfill q); [cbn; by rewrite ?app_nil_r|set_solver].
  - right. right. right. destruct (pr_reject q); [cbn; by rewrite ?app_nil_r|set_solver].
Qed.
Lemma trace_append_reaction f r q o' : append_reaction_fn f r (HPromise q) = Ok o' ->
  trace_object o' ⊆ trace_promise q ++ trace_reaction r.
Proof.
  intros E. unfold append_reaction_fn in E. destruct f; [destruct (pr_fulfill q) eqn:Hq|destruct (pr_reject q) eqn:Hq]; cbn in E; simplify_eq;
    cbn [trace_object]; unfold trace_promise; cbn; rewrite Hq; cbn; rewrite flat_map_app; cbn; rewrite !app_nil_r;
    intros x Hx; rewrite !elem_of_app in *; tauto.
Qed.
Lemma safe_append_reaction X L p f r : trace_reaction r ⊆ X -> safe X L (promise_append_reaction p f r) none.
Proof.
  intros Hr h h' x H C HX HL E.
  destruct (append_reaction_spec p f r h H) as [(err & E1)|(q & o' & Hl & _ & h1 & H1 & G & [(err & E1)|(h2 & Ho & E1 & U)])];
    rewrite E1 in E; simplify_eq.
  - split; auto. split; auto. split; [apply stack_ext_refl|done].
  - destruct (gstep_closed _ _ _ G C) as (C1 & _ & S1); [set_solver|]. split; auto. split; auto. split; [auto|done].
  - destruct (gstep_closed _ _ _ G C) as (C1 & _ & S1); [set_solver|].
    destruct (ustep_closed _ _ _ _ _ U C1) as (C2 & S2).
    + intros y Hy. eapply trace_append_reaction in Hy; eauto. apply elem_of_app in Hy as [Hy|Hy].
      * eapply (proj2 C1); [apply (us_live _ _ _ _ _ U)|]. by apply trace_object_in.
      * apply C1, stack_rooted_rooted. eapply stack_rooted_ext; [apply S1|]. auto.
    + split; [apply U|]. split; auto. split; [eapply stack_ext_trans; eauto|]. intros a _. split; set_solver.
Qed.
Lemma trace_reaction_values r x : x ∈ trace_values (reaction_values r) <-> x ∈ trace_reaction r.
Proof.
  unfold reaction_values, trace_reaction. rewrite trace_values_app. destruct (re_handler r), (re_capability r); cbn;
    unfold trace_capability, trace_job_callback; cbn; rewrite ?app_nil_r, ?elem_of_app, ?elem_of_cons, ?elem_of_app, ?elem_of_nil; tauto.
Qed.
Lemma safe_scope_append_reaction X L p f r : p :: trace_reaction r ⊆ X ++ L -> safe X L (scope_append_reaction p f r) none.
Proof.
  intros Hs. unfold scope_append_reaction.
  assert (Hr : trace_reaction r ⊆ trace_values (reaction_values r)) by (intros x; by rewrite trace_reaction_values).
  assert (Hr' : trace_values (reaction_values r) ⊆ trace_reaction r) by (intros x; by rewrite trace_reaction_values).
  sscope.
  - sbind (fun _ : unit => (p :: trace_reaction r, [] : list heap_id)).
    { eapply safe_post; [apply safe_push_roots|..];
        change (VObject p :: reaction_values r) with ([VObject p] ++ reaction_values r);
        rewrite trace_values_app; change (trace_values [VObject p]) with [p]; [inc'|intros []; inc'|intros []; inc']. }
    apply safe_append_reaction. inc'.
  - inc.
  - inc.
Qed.

(** ** Symbol registry *)
Lemma registry_search_elem fuel h key : forall low high i, registry_search fuel h key low high = Ok (inl i) ->
  exists e, h_registry h !! i = Some e.
Proof.
  induction fuel as [|fuel IH]; intros low high i E; cbn [registry_search] in E; [done|].
  destruct (Nat.ltb low high); [|done]. cbv zeta in E. destruct (h_registry h !! (low + (high - low) / 2)%nat) eqn:Hm; [|done].
  destruct (get_string h _); cbn in E; try done. destruct (units_compare _ _); eauto. simplify_eq. eauto.
Qed.
Lemma registry_get_rooted h key sym : symbol_registry_get h key = Ok (Some sym) -> rooted h sym.
Proof.
  unfold symbol_registry_get, symbol_registry_binary_search. destruct (registry_search _ _ _ _ _) as [[i|i]| |] eqn:E; cbn; try done.
  destruct (h_registry h !! i) as [e|] eqn:Hi; [|done]. intros [= <-]. apply rt_registry_sym.
  eapply elem_of_list_lookup_2; eauto.
Qed.
Lemma closed_set_registry h c r : no_dangling h ->
  (forall e, e ∈ r -> live h (rg_key e) /\ live h (rg_sym e)) ->
  no_dangling (h <| h_caps := c |> <| h_registry := r |>).
Proof.
  intros [HR HO] Hr. split; [|exact HO]. intros x Hx. change (live h x). destruct Hx; cbn in *; eauto.
  - apply HR. eapply rt_stack; eauto.
  - apply HR. by eapply rt_env_stack.
  - apply HR. eapply rt_persistent; eauto.
  - apply HR. by apply rt_persistent_env.
  - by apply Hr.
  - by apply Hr.
Qed.
Lemma safe_registry_insert X L key sym : [key; sym] ⊆ X -> safe X L (symbol_registry_insert key sym) none.
Proof.
  intros Hs h h' r H C HX HL E.
  assert (Hk : key ∈ X) by (apply Hs; set_solver). assert (Hs' : sym ∈ X) by (apply Hs; set_solver).
  destruct (registry_insert_spec key sym h H) as (h1 & H1 & G & Hc).
  destruct (gstep_closed _ _ _ G C) as (C1 & _ & S1); [set_solver|].
  assert (HX1 : forall x, x ∈ X -> live h1 x).
  { intros x Hx. apply C1, stack_rooted_rooted. eapply stack_rooted_ext; eauto. }
  assert (Hreg : forall e, e ∈ h_registry h1 -> live h1 (rg_key e) /\ live h1 (rg_sym e)).
  { intros e He. split; apply C1; [by apply rt_registry_key|by apply rt_registry_sym]. }
  assert (K : forall c l, (forall e, e ∈ l -> e = REntry key sym \/ e ∈ h_registry h1) ->
     no_dangling (h1 <| h_caps := c |> <| h_registry := l |>)).
  { intros c l Hl. apply closed_set_registry; auto. intros e He. destruct (Hl e He) as [->|?]; cbn; auto. }
  assert (K0 : forall c, no_dangling (h1 <| h_caps := c |>)).
  { intros c. pose proof (K c (h_registry h1)) as P. specialize (P ltac:(auto)).
    assert (EQ : h1 <| h_caps := c |> <| h_registry := h_registry h1 |> = h1 <| h_caps := c |>) by (clear; by destruct h1).
    exact (eq_ind _ no_dangling P _ EQ). }
  destruct Hc as [(e & E1)|(c & H2 & [(e & E1)|(u & x & _ & _ & E1)])].
  - rewrite E1 in E. simplify_eq. split; auto. split; auto. split; [auto|done].
  - rewrite E1 in E. simplify_eq. split; auto. split; [apply K0|]. split; [auto|done].
  - destruct x as [i|i].
    + rewrite E1 in E. simplify_eq. split; auto. split; [apply K0|]. split; [auto|]. intros a _. split; set_solver.
    + destruct E1 as [E1 H3]. rewrite E1 in E. simplify_eq. split; auto. split; [|split; [auto|intros a _; split; set_solver]].
      apply K. cbn. intros e [He|[->|He]%elem_of_cons]%elem_of_app; auto; right.
      * eapply elem_of_take in He as (j & Hj & _). eapply elem_of_list_lookup_2; eauto.
      * rewrite <- (take_drop i (h_registry h1)). apply elem_of_app. by right.
Qed.
Lemma safe_symbol_for X L key : [key] ⊆ X ++ L -> safe X L (symbol_for key) (fun s => gives [s]).
Proof.
  intros Hk. unfold symbol_for. sbind (fun _ : js_string => gives L); [apply safe_mread0|].
  sbind (fun s : option heap_id => gives (opt_list s ++ L)).
  { apply (safe_mread _ _ _ opt_list). intros h [s|] H C E x Hx; [|by apply elem_of_nil in Hx]. cbn in Hx.
    apply elem_of_list_singleton in Hx as ->. apply C. eapply registry_get_rooted; eauto. }
  destruct a0 as [s|].
  - apply safe_ret'; inc.
  - sbind (fun _ : unit => gives [key]); [apply safe_ensure; cbn; inc|].
    sscopew (fun s : heap_id => ([s], [] : list heap_id)).
    + sbind (fun _ : unit => ([key], [] : list heap_id)); [apply safe_push_root; inc|].
      sbind (fun s : heap_id => gives [s]); [apply safe_new_symbol; inc|].
      sbind (fun _ : unit => ([a2], [] : list heap_id)); [apply safe_push_root; inc|].
      sbind (fun _ : unit => gives []); [apply safe_registry_insert; inc|].
      apply safe_ret'; inc.
    + inc.
    + inc.
Qed.

(** ** Functions *)
Lemma safe_update_function X L f g :
  (forall l o, payload_bytes l (HFunction (g o)) = payload_bytes l (HFunction o)) ->
  (forall o, trace_function (g o) ⊆ trace_function o ++ X ++ L) ->
  safe X L (update_function f g) (fun _ => gives L).
Proof.
  intros Hp Ht. apply safe_update_object.
  - intros l o o' E. destruct o; try done. simplify_eq. split; [done|]. apply Hp.
  - intros o. destruct o; auto with np.
  - intros o o' E. destruct o; try done. simplify_eq. apply Ht.
Qed.
Lemma safe_compute_function_name X L n p : trace_key n ⊆ X ++ L ->
  safe X L (compute_function_name n p) (fun s => ([] : list heap_id, [s])).
Proof.
  intros Hn. unfold compute_function_name.
  assert (P : safe X L (let* base := mread (fun h =>
        match n with
        | PKString s => get_string h s
        | PKSymbol sym =>
            let? d := get_symbol_description h sym in
            let? du := match d with Some d => get_string h d | None => Ok [] end in
            Ok ([91] ++ du ++ [93])
        end) in
      alloc_string (match p with Some p => p ++ [32] | None => [] end ++ base)) (fun s => ([] : list heap_id, [s]))).
  { eapply safe_bind; [apply safe_mread0|]. intros ?. apply safe_alloc_string. }
  destruct p; [destruct n; exact P|]. destruct n as [n|n]; [|exact P].
  apply safe_ret'; cbn in *; inc.
Qed.
Lemma safe_set_function_name X L f n p : trace_key n ⊆ X -> [f] ⊆ X ++ L ->
  safe X L (set_function_name f n p) (fun _ => gives [f]).
Proof.
  intros Hn Hf. unfold set_function_name. sscopew (fun _ : unit => ([f], [] : list heap_id)).
  - sbind (fun _ : unit => ([f], [] : list heap_id)); [apply safe_push_root; inc|].
    sbind (fun s : heap_id => gives [s]); [apply safe_compute_function_name; inc|].
    sbind (fun _ : unit => ([a0], [] : list heap_id)); [apply safe_push_root; inc|].
    sbind (fun s : heap_id => gives [s]); [apply safe_alloc_string|].
    sbind (fun _ : unit => gives []).
    { eapply safe_post; [apply safe_define_property; cbn; inc|inc|inc]. }
    eapply safe_post; [apply safe_update_function|inc|inc]; [done|].
    intros o. unfold trace_function. cbn. inc.
  - inc.
  - inc.
Qed.
Lemma safe_set_function_length X L f n : [f] ⊆ X ++ L -> safe X L (set_function_length f n) (fun _ => gives [f]).
Proof.
  intros Hf. unfold set_function_length. sscopew (fun _ : unit => ([f], [] : list heap_id)).
  - sbind (fun _ : unit => ([f], [] : list heap_id)); [apply safe_push_root; inc|].
    sbind (fun s : heap_id => gives [s]); [apply safe_alloc_string|].
    sbind (fun _ : unit => gives []).
    { eapply safe_post; [apply safe_define_property; cbn; inc|inc|inc]. }
    eapply safe_post; [apply safe_update_function|inc|inc]; [done|].
    intros o. unfold trace_function. cbn. inc.
  - inc.
  - inc.
Qed.
Lemma safe_make_constructor X L f : [f] ⊆ X ++ L -> safe X L (make_constructor f) (fun p => gives [f; p]).
Proof.
  intros Hf. unfold make_constructor. sscopew (fun p : heap_id => ([f; p], [] : list heap_id)).
  - sbind (fun _ : unit => ([f], [] : list heap_id)); [apply safe_push_root; inc|].
    sbind (fun s : heap_id => gives [s]); [apply safe_alloc_object|].
    sbind (fun _ : unit => ([a0], [] : list heap_id)); [apply safe_push_root; inc|].
    sbind (fun s : heap_id => gives [s]); [apply safe_alloc_string|].
    sbind (fun _ : unit => gives []).
    { eapply safe_post; [apply safe_define_property; cbn; inc|inc|inc]. }
    sbind (fun s : heap_id => gives [s]); [apply safe_alloc_string|].
    sbind (fun _ : unit => gives []).
    { eapply safe_post; [apply safe_define_property; cbn; inc|inc|inc]. }
    apply safe_ret'; inc.
  - inc.
  - inc.
Qed.
Lemma trace_function_new call construct name len : trace_function (function_new call construct name len) = [name].
Proof. done. Qed.
(** The tail shared by the function allocators. *)
Lemma safe_finish_function X f name len (c : bool) : [name] ⊆ X ->
  safe X [f] (set_function_name f (PKString name) None ;;; set_function_length f len ;;;
    if c then make_constructor f ;;; mret f else mret f) (fun id => gives [id]).
Proof.
  intros Hn.
  sbind (fun _ : unit => gives [f]); [apply safe_set_function_name; cbn; inc|].
  sbind (fun _ : unit => gives [f]); [apply safe_set_function_length; inc|].
  destruct c; [|apply safe_ret'; inc].
  sbind (fun p : heap_id => gives [f; p]); [apply safe_make_constructor; inc|]. apply safe_ret'; inc.
Qed.
