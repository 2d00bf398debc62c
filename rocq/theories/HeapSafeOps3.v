(** Rooting safety, continued: function allocation, persistent roots, explicit
    collection and the object internal methods. *)
From stdpp Require Import base decidable list numbers sets.
From Coq Require Import NArith ZArith Lia.
From RecordUpdate Require Import RecordUpdate.
From Verif Require Import VmBase HeapModel HeapObjModel HeapSpec HeapGcProofs HeapInvProofs HeapObjProofs
  ObjectOpsModel ObjectOpsProofs HeapTidyProofs HeapSafeProofs HeapSafeOps HeapSafeOps2.

Open Scope N_scope.

Lemma safe_push_roots' X L vs extra Y : trace_values vs ++ extra ⊆ X ++ L -> Y ⊆ trace_values vs ->
  safe X L (push_roots_with vs extra) (fun _ => (Y, extra)).
Proof.
  intros H1 H2. eapply safe_post; [by apply safe_push_roots_with|intros []; inc'|intros []; inc'].
Qed.

Lemma safel_bind_end {A B} l X L (m : M A) (k : A -> M B) F G :
  safel l X L m F -> (forall a, safe (X ++ fst (F a)) (snd (F a)) (k a) G) -> safel l X L (mbind m k) G.
Proof.
  intros Hm Hk h h' r El H C HX HL E. unfold mbind in E. destruct (m h) as [h1 r1] eqn:E1.
  destruct (Hm _ _ _ El H C HX HL E1) as (H1 & C1 & S1 & R1). destruct r1 as [a|e|]; simplify_eq.
  - destruct (R1 a eq_refl) as [R1a R1b].
    destruct (Hk a h1 h' r H1 C1) as (H2 & C2 & S2 & R2); auto.
    { intros x [Hx|Hx]%elem_of_app; auto. eapply stack_rooted_ext; eauto. }
    split; auto. split; auto. split; [eapply stack_ext_trans; eauto|auto].
  - split; auto. split; auto. split; auto. intros a Ha. done.
  - split; auto. split; auto. split; auto. intros a Ha. done.
Qed.
Lemma safe_alloc_function X l f : trace_function f ⊆ X ->
  safel l X [] (alloc_unchecked (HFunction f) (function_size l f)) (fun id => gives [id]).
Proof. intros Ht. apply safel_alloc; [right; apply function_size_ok|exact Ht]. Qed.

Lemma trace_native call construct name len (slots : list value) env :
  trace_function (function_new call construct name len <| fn_native_slots := match slots with [] => None | _ => Some slots end |>
                    <| fn_closure_env := env |>) = name :: trace_values slots ++ opt_list env.
Proof. unfold trace_function. cbn. destruct slots; done. Qed.
Lemma safe_alloc_native_function X L call construct name len slots env :
  name :: trace_values slots ++ opt_list env ⊆ X ++ L ->
  safe X L (alloc_native_function call construct name len slots env) (fun id => gives [id]).
Proof.
  intros Hs. unfold alloc_native_function. sscopew (fun id : heap_id => gives [id]).
  - sbind (fun _ : unit => (name :: trace_values slots ++ opt_list env, [] : list heap_id)).
    + destruct env as [e|].
      * sbind (fun _ : unit => ([name], trace_values slots ++ [e])).
        { apply safe_push_roots'; change (trace_values [VString name]) with [name]; [|done]. cbn [opt_list] in Hs. inc'. }
        sbind (fun _ : unit => (trace_values slots, [e])).
        { apply safe_push_roots'; [inc'|done]. }
        eapply safe_post; [apply safe_push_env_root; inc| |]; intros []; cbn [opt_list]; inc'.
      * sbind (fun _ : unit => ([name], trace_values slots)).
        { apply safe_push_roots'; change (trace_values [VString name]) with [name]; [|done]. cbn [opt_list] in Hs. inc'. }
        eapply safe_post; [apply safe_push_roots; inc'| |]; intros []; cbn [opt_list]; inc'.
    + apply safe_layout. intros l. sensl.
      eapply safel_bind_end; [apply safe_alloc_function|]; cbn [fst snd].
      { rewrite trace_native. rewrite !app_nil_r. inc'. }
      intros f. destruct construct; [apply (safe_finish_function _ f name len true)|apply (safe_finish_function _ f name len false)]; inc'.
  - inc.
  - inc.
Qed.
Lemma safe_alloc_ecma_function X L code c name len tm st env :
  name :: opt_list env ⊆ X ++ L ->
  safe X L (alloc_ecma_function code c name len tm st env) (fun id => gives [id]).
Proof.
  intros Hs. unfold alloc_ecma_function. sscopew (fun id : heap_id => gives [id]).
  - sbind (fun _ : unit => (name :: opt_list env, [] : list heap_id)).
    + destruct env as [e|].
      * sbind (fun _ : unit => ([name], [e])).
        { apply safe_push_roots'; change (trace_values [VString name]) with [name]; [|done]. cbn [opt_list] in Hs. inc'. }
        eapply safe_post; [apply safe_push_env_root; inc| |]; intros []; cbn [opt_list]; inc'.
      * eapply safe_post; [apply safe_push_root; cbn; inc| |]; intros []; cbn [opt_list]; inc.
    + apply safe_layout. intros l. sensl.
      eapply safel_bind_end; [apply safe_alloc_function|]; cbn [fst snd].
      { unfold trace_function. cbn. inc. }
      intros f. destruct c; [apply (safe_finish_function _ f name len true)|apply (safe_finish_function _ f name len false)]; inc'.
  - inc.
  - inc.
Qed.
Lemma safe_alloc_user_function X L code name len : [name] ⊆ X ++ L ->
  safe X L (alloc_user_function code name len) (fun id => gives [id]).
Proof.
  intros Hs. unfold alloc_user_function. sscopew (fun id : heap_id => gives [id]).
  - sbind (fun _ : unit => ([name], [] : list heap_id)).
    { apply safe_push_root; cbn; inc. }
    apply safe_layout. intros l. sensl.
    eapply safel_bind_end; [apply safe_alloc_function|]; cbn [fst snd].
    { unfold trace_function. cbn. inc. }
    intros f. apply (safe_finish_function _ f name len false). inc'.
  - inc.
  - inc.
Qed.
Lemma safe_alloc_bound_function_raw X L call construct name len target this args :
  name :: target :: trace_value this ++ trace_values (default [] args) ⊆ X ++ L ->
  safe X L (alloc_bound_function_raw call construct name len target this args) (fun id => gives [id]).
Proof.
  intros Hs. unfold alloc_bound_function_raw. sscopew (fun id : heap_id => gives [id]).
  - sbind (fun _ : unit => (name :: target :: trace_value this ++ trace_values (default [] args), [] : list heap_id)).
    { apply (safe_push_roots' _ _ _ []);
        change (VString name :: VObject target :: this :: default [] args) with
        ([VString name; VObject target] ++ [this] ++ default [] args); rewrite !trace_values_app;
        change (trace_values [VString name; VObject target]) with [name; target];
        change (trace_values [this]) with (trace_value this ++ []); inc'. }
    apply safe_layout. intros l. sensl.
    apply safe_alloc_function. unfold trace_function.
    cbn [set fn_base fn_name fn_data fn_bound_target fn_bound_this fn_bound_new_target fn_bound_args fn_native_slots fn_realm fn_closure_env function_new].
    unfold trace_opt_value. cbn [opt_list trace_values flat_map default trace_value trace_fn_data].
    change (trace_base (base_new None)) with (@nil heap_id). intros x Hx.
    rewrite ?app_nil_r in *. cbn in Hx. rewrite ?elem_of_app, ?elem_of_cons, ?elem_of_nil, ?elem_of_app, ?elem_of_cons, ?elem_of_nil in *. tauto.
  - inc.
  - inc.
Qed.
Lemma safe_alloc_bound_function X L target this args name len :
  name :: target :: trace_value this ++ trace_values args ⊆ X ++ L ->
  safe X L (alloc_bound_function target this args name len) (fun id => gives [id]).
Proof.
  intros Hs. unfold alloc_bound_function. sbind (fun _ : js_function => gives L); [apply safe_mread0|].
  rewrite app_nil_r. apply safe_alloc_bound_function_raw. destruct args; exact Hs.
Qed.
(** Crate-internal setters. *)
Lemma safe_set_function_bound_this X L f v : trace_value v ⊆ X ++ L -> safe X L (set_function_bound_this f v) (fun _ => gives L).
Proof. intros Hv. apply safe_update_function; [done|]. intros o. unfold trace_function. cbn. inc. Qed.
Lemma safe_set_function_bound_new_target X L f v : trace_value v ⊆ X ++ L ->
  safe X L (set_function_bound_new_target f v) (fun _ => gives L).
Proof. intros Hv. apply safe_update_function; [done|]. intros o. unfold trace_function. cbn. inc. Qed.
Lemma safe_set_function_realm X L f v : [v] ⊆ X ++ L -> safe X L (set_function_realm f v) (fun _ => gives L).
Proof. intros Hv. apply safe_update_function; [done|]. intros o. unfold trace_function. cbn. inc. Qed.
Lemma safe_set_function_job_realm X L f v : safe X L (set_function_job_realm f v) (fun _ => gives L).
Proof. apply safe_update_function; [done|]. intros o. unfold trace_function. cbn. inc. Qed.
Lemma safe_set_function_data X L f d : trace_fn_data d ⊆ X ++ L -> safe X L (set_function_data f d) (fun _ => gives L).
Proof. intros Hv. apply safe_update_function; [done|]. intros o. unfold trace_function. cbn [set fn_base fn_name fn_data fn_bound_target fn_bound_this fn_bound_new_target fn_bound_args fn_native_slots fn_realm fn_closure_env].
  inc'. Qed.
Lemma safe_set_function_closure_env X L f e : opt_list e ⊆ X ++ L -> safe X L (set_function_closure_env f e) (fun _ => gives L).
Proof. intros Hv. apply safe_update_function; [done|]. intros o. unfold trace_function. cbn [set fn_base fn_name fn_data fn_bound_target fn_bound_this fn_bound_new_target fn_bound_args fn_native_slots fn_realm fn_closure_env].
  inc'. Qed.
Lemma safe_host_slots X L o hs : safe X L (object_set_host_slots o hs) (fun _ => gives L).
Proof.
  intros h h' r H C HX HL E. destruct (good_set_host_slots o hs h h' r H E) as (H1 & _).
  unfold object_set_host_slots in E. destruct (validate h o) as [idx|] eqn:Hv;
    [|simplify_eq; split; [done|split; [done|split; [apply stack_ext_refl|done]]]].
  destruct (h_slots h !! idx) as [s|] eqn:Hs; [|simplify_eq; split; [done|split; [done|split; [apply stack_ext_refl|done]]]].
  assert (K : forall x o, live_as (h <| h_slots := <[idx:=s <| sl_host := hs |>]> (h_slots h) |>) x o <-> live_as h x o).
  { intros x y. unfold live_as, live_with. cbn. split.
    - intros (hs' & t & T1 & T2 & T3 & T4). destruct (decide (idx = hid_index x)) as [E1|N].
      + rewrite E1, list_lookup_insert in T1; [|rewrite <- E1; by eapply lookup_lt_Some]. simplify_eq. cbn in *.
        exists (sl_host s), s. repeat split; auto.
      + rewrite list_lookup_insert_ne in T1 by done. eauto 8.
    - intros (hs' & t & T1 & T2 & T3 & T4). destruct (decide (idx = hid_index x)) as [E1|N].
      + subst idx. assert (t = s) by congruence. subst. eexists _, _. rewrite list_lookup_insert; [|by eapply lookup_lt_Some].
        repeat split; auto.
      + exists hs', t. rewrite list_lookup_insert_ne by done. auto. }
  assert (K' : forall x, live (h <| h_slots := <[idx:=s <| sl_host := hs |>]> (h_slots h) |>) x <-> live h x).
  { intros x. split; intros (y & Hy); exists y; by apply K. }
  destruct (sl_value s) as [ob|]; [|simplify_eq; split; [done|split; [done|split; [apply stack_ext_refl|done]]]].
  assert (P : h' = (h <| h_slots := <[idx:=s <| sl_host := hs |>]> (h_slots h) |>) \/ h' = h /\ forall a, r <> Ok a)
    by (destruct ob; simplify_eq; auto).
  destruct P as [->|[-> Hr]].
  - split; auto. split; [split|].
    + intros x Hx. apply K', C. inversion Hx; subst; cbn in *; [by eapply rt_stack|by apply rt_env_stack|by eapply rt_persistent|by apply rt_persistent_env
      |by apply rt_registry_key|by apply rt_registry_sym].
    + intros x y z Hx Hy. apply K'. eapply (proj2 C); [by apply K|done].
    + split; [split; cbn; reflexivity|]. intros a _. split; [set_solver|]. intros x Hx. apply K'. auto.
  - split; auto. split; auto. split; [apply stack_ext_refl|]. intros a Ha. by destruct (Hr a).
Qed.

(** ** Persistent roots *)
Lemma closed_roots h h' : no_dangling h -> h_slots h' = h_slots h -> (forall x, rooted h' x -> live h x) ->  no_dangling h'.
Proof.
  intros C Es Hr.
  assert (K : forall x o, live_as h' x o <-> live_as h x o) by (intros; unfold live_as, live_with; by rewrite Es).
  assert (K' : forall x, live h' x <-> live h x) by (intros x; split; intros (y & Hy); exists y; by apply K).
  split; [intros x Hx; apply K'; auto|]. intros x y z Hx Hy. apply K'. eapply (proj2 C); [by apply K|done].
Qed.
Lemma live_slots h h' x : h_slots h' = h_slots h -> live h x -> live h' x.
Proof. intros Es (o & hs & s & A). exists o, hs, s. by rewrite Es. Qed.
Lemma safe_add_root X L v : trace_value v ⊆ X ++ L -> safe X L (add_root v) none.
Proof.
  intros Hv h h' r H C HX HL E. destruct (add_root_spec v h H) as (h1 & H1 & G & Hc).
  assert (Hlv : forall x, x ∈ trace_value v -> live h x).
  { intros x Hx. apply Hv in Hx as [Hx|Hx]%elem_of_app; auto. apply C, stack_rooted_rooted; auto. }
  destruct (gstep_closed _ _ _ G C Hlv) as (C1 & L1 & S1).
  destruct Hc as [E1|(h2 & i & E1 & H2 & Es & R & Hi & Hk & Ho)]; rewrite E1 in E; simplify_eq.
  - split; auto. split; auto. split; [auto|done].
  - destruct R as (R1&R2&R3&R4&R5&R6&R7&R8&R9&R10&R11&R12). cbn in *.
    split; auto. split; [|split; [|intros a _; split; set_solver]].
    + apply (closed_roots h1); auto. intros x Hx. inversion Hx as [w y Hw Hy|y Hy|w y Hw Hy|y Hy|e He|e He]; subst.
      * apply C1. eapply rt_stack; eauto. congruence.
      * apply C1. eapply rt_env_stack; eauto. congruence.
      * apply elem_of_list_lookup in Hw as (j & Hj). destruct (decide (j = i)) as [->|N].
        { rewrite Hi in Hj. simplify_eq. apply L1. by apply trace_value_in. }
        { pose proof (Ho j N) as Hg. unfold get_root in Hg. rewrite Hj in Hg.
          apply C1. eapply rt_persistent; eauto. rewrite (gs_proots _ _ _ G).
          destruct (h_proots h !! j) as [[?|]|] eqn:Hq; simplify_eq. eapply elem_of_list_lookup_2; eauto. }
      * apply C1. eapply rt_persistent_env; eauto. congruence.
      * apply C1. eapply rt_registry_key; eauto. congruence.
      * apply C1. eapply rt_registry_sym; eauto. congruence.
    + destruct S1 as [[l1 A1] [l2 A2]]. split; [exists l1|exists l2]; congruence.
Qed.
Lemma safe_with_scope' {A} X L (m : M A) F : safe X L m F ->
  safe X L (with_scope m) (fun a => ([], fst (F a) ++ snd (F a))).
Proof.
  intros Hm h h' r H C HX HL E.
  unfold with_scope in E. destruct (m h) as [h1 r1] eqn:Em. destruct (Hm h h1 r1) as (H1 & C1 & S1 & R1); auto.
  injection E as <- <-.
  assert (E1 : take (length (h_roots h)) (h_roots h1) = h_roots h) by (destruct S1 as [[l1 ->] _]; apply take_app).
  assert (E2 : take (length (h_env_roots h)) (h_env_roots h1) = h_env_roots h) by (destruct S1 as [_ [l1 ->]]; apply take_app).
  set (h' := h1 <| h_roots := _ |> <| h_env_roots := _ |>) in *.
  assert (Hl : forall x, live h1 x <-> live h' x) by done.
  split; [|split; [|split]].
  - pose proof (hk_caps h1 H1) as (?&?&?&?&?&?&?&?&?&?&?). apply heap_ok_set_roots; auto.
    + pose proof (nlen_take (length (h_roots h)) (h_roots h1)). lia.
    + pose proof (nlen_take (length (h_env_roots h)) (h_env_roots h1)). lia.
  - destruct C1 as [CR CO]. split; [|done]. intros x Hx. apply CR. destruct S1 as [[l1 S1] [l2 S2]]. destruct Hx.
    + eapply rt_stack; eauto. cbn in H0. rewrite E1 in H0. rewrite S1. set_solver.
    + apply rt_env_stack. cbn in H0. rewrite E2 in H0. rewrite S2. set_solver.
    + eapply rt_persistent; eauto.
    + apply rt_persistent_env. done.
    + apply rt_registry_key. done.
    + apply rt_registry_sym. done.
  - split; cbn; by rewrite ?E1, ?E2.
  - intros a Ha. destruct (R1 a Ha) as [R2 R3]. split; [set_solver|]. simpl.
    intros x [Hx|Hx]%elem_of_app; change (live h1 x); auto. apply C1, stack_rooted_rooted; auto.
Qed.
Lemma safe_add_env_root X L v : [v] ⊆ X ++ L -> safe X L (add_env_root v) none.
Proof.
  intros Hv. eapply safe_post; [apply (safe_with_scope' _ _ _ none)|inc|inc].
  sbind (fun _ : unit => ([v], [] : list heap_id)); [apply safe_push_env_root; inc|].
  change (safe (X ++ [v]) [] (add_env_root_inner v) none).
  intros h h' r H C HX HL E. destruct (add_env_root_inner_spec v h H) as (h1 & H1 & G & Hc).
  destruct (gstep_closed _ _ _ G C) as (C1 & L1 & S1); [set_solver|].
  assert (Lv : live h1 v) by (apply C1, stack_rooted_rooted; eapply stack_rooted_ext; [exact S1|apply HX; set_solver]).
  destruct Hc as [E1|(h2 & i & E1 & H2 & Es & R & Hi & Hk & Ho)]; rewrite E1 in E; simplify_eq.
  - split; auto. split; auto. split; [auto|done].
  - destruct R as (R1&R2&R3&R4&R5&R6&R7&R8&R9&R10&R11&R12). cbn in *.
    split; auto. split; [|split; [|intros a1 _; split; set_solver]].
    + apply (closed_roots h1); auto. intros x Hx. inversion Hx as [w y Hw Hy|y Hy|w y Hw Hy|y Hy|e He|e He]; subst.
      * apply C1. eapply rt_stack; eauto. congruence.
      * apply C1. eapply rt_env_stack; eauto. congruence.
      * apply C1. eapply rt_persistent; eauto. congruence.
      * apply elem_of_list_lookup in Hy as (j & Hj). destruct (decide (j = i)) as [->|N].
        { rewrite Hi in Hj. by simplify_eq. }
        { pose proof (Ho j N) as Hg. unfold get_env_root in Hg. rewrite Hj in Hg.
          apply C1. eapply rt_persistent_env; eauto. rewrite (gs_peroots _ _ _ G).
          destruct (h_peroots h !! j) as [[?|]|] eqn:Hq; simplify_eq. eapply elem_of_list_lookup_2; eauto. }
      * apply C1. eapply rt_registry_key; eauto. congruence.
      * apply C1. eapply rt_registry_sym; eauto. congruence.
    + destruct S1 as [[l1 A1] [l2 A2]]. split; [exists l1|exists l2]; congruence.
Qed.
Ltac root_frame := intros x Hx; inversion Hx as [w y Hw Hy|y Hy|w y Hw Hy|y Hy|e He|e He]; subst; cbn in *;
  [match goal with C : no_dangling ?h |- _ => apply C; by eapply rt_stack end
  |match goal with C : no_dangling ?h |- _ => apply C; by eapply rt_env_stack end
  |try (match goal with C : no_dangling ?h |- _ => apply C; by eapply rt_persistent end)
  |try (match goal with C : no_dangling ?h |- _ => apply C; by eapply rt_persistent_env end)
  |match goal with C : no_dangling ?h |- _ => apply C; by eapply rt_registry_key end
  |match goal with C : no_dangling ?h |- _ => apply C; by eapply rt_registry_sym end].
Lemma elem_insert {A} (x y : A) (i : nat) (l : list A) : x ∈ <[i:=y]> l -> x = y \/ x ∈ l.
Proof.
  intros Hx. apply elem_of_list_lookup in Hx as (j & Hj). destruct (decide (i = j)) as [->|N].
  - destruct (decide (j < length l)%nat).
    + rewrite list_lookup_insert in Hj by done. simplify_eq. auto.
    + rewrite list_insert_ge in Hj by lia. right. eapply elem_of_list_lookup_2; eauto.
  - rewrite list_lookup_insert_ne in Hj by done. right. eapply elem_of_list_lookup_2; eauto.
Qed.
Lemma safe_set_root X L i v : trace_value v ⊆ X ++ L -> safe X L (set_root i v) (fun _ => gives L).
Proof.
  intros Hv h h' r H C HX HL E. destruct (good_set_root i v h h' r H E) as (H1 & _).
  assert (Hlv : forall x, x ∈ trace_value v -> live h x).
  { intros x Hx. apply Hv in Hx as [Hx|Hx]%elem_of_app; auto. apply C, stack_rooted_rooted; auto. }
  unfold set_root in E. destruct (h_proots h !! i) as [[w0|]|] eqn:Hi; simplify_eq; (split; [done|]); (split; [|split; [split; reflexivity|]]); auto;
    try (intros a _; split; [set_solver|intros x Hx; refine (live_slots _ _ _ _ (HL x Hx)); done]).
  apply (closed_roots h); auto. root_frame. apply elem_insert in Hw as [Hw|Hw].
  - simplify_eq. apply Hlv. by apply trace_value_in.
  - apply C. by eapply rt_persistent.
Qed.
Lemma safe_remove_root X L i : safe X L (remove_root i) (fun _ => gives L).
Proof.
  intros h h' r H C HX HL E. destruct (good_remove_root i h h' r H E) as (H1 & _).
  unfold remove_root in E. destruct (h_proots h !! i) as [[w0|]|] eqn:Hi; simplify_eq; (split; [done|]); (split; [|split; [split; reflexivity|]]); auto;
    try (intros a _; split; [set_solver|intros x Hx; refine (live_slots _ _ _ _ (HL x Hx)); done]).
  apply (closed_roots h); auto. root_frame. apply elem_insert in Hw as [Hw|Hw]; [done|].
  apply C. by eapply rt_persistent.
Qed.
Lemma safe_set_env_root X L i v : [v] ⊆ X ++ L -> safe X L (set_env_root i v) (fun _ => gives L).
Proof.
  intros Hv h h' r H C HX HL E. destruct (good_set_env_root i v h h' r H E) as (H1 & _).
  assert (Hlv : live h v).
  { assert (Hx : v ∈ X ++ L) by (apply Hv; set_solver). apply elem_of_app in Hx as [Hx|Hx]; auto. apply C, stack_rooted_rooted; auto. }
  unfold set_env_root in E. destruct (h_peroots h !! i) as [[w0|]|] eqn:Hi; simplify_eq; (split; [done|]); (split; [|split; [split; reflexivity|]]); auto;
    try (intros a _; split; [set_solver|intros x Hx; refine (live_slots _ _ _ _ (HL x Hx)); done]).
  apply (closed_roots h); auto. root_frame. apply elem_insert in Hy as [Hw|Hw].
  - by simplify_eq.
  - apply C. by eapply rt_persistent_env.
Qed.
Lemma safe_remove_env_root X L i : safe X L (remove_env_root i) (fun _ => gives L).
Proof.
  intros h h' r H C HX HL E. destruct (good_remove_env_root i h h' r H E) as (H1 & _).
  unfold remove_env_root in E. destruct (h_peroots h !! i) as [[w0|]|] eqn:Hi; simplify_eq; (split; [done|]); (split; [|split; [split; reflexivity|]]); auto;
    try (intros a _; split; [set_solver|intros x Hx; refine (live_slots _ _ _ _ (HL x Hx)); done]).
  apply (closed_roots h); auto. root_frame. apply elem_insert in Hy as [Hw|Hw]; [done|].
  apply C. by eapply rt_persistent_env.
Qed.
Lemma safe_collect X L : safe X L collect_garbage none.
Proof.
  intros h h' r H C HX HL E. destruct (collect_ok [] h H) as (h1 & E1 & H1 & G & _). unfold collect_garbage in E. rewrite E1 in E.
  simplify_eq. destruct (gstep_closed _ _ _ G C) as (C1 & L1 & S1); [set_solver|].
  split; auto. split; auto. split; auto. intros a _. split; set_solver.
Qed.

(** ** Internal methods *)
Lemma trace_opt_bool (p : descriptor_patch) : trace_values (patch_values p) =
  trace_opt_value (pp_value p) ++ trace_opt_value (pp_get p) ++ trace_opt_value (pp_set p).
Proof. unfold patch_values. rewrite !trace_values_app. done. Qed.
Lemma trace_fresh_descriptor p : trace_desc (fresh_descriptor p) ⊆ trace_values (patch_values p).
Proof.
  rewrite trace_opt_bool. unfold fresh_descriptor, trace_desc. destruct (patch_is_accessor p); cbn;
    destruct (pp_value p), (pp_get p), (pp_set p); cbn; rewrite ?app_nil_r; inc'.
Qed.
Lemma trace_apply_patch cur p : trace_desc (apply_descriptor_patch cur p) ⊆ trace_desc cur ++ trace_values (patch_values p).
Proof.
  rewrite trace_opt_bool. unfold apply_descriptor_patch, trace_desc. destruct (patch_is_generic p), (pd_kind cur), (patch_is_accessor p); cbn;
    destruct (pp_value p), (pp_get p), (pp_set p); cbn; rewrite ?app_nil_r; inc'.
Qed.

Lemma find_entry_elem h k ps d : find_entry h k ps = Some d -> exists e, e ∈ ps /\ pe_desc e = d.
Proof.
  induction ps as [|x ps IH]; cbn; [done|]. destruct (property_key_eq h (pe_key x) k); [intros [= <-]; exists x; set_solver|].
  intros E. destruct (IH E) as (e & He & Hd). exists e. set_solver.
Qed.
(** Entries of a live object hold live handles. *)
Lemma entry_live h o b e : no_dangling h -> get_object_base h o = Ok b -> e ∈ ob_properties b ->
  forall x, x ∈ trace_entry e -> live h x.
Proof.
  unfold get_object_base. intros C E He x Hx.
  destruct (get_heap_object_cases h o) as [(ob & E1 & Ho)|[E1 _]]; rewrite E1 in E; cbn in E; [|done].
  destruct (base_of ob) as [b'|] eqn:Hb; cbn in E; [|done]. simplify_eq.
  eapply (proj2 C); [exact Ho|]. apply trace_object_in.
  assert (Hin : x ∈ trace_base b).
  { unfold trace_base. apply elem_of_app. right. apply elem_of_list_In, in_flat_map. exists e.
    split; [by apply elem_of_list_In|]. by apply elem_of_list_In. }
  destruct ob; cbn in Hb; simplify_eq; cbn [trace_object]; auto.
  - unfold trace_function. apply elem_of_app. by left.
  - unfold trace_promise. apply elem_of_app. by left.
Qed.
Lemma own_property_live h o k d : no_dangling h -> object_get_own_property h o k = Ok (Some d) ->
  forall x, x ∈ trace_desc d -> live h x.
Proof.
  unfold object_get_own_property. intros C E x Hx. destruct (get_object_base h o) as [b| |] eqn:Hb; cbn in E; try done.
  destruct (find_entry h k (ob_properties b)) as [d'|] eqn:He; cbn in E; [|done]. simplify_eq.
  apply find_entry_elem in He as (e & He & <-). eapply entry_live; eauto. unfold trace_entry. apply elem_of_app. by right.
Qed.
Lemma get_property_live h k d : no_dangling h -> forall fuel visited cur, get_property_walk fuel h k visited cur = Ok (Some d) ->
  forall x, x ∈ trace_desc d -> live h x.
Proof.
  intros C. induction fuel as [|fuel IH]; intros visited [o|] E; cbn in E; try done.
  destruct (bool_decide _); [done|]. destruct (object_get_own_property h o k) as [[d'|]| |] eqn:Ho; cbn in E; try done.
  - simplify_eq. by eapply own_property_live.
  - destruct (object_prototype h o); cbn in E; try done. eauto.
Qed.
Definition trace_opt_desc (d : option property_descriptor) : list heap_id := flat_map trace_desc (opt_list d).
Lemma safe_read_own X L o k : safe X L (mread (fun h => object_get_own_property h o k)) (fun d => gives (trace_opt_desc d ++ L)).
Proof.
  apply safe_mread. intros h [d|] H C E x Hx; unfold trace_opt_desc in Hx; cbn in Hx; [|by apply elem_of_nil in Hx].
  rewrite app_nil_r in Hx. by eapply own_property_live.
Qed.
Lemma safe_read_property X L o k : safe X L (mread (fun h => get_property h o k)) (fun d => gives (trace_opt_desc d ++ L)).
Proof.
  apply safe_mread. intros h [d|] H C E x Hx; unfold trace_opt_desc in Hx; cbn in Hx; [|by apply elem_of_nil in Hx].
  rewrite app_nil_r in Hx. by eapply get_property_live.
Qed.

(** Handles pinned by the operations that root their arguments. *)
Definition pins (o : heap_id) (k : property_key) (vs : list value) : list heap_id := o :: trace_key k ++ trace_values vs.
Lemma trace_pins o k vs : trace_values (VObject o :: key_value k :: vs) = pins o k vs.
Proof.
  change (VObject o :: key_value k :: vs) with ([VObject o] ++ [key_value k] ++ vs). rewrite !trace_values_app.
  unfold pins. cbn. by rewrite app_nil_r, trace_key_value.
Qed.
Lemma safe_push_pins X L o k vs : pins o k vs ⊆ X ++ L ->
  safe X L (push_roots (VObject o :: key_value k :: vs)) (fun _ => (pins o k vs, [])).
Proof. intros Hs. rewrite <- trace_pins in *. by apply safe_push_roots. Qed.
Lemma safe_validate_and_apply X L o k ext p cur :
  pins o k (patch_values p) ++ trace_opt_desc cur ⊆ X ++ L ->
  safe X L (validate_and_apply o k ext p cur) none.
Proof.
  unfold pins. intros Hs. unfold validate_and_apply. sbind (fun _ : unit => gives L); [apply safe_mread0|].
  destruct cur as [cur|].
  - destruct (patch_is_empty p); [apply safe_ret'; inc|].
    sbind (fun _ : bool => gives L); [apply safe_mget|].
    destruct a0; [apply safe_ret'; inc|].
    eapply safe_bind; [apply safe_define_property|intros []; apply safe_ret'; inc].
    pose proof (trace_apply_patch cur p) as P. unfold trace_opt_desc in Hs. cbn [opt_list flat_map] in Hs. inc'.
  - destruct (negb ext); [apply safe_ret'; inc|].
    eapply safe_bind; [apply safe_define_property|intros []; apply safe_ret'; inc].
    pose proof (trace_fresh_descriptor p) as P. inc'.
Qed.
Lemma safe_ordinary_define X L o k p : pins o k (patch_values p) ⊆ X ++ L ->
  safe X L (ordinary_define_own_property o k p) (fun _ => (pins o k (patch_values p), [])).
Proof.
  intros Hs. unfold ordinary_define_own_property.
  sbind (fun _ : unit => gives L); [apply safe_mread0|].
  sbind (fun _ : unit => (pins o k (patch_values p), [] : list heap_id)); [apply safe_push_pins; inc'|].
  sbind (fun d : option property_descriptor => gives (trace_opt_desc d ++ [])); [apply safe_read_own|].
  sbind (fun _ : bool => gives (trace_opt_desc a1 ++ [])); [apply safe_mread0|].
  eapply safe_post; [apply safe_validate_and_apply; inc'|intros b; inc'|intros b; inc'].
Qed.
Lemma safe_ordinary_delete X L o k : pins o k [] ⊆ X ++ L ->
  safe X L (ordinary_delete o k) (fun _ => (pins o k [], [])).
Proof.
  intros Hs. unfold ordinary_delete.
  sbind (fun _ : unit => (pins o k [], [] : list heap_id)); [by apply safe_push_pins|].
  eapply safe_post; [apply safe_heap_ordinary_delete|intros b; inc'|intros b; inc'].
Qed.
Lemma safe_mget_l {A} X L (f : heap -> A) (R : A -> list heap_id) :
  (forall h, no_dangling h -> forall x, x ∈ R (f h) -> live h x) -> safe X L (mget f) (fun a => gives (R a ++ L)).
Proof.
  intros HR h h' r H C HX HL E. unfold mget in E. simplify_eq. split; auto. split; auto. split; [apply stack_ext_refl|].
  intros a Ha. simplify_eq. split; [set_solver|]. cbn. intros x [Hx|Hx]%elem_of_app; eauto.
Qed.
Lemma get_string_live h s u : get_string h s = Ok u -> live h s.
Proof.
  unfold get_string. destruct (get_heap_object_cases h s) as [(o & E & Ho)|[E _]]; rewrite E; cbn; [|done]. intros _. by exists o.
Qed.
Lemma array_index_live h k i : array_index h k = Some i -> forall x, x ∈ trace_key k -> live h x.
Proof.
  unfold array_index, string_to_array_index. destruct k as [s|s]; [|done]. destruct (get_string h s) eqn:E; cbn; [|done..].
  intros _ x ->%elem_of_list_singleton. by eapply get_string_live.
Qed.
Lemma safe_index X L k : safe X L (mget (fun h => array_index h k))
  (fun i => gives ((if i then trace_key k else []) ++ L)).
Proof.
  apply (safe_mget_l X L _ (fun i : option N => if i then trace_key k else [])). intros h C x Hx.
  destruct (array_index h k) eqn:E; [|by apply elem_of_nil in Hx]. by eapply array_index_live.
Qed.
Lemma safe_writable X L o (w : bool) F : (forall a, fst (F a) ⊆ X) -> (forall a, snd (F a) ⊆ X ++ L) ->
  safe X L (if w then mret tt else array_set_length_writable o false) F.
Proof.
  intros H1 H2. destruct w; [by apply safe_ret'|].
  eapply safe_post; [apply safe_array_set_length_writable| |]; intros a; specialize (H1 a); specialize (H2 a); inc'.
Qed.
Lemma safe_array_delete_loop o lk old new w : forall keys X L, pins o lk [] ⊆ X ->
  safe X L (array_delete_loop o lk old new w keys) none.
Proof.
  induction keys as [|k keys IH]; intros X L Hp; cbn [array_delete_loop].
  - sbind (fun _ : unit => gives []); [apply safe_writable; inc'|]. apply safe_ret'; inc.
  - eapply safe_bind; [apply safe_index|]. cbn [fst snd]. rewrite app_nil_r. intros [i|]; [|by apply IH].
    destruct (i <? new).
    + sbind (fun _ : unit => gives []); [apply safe_writable; inc'|]. apply safe_ret'; inc.
    + destruct (old <=? i); [by apply IH|].
      sbind (fun _ : bool => gives []).
      { eapply safe_post; [apply safe_ordinary_delete| |]; [|intros b; inc'|intros b; inc'].
        unfold pins in *. change (trace_values []) with (@nil heap_id) in *. rewrite app_nil_r in *. inc'. }
      rewrite app_nil_r. destruct a; [by apply IH|]. destruct (checked_succ32 i); [|apply safe_fail].
      sbind (fun _ : bool => gives []).
      { eapply safe_post; [apply safe_ordinary_define| |]; [|intros b; inc'|intros b; inc']. unfold pins in *. cbn in *. inc'. }
      destruct (negb a); [apply safe_fail|].
      sbind (fun _ : unit => gives []); [apply safe_writable; inc'|]. apply safe_ret'; inc.
Qed.
Lemma safe_array_set_length X L o lk p : pins o lk (patch_values p) ⊆ X ++ L ->
  safe X L (array_set_length o lk p) (fun _ => gives []).
Proof.
  intros Hs. unfold array_set_length. destruct (pp_value p) as [v|] eqn:Hv.
  2:{ eapply safe_post; [by apply safe_ordinary_define|intros b; inc'|intros b; inc']. }
  destruct (array_length_from_value v) as [nl|] eqn:Hn; [|apply safe_ret'; inc].
  assert (Hp : forall (q : descriptor_patch), pp_get q = pp_get p -> pp_set q = pp_set p ->
     pins o lk (patch_values (q <| pp_value := Some (VNumber (f64_of_N nl)) |>)) ⊆ X ++ L).
  { intros q E1 E2. destruct v; try done. unfold pins, patch_values in *. cbn. rewrite E1, E2, Hv in *. exact Hs. }
  sbind (fun _ : N => gives L); [apply safe_mread0|]. rewrite app_nil_r. destruct (a <=? nl).
  { eapply safe_post; [apply safe_ordinary_define; by apply Hp|intros b; inc'|intros b; inc']. }
  sbind (fun _ : bool => gives L); [apply safe_mread0|]. rewrite app_nil_r. destruct (negb a0); [apply safe_ret'; inc|].
  cbv zeta. set (w := negb _).
  match goal with |- context [ordinary_define_own_property o lk ?q] => set (p' := q) end.
  assert (Hp' : pins o lk (patch_values p') ⊆ X ++ L) by (subst p'; destruct w; by apply Hp).
  sbind (fun _ : bool => (pins o lk (patch_values p'), [] : list heap_id)); [by apply safe_ordinary_define|].
  destruct (negb a1); [apply safe_ret'; inc|].
  sbind (fun _ : list property_key => gives []); [apply safe_mread0|].
  apply safe_array_delete_loop. unfold pins. change (trace_values []) with (@nil heap_id). rewrite app_nil_r. inc'.
Qed.
Lemma safe_array_define X L o k p : pins o k (patch_values p) ⊆ X ++ L ->
  safe X L (array_define_own_property o k p) none.
Proof.
  intros Hs. unfold array_define_own_property.
  sbind (fun _ : unit => gives L); [apply safe_mread0|].
  sbind (fun _ : unit => (pins o k (patch_values p), [] : list heap_id)); [apply safe_push_pins; inc'|].
  sbind (fun _ : bool => gives []); [apply safe_mget|]. destruct a1.
  - sbind (fun lk : property_key => gives (trace_key lk ++ [])).
    { apply (safe_mread _ _ _ trace_key). intros h lk H C E x Hx. unfold array_length_key, array_length_entry in E.
      destruct (get_object_base h o) as [b| |] eqn:Hb; cbn in E; try done. destruct (base_array_length b); cbn in E; try done.
      destruct (ob_properties b) as [|e es] eqn:Hp; cbn in E; try done. destruct (property_key_is_length _ _); cbn in E; try done.
      simplify_eq. eapply (entry_live h o b e); eauto; [rewrite Hp; set_solver|]. unfold trace_entry. apply elem_of_app. by left. }
    apply safe_array_set_length. unfold pins in *. inc'.
  - sbind (fun _ : option N => gives []); [apply safe_mget|].
    destruct a1 as [i|].
    2:{ eapply safe_post; [apply safe_ordinary_define; inc'|intros b; inc'|intros b; inc']. }
    sbind (fun _ : N => gives []); [apply safe_mread0|].
    sbind (fun _ : bool => gives []); [destruct (a1 <=? i); [apply safe_mread0|apply safe_ret'; inc]|].
    destruct (negb a2); [apply safe_ret'; inc|].
    sbind (fun _ : bool => gives []).
    { eapply safe_post; [apply safe_ordinary_define; inc'|intros b; inc'|intros b; inc']. }
    destruct (negb a3); [apply safe_ret'; inc|].
    sbind (fun _ : unit => gives []).
    { destruct (a1 <=? i); [|apply safe_ret'; inc]. destruct (checked_succ32 i); [|apply safe_fail].
      apply safe_heap_array_set_length. }
    apply safe_ret'; inc.
Qed.
Lemma safe_define_own X L o k p : pins o k (patch_values p) ⊆ X ++ L -> safe X L (define_own_property o k p) none.
Proof.
  intros Hs. unfold define_own_property. sbind (fun _ : bool => gives L); [apply safe_mread0|]. rewrite app_nil_r.
  destruct a; [by apply safe_array_define|]. eapply safe_none. by apply safe_ordinary_define.
Qed.
Lemma safe_define_property_or_throw X L o k p : pins o k (patch_values p) ⊆ X ++ L ->
  safe X L (define_property_or_throw o k p) none.
Proof.
  intros Hs. unfold define_property_or_throw. sscopew (fun _ : unit => gives []); [|inc|inc].
  sbind (fun _ : unit => (pins o k (patch_values p), [] : list heap_id)); [by apply safe_push_pins|].
  sbind (fun _ : bool => gives []); [apply safe_define_own; inc'|]. destruct a0; [apply safe_ret'; inc|apply safe_fail].
Qed.
Lemma safe_create_data_property X L o k v : pins o k [v] ⊆ X ++ L -> safe X L (create_data_property o k v) none.
Proof.
  intros Hs. unfold create_data_property. sscopew (fun _ : bool => gives []); [|inc|inc].
  sbind (fun _ : unit => (pins o k [v], [] : list heap_id)); [by apply safe_push_pins|].
  apply safe_define_own. change (patch_values (data_patch v)) with [v]. inc'.
Qed.
Lemma safe_create_data_property_or_throw X L o k v : pins o k [v] ⊆ X ++ L -> safe X L (create_data_property_or_throw o k v) none.
Proof.
  intros Hs. unfold create_data_property_or_throw. sbind (fun _ : bool => gives []); [by apply safe_create_data_property|].
  destruct a; [apply safe_ret'; inc|apply safe_fail].
Qed.
Lemma safe_delete_property_or_throw X L o k : pins o k [] ⊆ X ++ L -> safe X L (delete_property_or_throw o k) none.
Proof.
  intros Hs. unfold delete_property_or_throw. sscopew (fun _ : unit => gives []); [|inc|inc].
  sbind (fun _ : unit => (pins o k [], [] : list heap_id)); [by apply safe_push_pins|].
  sbind (fun _ : bool => gives []).
  { eapply safe_none. apply safe_ordinary_delete. inc'. }
  destruct a0; [apply safe_ret'; inc|apply safe_fail].
Qed.
(** User code called by getters and setters keeps the discipline. *)
Definition safe_call (call : call_fn) : Prop := forall X L c t args,
  trace_values (c :: t :: args) ⊆ X ++ L -> safe X L (call c t args) (fun v => gives (trace_value v)).
Lemma safe_ordinary_get call X L o k receiver : safe_call call -> trace_value receiver ⊆ X ++ L ->
  safe X L (ordinary_get call o k receiver) (fun v => gives (trace_value v)).
Proof.
  intros Hc Hr. unfold ordinary_get.
  sbind (fun d : option property_descriptor => gives (trace_opt_desc d ++ L)); [apply safe_read_property|].
  rewrite app_nil_r. destruct a as [d|]; [|apply safe_ret'; inc]. unfold trace_opt_desc. cbn [opt_list flat_map]. rewrite app_nil_r.
  unfold trace_desc. destruct (pd_kind d) as [v w|g s]; cbn [trace_kind].
  - apply safe_ret'; cbn [fst snd]; [inc|inc'].
  - assert (P : safe X ((trace_value g ++ trace_value s) ++ L)
       (let* c := mread (fun h => is_callable h g) in if negb c then mfail ETypeError else call g receiver []) (fun v => gives (trace_value v))).
    { sbind (fun _ : bool => gives ((trace_value g ++ trace_value s) ++ L)); [apply safe_mread0|].
      destruct (negb a); [apply safe_fail|]. apply Hc. unfold trace_values. cbn [flat_map]. inc'. }
    destruct g; try exact P. apply safe_ret'; inc.
Qed.
Lemma safe_ordinary_set call X L o k v receiver : safe_call call -> pins o k [v; receiver] ⊆ X ++ L ->
  safe X L (ordinary_set call o k v receiver) none.
Proof.
  intros Hc Hs. unfold ordinary_set.
  sbind (fun _ : unit => (pins o k [v; receiver], [] : list heap_id)); [by apply safe_push_pins|].
  sbind (fun d : option property_descriptor => gives (trace_opt_desc d ++ [])); [apply safe_read_property|].
  set (d := default _ _).
  assert (Hd : trace_desc d ⊆ trace_opt_desc a0 ++ []).
  { subst d. unfold trace_opt_desc. destruct a0; cbn; [|inc]. inc. }
  set (T := trace_opt_desc a0 ++ []) in *. clearbody T. clearbody d. unfold trace_desc in Hd.
  destruct (pd_kind d) as [v0 w|g s]; cbn [trace_kind] in Hd.
  - destruct (negb w); [apply safe_ret'; inc|]. destruct receiver; try (apply safe_ret'; inc).
    sbind (fun d : option property_descriptor => gives T); [apply safe_mread0|]. destruct a1 as [ex|].
    + destruct (pd_kind ex); [|apply safe_ret'; inc]. destruct (negb _); [apply safe_ret'; inc|].
      apply safe_define_own. unfold pins, patch_values in *. cbn [pp_value pp_get pp_set patch_default set opt_list app] in *. cbn in *. inc.
    + apply safe_create_data_property. unfold pins in *. cbn in *. inc.
  - assert (P : safe ((X ++ pins o k [v; receiver]) ++ []) T
       (let* c := mread (fun h => is_callable h s) in if negb c then mfail ETypeError else call s receiver [v] ;;; mret true) none).
    { sbind (fun _ : bool => gives T); [apply safe_mread0|].
      destruct (negb a1); [apply safe_fail|]. eapply safe_bind; [apply Hc|intros ?; apply safe_ret'; inc].
      unfold trace_values, pins in *. cbn [flat_map] in *. unfold trace_values. cbn [flat_map]. inc'. }
    destruct s; try exact P. apply safe_ret'; inc.
Qed.
