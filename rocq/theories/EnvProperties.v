(** C14: declarative scopes behave as maps from names to variables, over every history
    of calls on any scopes and objects, with collections at every allocation.
    [scope_state h e] says [e] was returned by [env_create] and any disciplined history
    followed (every handle argument live; fewer than 2^32 collections, see C04). *)
From stdpp Require Import base decidable list numbers sets.
From Coq Require Import NArith ZArith Lia.
From Verif Require Import VmBase HeapModel HeapObjModel HeapSpec HeapInvProofs HeapHistory HeapHistoryProofs HeapApiProofs
  EnvSpec EnvFrameProofs EnvProofs.

Open Scope N_scope.

(** The scope always reads as a list of variables with distinct names, and every
    history keeps all of them: mutability never changes, an initialised variable stays
    initialised, an initialised constant keeps its value, a variable no call writes is
    unchanged, and names appear only by declaration. *)
Theorem scope_is_a_map h e cs :
  scope_state h e -> disciplined_history cs h -> live (run cs h) e -> h_gc_runs (run cs h) < two32 ->
  exists V V', scope_view h e V /\ NoDup (scope_names V) /\ scope_view (run cs h) e V' /\
    scope_kept (fun name => Exists (writes_variable e name) cs) (fun name => Exists (declares_variable e name) cs) V V'.
Proof.
  intros S D L Hr. destruct (scope_state_ready h e S) as [V R]. destruct (ready_run h e V cs R D L Hr) as (V' & R' & K).
  exists V, V'. split; [apply R|]. split; [apply R|]. split; [apply R'|done].
Qed.
Print Assumptions scope_is_a_map.

(** Every read and write is determined by that list. *)
Theorem scope_calls_exact h e V name v :
  scope_state h e -> scope_view h e V ->
  NoDup (scope_names V) /\
  env_has_binding h e name = Ok (bool_decide (name ∈ scope_names V)) /\
  (name ∉ scope_names V ->
     env_get_binding_value h e name = Err EUnimplemented /\
     env_initialize_binding e name v h = (h, Err EUnimplemented) /\
     env_set_mutable_binding e name v h = (h, Err EUnimplemented)) /\
  (forall c, (name, c) ∈ V ->
     env_get_binding_value h e name = (if c_init c then Ok (c_value c) else Err (EThrow VNull)) /\
     (if c_init c then env_initialize_binding e name v h = (h, Err EUnimplemented)
      else exists h', env_initialize_binding e name v h = (h', Ok tt) /\ scope_view h' e (put_cell name (Cell v (c_mutable c) true) V)) /\
     (if c_init c && c_mutable c
      then exists h', env_set_mutable_binding e name v h = (h', Ok tt) /\ scope_view h' e (put_cell name (Cell v true true) V)
      else exists thrown, env_set_mutable_binding e name v h = (h, Err (EThrow thrown)))).
Proof.
  intros S Sv. destruct (scope_state_ready h e S) as [V0 R]. destruct R as [H N Sv0 Hd _].
  assert (V0 = V) as -> by (eapply scope_view_fun; eauto). split; [done|].
  destruct (get_exact h e V name Sv Hd) as (A1 & A2 & A3). destruct (initialize_exact e name v h V H Sv Hd) as [B1 B2].
  destruct (assign_exact e name v h V H Sv Hd) as [C1 C2]. split; [done|]. split; [auto|]. intros c Hc. split; [by apply A1|]. split; [by apply B2|by apply C2].
Qed.
Print Assumptions scope_calls_exact.

(** Declaring a name: refused and without effect if it is there, otherwise one
    uninitialised variable more, or out of memory and no variable more. *)
Theorem scope_declare_exact h e V name m h' r :
  scope_state h e -> scope_view h e V -> env_create_binding e name m h = (h', r) -> h_gc_runs h' < two32 ->
  if decide (name ∈ scope_names V) then h' = h /\ r = Err EUnimplemented
  else (exists V', r = Ok tt /\ scope_view h' e V' /\ V' ≡ₚ (name, Cell VUndefined m false) :: V) \/
       (r = Err EOutOfMemory /\ (live h' e -> scope_view h' e V)).
Proof.
  intros S Sv E Hr. destruct (scope_state_ready h e S) as [V0 [H N _ _ _]].
  exact (create_exact e name m h h' r V H N (view_live _ _ _ Sv) Sv E ltac:(lia)).
Qed.
Print Assumptions scope_declare_exact.

(** A read returns the last value written, whatever happens to other names. *)
Theorem read_after_assign h e name v h1 cs :
  scope_state h e -> disciplined (OpEnvSet e name v) h -> env_set_mutable_binding e name v h = (h1, Ok tt) ->
  disciplined_history cs h1 -> ~ Exists (writes_variable e name) cs -> live (run cs h1) e -> h_gc_runs (run cs h1) < two32 ->
  env_get_binding_value (run cs h1) e name = Ok v.
Proof.
  intros S D E Dc Hw L Hr. destruct (scope_state_ready h e S) as [V R].
  assert (H1 : heap_ok h1) by (destruct R as [H _ _ _ _]; by destruct (good_exec (OpEnvSet e name v) _ _ _ H E)).
  destruct (good_run cs h1 H1) as [_ V2]. pose proof (ev_runs _ _ V2).
  destruct (ready_assign h e V name v h1 R D E ltac:(lia)) as (c & Hin & _ & _ & R1).
  destruct (ready_run h1 e _ cs R1 Dc L Hr) as (V' & R' & _ & K & _).
  destruct (K name _ (put_in name c _ V Hin)) as (c' & Hin' & _ & _ & _ & K4). rewrite (K4 Hw) in Hin'.
  destruct (get_exact _ e V' name (sr_view _ _ _ R') (sr_dup _ _ _ R')) as (A & _). by rewrite (A _ Hin').
Qed.
Print Assumptions read_after_assign.

Theorem read_after_initialize h e name v h1 cs :
  scope_state h e -> disciplined (OpEnvInitialize e name v) h -> env_initialize_binding e name v h = (h1, Ok tt) ->
  disciplined_history cs h1 -> ~ Exists (writes_variable e name) cs -> live (run cs h1) e -> h_gc_runs (run cs h1) < two32 ->
  env_get_binding_value (run cs h1) e name = Ok v.
Proof.
  intros S D E Dc Hw L Hr. destruct (scope_state_ready h e S) as [V R].
  assert (H1 : heap_ok h1) by (destruct R as [H _ _ _ _]; by destruct (good_exec (OpEnvInitialize e name v) _ _ _ H E)).
  destruct (good_run cs h1 H1) as [_ V2]. pose proof (ev_runs _ _ V2).
  destruct (ready_initialize h e V name v h1 R D E ltac:(lia)) as (c & Hin & _ & R1).
  destruct (ready_run h1 e _ cs R1 Dc L Hr) as (V' & R' & _ & K & _).
  destruct (K name _ (put_in name c _ V Hin)) as (c' & Hin' & _ & _ & _ & K4). rewrite (K4 Hw) in Hin'.
  destruct (get_exact _ e V' name (sr_view _ _ _ R') (sr_dup _ _ _ R')) as (A & _). by rewrite (A _ Hin').
Qed.
Print Assumptions read_after_initialize.

(** Initialisation happens at most once, whatever comes between. *)
Theorem initialize_once h e name v h1 cs v' :
  scope_state h e -> disciplined (OpEnvInitialize e name v) h -> env_initialize_binding e name v h = (h1, Ok tt) ->
  disciplined_history cs h1 -> live (run cs h1) e -> h_gc_runs (run cs h1) < two32 ->
  env_initialize_binding e name v' (run cs h1) = (run cs h1, Err EUnimplemented).
Proof.
  intros S D E Dc L Hr. destruct (scope_state_ready h e S) as [V R].
  assert (H1 : heap_ok h1) by (destruct R as [H _ _ _ _]; by destruct (good_exec (OpEnvInitialize e name v) _ _ _ H E)).
  destruct (good_run cs h1 H1) as [_ V2]. pose proof (ev_runs _ _ V2).
  destruct (ready_initialize h e V name v h1 R D E ltac:(lia)) as (c & Hin & _ & R1).
  destruct (ready_run h1 e _ cs R1 Dc L Hr) as (V' & R' & _ & K & _).
  destruct (K name _ (put_in name c _ V Hin)) as (c' & Hin' & _ & K2 & _).
  destruct (initialize_exact e name v' _ V' (sr_ok _ _ _ R') (sr_view _ _ _ R') (sr_dup _ _ _ R')) as [_ B].
  specialize (B c' Hin'). by rewrite (K2 eq_refl) in B.
Qed.
Print Assumptions initialize_once.

(** Between its declaration and the first write, reading a variable throws and so does
    assigning it. *)
Theorem read_before_initialize h e name m h1 cs v :
  scope_state h e -> env_create_binding e name m h = (h1, Ok tt) ->
  disciplined_history cs h1 -> ~ Exists (writes_variable e name) cs -> live (run cs h1) e -> h_gc_runs (run cs h1) < two32 ->
  env_get_binding_value (run cs h1) e name = Err (EThrow VNull) /\
  exists thrown, env_set_mutable_binding e name v (run cs h1) = (run cs h1, Err (EThrow thrown)).
Proof.
  intros S E Dc Hw L Hr. destruct (scope_state_ready h e S) as [V R].
  assert (H1 : heap_ok h1) by (destruct R as [H _ _ _ _]; by destruct (good_exec (OpEnvCreateBinding e name m) _ _ _ H E)).
  destruct (good_run cs h1 H1) as [_ V2]. pose proof (ev_runs _ _ V2).
  destruct (ready_create h e V name m h1 R E ltac:(lia)) as (_ & V1 & R1 & Pm).
  destruct (ready_run h1 e _ cs R1 Dc L Hr) as (V' & R' & _ & K & _).
  destruct (K name (Cell VUndefined m false)) as (c' & Hin' & _ & _ & _ & K4); [rewrite Pm; by left|]. rewrite (K4 Hw) in Hin'.
  destruct (get_exact _ e V' name (sr_view _ _ _ R') (sr_dup _ _ _ R')) as (A & _). split; [by rewrite (A _ Hin')|].
  destruct (assign_exact e name v _ V' (sr_ok _ _ _ R') (sr_view _ _ _ R') (sr_dup _ _ _ R')) as [_ B]. exact (B _ Hin').
Qed.
Print Assumptions read_before_initialize.

(** Assigning a constant throws and changes nothing, whatever comes between. *)
Theorem assign_constant h e name h1 cs v :
  scope_state h e -> env_create_binding e name false h = (h1, Ok tt) ->
  disciplined_history cs h1 -> live (run cs h1) e -> h_gc_runs (run cs h1) < two32 ->
  exists thrown, env_set_mutable_binding e name v (run cs h1) = (run cs h1, Err (EThrow thrown)).
Proof.
  intros S E Dc L Hr. destruct (scope_state_ready h e S) as [V R].
  assert (H1 : heap_ok h1) by (destruct R as [H _ _ _ _]; by destruct (good_exec (OpEnvCreateBinding e name false) _ _ _ H E)).
  destruct (good_run cs h1 H1) as [_ V2]. pose proof (ev_runs _ _ V2).
  destruct (ready_create h e V name false h1 R E ltac:(lia)) as (_ & V1 & R1 & Pm).
  destruct (ready_run h1 e _ cs R1 Dc L Hr) as (V' & R' & _ & K & _).
  destruct (K name (Cell VUndefined false false)) as (c' & Hin' & K1 & _); [rewrite Pm; by left|].
  destruct (assign_exact e name v _ V' (sr_ok _ _ _ R') (sr_view _ _ _ R') (sr_dup _ _ _ R')) as [_ B]. specialize (B _ Hin').
  rewrite K1 in B. cbn [c_mutable] in B. by rewrite andb_false_r in B.
Qed.
Print Assumptions assign_constant.

(** A constant keeps the value it was initialised with through every history. *)
Theorem constant_value h e name h1 cs1 v h2 cs2 :
  scope_state h e -> env_create_binding e name false h = (h1, Ok tt) -> disciplined_history cs1 h1 ->
  disciplined (OpEnvInitialize e name v) (run cs1 h1) -> env_initialize_binding e name v (run cs1 h1) = (h2, Ok tt) ->
  disciplined_history cs2 h2 -> live (run cs2 h2) e -> h_gc_runs (run cs2 h2) < two32 ->
  env_get_binding_value (run cs2 h2) e name = Ok v.
Proof.
  intros S E D1 Di Ei D2 L Hr. destruct (scope_state_ready h e S) as [V R].
  assert (H1 : heap_ok h1) by (destruct R as [H _ _ _ _]; by destruct (good_exec (OpEnvCreateBinding e name false) _ _ _ H E)).
  destruct (good_run cs1 h1 H1) as [Hm U1]. assert (H2 : heap_ok h2) by (by destruct (good_exec (OpEnvInitialize e name v) _ _ _ Hm Ei)).
  assert (U2 : evolves (run cs1 h1) h2) by (by destruct (good_exec (OpEnvInitialize e name v) _ _ _ Hm Ei) as (_ & _ & ?)).
  destruct (good_run cs2 h2 H2) as [_ U3]. pose proof (ev_runs _ _ U1). pose proof (ev_runs _ _ U2). pose proof (ev_runs _ _ U3).
  destruct (ready_create h e V name false h1 R E ltac:(lia)) as (_ & V1 & R1 & Pm).
  assert (Lm : live (run cs1 h1) e) by (apply Di; cbn; by left).
  destruct (ready_run h1 e _ cs1 R1 D1 Lm ltac:(lia)) as (V2 & R2 & _ & K & _).
  destruct (K name (Cell VUndefined false false)) as (c' & Hin' & K1 & _); [rewrite Pm; by left|]. cbn [c_mutable] in K1.
  destruct (ready_initialize _ e V2 name v h2 R2 Di Ei ltac:(lia)) as (c & Hin & _ & R3).
  assert (c = c') as -> by (eapply scope_nodup_fun; [apply (sr_dup _ _ _ R2)|exact Hin|exact Hin']).
  destruct (ready_run h2 e _ cs2 R3 D2 L Hr) as (V4 & R4 & _ & K4 & _).
  destruct (K4 name _ (put_in name c' _ V2 Hin)) as (d & Hd & _ & _ & K5 & _). rewrite (K5 eq_refl K1) in Hd.
  destruct (get_exact _ e V4 name (sr_view _ _ _ R4) (sr_dup _ _ _ R4)) as (A & _). by rewrite (A _ Hd).
Qed.
Print Assumptions constant_value.

(** A declared name cannot be declared again, whatever comes between. *)
Theorem declare_once h e name m h1 cs m' :
  scope_state h e -> env_create_binding e name m h = (h1, Ok tt) ->
  disciplined_history cs h1 -> live (run cs h1) e -> h_gc_runs (run cs h1) < two32 ->
  env_create_binding e name m' (run cs h1) = (run cs h1, Err EUnimplemented).
Proof.
  intros S E Dc L Hr. destruct (scope_state_ready h e S) as [V R].
  assert (H1 : heap_ok h1) by (destruct R as [H _ _ _ _]; by destruct (good_exec (OpEnvCreateBinding e name m) _ _ _ H E)).
  destruct (good_run cs h1 H1) as [_ V2]. pose proof (ev_runs _ _ V2).
  destruct (ready_create h e V name m h1 R E ltac:(lia)) as (_ & V1 & R1 & Pm).
  destruct (ready_run h1 e _ cs R1 Dc L Hr) as (V' & R' & _ & K & _).
  destruct (K name (Cell VUndefined m false)) as (c' & Hin' & _); [rewrite Pm; by left|].
  unfold env_create_binding, mbind, mread. destruct (get_exact _ e V' name (sr_view _ _ _ R') (sr_dup _ _ _ R')) as (_ & _ & ->).
  rewrite bool_decide_true; [done|by eapply name_in].
Qed.
Print Assumptions declare_once.

(** Every record of every reachable heap keeps its bindings sorted by distinct symbols,
    and then the search the code does by [binary_search_by_key] has the answer the
    model computes. *)
Theorem bindings_sorted h e outer bs this nt k :
  reachable_state h -> live_as h e (HEnv (EnvDeclarative outer bs this nt)) ->
  sorted_bindings bs /\ search_contract k bs (search_key eb_symbol k bs).
Proof.
  intros R (hs & s & A & _ & B & _). pose proof (state_sorted h R _ _ _ A B) as F. cbn in F. split; [done|]. by apply search_key_contract.
Qed.
Print Assumptions bindings_sorted.

(** The answer is unique on a sorted slice. *)
Theorem search_unique k bs r1 r2 : sorted_bindings bs -> search_contract k bs r1 -> search_contract k bs r2 -> r1 = r2.
Proof. apply search_contract_unique. Qed.
Print Assumptions search_unique.

(** [alloc_declarative_env_record], given bindings by the caller, checks symbols but not
    names: a record with two bindings for one name is made, the first one is read and
    the second can never be reached by name. *)
Theorem declared_twice_refuted : exists h bs h' e,
  disciplined_state h /\ disciplined (OpEnvAlloc None bs) h /\ alloc_declarative_env_record None bs h = (h', Ok e) /\
  exists outer V this nt, live_as h' e (HEnv (EnvDeclarative outer V this nt)) /\
    exists b1 b2 n, V = [b1; b2] /\ eb_name b1 = Some n /\ eb_name b2 = Some n /\ b1 <> b2 /\ get_string h' n = Ok [120].
Proof.
  exists (run twice_ops sc_h0), twice_bs, (fst (alloc_declarative_env_record None twice_bs (run twice_ops sc_h0))), (HId 1 0).
  split; [exists demo_layout, 1000000, 0, twice_ops; split; [apply demo_limits|]; split; [apply disc_b_ok; vm_compute; reflexivity|reflexivity]|].
  split; [apply (disc_b_ok [OpEnvAlloc None twice_bs]); vm_compute; reflexivity|]. split; [vm_compute; reflexivity|].
  exists None, twice_bs, None, None. split; [apply resolve_live; vm_compute; reflexivity|]. eexists _, _, (HId 0 0).
  split; [reflexivity|]. split; [reflexivity|]. split; [reflexivity|]. split; [discriminate|]. vm_compute. reflexivity.
Qed.
Print Assumptions declared_twice_refuted.

(** The hypotheses are met: a scope with a constant [y], then [x] declared, initialised
    and assigned, later traffic on other names, collections throughout. *)
Example scope_example : exists h2 h3,
  scope_state sc_h sc_e /\ env_create_binding sc_e sc_x true sc_h = (sc_hx, Ok tt) /\ scope_state sc_hx sc_e /\
  env_get_binding_value sc_hx sc_e sc_x = Err (EThrow VNull) /\
  env_initialize_binding sc_e sc_x VNull sc_hx = (h2, Ok tt) /\ disciplined (OpEnvSet sc_e sc_x (VBool true)) h2 /\
  env_set_mutable_binding sc_e sc_x (VBool true) h2 = (h3, Ok tt) /\
  disciplined_history sc_later h3 /\ live (run sc_later h3) sc_e /\ h_gc_runs (run sc_later h3) < two32 /\
  ~ Exists (writes_variable sc_e sc_x) sc_later /\
  env_get_binding_value (run sc_later h3) sc_e sc_x = Ok (VBool true) /\
  env_get_binding_value (run sc_later h3) sc_e sc_y = Ok (VNumber (f64_of_N 7)) /\
  env_get_binding_value (run sc_later h3) sc_e [122] = Ok (VBool true) /\
  length (h_slots (run sc_later h3)) = 5%nat.
Proof.
  eexists _, _. split; [apply sc_state; vm_compute; reflexivity|]. split; [vm_compute; reflexivity|].
  split; [rewrite sc_hx_run; apply sc_state; vm_compute; reflexivity|].
  split; [vm_compute; reflexivity|]. split; [vm_compute; reflexivity|].
  split; [apply (disc_b_ok [OpEnvSet sc_e sc_x (VBool true)]); vm_compute; reflexivity|].
  split; [vm_compute; reflexivity|]. split; [apply disc_b_ok; vm_compute; reflexivity|].
  split; [apply liveb_live; vm_compute; reflexivity|]. split; [vm_compute; reflexivity|].
  split; [unfold sc_later; rewrite !Exists_cons, Exists_nil; cbn; intuition discriminate|].
  split; [vm_compute; reflexivity|]. split; [vm_compute; reflexivity|]. split; vm_compute; reflexivity.
Qed.
