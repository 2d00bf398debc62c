(** Declarative scopes as maps from names to variables. *)
From stdpp Require Import base decidable list numbers sets sorting.
From Coq Require Import NArith ZArith Lia.
From RecordUpdate Require Import RecordUpdate.
From Verif Require Import VmBase HeapModel HeapObjModel HeapSpec HeapGcProofs HeapInvProofs HeapObjProofs
  ObjectOpsModel ObjectOpsProofs HeapTidyProofs HeapSafeProofs HeapHistory HeapHistoryProofs HeapFrameProofs HeapApiProofs
  ObjSpec ObjViewProofs ObjHistoryProofs ProtoProofs ProtoApiProofs EnvSpec EnvFrameProofs.

Open Scope N_scope.

Notation scope := (list (js_string * cell)).

Lemma names_bindings h bs V i b name c : Forall2 (binding_is h) bs V -> bs !! i = Some b -> V !! i = Some (name, c) ->
  exists id, eb_name b = Some id /\ live_as h id (HString name) /\ eb_symbol b = pack_id id /\ c = Cell (eb_value b) (eb_mutable b) (eb_initialized b).
Proof. intros F Hb Hv. exact (Forall2_lookup_lr _ _ _ _ _ _ F Hb Hv). Qed.

(** ** Reading *)
Lemma get_env_live h e r : live_as h e (HEnv r) -> get_env h e = Ok r.
Proof. intros L. unfold get_env. rewrite (proj2 (get_heap_object_Ok h e (HEnv r)) L). done. Qed.
Lemma get_bindings_live h e outer bs this nt : live_as h e (HEnv (EnvDeclarative outer bs this nt)) -> get_declarative_bindings h e = Ok bs.
Proof. intros L. unfold get_declarative_bindings. by rewrite (get_env_live _ _ _ L). Qed.
Lemma string_live h id u : live_as h id (HString u) -> get_string h id = Ok u.
Proof. intros L. unfold get_string. by rewrite (proj2 (get_heap_object_Ok h id (HString u)) L). Qed.
Lemma find_spec h bs V name : Forall2 (binding_is h) bs V ->
  (exists i b c, find_binding_index h bs name = Ok (Some i) /\ bs !! i = Some b /\ V !! i = Some (name, c)) \/
  (find_binding_index h bs name = Ok None /\ name ∉ scope_names V).
Proof.
  induction 1 as [|b [n c] bs V (id & A & B & C & D) F IH]; cbn [find_binding_index].
  - right. split; [done|]. apply not_elem_of_nil.
  - rewrite A. rewrite (string_live _ _ _ B). cbn [rbind]. cbn in B. case_bool_decide as E.
    + left. cbn in E. subst n. exists 0%nat, b, c. done.
    + destruct IH as [(i & b' & c' & -> & I1 & I2)|[-> I]]; cbn [rbind].
      * left. exists (S i), b', c'. done.
      * right. split; [done|]. cbn. intros [->|?]%elem_of_cons; done.
Qed.
Lemma scope_nodup_inj (V : scope) i j name c c' : NoDup (scope_names V) -> V !! i = Some (name, c) -> V !! j = Some (name, c') -> i = j.
Proof. intros D Hi Hj. apply (NoDup_lookup (scope_names V) i j name D); unfold scope_names; rewrite list_lookup_fmap; [by rewrite Hi|by rewrite Hj]. Qed.
Lemma scope_nodup_fun (V : scope) name c c' : NoDup (scope_names V) -> (name, c) ∈ V -> (name, c') ∈ V -> c = c'.
Proof.
  intros D [i Hi]%elem_of_list_lookup [j Hj]%elem_of_list_lookup. pose proof (scope_nodup_inj V i j name c c' D Hi Hj). subst. congruence.
Qed.
Lemma put_insert (V : scope) i name c c' : NoDup (scope_names V) -> V !! i = Some (name, c) -> <[i := (name, c')]> V = put_cell name c' V.
Proof.
  intros D Hi. apply list_eq. intros j. unfold put_cell. rewrite list_lookup_fmap. destruct (decide (i = j)) as [<-|N].
  - rewrite list_lookup_insert by (by eapply lookup_lt_Some). rewrite Hi. cbn. by rewrite decide_True.
  - rewrite list_lookup_insert_ne by done. destruct (V !! j) as [[n d]|] eqn:Hj; [|done]. cbn. rewrite decide_False; [done|].
    intros ->. apply N. eapply scope_nodup_inj; eauto.
Qed.
Lemma put_names name c (V : scope) : scope_names (put_cell name c V) = scope_names V.
Proof. unfold scope_names, put_cell. rewrite map_map. apply map_ext. intros [n d]. cbn. by destruct (decide (n = name)). Qed.
Lemma name_in (V : scope) name c : (name, c) ∈ V -> name ∈ scope_names V.
Proof. intros H. apply elem_of_list_fmap. by exists (name, c). Qed.
Lemma in_name (V : scope) name : name ∈ scope_names V -> exists c, (name, c) ∈ V.
Proof. intros ([n c] & -> & H)%elem_of_list_fmap. eauto. Qed.

Lemma get_exact h e V name : scope_view h e V -> NoDup (scope_names V) ->
  (forall c, (name, c) ∈ V -> env_get_binding_value h e name = if c_init c then Ok (c_value c) else Err (EThrow VNull)) /\
  (name ∉ scope_names V -> env_get_binding_value h e name = Err EUnimplemented) /\
  env_has_binding h e name = Ok (bool_decide (name ∈ scope_names V)).
Proof.
  intros (outer & bs & this & nt & L & F) D. unfold env_get_binding_value, env_has_binding. rewrite (get_bindings_live _ _ _ _ _ _ L). cbn [rbind].
  destruct (find_spec h bs V name F) as [(i & b & c & -> & Hb & Hv)|[-> Hn]]; cbn [rbind].
  - destruct (names_bindings _ _ _ _ _ _ _ F Hb Hv) as (id & _ & _ & _ & ->). rewrite Hb. apply elem_of_list_lookup_2 in Hv. split; [|split].
    + intros c' Hc. rewrite <- (scope_nodup_fun V name _ _ D Hv Hc). cbn. unfold read_binding. by destruct (eb_initialized b).
    + intros Hn. destruct Hn. by eapply name_in.
    + rewrite bool_decide_true; [done|by eapply name_in].
  - split; [intros c Hc; destruct Hn; by eapply name_in|]. split; [done|]. by rewrite bool_decide_false.
Qed.

(** ** Changing one variable *)
Lemma view_ustep h h' e outer bs bs' this nt :
  ustep e (HEnv (EnvDeclarative outer bs this nt)) (HEnv (EnvDeclarative outer bs' this nt)) h h' ->
  (forall b p, binding_is h b p -> binding_is h' b p).
Proof.
  intros U b p (id & A & B & C & D). exists id. split; [done|]. split; [|done]. destruct (decide (id = e)) as [->|N].
  - pose proof (live_fun _ _ _ _ B (us_live _ _ _ _ _ U)). done.
  - by apply (ustep_others _ _ _ _ _ _ U N).
Qed.
Lemma update_live e f h outer bs this nt : heap_ok h -> live_as h e (HEnv (EnvDeclarative outer bs this nt)) ->
  (forall bs bs', f bs = Ok bs' -> length bs' = length bs) -> (forall bs, np (f bs)) ->
  match f bs with
  | Ok bs' => exists h', update_bindings e f h = (h', Ok tt) /\
      ustep e (HEnv (EnvDeclarative outer bs this nt)) (HEnv (EnvDeclarative outer bs' this nt)) h h'
  | Err er => update_bindings e f h = (h, Err er)
  | Panic => False
  end.
Proof.
  intros H L Hf Hn. unfold update_bindings.
  match goal with |- context [update_object e ?g h] => destruct (update_object_spec e g h H) as [(er & E1 & Q)|(x & x' & h1 & Hl & Hx & E1 & U)] end.
  - intros x x'. destruct x as [| | | |[]|]; try done. destruct (f bindings) eqn:Ef; simpl; [|done|done].
    intros [= <-]. split; [done|]. simpl. unfold nlen. by rewrite (Hf _ _ Ef).
  - intros x. destruct x as [| | | |[]|]; auto with np.
  - destruct Q as [[_ Q]|(o & Lo & Q)]; [destruct Q; by eexists|]. pose proof (live_fun _ _ _ _ L Lo). subst o. cbn in Q. rewrite E1.
    destruct (f bs); cbn in Q; congruence.
  - pose proof (live_fun _ _ _ _ L Hl). subst x. cbn in Hx. destruct (f bs) as [bs'| |]; cbn in Hx; try done. injection Hx as <-. eauto.
Qed.
Lemma change_exact (act : env_binding -> value -> res env_binding) (m : heap_id -> js_string -> value -> M unit) e name v h V :
  (m = fun e name v => let* bs := mread (fun h => get_declarative_bindings h e) in
     let* r := mread (fun h => find_binding_index h bs name) in
     match r with None => mfail EUnimplemented | Some i => update_bindings e (update_binding_at i (fun b => act b v)) end) ->
  (forall b v, np (act b v)) ->
  (forall b v b', act b v = Ok b' -> eb_name b' = eb_name b /\ eb_symbol b' = eb_symbol b) ->
  heap_ok h -> scope_view h e V -> NoDup (scope_names V) ->
  (name ∉ scope_names V -> m e name v h = (h, Err EUnimplemented)) /\
  (forall c, (name, c) ∈ V -> exists b, c = Cell (eb_value b) (eb_mutable b) (eb_initialized b) /\
     match act b v with
     | Ok b' => exists h', m e name v h = (h', Ok tt) /\ scope_view h' e (put_cell name (Cell (eb_value b') (eb_mutable b') (eb_initialized b')) V)
     | Err er => m e name v h = (h, Err er)
     | Panic => False
     end).
Proof.
  intros -> Hn Hk H (outer & bs & this & nt & L & F) D. unfold mbind, mread. rewrite (get_bindings_live _ _ _ _ _ _ L).
  destruct (find_spec h bs V name F) as [(i & b & c & -> & Hb & Hv)|[-> Hnn]].
  - pose proof (elem_of_list_lookup_2 _ _ _ Hv) as Hin. destruct (names_bindings _ _ _ _ _ _ _ F Hb Hv) as (id & N1 & N2 & N3 & Hc).
    split; [intros Hx; destruct Hx; by eapply name_in|]. intros c' Hc'. assert (c' = c) as -> by (symmetry; by eapply scope_nodup_fun).
    exists b. split; [done|].
    pose proof (update_live e (update_binding_at i (fun b => act b v)) h outer bs this nt H L) as Q.
    specialize (Q ltac:(intros; by eapply update_binding_at_length) ltac:(intros; by apply np_update_at)).
    unfold update_binding_at at 1 in Q. rewrite Hb in Q. destruct (act b v) as [b'|er|] eqn:Ea; cbn [rbind] in Q; [|done|done].
    destruct Q as (h' & E & U). exists h'. split; [done|]. exists outer, (<[i := b']> bs), this, nt. split; [apply (us_live' _ _ _ _ _ U)|].
    rewrite <- (put_insert V i name c) by done. apply Forall2_insert.
    + eapply Forall2_impl; [exact F|]. intros x p. by eapply view_ustep.
    + destruct (Hk _ _ _ Ea) as [K1 K2]. exists id. cbn. rewrite K1, K2. split; [done|]. split; [|done].
      destruct (decide (id = e)) as [->|Ne]; [by pose proof (live_fun _ _ _ _ N2 L)|]. by apply (ustep_others _ _ _ _ _ _ U Ne).
  - split; [done|]. intros c Hc. destruct Hnn. by eapply name_in.
Qed.
Lemma initialize_keeps b v b' : initialize_binding b v = Ok b' -> eb_name b' = eb_name b /\ eb_symbol b' = eb_symbol b.
Proof. unfold initialize_binding. destruct (eb_initialized b); [done|]. by intros [= <-]. Qed.
Lemma assign_keeps b v b' : assign_binding b v = Ok b' -> eb_name b' = eb_name b /\ eb_symbol b' = eb_symbol b.
Proof. unfold assign_binding. destruct (negb _); [done|]. destruct (negb _); [done|]. by intros [= <-]. Qed.
Lemma initialize_exact e name v h V : heap_ok h -> scope_view h e V -> NoDup (scope_names V) ->
  (name ∉ scope_names V -> env_initialize_binding e name v h = (h, Err EUnimplemented)) /\
  (forall c, (name, c) ∈ V ->
     if c_init c then env_initialize_binding e name v h = (h, Err EUnimplemented)
     else exists h', env_initialize_binding e name v h = (h', Ok tt) /\ scope_view h' e (put_cell name (Cell v (c_mutable c) true) V)).
Proof.
  intros H S D. destruct (change_exact initialize_binding env_initialize_binding e name v h V eq_refl) as [A B]; auto.
  - intros. apply np_initialize.
  - intros b w b'. apply initialize_keeps.
  - split; [done|]. intros c Hc. destruct (B c Hc) as (b & -> & Q). cbn. unfold initialize_binding in Q.
    destruct (eb_initialized b); [done|]. exact Q.
Qed.
Lemma assign_exact e name v h V : heap_ok h -> scope_view h e V -> NoDup (scope_names V) ->
  (name ∉ scope_names V -> env_set_mutable_binding e name v h = (h, Err EUnimplemented)) /\
  (forall c, (name, c) ∈ V ->
     if c_init c && c_mutable c then
       exists h', env_set_mutable_binding e name v h = (h', Ok tt) /\ scope_view h' e (put_cell name (Cell v true true) V)
     else exists thrown, env_set_mutable_binding e name v h = (h, Err (EThrow thrown))).
Proof.
  intros H S D. destruct (change_exact assign_binding env_set_mutable_binding e name v h V eq_refl) as [A B]; auto.
  - intros. apply np_assign.
  - intros b w b'. apply assign_keeps.
  - split; [done|]. intros c Hc. destruct (B c Hc) as (b & -> & Q). cbn. unfold assign_binding in Q.
    destruct (eb_initialized b) eqn:Hi; cbn in *; [|eauto]. destruct (eb_mutable b) eqn:Hm; cbn in *; [|eauto].
    rewrite ?Hm, ?Hi in Q. exact Q.
Qed.

(** ** Frame *)
Lemma env_kept P h h' e r : heap_ok h -> evolves h h' -> h_gc_runs h' < h_gc_runs h + two32 -> envs P h h' -> ~ P e ->
  live_as h e (HEnv r) -> live h' e -> live_as h' e (HEnv r).
Proof.
  intros H V Hr K Hp L [x' (hs' & s' & B1 & B2 & B3 & B4)]. pose proof L as (hs & s & A1 & A2 & A3 & _).
  destruct (en_slots _ _ _ K _ _ _ B1 B3) as [(s1 & x & C1 & C2 & C3 & C4)|[C _]].
  - assert (s1 = s) by congruence. subst s1. assert (x = HEnv r) by congruence. subst x. destruct C4 as [C4|[C4 _]].
    + destruct x'; cbn in C4; try done. injection C4 as ->. by exists hs', s'.
    + destruct Hp. rewrite <- C2, A2 in C4. by destruct e.
  - rewrite B2 in C. assert (HId (hid_index e) (hid_gen e) = e) as Ee by (by destruct e). rewrite Ee in C.
    destruct (newer_not_live _ _ _ H V C); [|done|by eexists]. exists x', hs', s'. auto.
Qed.
Lemma bindings_frame h h' e outer bs this nt V : heap_ok h -> evolves h h' -> h_gc_runs h' < h_gc_runs h + two32 -> no_dangling h' ->
  live_as h' e (HEnv (EnvDeclarative outer bs this nt)) -> Forall2 (binding_is h) bs V -> Forall2 (binding_is h') bs V.
Proof.
  intros H Ev Hr N L F. apply Forall2_same_length_lookup_2; [by eapply Forall2_length|]. intros i b [n c] Hb Hc.
  destruct (names_bindings _ _ _ _ _ _ _ F Hb Hc) as (id & A & B & C & D). exists id. split; [done|]. split; [|done].
  assert (live h' id) as [x Hx].
  { apply (proj2 N e _ id L). constructor. eapply eh_name; eauto. by eapply elem_of_list_lookup_2. }
  pose proof (evolves_same _ _ _ _ _ H Ev Hr B Hx) as K. destruct x as [| | | |[]|]; cbn in K; try done. by subst.
Qed.
(** The scope [e] with its record made explicit. *)
Definition scope_at (h : heap) (e : heap_id) (outer : option heap_id) (bs : list env_binding) (this nt : option value) (V : scope) : Prop :=
  live_as h e (HEnv (EnvDeclarative outer bs this nt)) /\ Forall2 (binding_is h) bs V.
Lemma scope_frame P h h' e outer bs this nt V : heap_ok h -> evolves h h' -> h_gc_runs h' < h_gc_runs h + two32 -> no_dangling h' ->
  envs P h h' -> ~ P e -> scope_at h e outer bs this nt V -> live h' e -> scope_at h' e outer bs this nt V.
Proof.
  intros H Ev Hr N K Hp [L F] L'. pose proof (env_kept P h h' e _ H Ev Hr K Hp L L') as L1. split; [done|]. by eapply bindings_frame.
Qed.
Lemma scope_adv {A} X Lv (m : M A) F h h' r e outer bs this nt V : safe X Lv m F -> ev (fun _ => False) m -> heap_ok h -> no_dangling h ->
  (forall x, x ∈ X -> stack_rooted h x) -> (forall x, x ∈ Lv -> live h x) -> m h = (h', r) -> h_gc_runs h' < h_gc_runs h + two32 ->
  scope_at h e outer bs this nt V -> evolves h h' ->
  heap_ok h' /\ no_dangling h' /\ stack_ext h h' /\ (live h' e -> scope_at h' e outer bs this nt V) /\
  forall a, r = Ok a -> (forall x, x ∈ fst (F a) -> stack_rooted h' x) /\ (forall x, x ∈ snd (F a) -> live h' x).
Proof.
  intros S K H N HX HL E Hr Hs Ev. destruct (S _ _ _ H N HX HL E) as (H1 & N1 & S1 & P). destruct (K _ _ _ H E) as [_ En].
  split; [done|]. split; [done|]. split; [done|]. split; [|done]. intros Le. exact (scope_frame (fun _ => False) h h' e outer bs this nt V H Ev Hr N1 En ltac:(tauto) Hs Le).
Qed.
Lemma oom_push_env e h h' er : heap_ok h -> push_env_root e h = (h', Err er) -> er = EOutOfMemory.
Proof. intros H E. destruct (push_env_root_spec e h H) as (h1 & _ & _ & [E1|(c & E1 & _)]); rewrite E1 in E; congruence. Qed.
Lemma oom_push_root v h h' er : heap_ok h -> push_root v h = (h', Err er) -> er = EOutOfMemory.
Proof. intros H E. destruct (push_roots_spec [v] [] h H) as (h1 & _ & _ & [E1|(c & E1 & _)]); unfold push_root, push_roots in E; rewrite E1 in E; congruence. Qed.
Lemma oom_alloc_string u h h' er : heap_ok h -> alloc_string u h = (h', Err er) -> er = EOutOfMemory.
Proof.
  intros H E. unfold alloc_string in E. cbv zeta in E. 
  repeat match type of E with mbind (mget _) _ _ = _ => unfold mbind at 1 in E; unfold mget at 1 in E end. cbv beta zeta in E.
  unfold mbind at 1 in E.
  match type of E with context [ensure_can_allocate ?n h] => destruct (ensure_spec (fun _ => n) [] h H) as (h1 & H1 & G & _ & [[E1 _]|[E1 _]]) end;
    unfold ensure_can_allocate in E; rewrite E1 in E; [congruence|].
  match type of E with alloc_unchecked ?o ?n h1 = _ => destruct (alloc_unchecked_spec o n h1 H1) as (h2 & _ & _ & [E2|(h3 & id & E2 & _)]) end; try congruence.
  rewrite (gs_layout _ _ _ G). apply string_bytes_ok.
Qed.

Lemma pack_arith i g : i < two32 -> N.lor i (N.shiftl g 32) = i + g * two32.
Proof.
  intros Hi. rewrite N.shiftl_mul_pow2. change (2 ^ 32) with two32. rewrite <- N.lxor_lor; [rewrite <- N.add_nocarry_lxor; [done|]|].
  all: apply N.bits_inj; intros n; rewrite N.land_spec, N.bits_0; destruct (N.lt_ge_cases n 32) as [Hn|Hn];
    [change two32 with (2^32); rewrite N.mul_pow2_bits_low by done; by rewrite andb_false_r|];
    replace (N.testbit i n) with false; [done|]; symmetry; rewrite <- (N.mod_small i two32) by done; change two32 with (2^32); by apply N.mod_pow2_bits_high.
Qed.
Lemma pack_inj a b : N.of_nat (hid_index a) < two32 -> N.of_nat (hid_index b) < two32 -> pack_id a = pack_id b -> a = b.
Proof.
  intros Ha Hb E. unfold pack_id in E. rewrite !pack_arith in E by done. destruct a as [i g], b as [j k]; cbn in *.
  assert (N.of_nat i = N.of_nat j /\ g = k) as [A ->].
  { change two32 with 4294967296 in *. nia. }
  f_equal. lia.
Qed.
Lemma live_index h id : heap_ok h -> live h id -> N.of_nat (hid_index id) < two32.
Proof. intros H (x & hs & s & A & _). apply lookup_lt_Some in A. pose proof (hk_slot_index h H). lia. Qed.
Lemma search_absent k bs : (forall b, b ∈ bs -> eb_symbol b <> k) -> exists i, search_key eb_symbol k bs = inr i.
Proof.
  induction bs as [|b bs IH]; intros Hn; cbn; [eauto|]. destruct (N.eqb_spec (eb_symbol b) k) as [E|_]; [by destruct (Hn b ltac:(left))|].
  destruct (k <? eb_symbol b); [eauto|]. destruct IH as [i ->]; [intros c Hc; apply Hn; by right|]. eauto.
Qed.

(** ** Declaring *)
Lemma env_has_live h e outer bs this nt name V : scope_at h e outer bs this nt V -> env_has_binding h e name = Ok (bool_decide (name ∈ scope_names V)).
Proof.
  intros [L F]. unfold env_has_binding. rewrite (get_bindings_live _ _ _ _ _ _ L). cbn [rbind].
  destruct (find_spec h bs V name F) as [(i & b & c & -> & Hb & Hv)|[-> Hn]]; cbn [rbind].
  - rewrite bool_decide_true; [done|]. eapply name_in. by eapply elem_of_list_lookup_2.
  - by rewrite bool_decide_false.
Qed.
Lemma insert_at_perm {A} i (x : A) l : insert_at i x l ≡ₚ x :: l.
Proof. unfold insert_at. rewrite <- (take_drop i l) at 3. by rewrite Permutation_middle. Qed.
Lemma add_live e b h outer bs this nt i : heap_ok h -> no_dangling h -> stack_rooted h e ->
  live_as h e (HEnv (EnvDeclarative outer bs this nt)) -> search_key eb_symbol (eb_symbol b) bs = inr i ->
  exists h1, heap_ok h1 /\ no_dangling h1 /\ gstep [] h h1 /\ stack_ext h h1 /\ live h1 e /\
    (env_add_binding e b h = (h1, Err EOutOfMemory) \/
     exists h2, env_add_binding e b h = (h2, Ok tt) /\
       ustep e (HEnv (EnvDeclarative outer bs this nt)) (HEnv (EnvDeclarative outer (insert_at i b bs) this nt)) h1 h2).
Proof.
  intros H N Sk L Hsr. unfold env_add_binding. pose proof L as (hs & s & Hs & Hg & Ho & _).
  assert (Hv : validate h e = Some (hid_index e)) by (apply validate_Some; split; [done|by eexists]).
  rewrite Hv, Hs, Ho. unfold update_bindings. fold (add_binding_fn b).
  pose proof (search_key_bound eb_symbol (eb_symbol b) bs) as Hi. rewrite Hsr in Hi.
  destruct (ensure_grow_spec e (add_binding_fn b) (env_bytes (h_layout h) (nlen bs + 1)) h s
      (HEnv (EnvDeclarative outer bs this nt)) (HEnv (EnvDeclarative outer (insert_at i b bs) this nt)))
      as (h1 & H1 & G & Q); auto.
  - unfold add_binding_fn. by rewrite Hsr.
  - done.
  - right. rewrite env_bytes_ok. simpl. unfold nlen. rewrite insert_at_length by lia. f_equal. f_equal. lia.
  - destruct (gstep_closed _ _ _ G N ltac:(intros x Hx; by apply elem_of_nil in Hx)) as (N1 & _ & S1).
    assert (L1 : live h1 e) by (apply N1, stack_rooted_rooted; by eapply stack_rooted_ext).
    exists h1. do 5 (split; [done|]). destruct Q as [(er & E & [->|[-> D]])|(h2 & U & E)]; [by left|done|]. right. exists h2. auto.
Qed.
Lemma live_caps h h' id x : h_slots h' = h_slots h -> live_as h id x -> live_as h' id x.
Proof. intros E (hs & s & A). exists hs, s. by rewrite E. Qed.

Lemma create_exact e name m h h' r V : heap_ok h -> no_dangling h -> live h e -> scope_view h e V ->
  env_create_binding e name m h = (h', r) -> h_gc_runs h' < h_gc_runs h + two32 ->
  if decide (name ∈ scope_names V) then h' = h /\ r = Err EUnimplemented
  else (exists V', r = Ok tt /\ scope_view h' e V' /\ V' ≡ₚ (name, Cell VUndefined m false) :: V) \/
       (r = Err EOutOfMemory /\ (live h' e -> scope_view h' e V)).
Proof.
  intros H N Le (outer & bs & this & nt & S0) E Hr. change (scope_at h e outer bs this nt V) in S0.
  unfold env_create_binding in E. unfold mbind at 1 in E. unfold mread at 1 in E. rewrite (env_has_live _ _ _ _ _ _ name _ S0) in E.
  destruct (decide (name ∈ scope_names V)) as [Hin|Hout].
  { rewrite bool_decide_true in E by done. unfold mfail in E. by injection E as <- <-. }
  rewrite bool_decide_false in E by done. unfold with_scope in E.
  match type of E with (match ?mm h with _ => _ end) = _ => destruct (mm h) as [h6 r6] eqn:Eb end. injection E as <- <-.
  change (h_gc_runs h6 < h_gc_runs h + two32) in Hr.
  assert (Q : (exists outer' bs' this' nt' V', r6 = Ok tt /\ scope_at h6 e outer' bs' this' nt' V' /\ V' ≡ₚ (name, Cell VUndefined m false) :: V) \/
              (r6 = Err EOutOfMemory /\ (live h6 e -> scope_at h6 e outer bs this nt V))).
  2: { assert (C : forall o b t n W hx, h_slots hx = h_slots h6 -> scope_at h6 e o b t n W -> scope_view hx e W).
       { intros o b t n W hx Ex [A B]. exists o, b, t, n. split; [by apply (live_caps h6)|]. eapply Forall2_impl; [exact B|].
         intros bb p (id & P1 & P2 & P3). exists id. split; [done|]. split; [by apply (live_caps h6)|done]. }
       destruct Q as [(o & b & t & n & W & -> & A & B)|(-> & A)].
       - left. exists W. split; [done|]. split; [|done]. eapply C; [|exact A]. done.
       - right. split; [done|]. intros [x Lx]. eapply C; [|apply A; exists x; by eapply live_caps]. done. }
  (* root the scope *)
  unfold mbind at 1 in Eb. destruct (push_env_root e h) as [h1 r1] eqn:E1.
  destruct (good_push_env_root _ _ _ _ H E1) as (_ & NP1 & V1). pose proof (ev_runs _ _ V1) as U1.
  assert (Gr : forall hx (mm : M unit), heap_ok hx -> good mm -> mm hx = (h6, r6) -> h_gc_runs hx <= h_gc_runs h6).
  { intros hx mm Hx Gm Em. apply ev_runs. by destruct (Gm _ _ _ Hx Em) as (_ & _ & ?). }
  assert (H1 : heap_ok h1) by (by destruct (good_push_env_root _ _ _ _ H E1)).
  assert (W1 : h_gc_runs h1 <= h_gc_runs h6).
  { destruct r1 as [[]| |]; [|by injection Eb as <- <-..]. eapply Gr; [done| |exact Eb]. do 2 (apply good_bind; [auto with good|]; intros ?). auto with good. }
  destruct (scope_adv [] [e] _ _ h h1 r1 e outer bs this nt V (safe_push_env_root [] [e] e ltac:(set_solver)) (ev_push_env_root _ _) H N
    ltac:(intros x Hx; by apply elem_of_nil in Hx) ltac:(intros x ->%elem_of_list_singleton; done) E1 ltac:(lia) S0 V1) as (_ & N1 & _ & S1 & P1).
  destruct r1 as [[]|er|]; [|injection Eb as <- <-; right; split; [f_equal; exact (oom_push_env _ _ _ _ H E1)|done]|done].
  destruct (P1 tt eq_refl) as [Sk1 _]. specialize (Sk1 e ltac:(cbn; set_solver)). clear P1.
  specialize (S1 ltac:(by apply N1, stack_rooted_rooted)).
  (* allocate the name *)
  unfold mbind at 1 in Eb. destruct (alloc_string name h1) as [h2 r2] eqn:E2.
  destruct (good_alloc_string _ _ _ _ H1 E2) as (H2 & NP2 & V2). pose proof (ev_runs _ _ V2) as U2.
  assert (W2 : h_gc_runs h2 <= h_gc_runs h6).
  { destruct r2 as [y| |]; [|by injection Eb as <- <-..]. eapply Gr; [done| |exact Eb]. do 1 (apply good_bind; [auto with good|]; intros ?). auto with good. }
  destruct (scope_adv [e] [] _ _ h1 h2 r2 e outer bs this nt V (safe_alloc_string [e] [] name) (ev_alloc_string _ _) H1 N1
    ltac:(intros x ->%elem_of_list_singleton; done) ltac:(intros x Hx; by apply elem_of_nil in Hx) E2 ltac:(lia) S1 V2) as (_ & N2 & X2 & S2 & P2).
  destruct r2 as [y|er|]; [|injection Eb as <- <-; right; split; [f_equal; exact (oom_alloc_string _ _ _ _ H1 E2)|done]|done].
  destruct (P2 y eq_refl) as [_ Ly]. specialize (Ly y ltac:(cbn; set_solver)). clear P2.
  assert (Sk2 : stack_rooted h2 e) by (by eapply stack_rooted_ext). specialize (S2 ltac:(by apply N2, stack_rooted_rooted)).
  destruct (allocates_makes (OpAllocString name) _ eq_refl h1 h2 y H1 E2 Ly ltac:(lia)) as (ob & Hob & Pob). cbn in Pob. subst ob.
  pose proof (newer_not_live _ _ _ H1 V2 (allocates_newer (OpAllocString name) _ h1 h2 y eq_refl H1 E2) Ly ltac:(lia)) as Fresh.
  (* root it *)
  unfold mbind at 1 in Eb. destruct (push_root (VString y) h2) as [h3 r3] eqn:E3.
  destruct (good_push_root _ _ _ _ H2 E3) as (H3 & NP3 & V3). pose proof (ev_runs _ _ V3) as U3.
  assert (W3 : h_gc_runs h3 <= h_gc_runs h6).
  { destruct r3 as [[]| |]; [|by injection Eb as <- <-..]. eapply Gr; [done| |exact Eb]. auto with good. }
  destruct (scope_adv [e] [y] _ _ h2 h3 r3 e outer bs this nt V (safe_push_root [e] [y] (VString y) ltac:(cbn; set_solver)) (ev_push_root _ _) H2 N2
    ltac:(intros x ->%elem_of_list_singleton; done) ltac:(intros x ->%elem_of_list_singleton; done) E3 ltac:(lia) S2 V3) as (_ & N3 & X3 & S3 & P3).
  destruct r3 as [[]|er|]; [|injection Eb as <- <-; right; split; [f_equal; exact (oom_push_root _ _ _ _ H2 E3)|done]|done].
  destruct (P3 tt eq_refl) as [Sy _]. specialize (Sy y ltac:(cbn; set_solver)). clear P3.
  assert (Sk3 : stack_rooted h3 e) by (by eapply stack_rooted_ext). specialize (S3 ltac:(by apply N3, stack_rooted_rooted)).
  destruct S3 as [L3 F3]. destruct S2 as [L2 F2]. destruct S1 as [L1 F1].
  (* the name's handle is new, so no binding has its symbol *)
  set (b := EBinding (pack_id y) (Some y) VUndefined m false false) in *.
  destruct (search_absent (eb_symbol b) bs) as [i Hsr].
  { intros b' Hb' Eq. apply elem_of_list_lookup in Hb' as [j Hj]. destruct (Forall2_lookup_l _ _ _ _ _ F1 Hj) as ([n c] & Hp & id & A & B & C & D).
    cbn [b eb_symbol] in Eq. rewrite C in Eq. apply pack_inj in Eq.
    - subst id. apply Fresh. by eexists.
    - by eapply (live_index h1); [done|eexists].
    - by eapply (live_index h2). }
  destruct (add_live e b h3 outer bs this nt i H3 N3 Sk3 L3 Hsr) as (h4 & H4 & N4 & G4 & X4 & L4 & Q4).
  pose proof (gstep_evolves _ _ _ H3 G4) as V4. pose proof (ev_runs _ _ V4) as U4.
  assert (W4 : h_gc_runs h4 <= h_gc_runs h6).
  { destruct Q4 as [E4|(h5 & E4 & U)]; rewrite E4 in Eb; injection Eb as <- <-; [done|]. apply ev_runs. by eapply ustep_evolves. }
  pose proof (scope_frame (fun _ => False) h3 h4 e outer bs this nt V H3 V4 ltac:(lia) N4 (envs_gstep _ _ _ _ H3 G4) ltac:(tauto) (conj L3 F3) L4) as [L4' F4].
  destruct Q4 as [E4|(h5 & E4 & U)]; rewrite E4 in Eb; injection Eb as <- <-; [by right|]. left.
  assert (Hy4 : live_as h4 y (HString name)).
  { assert (V24 : evolves h2 h4) by exact (evolves_trans _ _ _ V3 V4).
    assert (live h4 y) as [x Hx] by (apply N4, stack_rooted_rooted; by eapply stack_rooted_ext).
    pose proof (evolves_same h2 h4 y _ _ H2 V24 ltac:(lia) Hob Hx) as K. destruct x as [| | | |[]|]; cbn in K; try done. by subst. }
  exists outer, (insert_at i b bs), this, nt, (insert_at i (name, Cell VUndefined m false) V). split; [done|]. split; [|by apply insert_at_perm].
  split; [apply (us_live' _ _ _ _ _ U)|].
  assert (Bk : forall bb p, binding_is h4 bb p -> binding_is h5 bb p) by (by eapply view_ustep).
  unfold insert_at. apply Forall2_app; [|constructor].
  - apply Forall2_take. by eapply Forall2_impl.
  - apply Bk. exists y. done.
  - apply Forall2_drop. by eapply Forall2_impl.
Qed.

(** ** Histories *)
Lemma cell_kept_refl (T : Prop) c : cell_kept T c c.
Proof. repeat split; auto. Qed.
Lemma cell_kept_trans (S T U : Prop) a b c : (~ U -> ~ S /\ ~ T) -> cell_kept S a b -> cell_kept T b c -> cell_kept U a c.
Proof.
  intros HU (A1 & A2 & A3 & A4) (B1 & B2 & B3 & B4). repeat split.
  - congruence.
  - auto.
  - intros Hi Hm. rewrite B3; [auto|auto|congruence].
  - intros Hu. destruct (HU Hu). rewrite B4; auto.
Qed.
Lemma scope_kept_refl W D V : NoDup (scope_names V) -> scope_kept W D V V.
Proof. intros Hd. split; [done|]. split; [|by left]. intros n c Hc. exists c. split; [done|apply cell_kept_refl]. Qed.
Lemma scope_kept_trans (W1 W2 W D1 D2 D : js_string -> Prop) V1 V2 V3 : (forall n, ~ W n -> ~ W1 n /\ ~ W2 n) -> (forall n, D1 n \/ D2 n -> D n) ->
  scope_kept W1 D1 V1 V2 -> scope_kept W2 D2 V2 V3 -> scope_kept W D V1 V3.
Proof.
  intros HW HD (A1 & A2 & A3) (B1 & B2 & B3). split; [done|]. split.
  - intros n c Hc. destruct (A2 n c Hc) as (c1 & Hc1 & K1). destruct (B2 n c1 Hc1) as (c2 & Hc2 & K2). exists c2. split; [done|].
    eapply cell_kept_trans; [apply HW|exact K1|exact K2].
  - intros n Hn. destruct (B3 n Hn) as [Hn1|]; [|auto]. destruct (A3 n Hn1); auto.
Qed.
Lemma scope_kept_put (W D : js_string -> Prop) V name c c' : NoDup (scope_names V) -> (name, c) ∈ V -> cell_kept True c c' -> W name ->
  scope_kept W D V (put_cell name c' V).
Proof.
  intros Hd Hin (K1 & K2 & K3 & _) Hw. split; [by rewrite put_names|]. split; [|intros n; rewrite put_names; by left].
  intros n d Hn. destruct (decide (n = name)) as [->|Ne].
  - assert (d = c) as -> by (by eapply scope_nodup_fun). exists c'. split; [|repeat split; auto; by intros []].
    unfold put_cell. apply elem_of_list_fmap. exists (name, c). cbn. by rewrite decide_True.
  - exists d. split; [|apply cell_kept_refl]. unfold put_cell. apply elem_of_list_fmap. exists (n, d). cbn. by rewrite decide_False.
Qed.
Definition action (act : env_binding -> value -> res env_binding) : Prop :=
  (forall b v, np (act b v)) /\
  forall b v b', act b v = Ok b' -> eb_name b' = eb_name b /\ eb_symbol b' = eb_symbol b /\
    cell_kept True (Cell (eb_value b) (eb_mutable b) (eb_initialized b)) (Cell (eb_value b') (eb_mutable b') (eb_initialized b')).
Lemma action_initialize : action initialize_binding.
Proof.
  split; [intros; apply np_initialize|]. intros b v b' E. split; [by eapply initialize_keeps|]. split; [by eapply initialize_keeps|].
  unfold initialize_binding in E. destruct (eb_initialized b) eqn:Hi; [done|]. injection E as <-. repeat split; cbn; auto; try done; by intros [].
Qed.
Lemma action_assign : action assign_binding.
Proof.
  split; [intros; apply np_assign|]. intros b v b' E. split; [by eapply assign_keeps|]. split; [by eapply assign_keeps|].
  unfold assign_binding in E. destruct (eb_initialized b) eqn:Hi; [|done]. destruct (eb_mutable b) eqn:Hm; [|done]. injection E as <-.
  repeat split; cbn; rewrite ?Hi, ?Hm; auto; try done; by intros [].
Qed.
Definition scope_stepped (h' : heap) (e : heap_id) (W D : js_string -> Prop) (V : scope) : Prop :=
  exists V', scope_view h' e V' /\ scope_kept W D V V'.
Lemma symbol_index_Some bs sym i : symbol_binding_index bs sym = Some i -> exists b, bs !! i = Some b /\ eb_symbol b = sym.
Proof.
  unfold symbol_binding_index. destruct (search_key eb_symbol sym bs) as [j|j] eqn:E; [|done]. intros [= <-]. revert j E.
  induction bs as [|b bs IH]; intros j; cbn; [done|]. destruct (N.eqb_spec (eb_symbol b) sym) as [Hb|_].
  - intros [= <-]. exists b. done.
  - destruct (sym <? eb_symbol b); [done|]. destruct (search_key eb_symbol sym bs) as [k|k]; [|done]. intros [= <-]. by apply IH.
Qed.
Lemma symbol_step act e sym v h V (W D : js_string -> Prop) : action act -> (forall n, W n) -> heap_ok h -> scope_view h e V -> NoDup (scope_names V) ->
  scope_stepped (fst (update_bindings e (fun bs => match symbol_binding_index bs sym with None => Err EUnimplemented
    | Some i => update_binding_at i (fun b => act b v) bs end) h)) e W D V.
Proof.
  intros [An Ak] HW H Sv Hd. pose proof Sv as (outer & bs & this & nt & L & F).
  pose proof (update_live e (fun bs => match symbol_binding_index bs sym with None => Err EUnimplemented
    | Some i => update_binding_at i (fun b => act b v) bs end) h outer bs this nt H L) as Q.
  match type of Q with ?P1 -> ?P2 -> _ => assert (X1 : P1); [|assert (X2 : P2); [|specialize (Q X1 X2)]] end.
  { intros cs cs'. destruct (symbol_binding_index cs sym); [|done]. intros. by eapply update_binding_at_length. }
  { intros cs. destruct (symbol_binding_index cs sym); [|done]. by apply np_update_at. }
  clear X1 X2. cbv beta in Q. destruct (symbol_binding_index bs sym) as [i|] eqn:Hi.
  2: { rewrite Q. exists V. split; [done|]. by apply scope_kept_refl. }
  apply symbol_index_Some in Hi as (b & Hb & _). unfold update_binding_at at 1 in Q. rewrite Hb in Q.
  destruct (act b v) as [b'|er|] eqn:Ea; cbn [rbind] in Q; [|rewrite Q; exists V; split; [done|by apply scope_kept_refl]|done].
  destruct Q as (h' & E & U). rewrite E. cbn [fst]. destruct (Forall2_lookup_l _ _ _ _ _ F Hb) as ([n c] & Hv & Hbi).
  destruct (Ak _ _ _ Ea) as (K1 & K2 & K3). pose proof Hbi as (id & B1 & B2 & B3 & B4). cbn in B4. subst c.
  exists (put_cell n (Cell (eb_value b') (eb_mutable b') (eb_initialized b')) V). split.
  - exists outer, (<[i := b']> bs), this, nt. split; [apply (us_live' _ _ _ _ _ U)|]. erewrite <- put_insert by done. apply Forall2_insert.
    + eapply Forall2_impl; [exact F|]. intros x p. by eapply view_ustep.
    + exists id. cbn. rewrite K1, K2. split; [done|]. split; [|done].
      destruct (decide (id = e)) as [->|Ne]; [by pose proof (live_fun _ _ _ _ B2 L)|]. by apply (ustep_others _ _ _ _ _ _ U Ne).
  - eapply scope_kept_put; [done|by eapply elem_of_list_lookup_2|done|done].
Qed.
Lemma scope_step c h e V : (forall body, c <> OpScope body) -> heap_ok h -> no_dangling h -> disciplined c h ->
  h_gc_runs (fst (exec c h)) < h_gc_runs h + two32 -> scope_view h e V -> NoDup (scope_names V) -> live (fst (exec c h)) e ->
  scope_stepped (fst (exec c h)) e (fun n => writes_variable e n c) (fun n => declares_variable e n c) V.
Proof.
  intros Hns H N D Hr Sv Hd Le. destruct (safe_exec c h H N D) as [N1 _]. destruct (exec_evolves c h H) as [H1 V1].
  destruct (decide (e ∈ env_writes c)) as [Hin|Hout].
  2: { destruct (exec c h) as [h1 r] eqn:E. cbn [fst] in *. destruct (ev_exec c Hns h h1 r H E) as [_ K].
       destruct Sv as (outer & bs & this & nt & S0).
       pose proof (scope_frame _ h h1 e outer bs this nt V H V1 Hr N1 K Hout S0 Le) as S1. exists V. split; [by exists outer, bs, this, nt|by apply scope_kept_refl]. }
  destruct c; cbn [env_writes] in Hin; try (by apply elem_of_nil in Hin); apply elem_of_list_singleton in Hin; subst;
    cbn [exec writes_variable declares_variable] in *.
  - match goal with |- context [env_create_binding ?e ?n ?m h] => destruct (env_create_binding e n m h) as [h1 r] eqn:E;
      pose proof (create_exact e n m h h1 r V H N (disciplined_live _ h Hns D N e ltac:(cbn; set_solver)) Sv E Hr) as Q end.
    cbn [fst] in *. destruct (decide _) as [Hn|Hn]; [destruct Q as [-> ->]; exists V; split; [done|by apply scope_kept_refl]|].
    destruct Q as [(V' & -> & Sv' & Pm)|[-> Q]]; [|exists V; split; [auto|by apply scope_kept_refl]]. exists V'. split; [done|]. split.
    + unfold scope_names in *. rewrite Pm. cbn. by constructor.
    + split.
      * intros n c Hc. exists c. split; [rewrite Pm; by right|apply cell_kept_refl].
      * intros n. unfold scope_names. rewrite Pm. cbn. intros [->|?]%elem_of_cons; [by right|by left].
  - match goal with |- context [env_initialize_binding ?e ?n ?m h] => destruct (initialize_exact e n m h V H Sv Hd) as [Q1 Q2] end.
    destruct (decide (name ∈ scope_names V)) as [Hn|Hn]; [|rewrite Q1 by done; exists V; split; [done|by apply scope_kept_refl]].
    apply in_name in Hn as [c Hc]. specialize (Q2 c Hc). destruct (c_init c) eqn:Hi; [rewrite Q2; exists V; split; [done|by apply scope_kept_refl]|].
    destruct Q2 as (h1 & E & Sv'). rewrite E. eexists. split; [exact Sv'|]. eapply scope_kept_put; [done|exact Hc| |done].
    repeat split; cbn; auto; try congruence; by intros [].
  - match goal with |- context [env_set_mutable_binding ?e ?n ?m h] => destruct (assign_exact e n m h V H Sv Hd) as [Q1 Q2] end.
    destruct (decide (name ∈ scope_names V)) as [Hn|Hn]; [|rewrite Q1 by done; exists V; split; [done|by apply scope_kept_refl]].
    apply in_name in Hn as [c Hc]. specialize (Q2 c Hc). destruct (c_init c && c_mutable c) eqn:Hi;
      [|destruct Q2 as [t Q2]; rewrite Q2; exists V; split; [done|by apply scope_kept_refl]].
    apply andb_true_iff in Hi as [Hi Hm].
    destruct Q2 as (h1 & E & Sv'). rewrite E. eexists. split; [exact Sv'|]. eapply scope_kept_put; [done|exact Hc| |done].
    repeat split; cbn; auto; try congruence; by intros [].
  - apply (symbol_step initialize_binding); auto using action_initialize.
  - apply (symbol_step assign_binding); auto using action_assign.
Qed.

Lemma writes_scope e n body : writes_variable e n (OpScope body) <-> Exists (writes_variable e n) body.
Proof.
  cbn. induction body as [|c cs IH]; [by rewrite Exists_nil|]. rewrite Exists_cons. rewrite <- IH. done.
Qed.
Lemma declares_scope e n body : declares_variable e n (OpScope body) <-> Exists (declares_variable e n) body.
Proof.
  cbn. induction body as [|c cs IH]; [by rewrite Exists_nil|]. rewrite Exists_cons. rewrite <- IH. done.
Qed.
Definition scope_step_ok (e : heap_id) (c : op) : Prop := forall h V, heap_ok h -> no_dangling h -> disciplined c h ->
  h_gc_runs (fst (exec c h)) < h_gc_runs h + two32 -> scope_view h e V -> NoDup (scope_names V) -> live (fst (exec c h)) e ->
  scope_stepped (fst (exec c h)) e (fun n => writes_variable e n c) (fun n => declares_variable e n c) V.
Lemma view_live h e V : scope_view h e V -> live h e.
Proof. intros (o & bs & t & n & L & _). by eexists. Qed.
Lemma scope_run e cs : Forall (scope_step_ok e) cs -> forall h V, heap_ok h -> no_dangling h -> disciplined_history cs h ->
  h_gc_runs (run cs h) < h_gc_runs h + two32 -> scope_view h e V -> NoDup (scope_names V) -> live (run cs h) e ->
  scope_stepped (run cs h) e (fun n => Exists (writes_variable e n) cs) (fun n => Exists (declares_variable e n) cs) V.
Proof.
  induction 1 as [|c cs Hc _ IH]; intros h V H N D Hr Sv Hd L.
  { exists V. split; [done|by apply scope_kept_refl]. }
  cbn [run disciplined_history] in *. destruct D as [D1 D2].
  destruct (exec_evolves c h H) as [H1 V1]. destruct (good_run cs _ H1) as [H2 V2]. destruct (safe_exec c h H N D1) as [N1 _].
  pose proof (ev_runs _ _ V1) as U1. pose proof (ev_runs _ _ V2) as U2.
  assert (L1 : live (fst (exec c h)) e).
  { eapply (evolves_between h _ (run cs (fst (exec c h)))); eauto. by eapply view_live. }
  destruct (Hc h V H N D1 ltac:(lia) Sv Hd L1) as (V' & Sv' & K1).
  destruct (IH _ V' H1 N1 D2 ltac:(lia) Sv' (proj1 K1) L) as (V'' & Sv'' & K2). exists V''. split; [done|].
  eapply scope_kept_trans; [| |exact K1|exact K2].
  - intros n Hn. rewrite Exists_cons in Hn. tauto.
  - intros n Hn. apply Exists_cons. done.
Qed.
Lemma scope_all_steps e c : scope_step_ok e c.
Proof.
  induction c as [body IH|c Hns] using op_ind'; intros h V H N D Hr Sv Hd L.
  - rewrite disciplined_scope in D. rewrite exec_scope_state in *. set (h' := _ <| h_env_roots := _ |>) in *.
    assert (Es : h_slots h' = h_slots (run body h)) by done.
    assert (L' : live (run body h) e) by (destruct L as [x Lx]; exists x; by apply (live_caps h')).
    destruct (scope_run e body IH h V H N D Hr Sv Hd L') as (V' & (o & bs & t & n & A & B) & K). exists V'. split.
    + exists o, bs, t, n. split; [by apply (live_caps (run body h))|]. eapply Forall2_impl; [exact B|].
      intros bb p (id & P1 & P2 & P3). exists id. split; [done|]. split; [by apply (live_caps (run body h))|done].
    + eapply scope_kept_trans; [| |exact K|apply (scope_kept_refl (fun _ => False) (fun _ => False)), K].
      * intros m Hm. rewrite writes_scope in Hm. tauto.
      * intros m [Hm|[]]. by apply declares_scope.
  - by apply scope_step.
Qed.
Lemma scope_history e cs h V : heap_ok h -> no_dangling h -> disciplined_history cs h ->
  h_gc_runs (run cs h) < h_gc_runs h + two32 -> scope_view h e V -> NoDup (scope_names V) -> live (run cs h) e ->
  scope_stepped (run cs h) e (fun n => Exists (writes_variable e n) cs) (fun n => Exists (declares_variable e n) cs) V.
Proof. apply scope_run. apply Forall_forall. intros c _. apply scope_all_steps. Qed.

(** ** Scopes from [env_create] *)
Lemma create_view h0 outer h1 e : heap_ok h0 -> no_dangling h0 -> (forall o, outer = Some o -> live h0 o) -> env_create outer h0 = (h1, Ok e) ->
  h_gc_runs h1 < two32 -> scope_view h1 e [].
Proof.
  intros H N Ho E Hr. pose proof (allocates_safe (OpEnvCreate outer) _ h0 h1 e eq_refl H N) as Q.
  assert (Le : live h1 e). { apply Q; [|done]. intros x Hx. apply Ho. destruct outer; cbn in Hx; set_solver. }
  destruct (allocates_makes (OpEnvCreate outer) _ eq_refl h0 h1 e H E Le ltac:(lia)) as (ob & Hob & Pob). cbn in Pob. subst ob.
  exists outer, [], None, None. split; [done|constructor].
Qed.
Record scope_ready (h : heap) (e : heap_id) (V : scope) : Prop := {
  sr_ok : heap_ok h; sr_nd : no_dangling h; sr_view : scope_view h e V; sr_dup : NoDup (scope_names V); sr_runs : h_gc_runs h < two32 }.
Lemma scope_state_ready h e : scope_state h e -> exists V, scope_ready h e V.
Proof.
  intros (h0 & outer & h1 & cs & D0 & Ho & E & D & -> & L & Hr).
  assert (H0 : heap_ok h0) by (by apply reachable_state_ok, disciplined_reachable).
  pose proof (disciplined_no_dangling _ D0) as N0.
  assert (D1 : disciplined_state h1).
  { assert (h1 = run [OpEnvCreate outer] h0) as -> by (cbn; by rewrite void_fst, E).
    apply disciplined_state_run; [done|]. cbn. split; [|done]. intros x Hx. apply Ho. destruct outer; cbn in Hx; set_solver. }
  assert (H1 : heap_ok h1) by (by apply reachable_state_ok, disciplined_reachable).
  pose proof (disciplined_no_dangling _ D1) as N1. destruct (good_run cs h1 H1) as [H2 V2]. pose proof (ev_runs _ _ V2).
  pose proof (create_view _ _ _ _ H0 N0 Ho E ltac:(lia)) as Sv.
  destruct (scope_history e cs h1 [] H1 N1 D ltac:(lia) Sv ltac:(constructor) L) as (V & A & B & _). exists V.
  constructor; auto. by apply disciplined_no_dangling, disciplined_state_run.
Qed.
Lemma ready_run h e V cs : scope_ready h e V -> disciplined_history cs h -> live (run cs h) e -> h_gc_runs (run cs h) < two32 ->
  exists V', scope_ready (run cs h) e V' /\ scope_kept (fun n => Exists (writes_variable e n) cs) (fun n => Exists (declares_variable e n) cs) V V'.
Proof.
  intros [H N Sv Hd Hr0] D L Hr. destruct (scope_history e cs h V H N D ltac:(lia) Sv Hd L) as (V' & A & B). exists V'. split; [|done].
  constructor; auto; [by destruct (good_run cs h H)|by apply safe_run|apply B].
Qed.
Lemma put_in name c c' (V : scope) : (name, c) ∈ V -> (name, c') ∈ put_cell name c' V.
Proof. intros Hin. unfold put_cell. apply elem_of_list_fmap. exists (name, c). cbn. by rewrite decide_True. Qed.
Lemma ready_initialize h e V name v h1 : scope_ready h e V -> disciplined (OpEnvInitialize e name v) h -> env_initialize_binding e name v h = (h1, Ok tt) -> h_gc_runs h1 < two32 ->
  exists c, (name, c) ∈ V /\ c_init c = false /\ scope_ready h1 e (put_cell name (Cell v (c_mutable c) true) V).
Proof.
  intros [H N Sv Hd Hr0] D E Hr. destruct (initialize_exact e name v h V H Sv Hd) as [A B].
  destruct (decide (name ∈ scope_names V)) as [Hn|Hn]; [|rewrite A in E by done; congruence].
  apply in_name in Hn as [c Hc]. specialize (B c Hc). exists c. destruct (c_init c) eqn:Hi; [congruence|].
  destruct B as (h2 & E2 & Sv2). rewrite E2 in E. injection E as ->. split; [done|]. split; [done|].
  pose proof (exec_evolves (OpEnvInitialize e name v) h H) as [H1 _]. destruct (safe_exec (OpEnvInitialize e name v) h H N D) as [N1 _].
  cbn [exec] in H1, N1. rewrite E2 in H1, N1. constructor; auto. by rewrite put_names.
Qed.
Lemma ready_assign h e V name v h1 : scope_ready h e V -> disciplined (OpEnvSet e name v) h -> env_set_mutable_binding e name v h = (h1, Ok tt) -> h_gc_runs h1 < two32 ->
  exists c, (name, c) ∈ V /\ c_init c = true /\ c_mutable c = true /\ scope_ready h1 e (put_cell name (Cell v true true) V).
Proof.
  intros [H N Sv Hd Hr0] D E Hr. destruct (assign_exact e name v h V H Sv Hd) as [A B].
  destruct (decide (name ∈ scope_names V)) as [Hn|Hn]; [|rewrite A in E by done; congruence].
  apply in_name in Hn as [c Hc]. specialize (B c Hc). exists c. destruct (c_init c && c_mutable c) eqn:Hi; [|destruct B as [t B]; congruence].
  apply andb_true_iff in Hi as [Hi Hm].
  destruct B as (h2 & E2 & Sv2). rewrite E2 in E. injection E as ->. split; [done|]. split; [done|]. split; [done|].
  pose proof (exec_evolves (OpEnvSet e name v) h H) as [H1 _]. destruct (safe_exec (OpEnvSet e name v) h H N D) as [N1 _].
  cbn [exec] in H1, N1. rewrite E2 in H1, N1. constructor; auto. by rewrite put_names.
Qed.
Lemma ready_create h e V name m h1 : scope_ready h e V -> env_create_binding e name m h = (h1, Ok tt) -> h_gc_runs h1 < two32 ->
  name ∉ scope_names V /\ exists V', scope_ready h1 e V' /\ V' ≡ₚ (name, Cell VUndefined m false) :: V.
Proof.
  intros [H N Sv Hd Hr0] E Hr. pose proof (create_exact e name m h h1 (Ok tt) V H N (view_live _ _ _ Sv) Sv E ltac:(lia)) as Q.
  destruct (decide _) as [|Hn]; [by destruct Q|]. split; [done|]. destruct Q as [(V' & _ & Sv' & Pm)|[? _]]; [|done]. exists V'. split; [|done].
  pose proof (exec_evolves (OpEnvCreateBinding e name m) h H) as [H1 _].
  destruct (safe_exec (OpEnvCreateBinding e name m) h H N) as [N1 _]; [cbn; intros x ->%elem_of_list_singleton; by eapply view_live|].
  cbn [exec] in H1, N1. rewrite E in H1, N1. constructor; auto. unfold scope_names in *. rewrite Pm. cbn. by constructor.
Qed.

(** ** Examples: collection before every allocation *)
Definition sc_h0 : heap := heap_new demo_layout 1000000 0.
Definition sc_h1 : heap := fst (env_create None sc_h0).
Definition sc_e : heap_id := HId 0 0.
Definition sc_x : js_string := [120].
Definition sc_y : js_string := [121].
(** [sc_e] rooted, with the constant [y] initialised and [x] declared between two other names. *)
Definition sc_ops : list op :=
  [OpPushEnvRoot sc_e; OpEnvCreateBinding sc_e sc_y false; OpEnvInitialize sc_e sc_y (VNumber (f64_of_N 7)); OpCollect;
   OpEnvCreateBinding sc_e [97] true].
Definition sc_h : heap := run sc_ops sc_h1.
Definition sc_hx : heap := fst (env_create_binding sc_e sc_x true sc_h).
(** Later traffic on other names. *)
Definition sc_later : list op :=
  [OpEnvCreateBinding sc_e [122] true; OpEnvInitialize sc_e [122] VNull; OpCollect; OpEnvSet sc_e sc_y VNull; OpEnvSet sc_e [122] (VBool true)].
Lemma sc_start : disciplined_state sc_h0.
Proof. exists demo_layout, 1000000, 0, []. split; [apply demo_limits|done]. Qed.
Lemma sc_state cs : disc_b cs sc_h1 = true -> liveb (run cs sc_h1) sc_e = true -> h_gc_runs (run cs sc_h1) < two32 -> scope_state (run cs sc_h1) sc_e.
Proof.
  intros D L Hr. exists sc_h0, None, sc_h1, cs. split; [apply sc_start|]. split; [done|]. split; [vm_compute; reflexivity|].
  split; [by apply disc_b_ok|]. split; [done|]. split; [by apply liveb_live|done].
Qed.
Lemma sc_hx_run : sc_hx = run (sc_ops ++ [OpEnvCreateBinding sc_e sc_x true]) sc_h1.
Proof. vm_compute. reflexivity. Qed.
(** A record made with two bindings for one name. *)
Definition twice_ops : list op := [OpAllocString [120]; OpPushRoots [VString (HId 0 0)]].
Definition twice_bs : list env_binding :=
  [EBinding 0 (Some (HId 0 0)) VNull true true false; EBinding 1 (Some (HId 0 0)) VUndefined true true false].
Lemma scope_view_fun h e V V' : scope_view h e V -> scope_view h e V' -> V = V'.
Proof.
  intros (o & bs & t & n & L & F) (o' & bs' & t' & n' & L' & F'). pose proof (live_fun _ _ _ _ L L') as E. injection E as <- <- <- <-. clear L L'.
  revert V' F'. induction F as [|b [x c] bs V (id & A1 & A2 & A3 & A4) F IH]; intros V' F'; inversion F' as [|? [y d] ? ? (id' & B1 & B2 & B3 & B4) G]; subst; [done|].
  cbn in *. rewrite A1 in B1. injection B1 as <-. pose proof (live_fun _ _ _ _ A2 B2) as E. injection E as ->. subst. f_equal. auto.
Qed.
Lemma search_contract_unique k bs r1 r2 : sorted_bindings bs -> search_contract k bs r1 -> search_contract k bs r2 -> r1 = r2.
Proof.
  intros S. assert (Inj : forall i j b c, bs !! i = Some b -> bs !! j = Some c -> eb_symbol b = eb_symbol c -> i = j).
  { induction S as [|x l S IH F]; intros i j b c Hi Hj E; [by rewrite lookup_nil in Hi|]. rewrite Forall_forall in F.
    destruct i as [|i], j as [|j]; cbn in *; [done| | |f_equal; eauto].
    - injection Hi as ->. apply elem_of_list_lookup_2 in Hj. specialize (F _ Hj). lia.
    - injection Hj as ->. apply elem_of_list_lookup_2 in Hi. specialize (F _ Hi). lia. }
  assert (Cross : forall i j, search_contract k bs (inl i) -> search_contract k bs (inr j) -> False).
  { intros i j (b & Hb & Ek) (_ & A & B). destruct (decide (i < j)%nat) as [Hl|Hl]; [specialize (A i b Hb Hl)|specialize (B i b Hb ltac:(lia))]; lia. }
  destruct r1 as [i|i], r2 as [j|j]; intros A B; [|by destruct (Cross i j)|by destruct (Cross j i)|].
  - destruct A as (b & Hb & Eb), B as (c & Hc & Ec). f_equal. eapply Inj; eauto. congruence.
  - destruct A as (A0 & A1 & A2), B as (B0 & B1 & B2). f_equal. destruct (decide (i < j)%nat) as [Hl|Hl].
    + destruct (lookup_lt_is_Some_2 bs i ltac:(lia)) as [b Hb]. specialize (A2 i b Hb ltac:(lia)). specialize (B1 i b Hb Hl). lia.
    + destruct (decide (j < i)%nat) as [Hl'|]; [|lia]. destruct (lookup_lt_is_Some_2 bs j ltac:(lia)) as [b Hb].
      specialize (B2 j b Hb ltac:(lia)). specialize (A1 j b Hb Hl'). lia.
Qed.
