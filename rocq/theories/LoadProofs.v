(** Proofs about module loading. *)
From stdpp Require Import base decidable list numbers sets relations.
From Coq Require Import NArith Lia.
From Verif Require Import RustStr RustStrProofs ModuleModel ModuleSpec ModuleProofs LoadModel LoadSpec.

(** ** Settling *)
Definition end_load (s : lstate) (k : nat) (o : outcome) : lstate := settle (stop_loading s k) k o.
Lemma end_load_eq s k o l : ls_loads s !! k = Some l -> ld_rooted l = true ->
  end_load s k o = LState (ls_graph s) (<[k := Load (ld_root l) false (ld_pending l) (ld_visited l) false]> (ls_loads s)) (ls_tokens s) (ls_stack s) (ls_control s) (ls_log s ++ [(k, o)]).
Proof.
  intros E R. pose proof (lookup_lt_Some _ _ _ E). unfold end_load, settle, stop_loading. rewrite E. cbn [put_load ls_loads].
  rewrite list_lookup_insert by done. cbn. rewrite R. cbn. unfold put_log, put_load. cbn. by rewrite list_insert_insert.
Qed.

Definition ctl_load (c : control) : option nat := match c with CInner k _ | CLoop k _ _ => Some k | _ => None end.
Definition frame_load (f : frame) : option nat := match f with FLoop k _ _ => Some k | FHost => None end.

Record inv1 (s : lstate) : Prop := {
  i_loads : forall k l, ls_loads s !! k = Some l -> ld_rooted l = ld_loading l /\
    (if ld_rooted l then settlements s k = [] else exists o, settlements s k = [o]);
  i_fresh : forall k, length (ls_loads s) <= k -> settlements s k = [];
  i_ctl : forall k, ctl_load (ls_control s) = Some k -> is_loading s k = true;
  i_stack : forall f k, f ∈ ls_stack s -> frame_load f = Some k -> k < length (ls_loads s);
  i_base : ls_stack s = [] \/ exists st, ls_stack s = st ++ [FHost];
  i_run : ls_control s <> CHost -> ls_stack s <> [];
}.
Lemma settlements_snoc s s' k j o : ls_log s' = ls_log s ++ [(k, o)] -> settlements s' j = settlements s j ++ (if bool_decide (k = j) then [o] else []).
Proof. intros E. unfold settlements. rewrite E, omap_app. f_equal. cbn. by case_bool_decide. Qed.
Lemma settlements_same s s' j : ls_log s' = ls_log s -> settlements s' j = settlements s j.
Proof. intros E. unfold settlements. by rewrite E. Qed.
Lemma is_loading_Some s k : is_loading s k = true -> exists l, ls_loads s !! k = Some l /\ ld_loading l = true.
Proof. unfold is_loading. destruct (ls_loads s !! k) as [l|]; [eauto|done]. Qed.

(** Changes that leave the loads, the log and the rest of the stack discipline alone. *)
Lemma inv1_goto s s' : inv1 s -> ls_loads s' = ls_loads s -> ls_log s' = ls_log s ->
  (forall k, ctl_load (ls_control s') = Some k -> is_loading s k = true) ->
  (forall f k, f ∈ ls_stack s' -> frame_load f = Some k -> k < length (ls_loads s)) ->
  (ls_stack s' = [] \/ exists st, ls_stack s' = st ++ [FHost]) -> (ls_control s' <> CHost -> ls_stack s' <> []) -> inv1 s'.
Proof.
  intros [A B C D E F] L G H1 H2 H3 H4. split; try done.
  - intros k l K. rewrite L in K. rewrite (settlements_same s s') by done. auto.
  - intros k K. rewrite L in K. rewrite (settlements_same s s') by done. auto.
  - intros k K. specialize (H1 k K). unfold is_loading in *. by rewrite L.
  - by rewrite L.
Qed.
(** Replacing the data of one load, settled as before. *)
Lemma inv1_put s s' k l l' : inv1 s -> ls_loads s !! k = Some l -> ls_loads s' = <[k := l']> (ls_loads s) -> ld_loading l' = ld_loading l -> ld_rooted l' = ld_rooted l ->
  ls_log s' = ls_log s ->
  (forall j, ctl_load (ls_control s') = Some j -> is_loading s j = true) -> ls_stack s' = ls_stack s -> (ls_control s' <> CHost -> ls_stack s <> []) -> inv1 s'.
Proof.
  intros [A B C D E F] K L X Y G H1 H2 H3. pose proof (lookup_lt_Some _ _ _ K) as Lt. split.
  - intros j lj J. rewrite L in J. rewrite (settlements_same s s') by done. destruct (decide (j = k)) as [->|Ne].
    + rewrite list_lookup_insert in J by done. injection J as <-. rewrite X, Y. by apply A.
    + rewrite list_lookup_insert_ne in J by done. by apply A.
  - intros j J. rewrite L, insert_length in J. rewrite (settlements_same s s') by done. auto.
  - intros j J. specialize (H1 j J). unfold is_loading in *. rewrite L. destruct (decide (j = k)) as [->|Ne].
    + rewrite list_lookup_insert by done. rewrite X. by rewrite K in H1.
    + by rewrite list_lookup_insert_ne.
  - rewrite L, insert_length, H2. done.
  - by rewrite H2.
  - by rewrite H2.
Qed.
Lemma inv1_end s s' k l l' o : inv1 s -> ls_loads s !! k = Some l -> ld_rooted l = true -> ls_loads s' = <[k := l']> (ls_loads s) -> ld_loading l' = false -> ld_rooted l' = false ->
  ls_log s' = ls_log s ++ [(k, o)] -> ctl_load (ls_control s') = None ->
  (forall f j, f ∈ ls_stack s' -> frame_load f = Some j -> j < length (ls_loads s)) ->
  (ls_stack s' = [] \/ exists st, ls_stack s' = st ++ [FHost]) -> (ls_control s' <> CHost -> ls_stack s' <> []) -> inv1 s'.
Proof.
  intros [A B C D E F] K R L X Y G H1 H2 H3 H4. pose proof (lookup_lt_Some _ _ _ K) as Lt. split; try done.
  - intros j lj J. rewrite L in J. rewrite (settlements_snoc _ _ _ j _ G). destruct (decide (j = k)) as [->|Ne].
    + rewrite list_lookup_insert in J by done. injection J as <-. rewrite X, Y. split; [done|]. rewrite bool_decide_true by done.
      destruct (A k l K) as [_ Z]. rewrite R in Z. rewrite Z. by exists o.
    + rewrite list_lookup_insert_ne in J by done. rewrite bool_decide_false, (right_id_L [] app) by done. by apply A.
  - intros j J. rewrite L, insert_length in J. rewrite (settlements_snoc _ _ _ j _ G), bool_decide_false, (right_id_L [] app) by lia. auto.
  - intros j J. congruence.
  - by rewrite L, insert_length.
Qed.
Lemma loading_rooted s k : inv1 s -> is_loading s k = true -> exists l, ls_loads s !! k = Some l /\ ld_loading l = true /\ ld_rooted l = true.
Proof. intros I (l & E & L)%is_loading_Some. exists l. destruct (i_loads s I k l E) as [R _]. rewrite R. auto. Qed.

Lemma engine_step_end s k o st : inv1 s -> is_loading s k = true -> 
  (forall f j, f ∈ st -> frame_load f = Some j -> j < length (ls_loads s)) -> (exists st0, st = st0 ++ [FHost]) ->
  inv1 (goto (end_load s k o) st CReturn).
Proof.
  intros I L Hs [st0 ->]. destruct (loading_rooted _ _ I L) as (l & E & Ll & R). rewrite (end_load_eq _ _ _ _ E R).
  eapply (inv1_end s _ k l (Load (ld_root l) false (ld_pending l) (ld_visited l) false) o); eauto. cbn. intros _ X. by destruct st0.
Qed.
Lemma inv1_stack_push s k m rest : inv1 s -> ls_control s = CLoop k m rest \/ (exists q, ls_control s = CLoop k m (q :: rest)) ->
  (forall f j, f ∈ FLoop k m rest :: ls_stack s -> frame_load f = Some j -> j < length (ls_loads s)) /\
  (exists st, FLoop k m rest :: ls_stack s = st ++ [FHost]).
Proof.
  intros I C. assert (Hc : ctl_load (ls_control s) = Some k) by (by destruct C as [->|[q ->]]).
  assert (Hn : ls_control s <> CHost) by (by destruct C as [->|[q ->]]). split.
  - intros f j. rewrite elem_of_cons. intros [->|F] E.
    + cbn in E. injection E as <-. destruct (is_loading_Some _ _ (i_ctl s I _ Hc)) as (l & El & _). by apply lookup_lt_Some in El.
    + by eapply i_stack.
  - destruct (i_base s I) as [E|[st E]]; [by destruct (i_run s I Hn)|]. rewrite E. by exists (FLoop k m rest :: st).
Qed.
Lemma stack_base s : inv1 s -> ls_control s <> CHost -> exists st, ls_stack s = st ++ [FHost].
Proof. intros I N. destruct (i_base s I) as [E|E]; [by destruct (i_run s I N)|done]. Qed.

Lemma fold_end s k o : settle (stop_loading s k) k o = end_load s k o.
Proof. done. Qed.

Lemma engine_inv1 sup s s' : inv1 s -> engine_step sup s = Some s' -> inv1 s'.
Proof.
  intros I. unfold engine_step. destruct (ls_control s) as [k m|k m [|q rest]| |] eqn:C; rewrite ?fold_end.
  - assert (L : is_loading s k = true) by (apply (i_ctl s I); by rewrite C). assert (Nh : ls_control s <> CHost) by (by rewrite C).
    destruct (ls_graph s !! m) as [r|].
    + destruct (is_loading_Some _ _ L) as (l & E & Ll). rewrite E. destruct (match mr_status r with StNew => true | _ => false end && bool_decide (m ∉ ld_visited l)); intros [= <-].
      * eapply (inv1_put s _ k l (Load (ld_root l) (ld_loading l) (ld_pending l + length (mr_requested r)) (ld_visited l ++ [m]) (ld_rooted l))); eauto; cbn; [by intros j [= <-]|by intros _; apply (i_run s I)].
      * apply (inv1_goto s _ I); [done|done|..]; cbn; [by intros j [= <-]|by apply (i_stack s I)|by apply (i_base s I)|by intros _; apply (i_run s I)].
    + intros [= <-]. apply engine_step_end; auto; [by apply (i_stack s I)|by apply stack_base].
  - assert (L : is_loading s k = true) by (apply (i_ctl s I); by rewrite C). assert (Nh : ls_control s <> CHost) by (by rewrite C).
    destruct (loading_rooted _ _ I L) as (l & E & Ll & R). rewrite E. cbn zeta. case_bool_decide as P; intros [= <-].
    + eapply (inv1_put s _ k l (Load (ld_root l) (ld_loading l) (pred (ld_pending l)) (ld_visited l) (ld_rooted l))); eauto; cbn; [done|by intros _; apply (i_run s I)].
    + pose proof (lookup_lt_Some _ _ _ E) as Lt. unfold stop_loading, settle. cbn. rewrite list_lookup_insert by done. cbn. rewrite list_lookup_insert by (by rewrite insert_length). cbn. rewrite R.
      eapply (inv1_end s _ k l (Load (ld_root l) false (pred (ld_pending l)) (ld_visited l) false) Fulfilled); eauto; cbn; [by rewrite !list_insert_insert|by apply (i_stack s I)|by apply (i_base s I)|by intros _; apply (i_run s I)].
  - assert (L : is_loading s k = true) by (apply (i_ctl s I); by rewrite C).
    destruct (inv1_stack_push s k m rest I) as [S1 S2]; [right; eauto|]. cbn zeta. rewrite L. destruct (negb _); [intros [= <-]; by apply engine_step_end|].
    destruct (match ls_graph s !! m with Some r => imported r q | None => None end) as [m'|]; intros [= <-]; apply (inv1_goto s _ I); [done|done|..]; cbn; try done; try by right.
    by intros j [= <-].
  - assert (Nh : ls_control s <> CHost) by (by rewrite C). destruct (stack_base s I Nh) as [st0 B]. destruct (ls_stack s) as [|[k m rest|] st] eqn:St; [done| |]; intros [= <-].
    + assert (X : exists st1, st = st1 ++ [FHost]).
      { destruct st0 as [|f st0]; [done|]. cbn in B. injection B as _ ->. by exists st0. }
      destruct X as [st1 ->]. apply (inv1_goto s _ I); [done|done|..]; cbn.
      * intros j. destruct (is_loading s k) eqn:E; cbn; [by intros [= <-]|done].
      * intros f j F. apply (i_stack s I). rewrite St. by constructor.
      * right. by exists st1.
      * intros _. by destruct st1.
    + apply (inv1_goto s _ I); [done|done|..]; cbn; [done| | |done].
      * intros f j F. apply (i_stack s I). rewrite St. by constructor.
      * destruct st0 as [|f st0]; [injection B as ->; by left|]. cbn in B. injection B as _ ->. right. by exists st0.
  - done.
Qed.

Lemma continue_inv1 s k res : inv1 s -> ls_control s = CHost -> inv1 (continue_load s k res).
Proof.
  intros I C. unfold continue_load. destruct (is_loading s k) eqn:L; [|done]. destruct res as [m|e].
  - apply (inv1_goto s _ I); [done|done|..]; cbn.
    + by intros j [= <-].
    + intros f j. rewrite elem_of_cons. intros [->|F]; [done|]. by apply (i_stack s I).
    + right. destruct (i_base s I) as [->|[st ->]]; [by exists []|by exists (FHost :: st)].
    + done.
  - rewrite fold_end. destruct (loading_rooted _ _ I L) as (l & E & Ll & R). rewrite (end_load_eq _ _ _ _ E R).
    eapply (inv1_end s _ k l (Load (ld_root l) false (ld_pending l) (ld_visited l) false) (Rejected e)); eauto; cbn; rewrite ?C; try done; [by apply (i_stack s I)|by apply (i_base s I)].
Qed.
Lemma put_graph_inv1 s g : inv1 s -> inv1 (put_graph s g).
Proof. intros I. apply (inv1_goto s _ I); [done|done|..]; cbn; [by apply (i_ctl s I)|by apply (i_stack s I)|by apply (i_base s I)|by apply (i_run s I)]. Qed.
Lemma put_tokens_inv1 s g : inv1 s -> inv1 (put_tokens s g).
Proof. intros I. apply (inv1_goto s _ I); [done|done|..]; cbn; [by apply (i_ctl s I)|by apply (i_stack s I)|by apply (i_base s I)|by apply (i_run s I)]. Qed.
Lemma finish_inv1 s t res : inv1 s -> ls_control s = CHost -> inv1 (finish_load s t res).
Proof.
  intros I C. unfold finish_load. destruct res as [m|e]; [|by apply continue_inv1]. destruct (ls_graph s !! tk_ref t) as [r|]; [|by apply continue_inv1].
  destruct (List.find _ _) as [l|]; [case_bool_decide; by apply continue_inv1|]. apply continue_inv1; [by apply put_graph_inv1|done].
Qed.
Lemma drop_to_host_suffix st : drop_to_host st = [] \/ exists a, st = a ++ drop_to_host st.
Proof.
  induction st as [|[k m r|] st IH]; cbn; [by left| |right; by exists [FHost]]. destruct IH as [->|[a IH]]; [by left|]. right. exists (FLoop k m r :: a). cbn. by f_equal.
Qed.
Lemma drop_base st : (st = [] \/ exists st0, st = st0 ++ [FHost]) -> drop_to_host st = [] \/ exists st0, drop_to_host st = st0 ++ [FHost].
Proof.
  intros [->|[st0 ->]]; [by left|]. induction st0 as [|[k m r|] st0 IH]; cbn; [by left|done|right; by exists st0].
Qed.
Lemma host_inv1 sup s a s' : inv1 s -> host_step sup s a = Some s' -> inv1 s'.
Proof.
  intros I E. assert (ls_control s = CHost \/ ls_control s <> CHost) as [C|C] by (destruct (ls_control s); auto).
  2: { destruct a; try (unfold host_step in E; by destruct (ls_control s)). cbn in E. by eapply engine_inv1. }
  unfold host_step in E. rewrite C in E. destruct a as [m|i res|t res| | |r|m q m'|].
  - injection E as <-. assert (Hl : forall k l, (ls_loads s ++ [Load m true 1 [] true]) !! k = Some l -> ls_loads s !! k = Some l \/ (k = length (ls_loads s) /\ l = Load m true 1 [] true)).
    { intros k l H. apply lookup_app_Some in H as [H|[H1 H2]]; [by left|]. right. apply list_lookup_singleton_Some in H2 as [H2 <-]. split; [lia|done]. }
    split; cbn.
    + intros k l [K|[-> ->]]%Hl; [by apply (i_loads s I)|]. cbn. split; [done|]. by apply (i_fresh s I).
    + intros k. rewrite app_length. cbn. intros K. apply (i_fresh s I). lia.
    + intros k [= <-]. unfold is_loading. cbn. rewrite lookup_app_r by lia. by rewrite Nat.sub_diag.
    + intros f j. rewrite elem_of_cons, app_length. cbn. intros [->|F] J; [done|]. pose proof (i_stack s I f j F J). lia.
    + right. destruct (i_base s I) as [->|[st ->]]; [by exists []|by exists (FHost :: st)].
    + done.
  - destruct (ls_tokens s !! i) as [t|]; [|done]. injection E as <-. apply finish_inv1; [by apply put_tokens_inv1|done].
  - injection E as <-. by apply finish_inv1.
  - destruct (ls_stack s) as [|[k m rest|] st] eqn:St; [done| |done]. injection E as <-. apply (inv1_goto s _ I); [done|done|..]; cbn; [done| | |done].
    + intros f j F. apply (i_stack s I). by rewrite St.
    + rewrite <- St. apply (i_base s I).
  - destruct (ls_stack s) as [|[k m rest|] st] eqn:St; [done| |done]. injection E as <-.
    apply (inv1_goto s _ I); [done|done|..]; cbn [goto ls_loads ls_log ls_control ls_stack ctl_load]; [done| | |done].
    + intros f j F. apply (i_stack s I). rewrite St. constructor. cbn in F. destruct (drop_to_host_suffix st) as [X|[a X]]; [rewrite X in F; by apply elem_of_nil in F|].
      rewrite X. apply elem_of_app. by right.
    + apply (drop_base (FLoop k m rest :: st)). rewrite <- St. apply (i_base s I).
  - destruct (mr_status r); [|done]. injection E as <-. by apply put_graph_inv1.
  - injection E as <-. by apply put_graph_inv1.
  - unfold engine_step in E. by rewrite C in E.
Qed.
Lemma init_inv1 : inv1 lstate_init.
Proof.
  split; cbn; try done; try (by left).
  by intros ? ? ?%elem_of_nil.
Qed.
Lemma run_ind (P : lstate -> Prop) sup l : forall s s', P s -> (forall s a s', a ∈ l -> P s -> host_step sup s a = Some s' -> P s') ->
  host_run sup s l = Some s' -> P s'.
Proof.
  induction l as [|a l IH]; intros s s' H0 HS; cbn [host_run]; [by intros [= <-]|]. destruct (host_step sup s a) as [s1|] eqn:E; [|done].
  apply IH; [eapply HS; [constructor|done|done]|]. intros ? ? ? ?. apply HS. by constructor.
Qed.
Lemma run_inv1 sup l s : host_run sup lstate_init l = Some s -> inv1 s.
Proof. apply run_ind; [apply init_inv1|]. intros ? ? ? _. apply host_inv1. Qed.

(** ** Counting the work that is left *)
Definition same (k j : nat) (n : nat) : nat := if bool_decide (k = j) then n else 0.
Definition fcount (k : nat) (f : frame) : nat := match f with FLoop j _ rest => same j k (S (length rest)) | FHost => 0 end.
Definition scount (k : nat) (st : list frame) : nat := sum_list (map (fcount k) st).
Definition ccount (k : nat) (c : control) : nat := match c with CInner j _ => same j k 1 | CLoop j _ rest => same j k (S (length rest)) | _ => 0 end.
Definition tcount (k : nat) (ts : list token) : nat := sum_list (map (fun t => same (tk_load t) k 1) ts).
Definition total (s : lstate) (k : nat) : nat := tcount k (ls_tokens s) + scount k (ls_stack s) + ccount k (ls_control s).

Definition unlinked (g : graph) (m : nat) : Prop := exists r, g !! m = Some r /\ mr_status r = StUnlinked.
Definition arrived (s : lstate) (k : nat) (l : load) (m : nat) : Prop := m ∈ ld_visited l \/ unlinked (ls_graph s) m \/ ls_control s = CInner k m.
Definition outstanding (s : lstate) (k m : nat) (q : request) : Prop :=
  Token k m q ∈ ls_tokens s \/ (exists rest, FLoop k m rest ∈ ls_stack s /\ q ∈ rest) \/ (exists rest, ls_control s = CLoop k m rest /\ q ∈ rest).
Definition accounted (s : lstate) (k : nat) (l : load) : Prop :=
  arrived s k l (ld_root l) /\
  forall m, m ∈ ld_visited l -> exists r, ls_graph s !! m = Some r /\
    forall q, q ∈ mr_requested r -> outstanding s k m q \/ exists m', imported r q = Some m' /\ arrived s k l m'.

Definition record_le (r r' : module_record) : Prop :=
  mr_requested r' = mr_requested r /\ (mr_status r = StUnlinked -> mr_status r' = StUnlinked) /\ (forall q m, imported r q = Some m -> imported r' q = Some m).
Definition graph_le (g g' : graph) : Prop := forall m r, g !! m = Some r -> exists r', g' !! m = Some r' /\ record_le r r'.
Lemma record_le_refl r : record_le r r.
Proof. done. Qed.
Lemma record_le_trans r1 r2 r3 : record_le r1 r2 -> record_le r2 r3 -> record_le r1 r3.
Proof. intros (A & B & C) (D & E & F). split; [congruence|]. auto. Qed.
Lemma graph_le_refl g : graph_le g g.
Proof. intros m r E. eauto using record_le_refl. Qed.
Lemma graph_le_trans g1 g2 g3 : graph_le g1 g2 -> graph_le g2 g3 -> graph_le g1 g3.
Proof. intros A B m r E. destruct (A m r E) as (r2 & E2 & L2). destruct (B m r2 E2) as (r3 & E3 & L3). eauto using record_le_trans. Qed.
Lemma graph_le_app g l : graph_le g (g ++ l).
Proof. intros m r E. exists r. split; [by apply lookup_app_l_Some|done]. Qed.
Lemma graph_le_alter g f m : (forall r, record_le r (f r)) -> graph_le g (alter f m g).
Proof.
  intros H j r E. destruct (decide (j = m)) as [->|Ne].
  - exists (f r). split; [|done]. assert (X : (alter f m g : list _) !! m = f <$> ((g : list _) !! m)) by apply list_lookup_alter. unfold graph in *. rewrite X, E. done.
  - exists r. split; [|done]. assert (X : (alter f m g : list _) !! j = (g : list _) !! j) by (apply list_lookup_alter_ne; done). unfold graph in *. by rewrite X.
Qed.
Lemma imported_append r q m l : imported r q = Some m ->
  imported (MRecord (mr_requested r) (mr_status r) (mr_local r) (mr_indirect r) (mr_star r) (mr_loaded r ++ l)) q = Some m.
Proof.
  unfold imported. cbn. destruct (List.find _ (mr_loaded r)) as [e|] eqn:E; [|done]. intros [= <-].
  apply find_Some_split in E as (a & b & -> & F & G). rewrite <- (assoc_L app). cbn [app]. by rewrite (find_split (fun l0 => requests_equal (fst l0) q)).
Qed.
Lemma append_le r l : record_le r (MRecord (mr_requested r) (mr_status r) (mr_local r) (mr_indirect r) (mr_star r) (mr_loaded r ++ l)).
Proof. split; [done|]. split; [done|]. intros. by apply imported_append. Qed.
Lemma unlink_le r : record_le r (unlink r).
Proof. done. Qed.
Lemma unlink_all_le v g : graph_le g (unlink_all v g).
Proof.
  unfold unlink_all. revert g. induction v as [|m v IH]; intros g; cbn; [apply graph_le_refl|].
  eapply graph_le_trans; [apply (graph_le_alter g unlink m unlink_le)|apply IH].
Qed.
Lemma unlink_all_lookup v g j : unlink_all v g !! j = (if bool_decide (j ∈ v) then unlink <$> (g !! j) else g !! j).
Proof.
  unfold unlink_all. revert g. induction v as [|m v IH]; intros g; cbn [foldl].
  - rewrite bool_decide_false; [done|]. apply not_elem_of_nil.
  - rewrite IH. destruct (decide (j = m)) as [->|Ne].
    + assert (X : (alter unlink m g : list _) !! m = unlink <$> ((g : list _) !! m)) by apply list_lookup_alter. unfold graph in *. rewrite X.
      rewrite (bool_decide_true (m ∈ m :: v)) by constructor. case_bool_decide; [|done]. by destruct (@lookup nat module_record (list module_record) _ m g).
    + assert (X : (alter unlink m g : list _) !! j = (g : list _) !! j) by (apply list_lookup_alter_ne; done). unfold graph in *. rewrite X.
      destruct (decide (j ∈ v)) as [J|J]; [rewrite !bool_decide_true; [done|by constructor|done]|rewrite !bool_decide_false; [done| |done]].
      rewrite elem_of_cons. tauto.
Qed.
Lemma unlinked_le g g' m : graph_le g g' -> unlinked g m -> unlinked g' m.
Proof. intros L (r & E & S). destruct (L m r E) as (r' & E' & _ & S' & _). exists r'. auto. Qed.

Lemma accounted_mono s s' k l l' :
  graph_le (ls_graph s) (ls_graph s') -> ld_root l' = ld_root l -> (forall m, m ∈ ld_visited l -> m ∈ ld_visited l') ->
  (forall m, ls_control s = CInner k m -> arrived s' k l' m) ->
  (forall m r q, ls_graph s !! m = Some r -> q ∈ mr_requested r -> outstanding s k m q ->
     outstanding s' k m q \/ exists r' m', ls_graph s' !! m = Some r' /\ imported r' q = Some m' /\ arrived s' k l' m') ->
  (forall m, m ∈ ld_visited l' -> m ∉ ld_visited l -> exists r, ls_graph s' !! m = Some r /\ forall q, q ∈ mr_requested r -> outstanding s' k m q) ->
  accounted s k l -> accounted s' k l'.
Proof.
  intros G R V C O N [A B].
  assert (Ar : forall m, arrived s k l m -> arrived s' k l' m).
  { intros m [X|[X|X]]; [left; auto|right; left; by eapply unlinked_le|auto]. }
  split; [rewrite R; auto|]. intros m M. destruct (decide (m ∈ ld_visited l)) as [Mv|Mv].
  - destruct (B m Mv) as (r & E & Q). destruct (G m r E) as (r' & E' & Rq & St & Im). exists r'. split; [done|]. intros q. rewrite Rq. intros Hq.
    destruct (Q q Hq) as [X|(m' & X & Y)].
    + destruct (O m r q E Hq X) as [Z|(r2 & m' & E2 & Z)]; [by left|]. assert (r2 = r') as -> by congruence. right. exists m'. done.
    + right. exists m'. auto.
  - destruct (N m M Mv) as (r & E & Q). exists r. split; [done|]. intros q Hq. left. auto.
Qed.

Record okl (b : bool) (s : lstate) (k : nat) (l : load) : Prop := {
  o_pos : 1 <= ld_pending l; o_le : total s k <= ld_pending l; o_eq : b = true -> total s k = ld_pending l;
  o_acc : total s k = ld_pending l -> accounted s k l }.
Lemma okl_step b s s' k l l' : okl b s k l -> ld_pending l' + total s k = ld_pending l + total s' k -> 1 <= ld_pending l' ->
  (accounted s k l -> accounted s' k l') -> okl b s' k l'.
Proof. intros [A B C D] E P F. split; [done|lia|intros X; specialize (C X); lia|]. intros X. apply F, D. lia. Qed.

Record inv2 (b : bool) (s : lstate) : Prop := {
  j_loads : forall k l, ls_loads s !! k = Some l -> ld_loading l = true -> okl b s k l;
  j_tokens : forall t, t ∈ ls_tokens s -> tk_load t < length (ls_loads s);
}.
Record inv3 (s : lstate) : Prop := {
  u_closed : forall m r q, ls_graph s !! m = Some r -> mr_status r = StUnlinked -> q ∈ mr_requested r ->
    exists m', imported r q = Some m' /\ unlinked (ls_graph s) m';
  u_log : forall k, Fulfilled ∈ settlements s k -> exists l, ls_loads s !! k = Some l /\ unlinked (ls_graph s) (ld_root l);
}.

(** A step that does not concern load [k]. *)
Lemma okl_other b s s' k l : okl b s k l -> graph_le (ls_graph s) (ls_graph s') ->
  (forall m, ls_control s <> CInner k m) ->
  total s' k = total s k ->
  (forall m q, Token k m q ∈ ls_tokens s -> Token k m q ∈ ls_tokens s') ->
  (forall m q rest, FLoop k m rest ∈ ls_stack s -> q ∈ rest -> outstanding s' k m q) ->
  (forall m q rest, ls_control s = CLoop k m rest -> q ∈ rest -> outstanding s' k m q) -> okl b s' k l.
Proof.
  intros O G C T HT HS HC. eapply okl_step; [exact O|lia|by destruct O|]. apply accounted_mono; auto.
  - intros m X. by destruct (C m).
  - intros m r q _ _ [X|[(rest & X & Y)|(rest & X & Y)]]; left; [left; auto|eauto|eauto].
  - done.
Qed.

Lemma same_eq k n : same k k n = n.
Proof. unfold same. by rewrite bool_decide_true. Qed.
Lemma same_ne k j n : k <> j -> same k j n = 0.
Proof. intros. unfold same. by rewrite bool_decide_false. Qed.
Lemma tcount_app k a b : tcount k (a ++ b) = tcount k a + tcount k b.
Proof. unfold tcount. induction a as [|x a IH]; cbn; [done|]. cbn in IH. lia. Qed.
Lemma tcount_cons k t l : tcount k (t :: l) = same (tk_load t) k 1 + tcount k l.
Proof. done. Qed.
Lemma tcount_delete k l i t : l !! i = Some t -> tcount k l = same (tk_load t) k 1 + tcount k (delete i l).
Proof.
  revert i. induction l as [|x l IH]; intros [|i] E; [done|done|injection E as ->; done|]. change (delete (S i) (x :: l)) with (x :: delete i l).
  specialize (IH i E). rewrite !tcount_cons. lia.
Qed.
Lemma tcount_nil k : tcount k [] = 0.
Proof. done. Qed.
Lemma scount_cons k f st : scount k (f :: st) = fcount k f + scount k st.
Proof. done. Qed.
Lemma tcount_fresh k l : (forall t, t ∈ l -> tk_load t <> k) -> tcount k l = 0.
Proof.
  induction l as [|x l IH]; intros H; [done|]. unfold tcount in *. cbn. rewrite IH by (intros; apply H; by constructor). rewrite same_ne; [done|]. apply H. constructor.
Qed.
Lemma scount_fresh k st : (forall f, f ∈ st -> frame_load f <> Some k) -> scount k st = 0.
Proof.
  induction st as [|x l IH]; intros H; [done|]. rewrite scount_cons, IH by (intros; apply H; by constructor). destruct x as [j m r|]; cbn; [|done]. rewrite same_ne; [done|].
  intros ->. by apply (H (FLoop k m r)); [constructor|].
Qed.
Lemma elem_of_delete_ne (l : list token) i x t : l !! i = Some t -> x ∈ l -> x <> t -> x ∈ delete i l.
Proof.
  intros E X N. revert i E. induction X as [x l|x y l X IH]; intros [|i] E; cbn in *.
  - congruence.
  - constructor.
  - done.
  - constructor. by apply IH.
Qed.
Lemma elem_of_delete_in (l : list token) i x : x ∈ delete i l -> x ∈ l.
Proof.
  revert i. induction l as [|y l IH]; intros [|i]; cbn; try done; [by constructor|]. rewrite !elem_of_cons. intros [->|X]; [by left|right; eauto].
Qed.

Local Arguments scount : simpl never.
Local Arguments tcount : simpl never.
Local Arguments same : simpl never.

(** ** The invariants hold at every step *)
Definition all_inv (b : bool) (s : lstate) : Prop := inv1 s /\ inv2 b s /\ inv3 s.

(** Ending one load leaves the others' accounts alone. *)
Lemma inv3_log s s' : inv3 s -> ls_graph s' = ls_graph s ->
  (forall k l, ls_loads s !! k = Some l -> exists l', ls_loads s' !! k = Some l' /\ ld_root l' = ld_root l) ->
  (forall k, Fulfilled ∈ settlements s' k -> Fulfilled ∈ settlements s k) -> inv3 s'.
Proof.
  intros [A B] G L S. split; rewrite G; [done|]. intros k K. destruct (B k (S k K)) as (l & E & U). destruct (L k l E) as (l' & E' & R). exists l'. by rewrite R.
Qed.
Lemma insert_roots (ls : list load) j l0 l1 : ls !! j = Some l0 -> ld_root l1 = ld_root l0 ->
  forall k l, ls !! k = Some l -> exists l', <[j := l1]> ls !! k = Some l' /\ ld_root l' = ld_root l.
Proof.
  intros E R k l K. destruct (decide (k = j)) as [->|N].
  - exists l1. rewrite list_lookup_insert by (by eapply lookup_lt_Some). split; [done|]. congruence.
  - exists l. by rewrite list_lookup_insert_ne.
Qed.
Lemma rejected_settlements s s' k e j : ls_log s' = ls_log s ++ [(k, Rejected e)] -> Fulfilled ∈ settlements s' j -> Fulfilled ∈ settlements s j.
Proof.
  intros E. rewrite (settlements_snoc _ _ _ j _ E), elem_of_app. intros [X|X]; [done|]. case_bool_decide; [by apply elem_of_list_singleton in X|by apply elem_of_nil in X].
Qed.

(** Load [k] ends with an error; nothing else changes but the frame pushed for [k] and the control. *)
Lemma reject_inv b s k l e st c : inv1 s -> inv2 b s -> inv3 s -> ls_loads s !! k = Some l -> ld_rooted l = true ->
  (forall j m, j <> k -> ls_control s <> CInner j m) -> (forall j m rest, j <> k -> ls_control s <> CLoop j m rest) ->
  (c = CReturn \/ c = CHost) -> (st = ls_stack s \/ exists m rest, st = FLoop k m rest :: ls_stack s) ->
  inv2 b (goto (end_load s k (Rejected e)) st c) /\ inv3 (goto (end_load s k (Rejected e)) st c).
Proof.
  intros I1 I2 I3 E R C1 C2 Hc Hst. rewrite (end_load_eq _ _ _ _ E R). pose proof (lookup_lt_Some _ _ _ E) as Lt. split.
  - split; cbn.
    + intros j lj J Lj. destruct (decide (j = k)) as [->|N].
      { rewrite list_lookup_insert in J by done. injection J as <-. done. }
      rewrite list_lookup_insert_ne in J by done.
      eapply okl_other; [by apply (j_loads b s I2)|apply graph_le_refl|intros m; by apply C1| | | |]; cbn.
      * unfold total. cbn. assert (ccount j c = 0) as -> by (by destruct Hc as [->| ->]).
        assert (ccount j (ls_control s) = 0) as ->.
        { destruct (ls_control s) as [a m|a m r| |]; cbn; try done; apply same_ne; intros ->; [by destruct (C1 j m N)|by destruct (C2 j m r N)]. }
        destruct Hst as [->|(m & rest & ->)]; [done|]. rewrite scount_cons. cbn. by rewrite same_ne.
      * done.
      * intros m q rest F Q. right. left. exists rest. split; [|done]. cbn. destruct Hst as [->|(m' & r' & ->)]; [done|by constructor].
      * intros m q rest X. by destruct (C2 j m rest N).
    + intros t T. rewrite insert_length. by apply (j_tokens b s I2).
  - eapply (inv3_log s); [done|done|by apply (insert_roots _ _ l)|]. intros j. by eapply rejected_settlements.
Qed.

Lemma engine_inv2 b sup s s' : all_inv b s -> engine_step sup s = Some s' -> inv2 b s' /\ inv3 s'.
Proof.
  intros (I1 & I2 & I3). unfold engine_step. destruct (ls_control s) as [k m|k m [|q rest]| |] eqn:C; rewrite ?fold_end.
  - (* entering a module *)
    assert (L : is_loading s k = true) by (apply (i_ctl s I1); by rewrite C). destruct (loading_rooted _ _ I1 L) as (l & E & Ll & R). rewrite E.
    pose proof (lookup_lt_Some _ _ _ E) as Lt.
    destruct (ls_graph s !! m) as [r|] eqn:Er.
    + destruct (match mr_status r with StNew => true | _ => false end && bool_decide (m ∉ ld_visited l)) eqn:Tr; intros [= <-].
      * apply andb_true_iff in Tr as [Ts Tv%bool_decide_eq_true]. split; [split|]; cbn.
        -- intros j lj J Lj. destruct (decide (j = k)) as [->|N].
           ++ rewrite list_lookup_insert in J by done. injection J as <-. eapply okl_step; [by apply (j_loads b s I2 k l)| | |].
              ** unfold total. cbn. rewrite C. cbn. rewrite !same_eq. lia.
              ** cbn. pose proof (o_pos _ _ _ _ (j_loads b s I2 k l E Ll)). lia.
              ** apply accounted_mono; cbn.
                 --- apply graph_le_refl.
                 --- done.
                 --- intros x X. apply elem_of_app. by left.
                 --- rewrite C. intros x [= <-]. left. cbn. apply elem_of_app. right. by apply elem_of_list_singleton.
                 --- intros x rx q _ _ [X|[X|(rest & X & _)]]; [left; by left|left; right; by left|rewrite C in X; done].
                 --- intros x X Nx. apply elem_of_app in X as [X|X%elem_of_list_singleton]; [done|]. subst x. exists r. split; [done|]. intros q Q. right. right. eauto.
           ++ rewrite list_lookup_insert_ne in J by done. eapply okl_other; [by apply (j_loads b s I2)|apply graph_le_refl|rewrite C; by intros ? [= ? ?]| | | |]; cbn.
              ** unfold total. cbn. rewrite C. cbn. by rewrite !same_ne by done.
              ** done.
              ** intros x q rest F Q. right. left. eauto.
              ** rewrite C. done.
        -- intros t T. rewrite insert_length. by apply (j_tokens b s I2).
        -- eapply (inv3_log s); [done|done|by apply (insert_roots _ _ l)|done].
      * split; [split|]; cbn.
        -- intros j lj J Lj. destruct (decide (j = k)) as [->|N].
           ++ assert (lj = l) as -> by congruence. eapply okl_step; [by apply (j_loads b s I2 k l)| |by apply (o_pos _ _ _ _ (j_loads b s I2 k l E Ll))|].
              ** unfold total. cbn. rewrite C. cbn. done.
              ** apply accounted_mono; cbn; try done; try apply graph_le_refl.
                 --- rewrite C. intros x [= <-]. apply andb_false_iff in Tr as [Tr|Tr%bool_decide_eq_false].
                     { right. left. exists r. split; [done|]. by destruct (mr_status r). }
                     left. by apply dec_stable.
                 --- intros x rx q _ _ [X|[X|(rest & X & _)]]; [left; by left|left; right; by left|rewrite C in X; done].
           ++ eapply okl_other; [by apply (j_loads b s I2)|apply graph_le_refl|rewrite C; by intros ? [= ? ?]| | | |]; cbn.
              ** unfold total. cbn. rewrite C. cbn. by rewrite !same_ne by done.
              ** done.
              ** intros x q rest F Q. right. left. eauto.
              ** rewrite C. done.
        -- by apply (j_tokens b s I2).
        -- eapply (inv3_log s); [done|done|by eauto|done].
    + intros [= <-]. eapply reject_inv; eauto; rewrite C; [intros j x N; congruence|done].
  - (* after the loop *)
    assert (L : is_loading s k = true) by (apply (i_ctl s I1); by rewrite C). destruct (loading_rooted _ _ I1 L) as (l & E & Ll & R). rewrite E.
    pose proof (lookup_lt_Some _ _ _ E) as Lt. cbn zeta. pose proof (j_loads b s I2 k l E Ll) as Ok. pose proof (o_pos _ _ _ _ Ok) as Pos.
    case_bool_decide as P; intros [= <-].
    + split; [split|]; cbn.
      * intros j lj J Lj. destruct (decide (j = k)) as [->|N].
        -- rewrite list_lookup_insert in J by done. injection J as <-. eapply okl_step; [exact Ok| | |].
           ++ unfold total. cbn. rewrite C. cbn. rewrite same_eq. lia.
           ++ cbn. lia.
           ++ apply accounted_mono; cbn; try done; try apply graph_le_refl.
              ** rewrite C. done.
              ** intros x rx q _ _ [X|[X|(rest & X & Y)]]; [left; by left|left; right; by left|]. rewrite C in X. injection X as -> <-. by apply elem_of_nil in Y.
        -- rewrite list_lookup_insert_ne in J by done. eapply okl_other; [by apply (j_loads b s I2)|apply graph_le_refl|by rewrite C| | | |]; cbn.
           ++ unfold total. cbn. rewrite C. cbn. by rewrite same_ne.
           ++ done.
           ++ intros x q rest F Q. right. left. eauto.
           ++ rewrite C. intros x q rest [= -> -> <-] Q. by apply elem_of_nil in Q.
      * intros t T. rewrite insert_length. by apply (j_tokens b s I2).
      * eapply (inv3_log s); [done|done|by apply (insert_roots _ _ l)|done].
    + assert (Tot : total s k = 1 /\ ld_pending l = 1).
      { pose proof (o_le _ _ _ _ Ok) as Le. unfold total in *. rewrite C in *. cbn [ccount] in *. rewrite same_eq in *. cbn [length] in *. lia. }
      destruct Tot as [Tot Pe]. assert (Acc : accounted s k l) by (apply (o_acc _ _ _ _ Ok); lia).
      assert (No : forall x q, ~ outstanding s k x q).
      { intros x q [X|[(rest & X & Y)|(rest & X & Y)]].
        - unfold total in Tot. rewrite C in Tot. cbn [ccount] in Tot. rewrite same_eq in Tot. apply elem_of_list_lookup in X as [i X].
          rewrite (tcount_delete k _ _ _ X) in Tot. cbn in Tot. rewrite same_eq in Tot. lia.
        - unfold total in Tot. rewrite C in Tot. cbn [ccount] in Tot. rewrite same_eq in Tot. apply elem_of_list_split in X as (s1 & s2 & X). rewrite X in Tot.
          assert (scount k (s1 ++ FLoop k x rest :: s2) = scount k s1 + (S (length rest) + scount k s2)) as Y2.
          { clear. induction s1 as [|f s1 IH]; [cbn [app]; rewrite scount_cons; cbn; by rewrite same_eq|]. cbn [app]. rewrite !scount_cons. lia. }
          rewrite Y2 in Tot. cbn in Tot. lia.
        - rewrite C in X. injection X as -> <-. by apply elem_of_nil in Y. }
      unfold stop_loading, settle. cbn. rewrite list_lookup_insert by done. cbn. rewrite list_lookup_insert by (by rewrite insert_length). cbn. rewrite R.
      assert (U : forall x, arrived s k l x -> unlinked (unlink_all (ld_visited l) (ls_graph s)) x).
      { intros x [X|[X|X]]; [|eapply unlinked_le; [apply unlink_all_le|done]|rewrite C in X; done].
        destruct Acc as [_ Acc]. destruct (Acc x X) as (r & Er & _). exists (unlink r). split; [|done]. rewrite unlink_all_lookup, bool_decide_true by done. by rewrite Er. }
      split; [split|split]; cbn [goto put_log put_load put_graph ls_graph ls_loads ls_tokens ls_stack ls_control ls_log].
      * rewrite !list_insert_insert. intros j lj J Lj. destruct (decide (j = k)) as [->|N].
        { rewrite list_lookup_insert in J by done. injection J as <-. done. }
        rewrite list_lookup_insert_ne in J by done. eapply okl_other; [by apply (j_loads b s I2)|apply unlink_all_le|by rewrite C| | | |]; cbn.
        -- unfold total. cbn. rewrite C. cbn. by rewrite same_ne.
        -- done.
        -- intros x q rest F Q. right. left. eauto.
        -- rewrite C. intros x q rest [= -> -> <-] Q. by apply elem_of_nil in Q.
      * intros t T. rewrite !insert_length. by apply (j_tokens b s I2).
      * intros x r q Er St Q. rewrite unlink_all_lookup in Er. case_bool_decide as X.
        -- destruct Acc as [_ Acc]. destruct (Acc x X) as (r0 & E0 & A0). rewrite E0 in Er. cbn in Er. injection Er as <-. cbn in Q.
           destruct (A0 q Q) as [O|(m' & Im & Ar)]; [by destruct (No x q)|]. exists m'. split; [exact Im|auto].
        -- destruct (u_closed s I3 x r q Er St Q) as (m' & Im & Ul). exists m'. split; [done|]. eapply unlinked_le; [apply unlink_all_le|done].
      * intros j J. rewrite (settlements_snoc s _ k j Fulfilled) in J by done. rewrite !list_insert_insert. apply elem_of_app in J as [J|J].
        -- destruct (u_log s I3 j J) as (lj & Ej & Uj). destruct (insert_roots _ _ l (Load (ld_root l) false (pred (ld_pending l)) (ld_visited l) false) E eq_refl _ _ Ej) as (l' & El' & Rl').
           exists l'. split; [done|]. rewrite Rl'. eapply unlinked_le; [apply unlink_all_le|done].
        -- case_bool_decide as D; [|by apply elem_of_nil in J]. subst j. exists (Load (ld_root l) false (pred (ld_pending l)) (ld_visited l) false). rewrite list_lookup_insert by done. split; [done|]. cbn.
           apply U. apply Acc.
  - (* one request *)
    assert (L : is_loading s k = true) by (apply (i_ctl s I1); by rewrite C). destruct (loading_rooted _ _ I1 L) as (l & E & Ll & R).
    cbn zeta. rewrite L. destruct (negb _).
    { intros [= <-]. eapply reject_inv; eauto; rewrite C; [done|intros j x r N; congruence]. }
    destruct (match ls_graph s !! m with Some r => imported r q | None => None end) as [m'|] eqn:Im; intros [= <-].
    + split; [split|]; cbn.
      * intros j lj J Lj. destruct (decide (j = k)) as [->|N].
        -- assert (lj = l) as -> by congruence. eapply okl_step; [by apply (j_loads b s I2 k l)| |by apply (o_pos _ _ _ _ (j_loads b s I2 k l E Ll))|].
           ++ unfold total. cbn [goto ls_tokens ls_stack ls_control]. rewrite C, scount_cons. cbn. rewrite !same_eq. lia.
           ++ apply accounted_mono; cbn; try done; try apply graph_le_refl.
              ** rewrite C. done.
              ** intros x rx q0 Erx _ [X|[(r0 & X & Y)|(r0 & X & Y)]]; [left; by left|left; right; left; exists r0; split; [by constructor|done]|].
                 rewrite C in X. injection X as -> <-. apply elem_of_cons in Y as [->|Y].
                 --- right. rewrite Erx in Im. exists rx, m'. split; [done|]. split; [done|]. right. by right.
                 --- left. right. left. exists rest. split; [constructor|done].
        -- eapply okl_other; [by apply (j_loads b s I2)|apply graph_le_refl|by rewrite C| | | |]; cbn.
           ++ unfold total. cbn [goto ls_tokens ls_stack ls_control]. rewrite C, scount_cons. cbn. by rewrite !same_ne by done.
           ++ done.
           ++ intros x q0 r0 F Q. right. left. exists r0. split; [by constructor|done].
           ++ rewrite C. intros x q0 r0 [= -> -> <-]. done.
      * by apply (j_tokens b s I2).
      * eapply (inv3_log s); [done|done|by eauto|done].
    + split; [split|]; cbn.
      * intros j lj J Lj. destruct (decide (j = k)) as [->|N].
        -- assert (lj = l) as -> by congruence. eapply okl_step; [by apply (j_loads b s I2 k l)| |by apply (o_pos _ _ _ _ (j_loads b s I2 k l E Ll))|].
           ++ unfold total. cbn [goto put_tokens ls_tokens ls_stack ls_control]. rewrite C, scount_cons, tcount_app, tcount_cons, tcount_nil. cbn. rewrite !same_eq. lia.
           ++ apply accounted_mono; cbn; try done; try apply graph_le_refl.
              ** rewrite C. done.
              ** intros x rx q0 Erx _ [X|[(r0 & X & Y)|(r0 & X & Y)]]; [left; left; cbn; apply elem_of_app; by left|left; right; left; exists r0; split; [by constructor|done]|].
                 rewrite C in X. injection X as -> <-. apply elem_of_cons in Y as [->|Y].
                 --- left. left. cbn. apply elem_of_app. right. by apply elem_of_list_singleton.
                 --- left. right. left. exists rest. split; [constructor|done].
        -- eapply okl_other; [by apply (j_loads b s I2)|apply graph_le_refl|by rewrite C| | | |]; cbn.
           ++ unfold total. cbn [goto put_tokens ls_tokens ls_stack ls_control]. rewrite C, scount_cons, tcount_app, tcount_cons, tcount_nil. cbn. rewrite !same_ne by done. lia.
           ++ intros x q0 X. apply elem_of_app. by left.
           ++ intros x q0 r0 F Q. right. left. exists r0. split; [by constructor|done].
           ++ rewrite C. intros x q0 r0 [= -> -> <-]. done.
      * intros t. rewrite elem_of_app, elem_of_list_singleton. intros [T| ->]; [by apply (j_tokens b s I2)|]. cbn. by eapply lookup_lt_Some.
      * eapply (inv3_log s); [done|done|by eauto|done].
  - destruct (ls_stack s) as [|[k m rest|] st] eqn:St; [done| |]; intros [= <-].
    + split; [split|]; cbn.
      * intros j lj J Lj. destruct (decide (j = k)) as [->|N].
        -- assert (is_loading s k = true) as L by (unfold is_loading; by rewrite J). rewrite L.
           eapply okl_step; [by apply (j_loads b s I2 k lj)| |by apply (o_pos _ _ _ _ (j_loads b s I2 k lj J Lj))|].
           ++ unfold total. cbn [goto ls_tokens ls_stack ls_control]. rewrite C, St, scount_cons. cbn. lia.
           ++ apply accounted_mono; cbn; try done; try apply graph_le_refl.
              ** rewrite C. done.
              ** intros x rx q0 Erx _ [X|[(r0 & X & Y)|(r0 & X & Y)]]; [left; by left| |rewrite C in X; done]. left.
                 rewrite St in X. apply elem_of_cons in X as [X|X]; [|right; left; eauto]. injection X as -> ->. right. right. eauto.
        -- eapply okl_other; [by apply (j_loads b s I2)|apply graph_le_refl|by rewrite C| | | |]; cbn.
           ++ unfold total. cbn [goto ls_tokens ls_stack ls_control]. rewrite C, St, scount_cons. cbn. destruct (is_loading s k); cbn; by rewrite !same_ne by done.
           ++ done.
           ++ intros x q0 r0 F Q. right. left. exists r0. split; [|done]. rewrite St in F. apply elem_of_cons in F as [F|F]; [injection F as -> -> ->; done|done].
           ++ rewrite C. done.
      * by apply (j_tokens b s I2).
      * eapply (inv3_log s); [done|done|by eauto|done].
    + split; [split|]; cbn.
      * intros j lj J Lj. eapply okl_other; [by apply (j_loads b s I2)|apply graph_le_refl|by rewrite C| | | |]; cbn.
        -- unfold total. cbn [goto ls_tokens ls_stack ls_control]. rewrite C, St, scount_cons. done.
        -- done.
        -- intros x q0 r0 F Q. right. left. exists r0. split; [|done]. rewrite St in F. by apply elem_of_cons in F as [F|F].
        -- rewrite C. done.
      * by apply (j_tokens b s I2).
      * eapply (inv3_log s); [done|done|by eauto|done].
  - done.
Qed.

(** A change of the graph only. *)
Lemma put_graph_inv2 b s g : inv2 b s -> graph_le (ls_graph s) g -> inv2 b (put_graph s g).
Proof.
  intros I2 G. split; cbn; [|by apply (j_tokens b s I2)]. intros k l E L. eapply okl_step; [by apply (j_loads b s I2)|done|by apply (o_pos _ _ _ _ (j_loads b s I2 k l E L))|].
  apply accounted_mono; cbn; try done.
  - intros m C. right. right. done.
  - intros m r q _ _ O. left. exact O.
Qed.
Lemma inv3_append s m (e : request * nat) : inv3 s -> inv3 (put_graph s (alter (fun r => MRecord (mr_requested r) (mr_status r) (mr_local r) (mr_indirect r) (mr_star r) (mr_loaded r ++ [e])) m (ls_graph s))).
Proof.
  intros [A B]. set (f := fun r => MRecord (mr_requested r) (mr_status r) (mr_local r) (mr_indirect r) (mr_star r) (mr_loaded r ++ [e])).
  assert (G : graph_le (ls_graph s) (alter f m (ls_graph s))) by (apply graph_le_alter; intros r; apply append_le). split; cbn.
  - intros x r q E S Q. destruct (decide (x = m)) as [->|N].
    + assert (X : (alter f m (ls_graph s) : list _) !! m = f <$> ((ls_graph s : list _) !! m)) by apply list_lookup_alter. unfold graph in *. rewrite X in E.
      destruct ((ls_graph s : list _) !! m) as [r0|] eqn:E0; [|done]. cbn in E. injection E as <-. destruct (A m r0 q E0 S Q) as (m' & Im & U). exists m'.
      split; [by apply imported_append|by eapply unlinked_le].
    + assert (X : (alter f m (ls_graph s) : list _) !! x = (ls_graph s : list _) !! x) by (apply list_lookup_alter_ne; done). unfold graph in *. rewrite X in E.
      destruct (A x r q E S Q) as (m' & Im & U). exists m'. split; [done|by eapply unlinked_le].
  - intros k K. destruct (B k K) as (l & E & U). exists l. split; [done|by eapply unlinked_le].
Qed.
Lemma inv3_add s r : inv3 s -> mr_status r = StNew -> inv3 (put_graph s (ls_graph s ++ [r])).
Proof.
  intros [A B] S. split; cbn.
  - intros x r0 q E S0 Q. apply lookup_app_Some in E as [E|[_ E]].
    + destruct (A x r0 q E S0 Q) as (m' & Im & U). exists m'. split; [done|]. eapply unlinked_le; [apply graph_le_app|done].
    + apply list_lookup_singleton_Some in E as [_ <-]. congruence.
  - intros k K. destruct (B k K) as (l & E & U). exists l. split; [done|]. eapply unlinked_le; [apply graph_le_app|done].
Qed.

(** Completing a token: [s] has the token, [s1] is [s] without it (and with the graph after). *)
Lemma continue_inv2 b s s1 t i res : all_inv b s -> ls_control s = CHost -> ls_tokens s !! i = Some t ->
  ls_loads s1 = ls_loads s -> ls_tokens s1 = delete i (ls_tokens s) -> ls_stack s1 = ls_stack s -> ls_control s1 = CHost -> ls_log s1 = ls_log s ->
  graph_le (ls_graph s) (ls_graph s1) -> inv1 s1 -> inv3 s1 ->
  (forall m, res = inl m -> forall r, ls_graph s1 !! tk_ref t = Some r -> imported r (tk_req t) = Some m) ->
  inv2 b (continue_load s1 (tk_load t) res) /\ inv3 (continue_load s1 (tk_load t) res).
Proof.
  intros (I1 & I2 & I3) C Ti Hl Ht Hs Hc Hg G I1' I3' Im. set (k := tk_load t) in *.
  assert (Tok : forall x, x ∈ ls_tokens s1 -> tk_load x < length (ls_loads s)).
  { intros x. rewrite Ht. intros X%elem_of_delete_in. by apply (j_tokens b s I2). }
  assert (Oth : forall s2 j lj, j <> k -> ls_loads s !! j = Some lj -> ld_loading lj = true -> ls_graph s2 = ls_graph s1 -> ls_tokens s2 = ls_tokens s1 ->
    (ls_stack s2 = ls_stack s \/ ls_stack s2 = FHost :: ls_stack s) -> ccount j (ls_control s2) = 0 -> okl b s2 j lj).
  { intros s2 j lj N J Lj H1 H2 H3 H4. eapply okl_other; [by apply (j_loads b s I2)|by rewrite H1|by rewrite C| | | |].
    - unfold total. rewrite C, H2, Ht, H4. cbn. rewrite (tcount_delete j _ _ _ Ti), same_ne by done. destruct H3 as [->| ->]; [|rewrite scount_cons; cbn]; lia.
    - intros m q X. rewrite H2, Ht. eapply elem_of_delete_ne; [done|done|]. intros <-. done.
    - intros m q rest X Y. right. left. exists rest. split; [|done]. destruct H3 as [->| ->]; [done|by constructor].
    - rewrite C. done. }
  unfold continue_load. destruct (is_loading s1 k) eqn:L.
  - assert (L0 : is_loading s k = true) by (unfold is_loading in *; by rewrite Hl in L). destruct (loading_rooted _ _ I1 L0) as (l & E & Ll & R).
    destruct res as [m|e].
    + split; [split|]; cbn [goto ls_loads ls_tokens]; rewrite ?Hl; [|done|].
      * intros j lj J Lj. destruct (decide (j = k)) as [->|N].
        -- assert (lj = l) as -> by congruence. eapply okl_step; [by apply (j_loads b s I2 k l)| |by apply (o_pos _ _ _ _ (j_loads b s I2 k l E Ll))|].
           ++ unfold total. cbn [goto ls_tokens ls_stack ls_control]. rewrite C, Ht, Hs, scount_cons. cbn. rewrite (tcount_delete k _ _ _ Ti). subst k. rewrite !same_eq. lia.
           ++ apply accounted_mono; cbn [goto ls_graph]; try done.
              ** rewrite C. done.
              ** intros x rx q Erx _ [X|[(r0 & X & Y)|(r0 & X & Y)]]; [|left; right; left; exists r0; cbn; rewrite Hs; split; [by constructor|done]|rewrite C in X; done].
                 destruct (decide (Token k x q = t)) as [D|D].
                 --- right. destruct (G x rx Erx) as (r' & Er' & _). exists r', m. split; [done|]. split; [|right; by right].
                     assert (tk_ref t = x) as <- by (by rewrite <- D). assert (tk_req t = q) as <- by (by rewrite <- D). by apply (Im m).
                 --- left. left. cbn. rewrite Ht. by eapply elem_of_delete_ne.
        -- apply Oth; auto; cbn; [right; by rewrite Hs|by rewrite same_ne].
      * eapply (inv3_log s1); [done|done|cbn; by eauto|done].
    + rewrite fold_end. rewrite (end_load_eq s1 k (Rejected e) l) by (by rewrite ?Hl). split; [split|]; cbn [ls_loads ls_tokens].
      * rewrite Hl. intros j lj J Lj. destruct (decide (j = k)) as [->|N].
        { rewrite list_lookup_insert in J by (by eapply lookup_lt_Some). injection J as <-. done. }
        rewrite list_lookup_insert_ne in J by done. apply Oth; auto; cbn; by rewrite Hc.
      * intros x X. rewrite insert_length, Hl. auto.
      * eapply (inv3_log s1); [done|done| |intros j; by eapply (rejected_settlements s1)]. cbn. apply (insert_roots _ _ l); [by rewrite Hl|done].
  - split; [split|done]; rewrite ?Hl; [|done]. intros j lj J Lj. destruct (decide (j = k)) as [->|N].
    { unfold is_loading in L. rewrite Hl, J in L. congruence. }
    apply Oth; auto. by rewrite Hc.
Qed.
Lemma inv3_tokens s ts : inv3 s -> inv3 (put_tokens s ts).
Proof. intros I. eapply (inv3_log s); [done|done|cbn; by eauto|done]. Qed.
Lemma alter_lookup (f : module_record -> module_record) m (g : graph) r : alter f m g !! m = Some r -> exists r0, g !! m = Some r0 /\ r = f r0.
Proof.
  intros E. assert (X : (alter f m g : list _) !! m = f <$> ((g : list _) !! m)) by apply list_lookup_alter. unfold graph in *. rewrite X in E.
  destruct ((g : list _) !! m) as [r0|] eqn:E0; [|done]. injection E as <-. by exists r0.
Qed.
Lemma finish_inv2 b s t i res : all_inv b s -> ls_control s = CHost -> ls_tokens s !! i = Some t ->
  inv2 b (finish_load (put_tokens s (delete i (ls_tokens s))) t res) /\ inv3 (finish_load (put_tokens s (delete i (ls_tokens s))) t res).
Proof.
  intros I C Ti. pose proof I as (I1 & I2 & I3). pose proof (put_tokens_inv1 s (delete i (ls_tokens s)) I1) as J1. pose proof (inv3_tokens s (delete i (ls_tokens s)) I3) as J3.
  unfold finish_load. destruct res as [m|e].
  2: { eapply (continue_inv2 b s (put_tokens s (delete i (ls_tokens s))) t i); auto; [apply graph_le_refl|done]. }
  cbn [put_tokens ls_graph]. destruct (ls_graph s !! tk_ref t) as [r|] eqn:Er.
  - destruct (List.find _ _) as [l|] eqn:F.
    + case_bool_decide as D.
      * eapply (continue_inv2 b s (put_tokens s (delete i (ls_tokens s))) t i); auto; [apply graph_le_refl|done].
      * eapply (continue_inv2 b s (put_tokens s (delete i (ls_tokens s))) t i); auto; [apply graph_le_refl|]. cbn. intros m' [= <-] r' Er'. assert (r' = r) as -> by congruence.
        unfold imported. rewrite F. f_equal. destruct (decide (snd l = m)); [done|by destruct D].
    + eapply (continue_inv2 b s); eauto; cbn.
      * apply graph_le_alter. intros r0. apply append_le.
      * apply put_graph_inv1, J1.
      * apply (inv3_append (put_tokens s (delete i (ls_tokens s))) (tk_ref t) (tk_req t, m)), J3.
      * intros m' [= <-] r' (r0 & E0 & ->)%alter_lookup. assert (r0 = r) as -> by congruence. unfold imported. cbn. apply find_None_iff in F.
        rewrite (find_split (fun l => requests_equal (fst l) (tk_req t)) (mr_loaded r) (tk_req t, m) []); [done| |done]. cbn. by apply requests_equal_iff.
  - eapply (continue_inv2 b s (put_tokens s (delete i (ls_tokens s))) t i); auto; [apply graph_le_refl|]. cbn. intros m' _ r' Er'. congruence.
Qed.

Lemma drop_keeps st f : f ∈ drop_to_host st -> f ∈ st.
Proof. intros F. destruct (drop_to_host_suffix st) as [X|[a X]]; [rewrite X in F; by apply elem_of_nil in F|]. rewrite X. apply elem_of_app. by right. Qed.
Lemma scount_app k a b : scount k (a ++ b) = scount k a + scount k b.
Proof. induction a as [|f a IH]; [done|]. cbn [app]. rewrite !scount_cons. lia. Qed.
Lemma drop_count k st : scount k (drop_to_host st) <= scount k st /\
  (scount k (drop_to_host st) = scount k st -> forall m rest, FLoop k m rest ∈ st -> FLoop k m rest ∈ drop_to_host st).
Proof.
  induction st as [|[j m r|] st [IH1 IH2]]; cbn [drop_to_host].
  - done.
  - rewrite scount_cons. cbn. destruct (decide (j = k)) as [->|N].
    + rewrite same_eq. split; [lia|]. intros; lia.
    + rewrite same_ne by done. cbn. split; [done|]. intros E x rest X. apply elem_of_cons in X as [X|X]; [congruence|]. by apply IH2.
  - rewrite scount_cons. cbn. split; [done|]. intros _ x rest X. by apply elem_of_cons in X as [X|X].
Qed.

Lemma host_inv2 b sup s a s' : no_repeat a -> (b = true -> well_behaved a) -> all_inv b s -> host_step sup s a = Some s' -> inv2 b s' /\ inv3 s'.
Proof.
  intros Nr Wb I E. assert (ls_control s = CHost \/ ls_control s <> CHost) as [C|C] by (destruct (ls_control s); auto).
  2: { destruct a; try (unfold host_step in E; by destruct (ls_control s)). cbn in E. by eapply engine_inv2. }
  pose proof I as (I1 & I2 & I3). unfold host_step in E. rewrite C in E. destruct a as [m|i res|t res| | |r|m q m'|].
  - injection E as <-. split; [split|split]; cbn.
    + intros k l K L. apply lookup_app_Some in K as [K|[K1 K2]].
      * pose proof (lookup_lt_Some _ _ _ K). eapply okl_other; [by apply (j_loads b s I2)|apply graph_le_refl|by rewrite C| | | |].
        -- unfold total. cbn [ls_tokens ls_stack ls_control]. rewrite C, scount_cons. cbn. rewrite same_ne by lia. done.
        -- done.
        -- intros x q rest F Q. right. left. exists rest. split; [by constructor|done].
        -- by rewrite C.
      * apply list_lookup_singleton_Some in K2 as [K2 <-]. assert (k = length (ls_loads s)) as -> by lia.
        assert (T : total (LState (ls_graph s) (ls_loads s ++ [Load m true 1 [] true]) (ls_tokens s) (FHost :: ls_stack s) (CInner (length (ls_loads s)) m) (ls_log s)) (length (ls_loads s)) = 1).
        { unfold total. cbn [ls_tokens ls_stack ls_control]. rewrite scount_cons, tcount_fresh, scount_fresh; [cbn; by rewrite same_eq| |].
          - intros f F X. pose proof (i_stack s I1 f _ F X). lia.
          - intros t T X. pose proof (j_tokens b s I2 t T). lia. }
        split; [done|by rewrite T|by rewrite T|]. intros _. split; [right; by right|]. by intros x ?%elem_of_nil.
    + intros t T. rewrite app_length. pose proof (j_tokens b s I2 t T). lia.
    + apply (u_closed s I3).
    + intros k K. destruct (u_log s I3 k K) as (l & El & U). exists l. split; [by apply lookup_app_l_Some|done].
  - destruct (ls_tokens s !! i) as [t|] eqn:Ti; [|done]. injection E as <-. by apply finish_inv2.
  - done.
  - destruct (ls_stack s) as [|[k m rest|] st] eqn:St; [done| |done]. injection E as <-. split; [split|]; cbn.
    + intros j lj J Lj. eapply okl_other; [by apply (j_loads b s I2)|apply graph_le_refl|by rewrite C| | | |].
      * unfold total. cbn [goto ls_tokens ls_stack ls_control]. by rewrite C, St.
      * done.
      * intros x q r0 F Q. right. left. exists r0. split; [|done]. cbn. by rewrite <- St.
      * by rewrite C.
    + by apply (j_tokens b s I2).
    + eapply (inv3_log s); [done|done|by eauto|done].
  - destruct b; [by destruct (Wb eq_refl)|]. destruct (ls_stack s) as [|[k m rest|] st] eqn:St; [done| |done].
    assert (s' = goto s (drop_to_host (ls_stack s)) CHost) as -> by (rewrite St; congruence). clear E. split; [split|].
    + intros j lj J Lj. cbn in J. pose proof (j_loads false s I2 j lj J Lj) as [P1 P2 P3 P4]. destruct (drop_count j (ls_stack s)) as [D1 D2].
      assert (T : total (goto s (drop_to_host (ls_stack s)) CHost) j + (scount j (ls_stack s) - scount j (drop_to_host (ls_stack s))) = total s j).
      { unfold total. cbn [goto ls_tokens ls_stack ls_control]. rewrite C. cbn [ccount]. lia. }
      split; [done|lia|done|]. intros Q. assert (Dq : scount j (drop_to_host (ls_stack s)) = scount j (ls_stack s)) by lia.
      assert (A : accounted s j lj) by (apply P4; lia). revert A. apply accounted_mono; try done.
      * apply graph_le_refl.
      * by rewrite C.
      * intros x rx q0 _ _ [X|[(r0 & X & Y)|(r0 & X & Y)]]; [left; by left| |by rewrite C in X]. left. right. left. exists r0. split; [|done]. cbn. by apply D2.
    + by apply (j_tokens false s I2).
    + eapply (inv3_log s); [done|done|by eauto|done].
  - destruct (mr_status r) eqn:Sr; [|done]. injection E as <-. split; [apply put_graph_inv2; [done|apply graph_le_app]|by apply inv3_add].
  - injection E as <-. split; [apply put_graph_inv2; [done|apply graph_le_alter; intros r; apply append_le]|by apply inv3_append].
  - unfold engine_step in E. by rewrite C in E.
Qed.
Lemma init_inv b : all_inv b lstate_init.
Proof.
  split; [apply init_inv1|]. split; split; cbn; try done.
  - by intros ? ?%elem_of_nil.
  - by intros ? ?%elem_of_nil.
Qed.
Lemma run_all_inv b sup l s : Forall no_repeat l -> (b = true -> Forall well_behaved l) -> host_run sup lstate_init l = Some s -> all_inv b s.
Proof.
  intros N W. apply run_ind; [apply init_inv|]. intros s0 a s1 A I E. rewrite Forall_forall in N. destruct (host_inv2 b sup s0 a s1) as [X Y]; auto.
  - intros B. specialize (W B). rewrite Forall_forall in W. auto.
  - split; [|done]. eapply host_inv1; [apply I|done].
Qed.

(** ** The engine stops *)
Definition unvisited (n : nat) (v : list nat) : nat := length (filter (fun m => m ∉ v) (seq 0 n)).
Definition todo (s : lstate) : nat := sum_list (map (fun v => unvisited (length (ls_graph s)) v) (map ld_visited (ls_loads s))).
Definition cweight (c : control) : nat := match c with CInner _ _ => 2 | CLoop _ _ rest => 4 * length rest + 1 | _ => 0 end.
Fixpoint sweight (st : list frame) : nat := match st with [] => 0 | FHost :: _ => 1 | FLoop _ _ rest :: st => 4 * length rest + 2 + sweight st end.
Definition weight (s : lstate) : nat := match ls_control s with CHost => 0 | c => cweight c + sweight (ls_stack s) end.

Lemma map_insert_same (ls : list load) k l l' : ls !! k = Some l -> ld_visited l' = ld_visited l -> map ld_visited (<[k := l']> ls) = map ld_visited ls.
Proof.
  intros E V. apply list_eq. intros i. rewrite !list_lookup_fmap. destruct (decide (i = k)) as [->|N].
  - rewrite list_lookup_insert by (by eapply lookup_lt_Some). rewrite E. cbn. by rewrite V.
  - by rewrite list_lookup_insert_ne.
Qed.
Lemma filter_le {A} (P Q : A -> Prop) `{forall x, Decision (P x)} `{forall x, Decision (Q x)} l :
  (forall x, P x -> Q x) -> length (filter P l) <= length (filter Q l).
Proof.
  intros X. induction l as [|x l IH]; [done|]. rewrite !filter_cons. destruct (decide (P x)), (decide (Q x)); cbn; try lia. exfalso. auto.
Qed.
Lemma unvisited_snoc n v m : m < n -> m ∉ v -> unvisited n (v ++ [m]) < unvisited n v.
Proof.
  intros L N. unfold unvisited. assert (M : m ∈ seq 0 n) by (apply elem_of_seq; lia). clear L. revert M. generalize (seq 0 n). intros l M.
  induction M as [m l|m y l M IH]; rewrite !filter_cons.
  - rewrite (decide_False (P := m ∉ v ++ [m])) by (intros X; apply X, elem_of_app; right; by apply elem_of_list_singleton). rewrite decide_True by done. cbn.
    apply Nat.lt_succ_r, filter_le. intros x X Y. apply X, elem_of_app. by left.
  - destruct (decide (y ∉ v ++ [m])) as [D|D].
    + rewrite decide_True by (intros Y; apply D, elem_of_app; by left). cbn. specialize (IH N). lia.
    + specialize (IH N). destruct (decide (y ∉ v)); cbn; lia.
Qed.
Lemma sum_insert_lt (f : list nat -> nat) ls k l l' : ls !! k = Some l -> f (ld_visited l') < f (ld_visited l) ->
  sum_list (map f (map ld_visited (<[k := l']> ls))) < sum_list (map f (map ld_visited ls)).
Proof.
  revert k. induction ls as [|x ls IH]; intros [|k] E L; [done|done|injection E as ->; cbn; lia|]. specialize (IH k E L).
  change (<[S k := l']> (x :: ls)) with (x :: <[k := l']> ls). cbn. lia.
Qed.
Lemma unlink_all_length v g : length (unlink_all v g) = length g.
Proof.
  unfold unlink_all. revert g. induction v as [|m v IH]; intros g; cbn; [done|]. rewrite IH. assert (X : length (alter unlink m g : list _) = length (g : list _)) by apply alter_length. exact X.
Qed.
Lemma todo_same s s' : length (ls_graph s') = length (ls_graph s) -> map ld_visited (ls_loads s') = map ld_visited (ls_loads s) -> todo s' = todo s.
Proof. intros A B. unfold todo. by rewrite A, B. Qed.
Lemma goto_end_todo s k l o st c : ls_loads s !! k = Some l -> ld_rooted l = true -> todo (goto (end_load s k o) st c) = todo s.
Proof. intros E R. rewrite (end_load_eq _ _ _ _ E R). apply todo_same; [done|]. cbn. by eapply map_insert_same. Qed.

Lemma engine_decreases sup s s' : inv1 s -> engine_step sup s = Some s' -> todo s' < todo s \/ (todo s' = todo s /\ weight s' < weight s).
Proof.
  intros I. unfold engine_step. destruct (ls_control s) as [k m|k m [|q rest]| |] eqn:C; rewrite ?fold_end.
  - assert (L : is_loading s k = true) by (apply (i_ctl s I); by rewrite C). destruct (loading_rooted _ _ I L) as (l & E & Ll & R). rewrite E.
    destruct (ls_graph s !! m) as [r|] eqn:Er.
    + destruct (match mr_status r with StNew => true | _ => false end && bool_decide (m ∉ ld_visited l)) eqn:Tr; intros [= <-].
      * left. apply andb_true_iff in Tr as [_ Tv%bool_decide_eq_true]. unfold todo. cbn. eapply sum_insert_lt; [done|]. cbn. apply unvisited_snoc; [|done]. by eapply lookup_lt_Some.
      * right. split; [by apply todo_same|]. unfold weight. rewrite C. cbn. lia.
    + intros [= <-]. right. split; [by eapply goto_end_todo|]. unfold weight. rewrite C. cbn. lia.
  - assert (L : is_loading s k = true) by (apply (i_ctl s I); by rewrite C). destruct (loading_rooted _ _ I L) as (l & E & Ll & R). rewrite E.
    pose proof (lookup_lt_Some _ _ _ E) as Lt. cbn zeta. case_bool_decide as P; intros [= <-]; right.
    + split; [apply todo_same; [done|]; cbn; by eapply map_insert_same|]. unfold weight. rewrite C. cbn. lia.
    + unfold stop_loading, settle. cbn. rewrite list_lookup_insert by done. cbn. rewrite list_lookup_insert by (by rewrite insert_length). cbn. rewrite R.
      split; [apply todo_same; cbn; [apply unlink_all_length|rewrite !list_insert_insert; by eapply map_insert_same]|]. unfold weight. rewrite C. cbn. lia.
  - assert (L : is_loading s k = true) by (apply (i_ctl s I); by rewrite C). destruct (loading_rooted _ _ I L) as (l & E & Ll & R).
    cbn zeta. rewrite L. destruct (negb _); [|destruct (match ls_graph s !! m with Some r => imported r q | None => None end) as [m'|]]; intros [= <-]; right.
    + split; [by eapply goto_end_todo|]. unfold weight. rewrite C. cbn. lia.
    + split; [by apply todo_same|]. unfold weight. rewrite C. cbn. lia.
    + split; [by apply todo_same|]. unfold weight. rewrite C. cbn. lia.
  - destruct (ls_stack s) as [|[k m rest|] st] eqn:St; [done| |]; intros [= <-]; right; (split; [by apply todo_same|]); unfold weight; rewrite C, St; cbn; [|lia].
    destruct (is_loading s k); cbn; lia.
  - done.
Qed.
Lemma engine_progress sup s : inv1 s -> ls_control s <> CHost -> exists s', engine_step sup s = Some s'.
Proof.
  intros I N. unfold engine_step. destruct (ls_control s) as [k m|k m [|q rest]| |] eqn:C; [| | | |done].
  - assert (L : is_loading s k = true) by (apply (i_ctl s I); by rewrite C). destruct (is_loading_Some _ _ L) as (l & E & _). rewrite E.
    destruct (ls_graph s !! m); [|eauto]. destruct (_ && _); eauto.
  - assert (L : is_loading s k = true) by (apply (i_ctl s I); by rewrite C). destruct (is_loading_Some _ _ L) as (l & E & _). rewrite E. cbn zeta. case_bool_decide; eauto.
  - cbn zeta. destruct (negb _); [eauto|]. destruct (match ls_graph s !! m with Some r => imported r q | None => None end); eauto.
  - destruct (ls_stack s) as [|[k m rest|] st] eqn:St; [|eauto|eauto]. destruct (i_run s I); [by rewrite C|done].
Qed.
Lemma engine_stops sup : forall n w s, inv1 s -> todo s < n -> weight s < w ->
  exists c s', host_run sup s (replicate c HEngine) = Some s' /\ ls_control s' = CHost.
Proof.
  induction n as [|n IHn]; [intros; lia|]. induction w as [|w IHw]; [intros; lia|]. intros s I T W.
  assert (ls_control s = CHost \/ ls_control s <> CHost) as [C|C] by (destruct (ls_control s); auto).
  - exists 0, s. done.
  - destruct (engine_progress sup s I C) as [s1 E]. pose proof (engine_inv1 _ _ _ I E) as I'. destruct (engine_decreases _ _ _ I E) as [D|[D1 D2]].
    + destruct (IHn (S (weight s1)) s1 I') as (c & s' & R & H); [lia|lia|]. exists (S c), s'. cbn. by rewrite E.
    + destruct (IHw s1 I') as (c & s' & R & H); [lia|lia|]. exists (S c), s'. cbn. by rewrite E.
Qed.

(** ** Bookkeeping of roots and causes *)
Definition load_roots (l : list haction) : list nat := omap (fun a => match a with HLoad m => Some m | _ => None end) l.
Definition roots (s : lstate) : list nat := map ld_root (ls_loads s).
Lemma roots_insert ls k l l' : ls !! k = Some l -> ld_root l' = ld_root l -> map ld_root (<[k := l']> ls) = map ld_root ls.
Proof.
  intros E V. apply list_eq. intros i. rewrite !list_lookup_fmap. destruct (decide (i = k)) as [->|N].
  - rewrite list_lookup_insert by (by eapply lookup_lt_Some). rewrite E. cbn. by rewrite V.
  - by rewrite list_lookup_insert_ne.
Qed.
Lemma settle_roots s k o : roots (settle s k o) = roots s.
Proof. unfold settle. destruct (ls_loads s !! k) as [l|] eqn:E; [|done]. destruct (ld_rooted l); [|done]. by eapply roots_insert. Qed.
Lemma stop_roots s k : roots (stop_loading s k) = roots s.
Proof. unfold stop_loading. destruct (ls_loads s !! k) as [l|] eqn:E; [|done]. by eapply roots_insert. Qed.
Lemma continue_roots s k res : roots (continue_load s k res) = roots s.
Proof. unfold continue_load. destruct (is_loading s k); [|done]. destruct res; [done|]. by rewrite settle_roots, stop_roots. Qed.
Lemma finish_roots s t res : roots (finish_load s t res) = roots s.
Proof.
  unfold finish_load. destruct res; [|apply continue_roots]. destruct (ls_graph s !! tk_ref t); [|apply continue_roots].
  destruct (List.find _ _); [case_bool_decide; apply continue_roots|by rewrite continue_roots].
Qed.
Lemma engine_roots sup s s' : engine_step sup s = Some s' -> roots s' = roots s.
Proof.
  unfold engine_step. destruct (ls_control s) as [k m|k m [|q rest]| |].
  - destruct (ls_graph s !! m) as [r|].
    + destruct (ls_loads s !! k) as [l|] eqn:E; [|done]. destruct (_ && _); intros [= <-]; [|done]. by eapply roots_insert.
    + intros [= <-]. change (roots (settle (stop_loading s k) k (Rejected ErrMissing)) = roots s). by rewrite settle_roots, stop_roots.
  - destruct (ls_loads s !! k) as [l|] eqn:E; [|done]. cbn zeta. case_bool_decide; intros [= <-].
    + by eapply roots_insert.
    + match goal with |- roots (goto ?x _ _) = _ => change (roots x = roots s) end. rewrite settle_roots.
      match goal with |- roots (put_graph ?x _) = _ => change (roots x = roots s) end. rewrite stop_roots. by eapply roots_insert.
  - cbn zeta. destruct (negb _).
    + intros [= <-]. destruct (is_loading s k); [|done]. match goal with |- roots (goto ?x _ _) = _ => change (roots x = roots s) end. by rewrite settle_roots, stop_roots.
    + destruct (match ls_graph s !! m with Some r => imported r q | None => None end); by intros [= <-].
  - destruct (ls_stack s) as [|[k m rest|] st]; [done| |]; by intros [= <-].
  - done.
Qed.
Lemma host_roots sup s a s' : host_step sup s a = Some s' -> roots s' = roots s ++ load_roots [a].
Proof.
  intros E. assert (ls_control s = CHost \/ ls_control s <> CHost) as [C|C] by (destruct (ls_control s); auto).
  2: { destruct a; try (unfold host_step in E; by destruct (ls_control s)). cbn in E. rewrite (engine_roots _ _ _ E). cbn. by rewrite app_nil_r. }
  unfold host_step in E. rewrite C in E. destruct a as [m|i res|t res| | |r|m q m'|]; cbn [load_roots omap list_omap]; rewrite ?(right_id_L [] app).
  - injection E as <-. unfold roots. cbn. by rewrite map_app.
  - destruct (ls_tokens s !! i) as [t|]; [|done]. injection E as <-. by rewrite finish_roots.
  - injection E as <-. by rewrite finish_roots.
  - destruct (ls_stack s) as [|[k m rest|] st]; [done| |done]. by injection E as <-.
  - destruct (ls_stack s) as [|[k m rest|] st]; [done| |done]. by injection E as <-.
  - destruct (mr_status r); [|done]. by injection E as <-.
  - by injection E as <-.
  - by eapply engine_roots.
Qed.
Lemma run_roots sup l : forall s s', host_run sup s l = Some s' -> roots s' = roots s ++ load_roots l.
Proof.
  induction l as [|a l IH]; intros s s'; cbn [host_run]; [intros [= <-]; cbn; by rewrite (right_id_L [] app)|].
  destruct (host_step sup s a) as [s1|] eqn:E; [|done]. intros R. rewrite (IH _ _ R), (host_roots _ _ _ _ E), <- (assoc_L app). f_equal.
  unfold load_roots. by rewrite <- omap_app.
Qed.

(** The host's errors reported are errors the host gave for that load. *)
Definition gave (k : nat) (e : N) (a : haction) (s : lstate) : Prop :=
  match a with
  | HComplete i (inr e') => e' = e /\ exists t, ls_tokens s !! i = Some t /\ tk_load t = k
  | HRepeat t (inr e') => e' = e /\ tk_load t = k
  | _ => False
  end.
Lemma settle_log s k o : ls_log (settle s k o) = ls_log s \/ ls_log (settle s k o) = ls_log s ++ [(k, o)].
Proof. unfold settle. destruct (ls_loads s !! k) as [l|]; [|by left]. destruct (ld_rooted l); [by right|by left]. Qed.
Lemma stop_log s k : ls_log (stop_loading s k) = ls_log s.
Proof. unfold stop_loading. by destruct (ls_loads s !! k). Qed.
Lemma engine_log sup s s' k e : engine_step sup s = Some s' -> (k, Rejected (ErrHost e)) ∈ ls_log s' -> (k, Rejected (ErrHost e)) ∈ ls_log s.
Proof.
  assert (Aux : forall x j o, o <> Rejected (ErrHost e) -> (k, Rejected (ErrHost e)) ∈ ls_log (settle x j o) -> (k, Rejected (ErrHost e)) ∈ ls_log x).
  { intros x j o N. destruct (settle_log x j o) as [->| ->]; [done|]. rewrite elem_of_app, elem_of_list_singleton. intros [X|X]; [done|congruence]. }
  unfold engine_step. destruct (ls_control s) as [j m|j m [|q rest]| |].
  - destruct (ls_graph s !! m) as [r|].
    + destruct (ls_loads s !! j) as [l|] eqn:E; [|done]. destruct (_ && _); by intros [= <-].
    + intros [= <-] X. change ((k, Rejected (ErrHost e)) ∈ ls_log (settle (stop_loading s j) j (Rejected ErrMissing))) in X. apply Aux in X; [|done]. by rewrite stop_log in X.
  - destruct (ls_loads s !! j) as [l|] eqn:E; [|done]. cbn zeta. case_bool_decide; intros [= <-]; [done|]. intros X.
    match type of X with _ ∈ ls_log (goto ?x _ _) => change ((k, Rejected (ErrHost e)) ∈ ls_log x) in X end. apply Aux in X; [|done].
    match type of X with _ ∈ ls_log (put_graph ?x _) => change ((k, Rejected (ErrHost e)) ∈ ls_log x) in X end. by rewrite stop_log in X.
  - cbn zeta. destruct (negb _).
    + intros [= <-]. destruct (is_loading s j); [|done]. intros X. match type of X with _ ∈ ls_log (goto ?x _ _) => change ((k, Rejected (ErrHost e)) ∈ ls_log x) in X end.
      apply Aux in X; [|done]. by rewrite stop_log in X.
    + destruct (match ls_graph s !! m with Some r => imported r q | None => None end); by intros [= <-].
  - destruct (ls_stack s) as [|[j m rest|] st]; [done| |]; by intros [= <-].
  - done.
Qed.
Lemma finish_log s t res k o : (k, o) ∈ ls_log (finish_load s t res) -> (k, o) ∈ ls_log s \/ (tk_load t = k /\ (o = Rejected ErrConflict \/ exists e, res = inr e /\ o = Rejected e)).
Proof.
  assert (Aux : forall x r, ls_log x = ls_log s -> (k, o) ∈ ls_log (continue_load x (tk_load t) r) -> (k, o) ∈ ls_log s \/ (tk_load t = k /\ exists e, r = inr e /\ o = Rejected e)).
  { intros x r L. unfold continue_load. destruct (is_loading x (tk_load t)); [|rewrite L; by left]. destruct r as [m|e]; [cbn; rewrite L; by left|].
    destruct (settle_log (stop_loading x (tk_load t)) (tk_load t) (Rejected e)) as [->| ->]; rewrite stop_log, L; [by left|]. rewrite elem_of_app, elem_of_list_singleton.
    intros [X|X]; [by left|]. injection X as -> ->. right. split; [done|]. eauto. }
  unfold finish_load. destruct res as [m|e].
  - destruct (ls_graph s !! tk_ref t) as [r|].
    + destruct (List.find _ _) as [l|].
      * case_bool_decide; intros X; (apply Aux in X as [X|(X & e & Y & Z)]; [by left| |done]).
        -- right. split; [done|]. left. congruence.
        -- done.
      * intros X. apply Aux in X as [X|(X & e & Y & Z)]; [by left|done|done].
    + intros X. apply Aux in X as [X|(X & e & Y & Z)]; [by left|done|done].
  - intros X. apply Aux in X as [X|(X & e' & Y & Z)]; [by left| |done]. right. split; [done|]. right. eauto.
Qed.
Lemma host_log sup s a s' k e : host_step sup s a = Some s' -> (k, Rejected (ErrHost e)) ∈ ls_log s' -> (k, Rejected (ErrHost e)) ∈ ls_log s \/ gave k e a s.
Proof.
  intros E X. assert (ls_control s = CHost \/ ls_control s <> CHost) as [C|C] by (destruct (ls_control s); auto).
  2: { destruct a; try (unfold host_step in E; by destruct (ls_control s)). cbn in E. left. by eapply engine_log. }
  unfold host_step in E. rewrite C in E. destruct a as [m|i res|t res| | |r|m q m'|]; cbn [gave].
  - injection E as <-. by left.
  - destruct (ls_tokens s !! i) as [t|] eqn:Ti; [|done]. injection E as <-. apply finish_log in X as [X|(X & [Y|(e' & Y & Z)])]; [by left|done|].
    right. destruct res as [m|e0]; [done|]. cbn in Y. injection Y as <-. injection Z as <-. split; [done|]. by exists t.
  - injection E as <-. apply finish_log in X as [X|(X & [Y|(e' & Y & Z)])]; [by left|done|].
    right. destruct res as [m|e0]; [done|]. cbn in Y. injection Y as <-. injection Z as <-. done.
  - destruct (ls_stack s) as [|[j m rest|] st]; [done| |done]. injection E as <-. by left.
  - destruct (ls_stack s) as [|[j m rest|] st]; [done| |done]. injection E as <-. by left.
  - destruct (mr_status r); [|done]. injection E as <-. by left.
  - injection E as <-. by left.
  - left. by eapply engine_log.
Qed.
Lemma settlements_in s k o : o ∈ settlements s k <-> (k, o) ∈ ls_log s.
Proof.
  unfold settlements. rewrite elem_of_list_omap. split.
  - intros ([j o'] & X & Y). cbn in Y. case_bool_decide; [|done]. subst. by injection Y as ->.
  - intros X. exists (k, o). split; [done|]. cbn. by rewrite bool_decide_true.
Qed.
Lemma run_log sup l k e : forall s s', host_run sup s l = Some s' -> (k, Rejected (ErrHost e)) ∈ ls_log s' ->
  (k, Rejected (ErrHost e)) ∈ ls_log s \/ exists l1 a l2 s1, l = l1 ++ a :: l2 /\ host_run sup s l1 = Some s1 /\ gave k e a s1.
Proof.
  induction l as [|a l IH]; intros s s'; cbn [host_run]; [intros [= <-]; by left|].
  destruct (host_step sup s a) as [s1|] eqn:E; [|done]. intros R X. destruct (IH _ _ R X) as [Y|(l1 & a' & l2 & s2 & -> & R2 & G)].
  - destruct (host_log _ _ _ _ _ _ E Y) as [Z|Z]; [by left|]. right. exists [], a, l, s. done.
  - right. exists (a :: l1), a', l2, s2. split; [done|]. cbn. by rewrite E.
Qed.
