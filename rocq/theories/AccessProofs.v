(** [[Get]] and [[Set]] refine their specification. *)
From stdpp Require Import base decidable list numbers sets.
From Coq Require Import NArith ZArith Lia.
From RecordUpdate Require Import RecordUpdate.
From Verif Require Import VmBase HeapModel HeapObjModel HeapSpec HeapGcProofs HeapInvProofs HeapObjProofs
  ObjectOpsModel ObjectOpsProofs HeapTidyProofs HeapSafeProofs HeapSafeOps HeapSafeOps2 HeapSafeOps3 HeapHistory HeapHistoryProofs
  HeapFrameProofs HeapApiProofs
  KeySpec KeyProofs ObjSpec ObjHistorySpec ObjViewProofs ObjDefineProofs ObjOpsProofs ObjArrayProofs ObjTopProofs ObjEssentialProofs ObjHistoryProofs ObjApiProofs
  ProtoSpec ProtoProofs ProtoProperties AccessSpec.

Open Scope N_scope.

(** *** The nearest property *)
Lemma found h o l k : chain h o l -> objects h l -> (length l <= N.to_nat 10000)%nat -> good_key (abs_key h k) ->
  exists d, get_property h o k = Ok d /\ abs_desc h <$> d = nearest h l (abs_key h k).
Proof.
  intros C Ho Hl Hk. pose proof (get_property_nearest h o l k C Ho Hk) as G. destruct (nearest h (take _ l) _) as [d|].
  - destruct G as [-> (d' & E & <-)]. by exists (Some d').
  - rewrite decide_True in G by done. destruct G as [-> E]. by exists None.
Qed.
Lemma link_live h a b : no_dangling h -> proto_link h a b -> live h b.
Proof.
  intros N (v & (bs & (x & Hx & Hb)%get_object_base_Ok & ->)%abs_object_Some & Hp). apply (proj2 N _ _ _ Hx).
  eapply object_has_base; [exact Hb|]. by apply bh_proto.
Qed.
Lemma own_live h o k d id : no_dangling h -> object_get_own_property h o k = Ok (Some d) -> desc_has d id -> live h id.
Proof.
  intros N. unfold object_get_own_property. destruct (get_object_base h o) as [b| |] eqn:E; [|done..]. cbn. intros [= Hf] Hd.
  apply find_entry_in in Hf as (e & He & <-). apply get_object_base_Ok in E as (x & Hx & Hb). apply (proj2 N _ _ _ Hx).
  eapply object_has_base; [exact Hb|]. by eapply bh_desc.
Qed.
Lemma walk_live n h k vis c d id : no_dangling h -> get_property_walk n h k vis c = Ok (Some d) -> desc_has d id -> live h id.
Proof.
  intros N. revert vis c. induction n as [|n IH]; intros vis [o|]; try done. cbn [get_property_walk]. case_bool_decide; [done|].
  destruct (object_get_own_property h o k) as [[d'|]| |] eqn:E; cbn; try done.
  - intros [= <-] Hd. by eapply own_live.
  - destruct (object_prototype h o); cbn; [|done..]. apply IH.
Qed.
Lemma found_live h o k d id : no_dangling h -> get_property h o k = Ok (Some d) -> desc_has d id -> live h id.
Proof. apply walk_live. Qed.

(** [is_callable] on a value stored in an accessor. *)
Lemma callable_cases h g : (forall id, value_has g id -> live h id) -> g <> VUndefined ->
  (exists f, g = VObject f /\ is_callable h g = Ok true /\ callable h (abs_value h g) f) \/
  (is_callable h g = Ok false /\ abs_value h g <> AUndefined /\ forall f, ~ callable h (abs_value h g) f).
Proof.
  intros L Hu. destruct g; try done.
  1-6: right; split; [done|]; cbn; (split; [try done; repeat case_match; done|]); intros f [E _]; repeat case_match; done.
  assert (Lo : live h o) by (apply L; constructor). destruct Lo as [x Hx]. pose proof (proj2 (get_heap_object_Ok h o x) Hx) as E.
  cbn. rewrite E. cbn. destruct x as [| | |f| |].
  4: { left. exists o. do 2 (split; [done|]). split; [done|]. by exists f. }
  all: right; split; [done|]; split; [done|]; intros f [[= <-] [b Hb]]; pose proof (live_as_fun _ _ _ _ Hx Hb); done.
Qed.

Lemma abs_undefined h g : abs_value h g = AUndefined <-> g = VUndefined.
Proof. split; [|by intros ->]. destruct g; cbn; repeat case_match; done. Qed.

(** *** [[Get]] *)
Lemma get_exact call h o k recv l : no_dangling h -> chain h o l -> objects h l -> (length l <= N.to_nat 10000)%nat -> good_key (abs_key h k) ->
  exists out, get_spec h (nearest h l (abs_key h k)) out /\
    match out with
    | GValue x => exists y, ordinary_get call o k recv h = (h, Ok y) /\ abs_value h y = x
    | GCall f => ordinary_get call o k recv h = call (VObject f) recv [] h
    | GTypeError => ordinary_get call o k recv h = (h, Err ETypeError)
    end.
Proof.
  intros N C Ho Hl Hk. destruct (found h o l k C Ho Hl Hk) as (d & E & <-). remember (ordinary_get call o k recv h) as m eqn:Em.
  unfold ordinary_get, mbind, mread in Em. rewrite E in Em.
  destruct d as [d|]; cbn [fmap option_fmap option_map].
  2: { exists (GValue AUndefined). split; [constructor|]. by exists VUndefined. }
  assert (L := fun id => found_live h o k d id N E). destruct d as [e c [y w|g s]]; cbn [pd_kind] in Em.
  { exists (GValue (abs_value h y)). split; [by econstructor|]. by exists y. }
  destruct (decide (g = VUndefined)) as [->|Hu].
  { exists (GValue AUndefined). split; [by eapply gs_no_getter|]. by exists VUndefined. }
  assert (Em' : m = match is_callable h g with Ok c => if negb c then (h, Err ETypeError) else call g recv [] h | Err e => (h, Err e) | Panic => (h, Panic) end).
  { subst m. destruct g; try done; destruct (is_callable h _) as [[]| |]; done. }
  clear Em. destruct (callable_cases h g) as [(f & -> & Ec & Hf)|(Ec & Hn & Hf)]; auto.
  { intros id Hid. apply L. by constructor. }
  - exists (GCall f). split; [by eapply gs_getter|]. by rewrite Em', Ec.
  - exists GTypeError. split; [by eapply gs_bad_getter|]. by rewrite Em', Ec.
Qed.

(** *** Chains across pushing roots *)
Lemma chain_carry h h1 o l : no_dangling h1 -> (forall x, live h1 x -> abs_object h1 x = abs_object h x) -> live h1 o -> chain h o l -> objects h l ->
  chain h1 o l /\ objects h1 l /\ forall k, nearest h1 l k = nearest h l k.
Proof.
  intros N V L C. revert L. induction C as [a Hn|a b l Hl C IH]; intros L Ho.
  - assert (E : abs_object h1 a = abs_object h a) by auto. split; [|split].
    + constructor. intros b (v & Hv & Hb). apply (Hn b). exists v. by rewrite <- E.
    + intros x ->%elem_of_list_singleton. rewrite E. apply Ho. left.
    + intros k. cbn. by rewrite E.
  - assert (E : abs_object h1 a = abs_object h a) by auto.
    assert (Hl1 : proto_link h1 a b) by (destruct Hl as (v & Hv & Hb); exists v; by rewrite E).
    destruct IH as (C1 & O1 & N1); [by eapply link_live|intros x Hx; apply Ho; by right|]. split; [by econstructor|]. split.
    + intros x [->|Hx]%elem_of_cons; [rewrite E; apply Ho; left|auto].
    + intros k. cbn. by rewrite E, N1.
Qed.

(** *** [[Set]] *)
Definition set_rest (call : call_fn) (o : heap_id) (k : property_key) (v receiver : value) : M bool :=
  let* d := mread (fun h => get_property h o k) in
  let d := default (PDesc true true (PData VUndefined true)) d in
  match pd_kind d with
  | PData _ w =>
      if negb w then mret false
      else
        match receiver with
        | VObject r =>
            let* ex := mread (fun h => object_get_own_property h r k) in
            match ex with
            | Some ex =>
                match pd_kind ex with
                | PAccessor _ _ => mret false
                | PData _ rw =>
                    if negb rw then mret false
                    else define_own_property r k (patch_default <| pp_value := Some v |>)
                end
            | None => create_data_property r k v
            end
        | _ => mret false
        end
  | PAccessor _ VUndefined => mret false
  | PAccessor _ s =>
      let* c := mread (fun h => is_callable h s) in
      if negb (c : bool) then mfail ETypeError
      else call s receiver [v] ;;; mret true
  end.
Lemma set_unfold call o k v receiver : ordinary_set call o k v receiver = (push_roots [VObject o; key_value k; v; receiver] ;;; set_rest call o k v receiver).
Proof. done. Qed.

Lemma push_back vs h h1 r id x : heap_ok h -> push_roots vs h = (h1, r) -> live_as h1 id x -> live_as h id x.
Proof.
  intros H E L. unfold push_roots in E. destruct (push_roots_spec vs [] h H) as (h2 & H2 & G & Hc).
  assert (Es : h_slots h1 = h_slots h2). { destruct Hc as [E1|(c & E1 & _)]; rewrite E1 in E; by simplify_eq. }
  eapply gstep_live_back; [exact G|]. unfold live_as, live_with in *. by rewrite <- Es.
Qed.
Lemma callable_carry vs h h1 r g : heap_ok h -> push_roots vs h = (h1, r) -> (forall o x, live_as h o x -> live h1 o -> live_as h1 o x) ->
  (forall f, g = AObj f -> live h1 f) -> forall f, callable h1 g f <-> callable h g f.
Proof.
  intros H E K L f. split; intros [-> [b Hb]]; (split; [done|]); exists b; [by eapply push_back|]. apply K; auto.
Qed.

Lemma define_result_patch v k p r v' : ~ patch_mixed p -> define_result v k p r v' -> patch_result v k p r v'.
Proof. intros Hp [H|[(_ & ? & _)|H]]; [by left|done|by right]. Qed.

Section set.
  Context (call : call_fn) (h : heap) (o : heap_id) (k : property_key) (x recv : value) (l : list heap_id) (h' : heap) (r : res bool).
  Hypothesis H : heap_ok h.
  Hypothesis N : no_dangling h.
  Hypothesis C : chain h o l.
  Hypothesis Ho : objects h l.
  Hypothesis Hl : (length l <= N.to_nat 10000)%nat.
  Hypothesis L : forall id, id ∈ o :: key_handles k ++ values_handles [x; recv] -> live h id.
  Hypothesis Hk : good_key (abs_key h k).
  Hypothesis Hx : ~ stale (abs_value h x).
  Hypothesis Hrc : forall rc, recv = VObject rc -> exists v, well_formed h rc v.

  Lemma handles_live : forall id, id ∈ trace_values [VObject o; key_value k; x; recv] -> live h id.
  Proof.
    intros id. rewrite !trace_values_cons, trace_key_value. intros Hi. apply L. rewrite handles_key, handles_values, !trace_values_cons.
    cbn [trace_value] in Hi. set_solver.
  Qed.
  Lemma set_exact : ordinary_set call o k x recv h = (h', r) ->
    (r = Err EOutOfMemory /\ same_objects h h') \/
    exists t, set_spec h (abs_key h k) (abs_value h x) (nearest h l (abs_key h k)) (receiver_view h recv) t /\
      set_effect call h (abs_key h k) x recv h' r t.
  Proof.
    intros E0. pose proof E0 as E. rewrite set_unfold in E. unfold mbind at 1 in E.
    destruct (push_roots _ h) as [h1 r1] eqn:E1.
    destruct (push_enter _ h h1 r1 H N handles_live E1) as (H1 & N1 & T1 & F1 & Hr & Str & Vw & Lv & Rt).
    assert (S1 : same_objects h h1) by (intros id _ ?; auto).
    destruct Hr as [->| ->]; [|injection E as <- <-; by left]. right. specialize (Rt eq_refl).
    set (X := trace_values [VObject o; key_value k; x; recv]) in *.
    assert (RX : forall y, y ∈ X -> live h1 y) by (intros y Hy; apply N1, stack_rooted_rooted, Rt, Hy).
    assert (EX : X = o :: trace_key k ++ trace_value x ++ trace_value recv).
    { unfold X. rewrite !trace_values_cons, trace_key_value. cbn [trace_values flat_map app trace_value]. by rewrite ?app_nil_r. }
    assert (Lo : live h1 o) by (apply RX; rewrite EX; left).
    assert (Lk : forall y, y ∈ trace_key k -> live h1 y) by (intros y Hy; apply RX; rewrite EX; set_solver).
    assert (Lx : forall y, y ∈ trace_value x -> live h1 y) by (intros y Hy; apply RX; rewrite EX; set_solver).
    assert (Ek : abs_key h1 k = abs_key h k).
    { apply abs_key_ext. intros s Hs. apply Str, Lk. by apply trace_key_in. }
    assert (Ex : abs_value h1 x = abs_value h x).
    { apply abs_value_ext. intros s Hs. apply Str, Lx. by apply trace_value_in. }
    destruct (chain_carry h h1 o l N1 Vw Lo C Ho) as (C1 & O1 & Nr). rewrite <- Nr, <- Ek.
    destruct (found h1 o l k C1 O1 Hl) as (d & Ed & <-); [by rewrite Ek|].
    unfold set_rest in E. unfold mbind at 1, mread at 1 in E. rewrite Ed in E.
    assert (Ld := found_live h1 o k).
    destruct (pd_kind (default (PDesc true true (PData VUndefined true)) d)) as [y w|g s] eqn:Hd.
    2: { destruct d as [d|]; cbn in Hd; [|done]. destruct d as [de dc dk]. cbn in Hd. subst dk. cbn [fmap option_fmap option_map].
         destruct (decide (s = VUndefined)) as [->|Hu].
         { injection E as <- <-. exists SRefused. split; [by eapply ss_no_setter|done]. }
         assert (E' : match is_callable h1 s with Ok c => if negb c then (h1, Err ETypeError) else (call s recv [x] ;;; mret true) h1 | Err e => (h1, Err e) | Panic => (h1, Panic) end = (h', r)).
         { rewrite <- E. unfold mbind, mread. destruct s; try done; destruct (is_callable h1 _) as [[]| |]; done. }
         assert (Ls : forall id, value_has s id -> live h1 id).
         { intros id Hid. eapply Ld; [done|exact Ed|]. by apply dh_set. }
         assert (Lf : forall f, abs_value h1 s = AObj f -> live h1 f).
         { clear -Ls. intros f Hf. apply Ls. destruct s; cbn in Hf; repeat case_match; try discriminate Hf. injection Hf as <-. constructor. }
         pose proof (callable_carry _ _ _ _ _ H E1 Lv Lf) as Cc.
         destruct (callable_cases h1 s Ls Hu) as [(f & -> & Ec & Hf)|(Ec & Hn & Hf)]; rewrite Ec in E'; cbn [negb] in E'.
         - exists (SCall f). split; [eapply ss_setter; [done|by apply Cc]|]. by exists h1.
         - injection E' as <- <-. exists STypeError. split; [|done]. eapply ss_bad_setter; [done|done|]. intros f Hc. by apply (Hf f), Cc. }
    assert (Nd : forall w', w = w' -> match d with None => w' = true | Some d => exists y, a_kind (abs_desc h1 d) = AData y w' end).
    { intros w' <-. destruct d as [d|]; cbn in Hd; [|congruence]. unfold abs_desc. cbn. rewrite Hd. eauto. }
    destruct w; cbn [negb] in E.
    2: { injection E as <- <-. exists SRefused. split; [|done]. destruct d as [d|]; [|by specialize (Nd _ eq_refl)].
         destruct (Nd _ eq_refl) as [z Hz]. by eapply ss_readonly. }
    assert (As : assignable (abs_desc h1 <$> d)) by (specialize (Nd _ eq_refl); by destruct d).
    destruct recv as [| | | | | | |rc] eqn:Erc; try (injection E as <- <-; exists SRefused; split; [by apply ss_primitive|done]).
    destruct (Hrc rc eq_refl) as [v Wv]. cbn [receiver_view]. destruct Wv as [Vv Wv]. rewrite Vv.
    assert (R : ready h rc v) by (by constructor).
    assert (Lrc : live h1 rc) by (apply RX; rewrite EX; cbn; set_solver).
    assert (S : st h1 rc X v h1).
    { constructor; auto; [rewrite EX; cbn; set_solver|by rewrite Vw|]. intros Hkd. destruct (ready_kind _ _ _ R Hkd) as (b & Hb). exists b. auto. }
    assert (Hsh : shaped v) by (by eapply ready_shaped).
    destruct (st_base _ _ _ _ _ S) as (b & Eb & Ev & _).
    assert (Eo : object_get_own_property h1 rc k = Ok (find_entry h1 k (ob_properties b))) by (unfold object_get_own_property; by rewrite Eb).
    unfold mbind at 1, mread at 1 in E. rewrite Eo in E.
    assert (Hg1 : good_key (abs_key h1 k)) by (by rewrite Ek).
    pose proof (find_entry_abs h1 k (ob_properties b) Hg1) as Hf.
    change (map (abs_entry h1) (ob_properties b)) with (ao_props (abs_base h1 b)) in Hf. rewrite <- Ev in Hf. fold (own v (abs_key h1 k)) in Hf.
    (* the result of a definition *)
    assert (Fin : forall m p, tria h1 rc X v h1 m (define_result v (abs_key h1 k) p) -> ~ patch_mixed p -> m h1 = (h', r) ->
      ordinary_set stop_call o k x (VObject rc) h = (h', r) -> set_effect call h (abs_key h1 k) x (VObject rc) h' r (SDefine p)).
    { intros m p T Hp Em Es. destruct (T _ _ Em) as (F & _ & v' & S' & Hq). exists rc, v, v'. split; [done|]. split; [by split|]. split.
      { apply wf_shaped; [apply S'| |apply S']. eapply shaped_kept; [exact Hsh|]. by eapply define_result_shape. }
      split; [by apply define_result_patch|]. intros Hrn id Hne Li Li'.
      assert (Dc : disciplined (OpSet o k x (VObject rc)) h) by exact L.
      destruct (safe_exec _ _ H N Dc) as [N' _]. destruct (exec_evolves (OpSet o k x (VObject rc)) h H) as [_ V'].
      cbn [exec] in N', V'. rewrite void_fst, Es in N', V'. cbn [fst] in N', V'.
      apply (other_views rc); auto; [eapply frame_trans; [apply F1|exact F]|by eapply ready_live]. }
    assert (Es : forall m, set_rest stop_call o k x (VObject rc) h1 = m h1 -> m h1 = (h', r) -> ordinary_set stop_call o k x (VObject rc) h = (h', r)).
    { intros m Em Em'. rewrite set_unfold. unfold mbind at 1. rewrite E1. by rewrite Em. }
    unfold set_rest in Es. unfold mbind at 1, mread at 1 in Es. rewrite Ed, Hd in Es. cbn [negb] in Es. unfold mbind at 1, mread at 1 in Es. rewrite Eo in Es.
    destruct (find_entry h1 k (ob_properties b)) as [ex|] eqn:Efe; cbn in Hf.
    + destruct (pd_kind ex) as [z rw|g s] eqn:Hex.
      2: { injection E as <- <-. exists SRefused. split; [|done]. eapply ss_receiver_accessor; [done|by rewrite <- Hf|]. unfold abs_desc. cbn. by rewrite Hex. }
      destruct rw; cbn [negb] in E.
      2: { injection E as <- <-. exists SRefused. split; [|done]. eapply ss_receiver_readonly; [done|by rewrite <- Hf|]. unfold abs_desc. cbn. by rewrite Hex. }
      exists (SDefine (APatch None None (Some (abs_value h1 x)) None None None)). split.
      { rewrite <- Ex. eapply ss_update; [done|by rewrite <- Hf|]. unfold abs_desc. cbn. by rewrite Hex. }
      assert (Tr : tria h1 rc X v h1 (define_own_property rc k (patch_default <| pp_value := Some x |>)) (define_result v (abs_key h1 k) (abs_patch h1 (patch_default <| pp_value := Some x |>)))).
      { apply tria_define_own; auto; [intros id Hid; apply Lx; cbn in Hid; by rewrite app_nil_r in Hid|]. split; [|split]; cbn; [intros q [= <-]; by rewrite Ex|done|done]. }
      eapply Fin; [exact Tr|by intros [_ [?|?]]|exact E|by eapply Es].
    + exists (SDefine (APatch (Some true) (Some true) (Some (abs_value h1 x)) (Some true) None None)). split.
      { rewrite <- Ex. eapply ss_create; [done|by rewrite <- Hf]. }
      assert (Tr : tria h1 rc X v h1 (create_data_property rc k x) (define_result v (abs_key h1 k) (abs_patch h1 (data_patch x)))).
      { apply tria_create_data; auto; [intros id Hid; apply Lx; cbn in Hid; by rewrite app_nil_r in Hid|by rewrite Ex]. }
      eapply Fin; [exact Tr|by intros [_ [?|?]]|exact E|by eapply Es].
  Qed.
End set.

(** *** Reading back what was set *)
Lemma merged_value cur p x : ap_value p = Some x -> ~ ap_accessor p -> exists w, a_kind (merged cur p) = AData x w.
Proof.
  intros Hv Ha. unfold merged. cbn [a_kind]. rewrite Hv. assert (ap_data p) by (left; by rewrite Hv).
  destruct (a_kind <$> cur) as [[y w|g s]|]; [rewrite decide_False by done|rewrite decide_True by done|rewrite decide_False by done]; cbn; eauto.
Qed.
Lemma own_first h o k d : object_get_own_property h o k = Ok (Some d) -> get_property h o k = Ok (Some d).
Proof.
  intros E. unfold get_property, max_prototype_chain. replace (N.to_nat 10000) with (S (N.to_nat 9999)) by lia. cbn [get_property_walk].
  rewrite bool_decide_eq_false_2 by (by intros ?%elem_of_nil). by rewrite E.
Qed.
Lemma get_own_data call h o v k recv d x w : abs_object h o = Some v -> good_key (abs_key h k) -> own v (abs_key h k) = Some d -> a_kind d = AData x w ->
  exists y, ordinary_get call o k recv h = (h, Ok y) /\ abs_value h y = x.
Proof.
  intros V Hk Ho Hd. destruct (get_own_reads h o v k V Hk) as (d' & E & Hd'). rewrite Ho in Hd'. destruct d' as [d'|]; [|done]. injection Hd' as Hd'.
  pose proof (own_first _ _ _ _ E) as G. unfold ordinary_get, mbind, mread. rewrite G. rewrite <- Hd' in Hd. destruct d' as [e c [y w'|g s]]; cbn in *; [|done].
  injection Hd as Hd _. by exists y.
Qed.
