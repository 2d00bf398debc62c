(** C21, C22, C23, C59: export resolution, exported names, request equality, namespaces. *)
From stdpp Require Import base decidable list numbers sorting.
From Coq Require Import NArith Lia.
From Verif Require Import RustStr RustStrProofs ModuleModel ModuleSpec ModuleProofs.

(** C21: resolving a name always answers, on every graph, and the answer is the one
    binding the module provides, or that there is none, or that there are several. *)
Theorem resolve_export_answers : forall g m n, closed g -> m < length g ->
  exists r, resolve_export g m n = MOk r /\
    match r with
    | Resolved b => provides g m n b /\ forall b', provides g m n b' -> b' = b
    | NotFound => forall b, ~ provides g m n b
    | Ambiguous => exists b b', provides g m n b /\ provides g m n b' /\ b <> b'
    end.
Proof. intros g m n C Hm. destruct (resolve_export_total g m n C Hm) as (r & s & E & _). exists r. split; [done|]. by apply resolve_export_exact. Qed.
Print Assumptions resolve_export_answers.

Theorem resolve_export_unique : forall g m n b, closed g -> m < length g ->
  (resolve_export g m n = MOk (Resolved b) <-> (provides g m n b /\ forall b', provides g m n b' -> b' = b)).
Proof.
  intros g m n b C Hm. split; [exact (resolve_export_exact g m n (Resolved b) C Hm)|]. intros [P U]. destruct (resolve_export_answers g m n C Hm) as (r & E & K). rewrite E. f_equal.
  destruct r as [b'| |]; [f_equal; apply U, K|by apply K in P|]. destruct K as (b1 & b2 & P1 & P2 & Ne). apply U in P1, P2. congruence.
Qed.
Print Assumptions resolve_export_unique.

Theorem resolve_export_missing : forall g m n, closed g -> m < length g ->
  (resolve_export g m n = MOk NotFound <-> forall b, ~ provides g m n b).
Proof.
  intros g m n C Hm. split; [exact (resolve_export_exact g m n NotFound C Hm)|]. intros N. destruct (resolve_export_answers g m n C Hm) as (r & E & K). rewrite E. f_equal.
  destruct r as [b'| |]; [destruct (N b'); apply K|done|]. destruct K as (b1 & b2 & P1 & P2 & Ne). by destruct (N b1).
Qed.
Print Assumptions resolve_export_missing.

Theorem resolve_export_ambiguous : forall g m n, closed g -> m < length g ->
  (resolve_export g m n = MOk Ambiguous <-> exists b b', provides g m n b /\ provides g m n b' /\ b <> b').
Proof.
  intros g m n C Hm. split; [exact (resolve_export_exact g m n Ambiguous C Hm)|]. intros (b & b' & P & P' & Ne). destruct (resolve_export_answers g m n C Hm) as (r & E & K). rewrite E. f_equal.
  destruct r as [b0| |]; [destruct K as [_ U]; apply U in P, P'; congruence|by apply K in P|done].
Qed.
Print Assumptions resolve_export_ambiguous.

(** A cyclic graph meets the hypotheses, and every answer occurs in it: an own name, a
    re-export, a name found through a cycle, a name two modules define, one re-exported
    from itself, one nobody has. *)
Example resolve_case : closed demo_graph /\ 0 < length demo_graph /\
  resolve_export demo_graph 0 [97%N] = MOk (Resolved (Binding 0 (BnName [120%N]))) /\
  resolve_export demo_graph 0 [98%N] = MOk (Resolved (Binding 2 (BnName [122%N]))) /\
  resolve_export demo_graph 0 [101%N] = MOk (Resolved (Binding 1 (BnName [121%N]))) /\
  resolve_export demo_graph 0 [100%N] = MOk Ambiguous /\
  resolve_export demo_graph 2 [102%N] = MOk NotFound /\
  resolve_export demo_graph 0 default_name = MOk NotFound.
Proof. split; [exact demo_graph_closed|]. split; [cbn; lia|]. repeat split; vm_compute; reflexivity. Qed.

(** C22: the exported names are exactly the module's own and the non-default names
    declared by modules reached through star exports. *)
Theorem exported_names_complete : forall g m, closed g -> m < length g ->
  exists l, exported_names g m = MOk l /\
    forall n, n ∈ l <-> declares g m n \/ (n <> default_name /\ exists m', star_reaches g m m' /\ declares g m' n).
Proof. intros g m C Hm. destruct (exported_names_total g m C Hm) as [l E]. exists l. split; [done|]. by apply exported_names_exact. Qed.
Print Assumptions exported_names_complete.

(** Each name is listed once. Missing from the full property: the VM does not reject a
    module that declares the same export name twice, and then the name is listed twice. *)
Theorem exported_names_once_partial : forall g m l r, exported_names g m = MOk l -> g !! m = Some r -> NoDup (own_names r) -> NoDup l.
Proof. exact exported_names_nodup. Qed.
Print Assumptions exported_names_once_partial.

Example exported_names_case : exported_names demo_graph 0 = MOk [[97%N]; [98%N]; [100%N]; [101%N]; [99%N]; [102%N]] /\
  (exists r, demo_graph !! 0 = Some r /\ NoDup (own_names r)).
Proof. split; [vm_compute; reflexivity|]. eexists. split; [reflexivity|]. apply (bool_decide_eq_true_1 _). vm_compute. reflexivity. Qed.

Theorem exported_names_once_refuted : exists g m l, closed g /\ m < length g /\ exported_names g m = MOk l /\ ~ NoDup l.
Proof.
  exists [MRecord [] StUnlinked [([97%N], [97%N]); ([97%N], [98%N])] [] [] []], 0, [[97%N]; [97%N]].
  split; [intros [|m] r l E L; [injection E as <-; by apply elem_of_nil in L|done]|]. split; [cbn; lia|]. split; [vm_compute; reflexivity|].
  intros N. apply NoDup_cons in N as [N _]. apply N. constructor.
Qed.
Print Assumptions exported_names_once_refuted.

(** C23: canonical requests are equal exactly when specifier and attributes agree, in
    whatever order the attributes were written or added. *)
Theorem request_new_order_irrelevant : forall s t a b, Forall valid_attribute a ->
  (request_new s a = request_new t b <-> s = t /\ a ≡ₚ b).
Proof. exact request_new_eq. Qed.
Print Assumptions request_new_order_irrelevant.

Theorem with_import_attribute_adds : forall s a k v, Forall valid_attribute a -> valid_str k -> valid_str v ->
  with_import_attribute (request_new s a) k v = request_new s (Attr k v :: a).
Proof. exact with_attribute_order. Qed.
Print Assumptions with_import_attribute_adds.

(** ModuleRequestsEqual, for attribute lists without repetitions (source text is
    checked for that, module_record.rs 839-842; without it see
    [requests_equal_symmetric_refuted]). *)
Theorem requests_equal_exact : forall l r, NoDup (rq_attributes l) ->
  (requests_equal l r = true <-> rq_specifier l = rq_specifier r /\ rq_attributes l ≡ₚ rq_attributes r).
Proof. exact requests_equal_perm. Qed.
Print Assumptions requests_equal_exact.

Theorem requests_equal_reflexive : forall r, requests_equal r r = true.
Proof. intros r. by apply requests_equal_iff. Qed.
Print Assumptions requests_equal_reflexive.

Theorem requests_equal_transitive : forall a b c, requests_equal a b = true -> requests_equal b c = true -> requests_equal a c = true.
Proof.
  intros a b c. rewrite !requests_equal_iff. intros (A1 & A2 & A3) (B1 & B2 & B3). split; [congruence|]. split; [congruence|]. auto.
Qed.
Print Assumptions requests_equal_transitive.

Theorem requests_equal_symmetric_partial : forall a b, NoDup (rq_attributes a) -> requests_equal a b = true -> requests_equal b a = true.
Proof.
  intros a b N E. apply requests_equal_perm in E as [E P]; [|done]. apply requests_equal_perm; [by rewrite <- P|]. split; [done|]. by symmetry.
Qed.
Print Assumptions requests_equal_symmetric_partial.

Example requests_case :
  let a := Attr [97%N] [98%N] in let b := Attr [0x1F600%N] [99%N] in
  Forall valid_attribute [a; b] /\ NoDup [a; b] /\ requests_equal (Request [1%N] [a; b]) (Request [1%N] [b; a]) = true /\
  request_new [1%N] [a; b] = request_new [1%N] [b; a] /\ requests_equal (Request [1%N] [a]) (Request [1%N] [b]) = false.
Proof.
  cbn zeta. split; [repeat constructor|]. split; [apply (bool_decide_eq_true_1 _); vm_compute; reflexivity|]. repeat split; vm_compute; reflexivity.
Qed.

Theorem requests_equal_symmetric_refuted : exists a b, requests_equal a b = true /\ requests_equal b a = false.
Proof.
  exists (Request [1%N] [Attr [97%N] [97%N]; Attr [97%N] [97%N]]), (Request [1%N] [Attr [97%N] [97%N]; Attr [98%N] [98%N]]). split; vm_compute; reflexivity.
Qed.
Print Assumptions requests_equal_symmetric_refuted.

(** C59: a namespace lists exactly the names with one binding, in strictly increasing
    UTF-16 order. *)
Theorem namespace_exports_exact : forall g m, closed g -> m < length g ->
  exists l, namespace_exports g m = MOk l /\
    forall n, n ∈ l <-> exists b, provides g m n b /\ forall b', provides g m n b' -> b' = b.
Proof. intros g m C Hm. destruct (namespace_total g m C Hm) as [l E]. exists l. split; [done|]. by apply namespace_in. Qed.
Print Assumptions namespace_exports_exact.

Theorem namespace_exports_sorted : forall g m r l, valid_names g -> g !! m = Some r -> NoDup (own_names r) ->
  namespace_exports g m = MOk l -> StronglySorted utf16_lt l.
Proof. exact namespace_sorted. Qed.
Print Assumptions namespace_exports_sorted.

Example namespace_case : valid_names demo_graph /\ namespace_exports demo_graph 0 = MOk [[97%N]; [98%N]; [99%N]; [101%N]].
Proof.
  split; [|vm_compute; reflexivity].
  assert (H : Forall (fun r => Forall valid_str (own_names r)) demo_graph).
  { repeat constructor; vm_compute; reflexivity. }
  intros m r n E I. rewrite Forall_forall in H. apply elem_of_list_lookup_2 in E. specialize (H r E). rewrite Forall_forall in H. auto.
Qed.
