(** SSA form reads what has been written. *)
From stdpp Require Import base decidable sets numbers gmap list.
From Coq Require Import NArith ZArith Lia.
From Verif Require Import VmBase RustStr ILModel CfgSpec ILSpec PassModel DomModel CfgPruneModel CfgPruneProofs BranchProofs CfgProofs ILCheck SsaModel SsaFormProofs SsaSimProofs SsaBuildProofs.

Local Open Scope N_scope.
Local Notation T := (flat_map i_tgts).

Lemma in_tgts (is : block) k i v : is !! k = Some i -> v ∈ i_tgts i -> v ∈ T is.
Proof. intros H Hv. apply elem_of_list_In, in_flat_map. exists i. split; apply elem_of_list_In; [by eapply elem_of_list_lookup_2|done]. Qed.
Lemma rename_tgts_in v ts : forall K n ts' K' n', rename_tgts K n ts = (ts', K', n') -> v ∈ ts -> top K' v ∈ ts'.
Proof.
  induction ts as [|t ts IH]; intros K n ts' K' n' H Hv; [by apply elem_of_nil in Hv|]. cbn in H. destruct (rename_tgts (push K t n) (n + 1) ts) as [[ts1 K1] n1] eqn:E. injection H as <- <- <-.
  destruct (decide (v ∈ ts)) as [Hin|Hin]; [apply elem_of_cons; right; by eapply IH|]. apply elem_of_cons in Hv as [->|?]; [|done].
  rewrite (top_rename_tgts _ _ Hin _ _ _ _ _ E), top_push, decide_True by done. constructor.
Qed.
Lemma rename_inst_top K n i i1 K1 n1 : rename_inst K n i = (i1, K1, n1) -> forall v, (top K1 v = top K v /\ v ∉ i_tgts i) \/ top K1 v ∈ i_tgts i1.
Proof.
  intros E v. unfold rename_inst in E. destruct (rename_tgts K n _) as [[ts3 K3] n3] eqn:E3. injection E as <- <- <-.
  assert (Et : i_tgts (if is_phi i then i else set_args i (map (rename_arg K) (i_args i))) = i_tgts i) by (by destruct (is_phi i)). rewrite Et in E3.
  destruct (decide (v ∈ i_tgts i)) as [Hv|Hv]; [right; by eapply rename_tgts_in|left; split; [by eapply top_rename_tgts|done]].
Qed.
Lemma rename_block_at is : forall K n is' K' n', rename_block K n is = (is', K', n') -> forall j i', is' !! j = Some i' ->
  exists i Kj, is !! j = Some i /\ (is_phi i = false -> i_args i' = map (rename_arg Kj) (i_args i)) /\
    forall v, (top Kj v = top K v /\ v ∉ T (take j is)) \/ exists j' i2, (j' < j)%nat /\ is' !! j' = Some i2 /\ top Kj v ∈ i_tgts i2.
Proof.
  induction is as [|i is IH]; intros K n is' K' n' H j i' Hj; cbn [rename_block] in H; [by injection H as <- <- <-|].
  destruct (rename_inst K n i) as [[i1 K1] n1] eqn:E. destruct (rename_block K1 n1 is) as [[is2 K2] n2] eqn:E2. injection H as <- <- <-. destruct j as [|j]; cbn in Hj.
  - injection Hj as <-. exists i, K. split; [done|]. split; [|intros v; left; split; [done|]; by intros ?%elem_of_nil]. intros Hp. unfold rename_inst in E. rewrite Hp in E. destruct (rename_tgts K n _) as [[ts3 K3] n3]. by injection E as <- <- <-.
  - destruct (IH _ _ _ _ _ E2 j i' Hj) as (i0 & Kj & A & B & C). exists i0, Kj. split; [done|]. split; [done|]. intros v. destruct (C v) as [[C1 C2]|(j' & i2 & C1 & C2 & C3)].
    + destruct (rename_inst_top _ _ _ _ _ _ E v) as [[D1 D2]|D]; [left; split; [congruence|]; cbn; by intros [?|?]%elem_of_app|]. right. exists 0%nat, i1. split; [lia|]. split; [done|]. by rewrite C1.
    + right. exists (S j'), i2. split; [lia|]. done.
Qed.
Lemma rename_block_out is : forall K n is' K' n', rename_block K n is = (is', K', n') -> forall v, (top K' v = top K v /\ v ∉ T is) \/ exists j i2, is' !! j = Some i2 /\ top K' v ∈ i_tgts i2.
Proof.
  induction is as [|i is IH]; intros K n is' K' n' H v; cbn [rename_block] in H; [injection H as <- <- <-; left; split; [done|]; by intros ?%elem_of_nil|].
  destruct (rename_inst K n i) as [[i1 K1] n1] eqn:E. destruct (rename_block K1 n1 is) as [[is2 K2] n2] eqn:E2. injection H as <- <- <-. destruct (IH _ _ _ _ _ E2 v) as [[C1 C2]|(j & i2 & C1 & C2)].
  - destruct (rename_inst_top _ _ _ _ _ _ E v) as [[D1 D2]|D]; [left; split; [congruence|]; cbn; by intros [?|?]%elem_of_app|]. right. exists 0%nat, i1. split; [done|]. by rewrite C1.
  - right. by exists (S j), i2.
Qed.
Lemma top_pushes_in v vs : forall K n, v ∈ vs -> exists j, names n vs !! j = Some (top (pushes K n vs) v).
Proof.
  induction vs as [|u vs IH]; intros K n Hv; [by apply elem_of_nil in Hv|]. cbn [names pushes]. destruct (decide (v ∈ vs)) as [Hin|Hin]; [destruct (IH (push K u n) (n + 1) Hin) as [j Hj]; by exists (S j)|].
  apply elem_of_cons in Hv as [->|?]; [|done]. exists 0%nat. rewrite top_pushes by done. by rewrite top_push, decide_True.
Qed.

Section uses.
  Context (c c' : cfg) (n0 : N) (vs : N -> list N) (G : gmap N (stacks * N * stacks)).
  Local Notation B l := (block_of (c_blocks c) l).
  Context (Hplain : forall l i, i ∈ B l -> is_phi i = false /\ small n0 i).
  Context (Hg : c_graph c' = c_graph c) (He : c_entry c' = c_entry c) (Hent : vs (c_entry c) = []).
  Context (Hblocks : forall x p, path c (x :: p) -> ssa_block n0 c c' vs G x).
  Context (Hstart : forall Kin nx Kout, G !! c_entry c = Some (Kin, nx, Kout) -> forall v, top Kin v = v).
  Context (Hflow : forall p x Kp np Kop Kx nx Kox, (exists q, path c (p :: q)) -> edge (c_graph c) p x -> G !! p = Some (Kp, np, Kop) -> G !! x = Some (Kx, nx, Kox) -> forall v, v < n0 -> (v ∉ vs x) -> top Kop v = top Kx v).

  Lemma path_same p : path c' p -> path c p.
  Proof. induction 1 as [|l n p _ IH He']; [rewrite He; constructor|]. constructor; [done|]. by rewrite <- Hg. Qed.
  (** The name of [v] after the phis of [x]. *)
  Definition known_in (x : N) (p : list N) (K : stacks) (m : nat) (v : N) : Prop :=
    (top K v = v /\ forall l, l ∈ p -> v ∉ T (B l)) \/ (exists l k, l ∈ p /\ defines c' (top K v) l k) \/ exists k, (k < m)%nat /\ defines c' (top K v) x k.
  Definition known_out (p : list N) (K : stacks) (v : N) : Prop :=
    (top K v = v /\ forall l, l ∈ p -> v ∉ T (B l)) \/ exists l k, l ∈ p /\ defines c' (top K v) l k.
  Lemma known_phis x p Kin nx P R v : v ∈ vs x -> block_of (c_blocks c') x = P ++ R -> Forall3 (fun (v t : N) i => i_tgts i = [t]) (vs x) (names nx (vs x)) P ->
    known_in x p (pushes Kin nx (vs x)) (length P) v.
  Proof.
    intros Hv Eb HP. destruct (top_pushes_in v (vs x) Kin nx Hv) as [j Hj]. destruct (Forall3_lookup_m _ _ _ _ j _ HP Hj) as (u & i & _ & Hi & Ht).
    right. right. exists j. split; [by eapply lookup_lt_Some|]. exists i. unfold in_prog. rewrite Eb, lookup_app_l by (by eapply lookup_lt_Some). split; [done|]. rewrite Ht. apply elem_of_list_singleton. done.
  Qed.
  Lemma known p : path c p -> forall x q, p = x :: q -> forall Kin nx Kout P R n2, G !! x = Some (Kin, nx, Kout) -> block_of (c_blocks c') x = P ++ R ->
    Forall3 (fun v t i => is_phi i = true /\ i_tgts i = [t] /\ forall p, edge (c_graph c) p x -> exists Ki ni Kp, G !! p = Some (Ki, ni, Kp) /\ ent p i = Some (AVar (top Kp v))) (vs x) (names nx (vs x)) P ->
    rename_block (pushes Kin nx (vs x)) (nx + N.of_nat (length (vs x))) (B x) = (R, Kout, n2) ->
    forall v, v < n0 -> known_in x q (pushes Kin nx (vs x)) (length P) v /\ known_out (x :: q) Kout v.
  Proof.
    induction 1 as [|l n p Hp IH Hln]; intros x q [= <- <-] Kin nx Kout P R n2 Gx Eb HP HR v Hv.
    all: match goal with |- ?A /\ _ => assert (KI : A) end.
    - left. rewrite Hent. cbn. rewrite (Hstart _ _ _ Gx). split; [done|]. by intros l ?%elem_of_nil.
    - split; [done|]. destruct (rename_block_out _ _ _ _ _ _ HR v) as [[A1 A2]|(j & i2 & A1 & A2)].
      + destruct KI as [[B1 B2]|[(l & k & ?%elem_of_nil & _)|(k & _ & D)]]; [left|done|right].
        * split; [congruence|]. intros l [->|Hl]%elem_of_cons; [done|by apply B2].
        * exists (c_entry c), k. rewrite A1. split; [constructor|done].
      + right. exists (c_entry c), (length P + j)%nat. split; [constructor|]. exists i2. unfold in_prog. rewrite Eb, lookup_app_r by lia. split; [|done]. by replace (length P + j - length P)%nat with j by lia.
    - destruct (decide (v ∈ vs n)) as [Hin|Hin]; [eapply known_phis; [done|exact Eb|]; eapply Forall3_impl; [exact HP|]; by intros ? ? ? (_ & ? & _)|].
      destruct (Hblocks l p Hp) as (Kl & nl & Kol & Pl & Rl & n2l & Gl & Ebl & HPl & HRl & _). destruct (IH l p eq_refl _ _ _ _ _ _ Gl Ebl HPl HRl v Hv) as [_ KO].
      pose proof (Hflow l n _ _ _ _ _ _ (ex_intro _ p Hp) Hln Gl Gx v Hv Hin) as F. unfold known_in. rewrite (top_pushes _ _ Hin). rewrite <- F.
      destruct KO as [KO|KO]; [by left|right; by left].
    - split; [done|]. destruct (rename_block_out _ _ _ _ _ _ HR v) as [[A1 A2]|(j & i2 & A1 & A2)].
      + destruct KI as [[B1 B2]|[(l' & k & Hl & D)|(k & _ & D)]]; [left|right|right].
        * split; [congruence|]. intros l' [->|Hl]%elem_of_cons; [done|by apply B2].
        * exists l', k. rewrite A1. split; [by constructor|done].
        * exists n, k. rewrite A1. split; [constructor|done].
      + right. exists n, (length P + j)%nat. split; [constructor|]. exists i2. unfold in_prog. rewrite Eb, lookup_app_r by lia. split; [|done]. by replace (length P + j - length P)%nat with j by lia.
  Qed.
  Lemma reads_written : (forall x l k i, in_prog c l k i -> AVar x ∈ i_args i -> available c x l k) ->
    forall x l k i, in_prog c' l k i -> is_phi i = false -> AVar x ∈ i_args i -> available c' x l k.
  Proof.
    intros Hav x l k i Hi Hp Hx p Hpath. apply path_same in Hpath. destruct (Hblocks l p Hpath) as (Kin & nx & Kout & P & R & n2 & Gl & Eb & HP & HR & _).
    unfold in_prog in Hi. rewrite Eb in Hi. apply lookup_app_Some in Hi as [Hi|[Hk Hi]].
    { exfalso. destruct (Forall3_lookup_r _ _ _ _ k i HP Hi) as (? & ? & _ & _ & E & _). congruence. }
    destruct (rename_block_at _ _ _ _ _ _ HR _ _ Hi) as (i0 & Kj & A & Ha & C). destruct (Hplain l i0) as [Hp0 [_ Hs]]; [by eapply elem_of_list_lookup_2|]. rewrite (Ha Hp0) in Hx.
    apply elem_of_list_In, in_map_iff in Hx as (a & Ea & Hin%elem_of_list_In). destruct a as [| | |v]; try discriminate Ea. injection Ea as <-. pose proof (Hs v Hin) as Hv.
    destruct (C v) as [[C1 C2]|(j' & i2 & C1 & C2 & C3)].
    - rewrite C1. destruct (proj1 (known _ Hpath l p eq_refl _ _ _ _ _ _ Gl Eb HP HR v Hv)) as [[B1 B2]|[(l' & k' & D)|(k' & Hk' & D)]].
      + exfalso. destruct (Hav v l _ i0 A Hin p Hpath) as [(l' & k' & Hl & i3 & Hi3 & Hv3)|(k' & Hk' & i3 & Hi3 & Hv3)]; [apply (B2 l' Hl); by eapply in_tgts|]. apply C2. eapply (in_tgts _ k'); [|exact Hv3]. by rewrite lookup_take.
      + left. by exists l', k'.
      + right. exists k'. split; [lia|done].
    - right. exists (length P + j')%nat. split; [lia|]. exists i2. unfold in_prog. rewrite Eb, lookup_app_r by lia. split; [|done]. by replace (length P + j' - length P)%nat with j' by lia.
  Qed.
End uses.

Section build.
  Context (c : cfg) (n0 : N).
  Context (Hok : prog_ok c) (Hb : built (c_graph c)) (Hbm : blocks_match c) (Hentry : is_Some (c_blocks c !! c_entry c)).
  Context (Hreach : forall l, is_Some (c_blocks c !! l) -> reaches (c_graph c) (c_entry c) l) (Hfirst : forall p, ~ edge (c_graph c) p (c_entry c)).
  Context (Hplain : forall l i, i ∈ block_of (c_blocks c) l -> is_phi i = false /\ small n0 i).
  Lemma ssa_reads c' n' : construct_ssa c n0 = Some (c', n') -> (forall x l k i, in_prog c l k i -> AVar x ∈ i_args i -> available c x l k) ->
    forall x l k i, in_prog c' l k i -> is_phi i = false -> AVar x ∈ i_args i -> available c' x l k.
  Proof.
    intros H Hav. destruct (ssa_facts c n0 Hb Hbm Hentry Hreach Hfirst Hplain c' n' H) as (vs & G & F1 & F2 & F3 & F4 & F5 & F6 & F7 & F8). by apply (reads_written c c' n0 vs G).
  Qed.
  Lemma reaches_path l : reaches (c_graph c) (c_entry c) l -> exists p, path c (l :: p).
  Proof.
    unfold reaches. intros H. apply rtc_ind_r with (P := fun l => exists p, path c (l :: p)) in H; [done|exists []; constructor|]. intros y z _ Hyz [p Hp]. exists (y :: p). by constructor.
  Qed.
  Lemma ssa_phis c' n' : construct_ssa c n0 = Some (c', n') -> phis_of (block_of (c_blocks c') (c_entry c')) = [] /\
    forall l k i p, in_prog c' l k i -> is_phi i = true -> edge (c_graph c') p l -> p ∈ i_labels i.
  Proof.
    intros H. destruct (ssa_facts c n0 Hb Hbm Hentry Hreach Hfirst Hplain c' n' H) as (vs & G & F1 & F2 & F3 & F4 & F5 & F6 & F7 & F8).
    assert (Rest : forall l p, path c (l :: p) -> exists P R, block_of (c_blocks c') l = P ++ R /\ (vs l = [] -> P = []) /\ (forall i, i ∈ R -> is_phi i = false) /\ forall i q, i ∈ P -> edge (c_graph c) q l -> q ∈ i_labels i).
    { intros l p Hp. destruct (F6 l p Hp) as (Kin & nx & Kout & P & R & n2 & Gl & Eb & HP & HR & _). exists P, R. split; [done|]. split; [intros E; rewrite E in HP; by inversion HP|]. split; [eapply rename_block_plain; [exact HR|]; intros i Hi; by apply (Hplain l)|].
      intros i q Hi Hq. apply elem_of_list_lookup in Hi as [k Hk]. destruct (Forall3_lookup_r _ _ _ _ k i HP Hk) as (v & t & _ & _ & _ & _ & He). destruct (He q Hq) as (Ki & ni & Kp & _ & En). clear -En. unfold ent in En. revert En.
      generalize (i_args i). induction (i_labels i) as [|y ls IH]; intros [|a as_]; cbn; try done. destruct (N.eqb_spec y q) as [->|]; [constructor|]. intros En. apply elem_of_cons. right. by eapply IH. }
    split.
    - rewrite F2. destruct (Rest (c_entry c) []) as (P & R & -> & HP & HR & _); [constructor|]. rewrite (HP F3). cbn. destruct R as [|i R]; cbn; [done|]. by rewrite (HR i ltac:(constructor)).
    - intros l k i p Hi Hph He. rewrite F1 in He. destruct (reaches_path l) as [q Hq]; [apply Hreach; by apply (edge_has c Hb Hbm p l)|]. destruct (Rest l q Hq) as (P & R & Eb & _ & HR & HP).
      unfold in_prog in Hi. rewrite Eb in Hi. apply elem_of_list_lookup_2, elem_of_app in Hi as [Hi|Hi]; [by apply HP|]. rewrite HR in Hph; done.
  Qed.
End build.

(** Checking that variables are written before they are read. *)
Definition reads_check (fuel : nat) (c : cfg) : bool :=
  forallb (fun '(l, k, i) => forallb (fun a => match a with AVar x => availb fuel c x l k | _ => true end) (i_args i)) (all_at c).
Lemma reads_check_spec fuel c : built (c_graph c) -> reads_check fuel c = true -> forall x l k i, in_prog c l k i -> AVar x ∈ i_args i -> available c x l k.
Proof.
  intros Hb H x l k i Hi%all_at_spec Hx. unfold reads_check in H. rewrite forallb_forall in H. specialize (H (l, k, i) ltac:(by apply elem_of_list_In)). cbn beta iota in H. rewrite forallb_forall in H.
  apply (availb_spec fuel); [by apply built_wf|]. apply (H (AVar x)). by apply elem_of_list_In.
Qed.
