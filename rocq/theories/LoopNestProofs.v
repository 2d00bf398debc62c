From stdpp Require Import base decidable list numbers relations sets.
From Coq Require Import NArith Lia.
From Verif Require Import DomSpec DomProofs LoopFindSpec.

Section nest.
Context (R : N -> N -> Prop) (e : N).
Notation dominates := (dominates R e). Notation walk := (walk R e). Notation reach := (reach R e). Notation avoiding := (avoiding R).

Lemma avoiding_first h x t : avoiding h x t -> x <> h.
Proof. by destruct 1. Qed.
Lemma avoiding_last h x t : avoiding h x t -> t <> h.
Proof. by induction 1. Qed.
Lemma avoiding_join h a b c d : avoiding h a b -> R b c -> avoiding h c d -> avoiding h a d.
Proof. induction 1 as [x Hx|x y z Hx Hxy Ha IH]; intros Hbc Hcd; [by econstructor|]. econstructor; [done..|]. by apply IH. Qed.
Lemma avoiding_trans h a b d : avoiding h a b -> avoiding h b d -> avoiding h a d.
Proof. induction 1 as [x Hx|x y z Hx Hxy Ha IH]; intros Hcd; [done|]. econstructor; [done..|]. by apply IH. Qed.
Lemma avoiding_snoc h a b c : avoiding h a b -> R b c -> c <> h -> avoiding h a c.
Proof. intros H1 H2 H3. eapply avoiding_join; [done..|]. by constructor. Qed.

(** On some walk to [x], [a] comes first and is not met again after [b]. *)
Definition later_on (x b a : N) : Prop := exists pre l, walk b l /\ a ∈ l /\ a ∉ pre /\ (forall v, walk b v -> walk x (pre ++ v)) /\ avoiding a b x.
Lemma later_on_step x b a y : later_on x b a -> R x y -> y <> a -> later_on y b a.
Proof.
  intros (pre & l & A1 & A2 & A3 & A4 & A5) HR Hy. exists (y :: pre), l. split_and!; try done.
  - by rewrite not_elem_of_cons.
  - intros v Hv. cbn. econstructor; [by apply A4|done].
  - by eapply avoiding_snoc.
Qed.
Lemma later_here x l a : walk x l -> a ∈ l -> a <> x -> later_on x x a.
Proof. intros H1 H2 H3. exists [], l. split_and!; try done; [apply not_elem_of_nil|by constructor]. Qed.
Lemma later_either x w a b : walk x w -> NoDup w -> a ∈ w -> b ∈ w -> a <> b -> later_on x b a \/ later_on x a b.
Proof.
  intros H. induction H as [|u v l Hw IH HR]; intros ND Ha Hb Hne.
  - apply elem_of_list_singleton in Ha, Hb. congruence.
  - assert (Hwv : walk v (v :: l)) by (by econstructor). apply NoDup_cons in ND as [Hv ND].
    destruct (decide (b = v)) as [->|Hbv]; [left; by eapply later_here|].
    destruct (decide (a = v)) as [->|Hav]; [right; by eapply later_here|].
    apply elem_of_cons in Ha as [?|Ha]; [done|]. apply elem_of_cons in Hb as [?|Hb]; [done|].
    destruct (IH ND Ha Hb Hne); [left|right]; eapply later_on_step; eauto.
Qed.
Lemma later_dominates x b a : later_on x b a -> dominates a x -> dominates a b.
Proof.
  intros (pre & l & A1 & A2 & A3 & A4 & A5) [_ H]. split; [by exists l|]. intros v Hv.
  specialize (H _ (A4 v Hv)). apply elem_of_app in H as [?|?]; [done|done].
Qed.
Lemma dominates_once a b : dominates a b -> dominates b a -> a = b.
Proof.
  intros Hab Hba. destruct (decide (a = b)) as [?|Hne]; [done|]. exfalso.
  assert (H : forall n l, length l = n -> walk a l \/ walk b l -> False).
  { induction n as [n IH] using lt_wf_ind. intros l Hl [Hw|Hw].
    - destruct (walk_prefix_ne _ _ _ _ b Hw) as (l' & Hw' & _ & Hlt); [by apply Hba|congruence|]. apply (IH (length l')) with l'; [lia|done|by right].
    - destruct (walk_prefix_ne _ _ _ _ a Hw) as (l' & Hw' & _ & Hlt); [by apply Hab|congruence|]. apply (IH (length l')) with l'; [lia|done|by left]. }
  destruct Hab as [[l Hl] _]. apply (H (length l) l); [done|by right].
Qed.

Lemma loop_dominated h x : in_loop R e h x -> dominates h x.
Proof.
  intros (t & [Ht Hd] & [->|[Hr Ha]]); [apply dominates_refl; by eapply dominates_reach|].
  clear Ht. induction Ha as [|x y z Hx Hxy Ha IH]; [done|].
  assert (Hy : reach y) by (destruct Hr as [w Hw]; eexists; by econstructor).
  eapply sdom_parent; [split; [by apply IH|]|done|done]. intros <-. by apply avoiding_first in Ha.
Qed.

Lemma avoiding_outer h1 h2 y t : h1 <> h2 -> dominates h1 h2 -> dominates h2 t -> reach y -> avoiding h2 y t -> avoiding h1 y t.
Proof.
  intros Hne Hd Ht Hr Ha. assert (Out : forall z, dominates h2 z -> z <> h1) by (intros z Hz ->; by apply Hne, dominates_once).
  induction Ha as [x Hx|x y z Hx Hxy Ha IH]; [constructor; by apply Out|].
  assert (Hy : reach y) by (destruct Hr as [w Hw]; eexists; by econstructor).
  assert (Hdy : dominates h2 y). { clear IH Hxy Hx Hr. induction Ha as [|x' y' z' Hx' Hxy' Ha' IH]; [done|].
    assert (Hy' : reach y') by (destruct Hy as [w Hw]; eexists; by econstructor).
    eapply sdom_parent; [split; [by apply IH|]|done|done]. intros <-. by apply avoiding_first in Ha'. }
  econstructor; [apply Out|done|by apply IH]. eapply sdom_parent; [split; [done|]|done|done]. intros <-. by apply avoiding_first in Ha.
Qed.

Lemma nested_in h1 h2 x : h1 <> h2 -> later_on x h2 h1 -> in_loop R e h1 x -> in_loop R e h2 x ->
  (forall y, in_loop R e h2 y -> in_loop R e h1 y) /\ ~ in_loop R e h2 h1.
Proof.
  intros Hne HL H1 H2. assert (Hd : dominates h1 h2) by (eapply later_dominates; [done|by apply loop_dominated]).
  destruct HL as (_ & _ & _ & _ & _ & _ & HA). split.
  - destruct H1 as (t1 & B1 & [->|[_ Hx]]); [by apply avoiding_last in HA|].
    assert (HT : avoiding h1 h2 t1) by (by eapply avoiding_trans).
    intros y (t2 & [B2 D2] & Hy). exists t1. split; [done|]. right. destruct Hy as [->|[Hr Ha]].
    + split; [apply Hd|done].
    + split; [done|]. eapply avoiding_join; [by eapply avoiding_outer|done|done].
  - intros H. apply loop_dominated in H. by apply Hne, dominates_once.
Qed.

Lemma loops_nest h1 h2 x : h1 <> h2 -> in_loop R e h1 x -> in_loop R e h2 x ->
  ((forall y, in_loop R e h2 y -> in_loop R e h1 y) /\ ~ in_loop R e h2 h1) \/ ((forall y, in_loop R e h1 y -> in_loop R e h2 y) /\ ~ in_loop R e h1 h2).
Proof.
  intros Hne H1 H2. assert (D1 := loop_dominated _ _ H1). assert (D2 := loop_dominated _ _ H2).
  destruct (proj1 D1) as [w0 Hw0]. destruct (walk_nodup _ _ _ _ Hw0) as (w & Hw & _ & ND).
  destruct (later_either x w h1 h2) as [L|L]; try done; [by apply D1|by apply D2|left|right]; eapply nested_in; eauto.
Qed.
End nest.
