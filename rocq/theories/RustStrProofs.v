(** Facts about string orderings and sorting. *)
From stdpp Require Import base decidable list numbers sorting.
From Coq Require Import NArith Lia ZifyBool.
From Verif Require Import RustStr.

Local Open Scope N_scope.

(** ** Lexicographic comparison *)
Lemma lex_cmp_eq a b : lex_cmp a b = Eq <-> a = b.
Proof.
  revert b. induction a as [|x a IH]; intros [|y b]; cbn; try done.
  destruct (N.compare_spec x y) as [->|L|L].
  - rewrite IH. split; [congruence|]. by intros [= ->].
  - split; [done|]. intros [= -> _]. lia.
  - split; [done|]. intros [= -> _]. lia.
Qed.
Lemma lex_cmp_antisym a b : lex_cmp b a = CompOpp (lex_cmp a b).
Proof.
  revert b. induction a as [|x a IH]; intros [|y b]; cbn; try done.
  rewrite (N.compare_antisym x y). destruct (x ?= y); cbn; [apply IH|done|done].
Qed.
Lemma lex_cmp_trans a b c : lex_cmp a b = Lt -> lex_cmp b c = Lt -> lex_cmp a c = Lt.
Proof.
  revert b c. induction a as [|x a IH]; intros [|y b] [|z c]; cbn; try done.
  destruct (N.compare_spec x y), (N.compare_spec y z), (N.compare_spec x z); subst; try lia; try done. eauto.
Qed.

(** ** UTF-16 is injective on scalar values *)
Lemma utf16_char_cases c : is_scalar c = true ->
  (c < 0x10000 /\ (c < 0xD800 \/ 0xDFFF < c) /\ utf16_char c = [c]) \/
  (0x10000 <= c /\ c <= 0x10FFFF /\ utf16_char c = [0xD800 + (c - 0x10000) / 0x400; 0xDC00 + (c - 0x10000) mod 0x400]).
Proof.
  unfold is_scalar, utf16_char. intros H. destruct (N.ltb_spec c 0x10000); [left|right]; (split; [lia|split; [lia|done]]).
Qed.
Lemma utf16_cons c s : utf16 (c :: s) = utf16_char c ++ utf16 s.
Proof. done. Qed.
Lemma utf16_inj s t : valid_str s -> valid_str t -> utf16 s = utf16 t -> s = t.
Proof.
  intros Hs. revert t. induction Hs as [|c s Hc Hs IH]; intros t Ht E.
  - destruct Ht as [|d t Hd Ht]; [done|]. rewrite utf16_cons in E. destruct (utf16_char_cases d Hd) as [(_&_&X)|(_&_&X)]; rewrite X in E; done.
  - destruct Ht as [|d t Hd Ht].
    + rewrite utf16_cons in E. destruct (utf16_char_cases c Hc) as [(_&_&X)|(_&_&X)]; rewrite X in E; done.
    + rewrite !utf16_cons in E.
      destruct (utf16_char_cases c Hc) as [(A1&A2&A3)|(A1&A2&A3)], (utf16_char_cases d Hd) as [(B1&B2&B3)|(B1&B2&B3)]; rewrite A3, B3 in E;
        cbn [app] in E.
      * injection E as -> E. f_equal. by apply IH.
      * injection E as E1 E2.
        assert ((d - 0x10000) / 0x400 < 0x400) by (apply N.div_lt_upper_bound; lia). exfalso. generalize dependent ((d - 0x10000) / 0x400). lia.
      * injection E as E1 E2.
        assert ((c - 0x10000) / 0x400 < 0x400) by (apply N.div_lt_upper_bound; lia). exfalso. generalize dependent ((c - 0x10000) / 0x400). lia.
      * injection E as E1 E2 E3.
        assert ((c - 0x10000) / 0x400 = (d - 0x10000) / 0x400) by lia. assert ((c - 0x10000) mod 0x400 = (d - 0x10000) mod 0x400) by lia.
        pose proof (N.div_mod' (c - 0x10000) 0x400). pose proof (N.div_mod' (d - 0x10000) 0x400).
        assert (c = d) as -> by lia. f_equal. by apply IH.
Qed.

(** ** Stable sorting *)
Section sort.
Context {A : Type} (cmp : A -> A -> comparison).
Definition cle (x y : A) : Prop := cmp x y <> Gt.

Lemma insert_by_perm x l : insert_by cmp x l ≡ₚ x :: l.
Proof.
  induction l as [|y l IH]; cbn; [done|]. destruct (cmp x y); try done. rewrite IH. apply Permutation_swap.
Qed.
Lemma sort_by_perm l : sort_by cmp l ≡ₚ l.
Proof. induction l as [|x l IH]; cbn; [done|]. by rewrite insert_by_perm, IH. Qed.

Context (total : forall x y, cle x y \/ cle y x) (trans : forall x y z, cle x y -> cle y z -> cle x z).
Lemma insert_by_sorted x l : StronglySorted cle l -> StronglySorted cle (insert_by cmp x l).
Proof.
  induction 1 as [|y l S IH F]; cbn; [by repeat constructor|].
  destruct (cmp x y) eqn:E.
  - assert (cle x y) by (unfold cle; congruence). constructor; [by constructor|]. constructor; [done|].
    eapply Forall_impl; [exact F|]. intros z Hz. eauto.
  - assert (cle x y) by (unfold cle; congruence). constructor; [by constructor|]. constructor; [done|].
    eapply Forall_impl; [exact F|]. intros z Hz. eauto.
  - constructor; [done|]. rewrite insert_by_perm. constructor; [|done].
    destruct (total x y) as [X|X]; [by destruct (X E)|done].
Qed.
Lemma sort_by_sorted l : StronglySorted cle (sort_by cmp l).
Proof. induction l as [|x l IH]; cbn; [constructor|]. by apply insert_by_sorted. Qed.

Lemma sorted_unique_on (P : A -> Prop) (anti : forall x y, P x -> P y -> cle x y -> cle y x -> x = y) l k :
  Forall P l -> StronglySorted cle l -> StronglySorted cle k -> l ≡ₚ k -> l = k.
Proof.
  intros HP Sl. revert k. induction Sl as [|x l Sl IH Fl]; intros k Sk Pm.
  - symmetry. by apply Permutation_nil.
  - destruct Sk as [|y k Sk Fk]; [symmetry in Pm; by apply Permutation_nil_cons in Pm|]. apply list.Forall_cons in HP as [Px Pl].
    assert (x = y) as ->.
    { assert (Hx : x ∈ y :: k) by (rewrite <- Pm; constructor). assert (Hy : y ∈ x :: l) by (rewrite Pm; constructor).
      apply elem_of_cons in Hx as [->|Hx]; [done|]. apply elem_of_cons in Hy as [->|Hy]; [done|].
      rewrite Forall_forall in Fl, Fk, Pl. apply anti; auto. }
    f_equal. apply IH; [done|done|]. by apply Permutation_cons_inv in Pm.
Qed.
Lemma sorted_unique (anti : forall x y, cle x y -> cle y x -> x = y) l k :
  StronglySorted cle l -> StronglySorted cle k -> l ≡ₚ k -> l = k.
Proof. apply (sorted_unique_on (fun _ => True)); [auto|]. by apply Forall_true. Qed.
End sort.
