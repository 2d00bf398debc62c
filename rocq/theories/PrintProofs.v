(** Printing a covered tree and parsing the text gives the tree back. *)
From stdpp Require Import base decidable numbers sets list.
From Coq Require Import ZifyBool.
From Verif Require Import PrintModel PrattModel PrintSpec PrattProofs.

(** *** The parser as relations, with the fuel hidden *)

Definition po ts terms toks r := exists n, operand n ts terms toks = Ok r.
Definition pc ts c toks r := exists n, new_chain n ts c toks = Ok r.
Definition pe ts q terms toks r := exists n, expr_min n ts q terms toks = Ok r.
Definition pl ts q terms l par toks r := exists n, loop n ts q terms l par toks = Ok r.
Definition pa ts toks r := exists n, call_args n ts toks = Ok r.
Definition pi ts toks r := exists n, array_items n ts toks = Ok r.

Lemma up_o n m ts terms toks r :
  operand n ts terms toks = Ok r -> n <= m -> operand m ts terms toks = Ok r.
Proof. intros H Hm. destruct (mono n m Hm) as (M & _). rewrite M; [done|]. by rewrite H. Qed.
Lemma up_c n m ts c toks r :
  new_chain n ts c toks = Ok r -> n <= m -> new_chain m ts c toks = Ok r.
Proof. intros H Hm. destruct (mono n m Hm) as (_ & M & _). rewrite M; [done|]. by rewrite H. Qed.
Lemma up_e n m ts q terms toks r :
  expr_min n ts q terms toks = Ok r -> n <= m -> expr_min m ts q terms toks = Ok r.
Proof. intros H Hm. destruct (mono n m Hm) as (_ & _ & M & _). rewrite M; [done|]. by rewrite H. Qed.
Lemma up_l n m ts q terms l par toks r :
  loop n ts q terms l par toks = Ok r -> n <= m -> loop m ts q terms l par toks = Ok r.
Proof. intros H Hm. destruct (mono n m Hm) as (_ & _ & _ & M & _). rewrite M; [done|]. by rewrite H. Qed.
Lemma up_a n m ts toks r :
  call_args n ts toks = Ok r -> n <= m -> call_args m ts toks = Ok r.
Proof. intros H Hm. destruct (mono n m Hm) as (_ & _ & _ & _ & M & _). rewrite M; [done|]. by rewrite H. Qed.
Lemma up_i n m ts toks r :
  array_items n ts toks = Ok r -> n <= m -> array_items m ts toks = Ok r.
Proof. intros H Hm. destruct (mono n m Hm) as (_ & _ & _ & _ & _ & M). rewrite M; [done|]. by rewrite H. Qed.

Lemma require_hd t toks : require t (t :: toks) = Ok toks.
Proof. unfold require, consume_if. by rewrite decide_True. Qed.
Lemma consume_hd t toks : consume_if t (t :: toks) = Some toks.
Proof. unfold consume_if. by rewrite decide_True. Qed.
Lemma consume_ne t u toks : u <> t -> consume_if t (u :: toks) = None.
Proof. intros H. unfold consume_if. by rewrite decide_False. Qed.

Lemma po_name ts terms t e toks :
  start_of t = SName e -> po ts terms (t :: toks) (e, false, toks).
Proof. intros H. exists 1. cbn [operand]. by rewrite H. Qed.

Lemma po_group ts terms toks e b rest :
  pe ts 1 [TRPar] toks (e, b, TRPar :: rest) ->
  po ts terms (TLPar :: toks) (e, true, rest).
Proof.
  intros [n H]. exists (S n). cbn [operand start_of]. rewrite H. cbn [bind].
  by rewrite require_hd.
Qed.

Lemma po_array ts terms toks its rest :
  pi ts toks (its, TRBr :: rest) ->
  po ts terms (TLBr :: toks) (EArr its, false, rest).
Proof.
  intros [n H]. exists (S n). cbn [operand start_of]. rewrite H. cbn [bind].
  by rewrite require_hd.
Qed.

Lemma po_unary ts terms t op0 op toks0 toks a b rest :
  start_of t = SUnary op0 ->
  unary_op op0 toks0 = (op, toks) ->
  has_operand op terms toks = true ->
  pe ts (un_prec op) terms toks (a, b, rest) ->
  po ts terms (t :: toks0) (EUnary op a, false, rest).
Proof.
  intros H1 H2 H3 [n H]. exists (S n). cbn [operand]. rewrite H1, H2, H3, H. done.
Qed.

Lemma po_new_call ts terms toks c0 b r0 c args r1 rest :
  consume_if TDot toks = None ->
  po ts terms toks (c0, b, r0) ->
  pc ts c0 r0 (c, TLPar :: r1) ->
  pa ts r1 (args, TRPar :: rest) ->
  po ts terms (TNew :: toks) (ENew (ECall false c args), false, rest).
Proof.
  intros H0 [n1 H1] [n2 H2] [n3 H3]. exists (S (n1 `max` n2 `max` n3)).
  cbn [operand start_of]. rewrite H0.
  rewrite (up_o _ _ _ _ _ _ H1) by lia. cbn [bind].
  rewrite (up_c _ _ _ _ _ _ H2) by lia. cbn [bind]. rewrite consume_hd.
  rewrite (up_a _ _ _ _ _ H3) by lia. cbn [bind]. by rewrite require_hd.
Qed.

Lemma po_new_bare ts terms toks c0 b r0 c rest :
  consume_if TDot toks = None ->
  po ts terms toks (c0, b, r0) ->
  pc ts c0 r0 (c, rest) ->
  consume_if TLPar rest = None ->
  po ts terms (TNew :: toks) (ENew c, false, rest).
Proof.
  intros H0 [n1 H1] [n2 H2] H3. exists (S (n1 `max` n2)).
  cbn [operand start_of]. rewrite H0.
  rewrite (up_o _ _ _ _ _ _ H1) by lia. cbn [bind].
  rewrite (up_c _ _ _ _ _ _ H2) by lia. cbn [bind]. by rewrite H3.
Qed.

Lemma pc_member ts c m rest r :
  pc ts (EMember false c m) rest r -> pc ts c (TDot :: TId m :: rest) r.
Proof. intros [n H]. exists (S n). cbn [new_chain link_of take_name]. done. Qed.

Lemma pc_index ts c toks i b rest r :
  pe ts 1 [TRBr] toks (i, b, TRBr :: rest) ->
  pc ts (EIndex false c i) rest r -> pc ts c (TLBr :: toks) r.
Proof.
  intros [n1 H1] [n2 H2]. exists (S (n1 `max` n2)). cbn [new_chain link_of].
  rewrite (up_e _ _ _ _ _ _ _ H1) by lia. cbn [bind]. rewrite require_hd. cbn [bind].
  by rewrite (up_c _ _ _ _ _ _ H2) by lia.
Qed.

Lemma pc_end ts c toks : fst (link_of toks) = LEnd -> pc ts c toks (c, toks).
Proof.
  intros H. exists 1. cbn [new_chain]. destruct (link_of toks) as [k r] eqn:E.
  cbn in H. by subst k.
Qed.

Lemma pe_intro ts q terms toks l par rest r :
  po ts terms toks (l, par, rest) ->
  (3 <? q) && bare_yield l par = false ->
  pl ts q terms l par rest r -> pe ts q terms toks r.
Proof.
  intros [n1 H1] Hy [n2 H2]. exists (S (n1 `max` n2)). cbn [expr_min].
  rewrite (up_o _ _ _ _ _ _ H1) by lia. cbn [bind]. rewrite Hy.
  by rewrite (up_l _ _ _ _ _ _ _ _ _ H2) by lia.
Qed.

(** Precedence at which a token binds to its left. *)
Definition tok_prec (ts : bool) (t : token) : option nat :=
  match t with
  | TInc | TDec => Some postfix_prec
  | TNot | TAs _ => if ts then Some 99 else None
  | _ => multary_prec <$> multary_of t
  end.

Lemma loop_stop ts q terms l par t rest :
  q <= 50 ->
  is_term terms t = true \/ (exists k, tok_prec ts t = Some k /\ k < q) ->
  pl ts q terms l par (t :: rest) (l, par, t :: rest).
Proof.
  intros Hq H. exists 1. cbn [loop].
  destruct (is_term terms t) eqn:Et; [done|].
  destruct H as [H|(k & Hk & Hlt)]; [done|].
  assert (Hlt' : (k <? q) = true) by lia.
  assert ((exists d, follow_of ts t rest = FPostfix d /\ k = postfix_prec) \/
          (exists m, follow_of ts t rest = FInfix m /\ k = multary_prec m))
    as [(d & -> & ->)|(m & -> & ->)].
  { destruct t; cbn in Hk; try done;
      try (injection Hk as <-; first [left; by eexists | right; by eexists]).
    all: destruct ts; try done; injection Hk as <-; lia. }
  - by rewrite Hlt'.
  - by rewrite Hlt'.
Qed.

Section steps.
Context (ts : bool) (q : nat) (terms : list token) (l : expr) (par : bool).

Lemma pl_postfix (d : bool) rest r :
  is_term terms (if d then TDec else TInc) = false ->
  q <= postfix_prec ->
  pl ts q terms (EPostfix d l) false rest r ->
  pl ts q terms l par ((if d then TDec else TInc) :: rest) r.
Proof.
  intros Ht Hq [n H]. exists (S n). cbn [loop]. rewrite Ht.
  replace (follow_of ts (if d then TDec else TInc) rest) with (FPostfix d) by by destruct d.
  cbv beta iota. destruct (postfix_prec <? q) eqn:E; [lia|]. done.
Qed.

Lemma pl_as k ty rest r :
  ts = true ->
  is_term terms (TAs k) = false ->
  pl ts q terms (EAs k l ty) false rest r ->
  pl ts q terms l par (TAs k :: TType ty :: rest) r.
Proof.
  intros -> Ht [n H]. exists (S n). cbn [loop]. rewrite Ht. done.
Qed.

Lemma pl_infix t m rest r :
  multary_of t = Some m ->
  is_term terms t = false ->
  q <= multary_prec m ->
  bare_yield l par && (3 <? multary_prec m) = false ->
  forall n,
  (match m with
   | MCall opt =>
       bind (call_args n ts rest) (fun '(args, rest) =>
       bind (require TRPar rest) (fun rest =>
       loop n ts q terms (ECall opt l args) false rest))
   | MIndex opt =>
       bind (expr_min n ts 1 [TRBr] rest) (fun '(i, _, rest) =>
       bind (require TRBr rest) (fun rest =>
       loop n ts q terms (EIndex opt l i) false rest))
   | MCond =>
       bind (expr_min n ts 1 [TColon] rest) (fun '(c, _, rest) =>
       bind (require TColon rest) (fun rest =>
       bind (expr_min n ts cond_alt_prec terms rest) (fun '(a, _, rest) =>
       loop n ts q terms (ECond l c a) false rest)))
   | MMember opt =>
       match take_name rest with
       | Some (m, rest) => loop n ts q terms (EMember opt l m) false rest
       | None => Err
       end
   | MBin op =>
       if bool_decide (op = BExp) && bad_exp_base l par then Err
       else if is_assignment op && negb (good_target l par) then Err
       else
         bind (expr_min n ts (right_min op) terms rest) (fun '(r, _, rest) =>
         loop n ts q terms (EBinary op l r) false rest)
   end) = Ok r ->
  pl ts q terms l par (t :: rest) r.
Proof.
  intros Hm Ht Hq Hy n H. exists (S n). cbn [loop]. rewrite Ht.
  replace (follow_of ts t rest) with (FInfix m).
  2: { unfold follow_of. destruct t; cbn in Hm |- *; try done; by injection Hm as <-. }
  cbv beta iota. destruct (multary_prec m <? q) eqn:E; [lia|]. rewrite Hy. exact H.
Qed.

Lemma pl_bin op toks rr b rest r :
  is_term terms (TOp op) = false ->
  q <= bin_prec op ->
  bare_yield l par && (3 <? bin_prec op) = false ->
  bool_decide (op = BExp) && bad_exp_base l par = false ->
  is_assignment op && negb (good_target l par) = false ->
  pe ts (right_min op) terms toks (rr, b, rest) ->
  pl ts q terms (EBinary op l rr) false rest r ->
  pl ts q terms l par (TOp op :: toks) r.
Proof.
  intros Ht Hq Hy He Ha [n1 H1] [n2 H2].
  eapply (pl_infix (TOp op) (MBin op) _ _ eq_refl Ht Hq Hy (n1 `max` n2)).
  rewrite He, Ha. rewrite (up_e _ _ _ _ _ _ _ H1) by lia. cbn [bind].
  by rewrite (up_l _ _ _ _ _ _ _ _ _ H2) by lia.
Qed.

Lemma pl_cond toks c b toks2 a b2 rest r :
  is_term terms TQuestion = false ->
  q <= cond_prec ->
  bare_yield l par = false ->
  pe ts 1 [TColon] toks (c, b, TColon :: toks2) ->
  pe ts cond_alt_prec terms toks2 (a, b2, rest) ->
  pl ts q terms (ECond l c a) false rest r ->
  pl ts q terms l par (TQuestion :: toks) r.
Proof.
  intros Ht Hq Hy [n1 H1] [n2 H2] [n3 H3].
  eapply (pl_infix TQuestion MCond _ _ eq_refl Ht Hq _ (n1 `max` n2 `max` n3)).
  rewrite (up_e _ _ _ _ _ _ _ H1) by lia. cbn [bind]. rewrite require_hd. cbn [bind].
  rewrite (up_e _ _ _ _ _ _ _ H2) by lia. cbn [bind].
  by rewrite (up_l _ _ _ _ _ _ _ _ _ H3) by lia.
  Unshelve. by rewrite Hy.
Qed.

Lemma pl_call opt toks args rest r :
  is_term terms (if opt : bool then TQLPar else TLPar) = false ->
  q <= call_prec ->
  bare_yield l par = false ->
  pa ts toks (args, TRPar :: rest) ->
  pl ts q terms (ECall opt l args) false rest r ->
  pl ts q terms l par ((if opt then TQLPar else TLPar) :: toks) r.
Proof.
  intros Ht Hq Hy [n1 H1] [n2 H2].
  eapply (pl_infix _ (MCall opt) _ _ _ Ht Hq _ (n1 `max` n2)).
  rewrite (up_a _ _ _ _ _ H1) by lia. cbn [bind]. rewrite require_hd. cbn [bind].
  by rewrite (up_l _ _ _ _ _ _ _ _ _ H2) by lia.
  Unshelve. { by destruct opt. } by rewrite Hy.
Qed.

Lemma pl_index opt toks i b rest r :
  is_term terms (if opt : bool then TQLBr else TLBr) = false ->
  q <= call_prec ->
  bare_yield l par = false ->
  pe ts 1 [TRBr] toks (i, b, TRBr :: rest) ->
  pl ts q terms (EIndex opt l i) false rest r ->
  pl ts q terms l par ((if opt then TQLBr else TLBr) :: toks) r.
Proof.
  intros Ht Hq Hy [n1 H1] [n2 H2].
  eapply (pl_infix _ (MIndex opt) _ _ _ Ht Hq _ (n1 `max` n2)).
  rewrite (up_e _ _ _ _ _ _ _ H1) by lia. cbn [bind]. rewrite require_hd. cbn [bind].
  by rewrite (up_l _ _ _ _ _ _ _ _ _ H2) by lia.
  Unshelve. { by destruct opt. } by rewrite Hy.
Qed.

Lemma pl_member opt m rest r :
  is_term terms (if opt : bool then TQDot else TDot) = false ->
  q <= call_prec ->
  bare_yield l par = false ->
  pl ts q terms (EMember opt l m) false rest r ->
  pl ts q terms l par ((if opt then TQDot else TDot) :: TId m :: rest) r.
Proof.
  intros Ht Hq Hy [n H].
  eapply (pl_infix _ (MMember opt) _ _ _ Ht Hq _ n). exact H.
  Unshelve. { by destruct opt. } by rewrite Hy.
Qed.
End steps.

Lemma pa_nil ts rest : pa ts (TRPar :: rest) (INil, TRPar :: rest).
Proof. by exists 1. Qed.

(** The first token of a printed tree. *)
Lemma head_start p e : exists t r, body p e = t :: r /\ starts_operand t = true.
Proof.
  induction e as [| |op a IH|a IH|d a IH|op l IHl r IHr|t IHt c IHc a IHa|opt f IH args
                 |opt o IH m|opt o IH i IHi|its|k a IH ty|a IH]; cbn [body].
  1,2: by eexists _, _.
  - destruct op; cbn; by eexists _, _.
  - by eexists _, _.
  - destruct IH as (t & r & -> & H). destruct (_ <? _); cbn; by eexists _, _.
  - destruct IHl as (t & r' & -> & H). destruct (_ || _); cbn; by eexists _, _.
  - destruct IHt as (t' & r' & -> & H). destruct (_ <? _); cbn; by eexists _, _.
  - destruct IH as (t & r & -> & H). destruct (_ <? _); cbn; by eexists _, _.
  - destruct IH as (t & r & -> & H). destruct (_ <? _); cbn; by eexists _, _.
  - destruct IH as (t & r & -> & H). destruct (_ <? _); cbn; by eexists _, _.
  - by eexists _, _.
  - destruct IH as (t & r & -> & H). destruct (_ <? _); cbn; by eexists _, _.
  - destruct IH as (t & r & -> & H). destruct (_ <? _); cbn; by eexists _, _.
Qed.

Lemma wrap_start p b e rest :
  exists t r, wrap b (body p e) ++ rest = t :: r /\ starts_operand t = true.
Proof.
  destruct (head_start p e) as (t & r & H & Hs). rewrite H. destruct b; cbn; by eexists _, _.
Qed.

(** *** What may follow a printed tree without being drawn into it *)

Definition wr (b : bool) (k : nat) : nat := if b then 100 else k.

Fixpoint redge (p : printer) (e : expr) : nat :=
  match e with
  | EUnary op a => un_prec op `min` wr (prec a <? un_prec op) (redge p a)
  | EBinary op l r =>
      right_min op `min` wr (force_right p op r || (prec r <? right_min op)) (redge p r)
  | ECond t c a => cond_alt_prec `min` wr (prec a <? cond_prec) (redge p a)
  | ENew a => if bare_new e then call_prec else 100
  | _ => 100
  end.

Lemma redge_ge2 p e : 2 <= redge p e.
Proof.
  induction e as [| |op a IH|a IH|d a IH|op l IHl r IHr|t IHt c IHc a IHa|opt f IH args
                 |opt o IH m|opt o IH i IHi|its|k a IH ty|a IH]; cbn [redge]; try lia.
  - assert (3 <= un_prec op) by (destruct op; cbn; lia). unfold wr. destruct (_ <? _); lia.
  - destruct (bare_new _); unfold call_prec; lia.
  - assert (2 <= right_min op) by (destruct op; cbn; lia). unfold wr. destruct (_ || _); lia.
  - unfold wr, cond_alt_prec. destruct (_ <? _); lia.
Qed.

Lemma redge_prec p e : 5 <= prec e -> prec e <= redge p e.
Proof.
  induction e as [| |op a IH|a IH|d a IH|op l IHl r IHr|t IHt c IHc a IHa|opt f IH args
                 |opt o IH m|opt o IH i IHi|its|k a IH ty|a IH]; cbn [redge prec];
    unfold primary_prec, call_prec, postfix_prec, cond_prec, as_prec; try lia.
  - intros H. unfold wr. destruct (prec a <? un_prec op) eqn:E; [|lia].
    assert (un_prec op <= 16) by (destruct op; cbn; lia). lia.
  - intros H. destruct (bare_new _); lia.
  - intros H. assert (bin_prec op <= right_min op <= 16) by (destruct op; cbn; lia).
    unfold wr. destruct (_ || (prec r <? right_min op)) eqn:E; [lia|].
    apply orb_false_iff in E as [_ E]. lia.
Qed.

Lemma redge_left p op l r :
  bin_left op = true -> bin_prec op < redge p (EBinary op l r).
Proof.
  intros Hl. cbn [redge].
  assert (bin_prec op < right_min op <= 16) by (destruct op; cbn in Hl |- *; try done; lia).
  unfold wr. destruct (_ || (prec r <? right_min op)) eqn:E; [lia|].
  apply orb_false_iff in E as [_ E].
  destruct (decide (op = BComma)) as [->|Hc].
  - pose proof (redge_ge2 p r). change (right_min BComma) with 2.
    change (bin_prec BComma) with 1. lia.
  - assert (5 <= bin_prec op) by (destruct op; cbn in Hl |- *; try done; lia).
    pose proof (redge_prec p r). lia.
Qed.

(** A left operand printed without parentheses keeps the operator out. *)
Lemma left_follow p op l :
  op <> BTypeof ->
  (is_assignment op = true -> good_target l false = true) ->
  left_min op <= prec l ->
  bin_prec op < redge p l.
Proof.
  intros Ht Ha Hl.
  destruct (is_assignment op) eqn:Ea.
  { specialize (Ha eq_refl). destruct l as [| | | | | | | |[]|[]| | |]; try done; cbn;
      destruct op; cbn in *; try done; lia. }
  destruct (decide (op = BComma)) as [->|Hc].
  { pose proof (redge_ge2 p l). cbn. lia. }
  destruct (decide (op = BExp)) as [->|He].
  { cbn in Hl. pose proof (redge_prec p l). cbn. lia. }
  assert (Hb : bin_left op = true) by (destruct op; done).
  assert (H5 : 5 <= bin_prec op) by (destruct op; cbn in *; try done; lia).
  unfold left_min in Hl. rewrite Hb in Hl.
  destruct (decide (prec l = bin_prec op)) as [E|E].
  - assert (H14 : bin_prec op <= 14) by (destruct op; cbn in *; try done; lia).
    destruct l as [| |u ?| | |op2 l1 l2| | | | | | |]; cbn [prec] in E;
      unfold primary_prec, call_prec, postfix_prec, cond_prec, as_prec in *; try lia.
    + destruct u; cbn in E; lia.
    + rewrite <- E. apply redge_left. destruct op2; cbn in E |- *; try done; lia.
  - pose proof (redge_prec p l). lia.
Qed.

Lemma closed_redge p e : closed_right e = true -> redge p e = 100.
Proof.
  destruct e; try done. unfold closed_right. intros H. cbn [redge].
  apply negb_true_iff in H. by rewrite H.
Qed.

Lemma receiver_redge p e :
  call_prec <= prec e -> bare_new e = false -> redge p e = 100.
Proof.
  intros H Hb. destruct e as [| |op ?|a| |op ? ?| | | | | | |]; try done.
  - destruct op; cbn in H; unfold call_prec in H; lia.
  - cbn [redge]. by rewrite Hb.
  - destruct op; cbn in H; unfold call_prec in H; lia.
  - cbn in H. unfold call_prec, cond_prec in H. lia.
Qed.

Lemma optional_chain_prec p e : optional_chain p e = true -> prec e = call_prec.
Proof. by destruct e. Qed.

Definition terms_ok (terms : list token) : Prop :=
  forall t, t ∈ terms -> t ∈ [TOp BComma; TRPar; TRBr; TColon; TEnd; TStm WSemi; TStm WRBrace].

Definition no_comma (terms : list token) (e : expr) : Prop :=
  TOp BComma ∈ terms -> 2 <= prec e.

Definition keeps_out (ts : bool) (k : nat) (terms rest : list token) : Prop :=
  match rest with
  | [] => False
  | t :: _ => is_term terms t = true \/ exists j, tok_prec ts t = Some j /\ j < k
  end.

Lemma keeps_out_weaken ts k k' terms rest :
  keeps_out ts k terms rest -> k <= k' -> keeps_out ts k' terms rest.
Proof.
  destruct rest as [|t rest]; [done|]. intros [H|(j & H1 & H2)] Hk; [by left|].
  right. exists j. split; [done|]. lia.
Qed.

Lemma keeps_out_stop ts q terms l par rest :
  q <= 50 -> keeps_out ts q terms rest -> pl ts q terms l par rest (l, par, rest).
Proof. destruct rest as [|t rest]; [done|]. intros Hq H. by apply loop_stop. Qed.

Lemma term_ok_not terms t :
  terms_ok terms -> t ∉ [TOp BComma; TRPar; TRBr; TColon; TEnd; TStm WSemi; TStm WRBrace] -> is_term terms t = false.
Proof.
  intros H Hn. unfold is_term. apply bool_decide_eq_false. intros Ht. by apply Hn, H.
Qed.

Ltac notin := let H := fresh in
  intros H; repeat (apply elem_of_cons in H as [H|H]; [discriminate H|]);
  by apply elem_of_nil in H.

Lemma terms_ok_1 t : t ∈ [TOp BComma; TRPar; TRBr; TColon; TEnd; TStm WSemi; TStm WRBrace] -> terms_ok [t].
Proof. intros H u Hu. apply elem_of_list_singleton in Hu as ->. done. Qed.
Lemma terms_ok_2 t u :
  t ∈ [TOp BComma; TRPar; TRBr; TColon; TEnd; TStm WSemi; TStm WRBrace] ->
  u ∈ [TOp BComma; TRPar; TRBr; TColon; TEnd; TStm WSemi; TStm WRBrace] -> terms_ok [t; u].
Proof.
  intros Ht Hu v Hv. apply elem_of_cons in Hv as [->|Hv]; [done|].
  apply elem_of_list_singleton in Hv as ->. done.
Qed.

Lemma prec_pos e : 1 <= prec e.
Proof.
  destruct e as [| |u ?| | |op ? ?| | | | | | |]; cbn;
    unfold primary_prec, call_prec, postfix_prec, cond_prec, as_prec; try lia.
  - destruct u; cbn; lia.
  - destruct op; cbn; lia.
Qed.

Lemma prec_no_comma e : comma_expr e = false -> 2 <= prec e.
Proof.
  destruct e as [| |u ?| | |op ? ?| | | | | | |]; cbn;
    unfold primary_prec, call_prec, postfix_prec, cond_prec, as_prec; try lia.
  - destruct u; cbn; lia.
  - destruct op; cbn; try done; lia.
Qed.

(** *** The round trip *)

Scheme expr_mut := Induction for expr Sort Prop
  with items_mut := Induction for items Sort Prop.
Combined Scheme expr_items_ind from expr_mut, items_mut.

Lemma starts_not_term terms t :
  terms_ok terms -> starts_operand t = true -> is_term terms t = false.
Proof.
  intros H Hs. apply term_ok_not; [done|]. intros Ht.
  repeat (apply elem_of_cons in Ht as [->|Ht]; [done|]). by apply elem_of_nil in Ht.
Qed.

Lemma op_not_term terms op (e : expr) :
  terms_ok terms -> (TOp BComma ∈ terms -> op <> BComma) -> is_term terms (TOp op) = false.
Proof.
  intros H Hc. unfold is_term. apply bool_decide_eq_false. intros Ht.
  destruct (decide (op = BComma)) as [->|Hn]; [by apply Hc|].
  apply H in Ht. apply elem_of_cons in Ht as [[= ->]|Ht]; [done|]. revert Ht. notin.
Qed.

Lemma items_nil its : its = INil \/ its <> INil.
Proof. destruct its; [by left|by right|by right]. Qed.

Lemma items_tail p its :
  its <> INil -> body_items p false its = TOp BComma :: body_items p true its.
Proof. by destruct its. Qed.

Lemma wrap_app b l rest : wrap b l ++ rest = if b then TLPar :: l ++ TRPar :: rest else l ++ rest.
Proof. destruct b; [|done]. cbn. by rewrite <- app_assoc. Qed.

Lemma bare_yield_prec e par : bare_yield e par = true -> prec e = 3 /\ par = false.
Proof. destruct e as [| |[] ?| | | | | | | | | |]; try done; by destruct par. Qed.

Section trip.
Context (p : printer) (ts : bool).

(** Trees and the contexts they are read back in. *)
Definition PE (e : expr) : Prop :=
  covered p ts e = true ->
  forall terms q rest r,
  terms_ok terms -> q <= prec e -> no_comma terms e ->
  keeps_out ts (redge p e) terms rest ->
  pl ts q terms e false rest r ->
  pe ts q terms (body p e ++ rest) r.

Definition NT (f : expr) : Prop :=
  covered p ts f = true -> new_target p f = true ->
  forall terms rest, terms_ok terms -> exists f0 b r0,
  po ts terms (wrap (optional_chain p f) (wrap (prec f <? call_prec) (body p f)) ++ rest)
     (f0, b, r0) /\
  forall r, pc ts f rest r -> pc ts f0 r0 r.

Definition ARGS (its : items) : Prop :=
  covered_args p ts its = true ->
  forall rest, pa ts (body_items p true its ++ TRPar :: rest) (its, TRPar :: rest).

Definition ELEMS (its : items) : Prop :=
  covered_elems p ts its = true ->
  forall rest, pi ts (body_items p true its ++ TRBr :: rest) (its, TRBr :: rest).

Definition Pexpr (e : expr) : Prop :=
  PE e /\ NT e /\
  match e with
  | ECall _ f args => NT f /\ ARGS args
  | _ => True
  end.
Definition Pitems (its : items) : Prop := ARGS its /\ ELEMS its.

(** A tree in parentheses. *)
Lemma group e : PE e -> covered p ts e = true -> forall terms rest,
  po ts terms (TLPar :: body p e ++ TRPar :: rest) (e, true, rest).
Proof.
  intros HE Hc terms rest. eapply po_group. apply HE; [done|..].
  - apply terms_ok_1. set_solver.
  - apply prec_pos.
  - intros Ht. apply elem_of_list_singleton in Ht. done.
  - left. unfold is_term. by apply bool_decide_eq_true, elem_of_list_singleton.
  - apply loop_stop; [lia|]. left. by apply bool_decide_eq_true, elem_of_list_singleton.
Qed.

Lemma wrapped b e terms q rest r :
  PE e -> covered p ts e = true ->
  terms_ok terms ->
  (b = false -> q <= prec e /\ no_comma terms e /\ keeps_out ts (redge p e) terms rest) ->
  pl ts q terms e b rest r ->
  pe ts q terms (wrap b (body p e) ++ rest) r.
Proof.
  intros HE Hc Hterms Hb Hl. rewrite wrap_app. destruct b.
  - eapply pe_intro; [by apply group| |exact Hl].
    destruct (bare_yield e true) eqn:E; [|by rewrite andb_false_r].
    by apply bare_yield_prec in E as [_ E].
  - destruct (Hb eq_refl) as (H1 & H2 & H3). by apply HE.
Qed.

(** A tree alone between brackets. *)
Lemma enclosed b e t rest :
  PE e -> covered p ts e = true ->
  t ∈ [TRPar; TRBr; TColon; TEnd; TStm WSemi; TStm WRBrace] ->
  pe ts 1 [t] (wrap b (body p e) ++ t :: rest) (e, b, t :: rest).
Proof.
  intros HE Hc Ht.
  assert (Hi : is_term [t] t = true) by by apply bool_decide_eq_true, elem_of_list_singleton.
  apply wrapped; [done|done| | |].
  - apply terms_ok_1. by apply elem_of_list_further.
  - intros _. split; [apply prec_pos|]. split.
    + intros H. apply elem_of_list_singleton in H as <-. revert Ht. notin.
    + by left.
  - apply loop_stop; [lia|by left].
Qed.

(** A list element between commas. *)
Lemma element e t rest u :
  PE e -> covered p ts e = true -> comma_expr e = false ->
  u ∈ [TRPar; TRBr; TColon; TEnd; TStm WSemi; TStm WRBrace] ->
  t ∈ [TOp BComma; u] ->
  pe ts 1 [TOp BComma; u] (wrap (prec e <? 1) (body p e) ++ t :: rest) (e, false, t :: rest).
Proof.
  intros HE Hc Hn Hu Ht.
  replace (prec e <? 1) with false by (pose proof (prec_pos e); lia).
  assert (Hi : is_term [TOp BComma; u] t = true) by by apply bool_decide_eq_true.
  apply wrapped; [done|done| | |].
  - apply terms_ok_2; [by apply elem_of_list_here|by apply elem_of_list_further].
  - intros _. split; [apply prec_pos|]. split; [|by left].
    intros _. by apply prec_no_comma.
  - apply loop_stop; [lia|by left].
Qed.

Lemma spread_head sp e rest :
  exists t r, spread_mark sp ++ wrap (prec e <? 1) (body p e) ++ rest = t :: r /\
  t <> TRPar /\ t <> TRBr /\ t <> TOp BComma /\
  take_spread (t :: r) = (sp, wrap (prec e <? 1) (body p e) ++ rest).
Proof.
  destruct sp; cbn [spread_mark app].
  - eexists _, _. split; [done|]. repeat (split; [done|]). unfold take_spread.
    by rewrite consume_hd.
  - destruct (wrap_start p (prec e <? 1) e rest) as (t & r & E & Hs). rewrite E.
    exists t, r. split; [done|]. repeat (split; [by intros ->|]).
    unfold take_spread. rewrite consume_ne; [done|]. by intros ->.
Qed.

Lemma args_item sp e its : PE e -> ARGS its -> ARGS (IItem sp e its).
Proof.
  intros HE HA Hc rest. cbn [covered_args] in Hc. apply andb_true_iff in Hc as [Hc H3].
  apply andb_true_iff in Hc as [H1 H2]. apply negb_true_iff in H1.
  cbn [body_items separator app]. rewrite <- !app_assoc.
  destruct (items_nil its) as [->|Hn].
  - cbn [body_items app].
    destruct (spread_head sp e (TRPar :: rest)) as (t & r & E & N1 & N2 & N3 & Hs).
    destruct (element e TRPar rest TRPar HE H2 H1) as [n Hp]; [set_solver|set_solver|].
    exists (S n). cbn [call_args]. rewrite E, consume_ne by done. rewrite Hs, Hp. cbn [bind].
    by rewrite consume_ne.
  - rewrite items_tail by done. cbn [app].
    set (rest' := body_items p true its ++ TRPar :: rest).
    destruct (spread_head sp e (TOp BComma :: rest')) as (t & r & E & N1 & N2 & N3 & Hs).
    destruct (element e (TOp BComma) rest' TRPar HE H2 H1) as [n1 Hp]; [set_solver|set_solver|].
    destruct (HA H3 rest) as [n2 Ha].
    exists (S (n1 `max` n2)). cbn [call_args]. rewrite E, consume_ne by done. rewrite Hs.
    rewrite (up_e _ _ _ _ _ _ _ Hp) by lia. cbn [bind]. rewrite consume_hd.
    unfold rest'. by rewrite (up_a _ _ _ _ _ Ha) by lia.
Qed.

Lemma elems_item sp e its : PE e -> ELEMS its -> ELEMS (IItem sp e its).
Proof.
  intros HE HA Hc rest. cbn [covered_elems] in Hc. apply andb_true_iff in Hc as [Hc H3].
  apply andb_true_iff in Hc as [H1 H2]. apply negb_true_iff in H1.
  cbn [body_items separator app]. rewrite <- !app_assoc.
  destruct (items_nil its) as [->|Hn].
  - cbn [body_items app].
    destruct (spread_head sp e (TRBr :: rest)) as (t & r & E & N1 & N2 & N3 & Hs).
    destruct (element e TRBr rest TRBr HE H2 H1) as [n Hp]; [set_solver|set_solver|].
    exists (S n). cbn [array_items]. rewrite E, !consume_ne by done. rewrite Hs, Hp. cbn [bind].
    by rewrite consume_hd.
  - rewrite items_tail by done. cbn [app].
    set (rest' := body_items p true its ++ TRBr :: rest).
    destruct (spread_head sp e (TOp BComma :: rest')) as (t & r & E & N1 & N2 & N3 & Hs).
    destruct (element e (TOp BComma) rest' TRBr HE H2 H1) as [n1 Hp]; [set_solver|set_solver|].
    destruct (HA H3 rest) as [n2 Ha].
    exists (S (n1 `max` n2)). cbn [array_items]. rewrite E, !consume_ne by done. rewrite Hs.
    rewrite (up_e _ _ _ _ _ _ _ Hp) by lia. cbn [bind]. rewrite consume_ne by done.
    rewrite require_hd. cbn [bind].
    unfold rest'. by rewrite (up_i _ _ _ _ _ Ha) by lia.
Qed.

Lemma elems_hole its : ELEMS its -> ELEMS (IHole its).
Proof.
  intros HA Hc rest. destruct (items_nil its) as [->|Hn]; [done|].
  assert (Hc' : covered_elems p ts its = true) by by destruct its.
  cbn [body_items separator app]. rewrite items_tail by done. cbn [app].
  destruct (HA Hc' rest) as [n Ha]. exists (S n). cbn [array_items].
  rewrite consume_hd, Ha. done.
Qed.

(** Targets of [new] that are not chains. *)
Lemma nt_atom f : PE f ->
  optional_chain p f = true \/ prec f < call_prec \/
  (optional_chain p f = false /\ call_prec <= prec f /\
   (covered p ts f = true -> new_target p f = true ->
    forall terms rest, terms_ok terms -> po ts terms (body p f ++ rest) (f, false, rest))) ->
  NT f.
Proof.
  intros HE H Hc Ht terms rest Hterms.
  destruct (optional_chain p f) eqn:Eo.
  { pose proof (optional_chain_prec _ _ Eo) as Hp. rewrite Hp. cbn [Nat.ltb Nat.leb].
    replace (call_prec <? call_prec) with false by done. rewrite wrap_app. cbn [wrap].
    exists f, true, rest. split; [by apply group|done]. }
  destruct H as [H|[H|(_ & H1 & H2)]]; [done| |].
  { replace (prec f <? call_prec) with true by lia.
    replace (wrap false _) with (wrap true (body p f)) by done. rewrite wrap_app.
    exists f, true, rest. split; [by apply group|done]. }
  replace (prec f <? call_prec) with false by lia. cbn [wrap].
  exists f, false, rest. split; [by apply H2|done].
Qed.

Lemma nt_call opt f args : PE (ECall opt f args) -> NT (ECall opt f args).
Proof.
  intros HE Hc Ht. cbn [new_target] in Ht. rewrite orb_false_r in Ht.
  replace (prec _ <? call_prec) with false in Ht by done. rewrite orb_false_r in Ht.
  revert Hc. assert (Ht2 : new_target p (ECall opt f args) = true).
  { cbn [new_target]. by rewrite Ht. }
  revert Ht2. generalize (nt_atom _ HE (or_introl Ht)). unfold NT. tauto.
Qed.

(** Member accesses in the target of [new]. *)
Lemma nt_member opt o m : PE (EMember opt o m) -> NT o -> NT (EMember opt o m).
Proof.
  intros HE HO Hc Ht.
  destruct (optional_chain p (EMember opt o m)) eqn:Eo.
  { pose proof (nt_atom _ HE (or_introl Eo) Hc Ht) as H. by rewrite Eo in H. }
  intros terms rest Hterms. cbn [optional_chain] in Eo. apply orb_false_iff in Eo as [-> Eo].
  cbn [covered] in Hc. apply andb_true_iff in Hc as [_ Hc].
  cbn [new_target optional_chain] in Ht. rewrite Eo in Ht. cbn in Ht.
  destruct (HO Hc Ht terms (TDot :: TId m :: rest) Hterms) as (f0 & b & r0 & H1 & H2).
  exists f0, b, r0. rewrite Eo in H1. cbn [wrap] in H1.
  replace (prec (EMember false o m) <? call_prec) with false by done. cbn [wrap body].
  rewrite <- app_assoc. split; [exact H1|]. intros r Hr. by apply H2, pc_member.
Qed.

Lemma nt_index opt o i :
  PE (EIndex opt o i) -> NT o -> PE i -> NT (EIndex opt o i).
Proof.
  intros HE HO HI Hc Ht.
  destruct (optional_chain p (EIndex opt o i)) eqn:Eo.
  { pose proof (nt_atom _ HE (or_introl Eo) Hc Ht) as H. by rewrite Eo in H. }
  intros terms rest Hterms. cbn [optional_chain] in Eo. apply orb_false_iff in Eo as [-> Eo].
  cbn [covered] in Hc. apply andb_true_iff in Hc as [Hc Hci].
  apply andb_true_iff in Hc as [_ Hc].
  cbn [new_target optional_chain] in Ht. rewrite Eo in Ht. cbn in Ht.
  destruct (HO Hc Ht terms (TLBr :: wrap (prec i <? 1) (body p i) ++ TRBr :: rest) Hterms)
    as (f0 & b & r0 & H1 & H2).
  exists f0, b, r0. rewrite Eo in H1. cbn [wrap] in H1.
  replace (prec (EIndex false o i) <? call_prec) with false by done. cbn [wrap body].
  rewrite <- !app_assoc. cbn [app]. rewrite <- !app_assoc. split; [exact H1|].
  intros r Hr. apply H2. eapply pc_index; [|exact Hr].
  apply enclosed; [done|done|set_solver].
Qed.

Lemma target_head f rest :
  exists t r, wrap (optional_chain p f) (wrap (prec f <? call_prec) (body p f)) ++ rest
    = t :: r /\ t <> TDot.
Proof.
  destruct (optional_chain p f) eqn:E.
  - by eexists _, _.
  - cbn [wrap]. destruct (wrap_start p (prec f <? call_prec) f rest) as (t & r & -> & H).
    eexists _, _. split; [done|]. by intros ->.
Qed.

(** [new] with an argument list. *)
Lemma new_call f args terms rest :
  NT f -> ARGS args ->
  covered p ts (ENew (ECall false f args)) = true ->
  terms_ok terms ->
  po ts terms (body p (ENew (ECall false f args)) ++ rest) (ENew (ECall false f args), false, rest).
Proof.
  intros HF HA Hc Hterms. cbn [covered] in Hc.
  apply andb_true_iff in Hc as [Hc H3]. apply andb_true_iff in Hc as [H1 H2].
  cbn [body app]. rewrite <- !app_assoc. cbn [app]. rewrite <- !app_assoc. cbn [app].
  set (rest1 := body_items p true args ++ TRPar :: rest).
  destruct (HF H2 H1 terms (TLPar :: rest1) Hterms) as (f0 & b & r0 & P1 & P2).
  eapply po_new_call; [|exact P1|apply P2, pc_end; done|by apply HA].
  destruct (target_head f (TLPar :: rest1)) as (t & r & -> & Ht). by apply consume_ne.
Qed.

(** [new] without one. *)
Lemma new_bare a terms rest :
  NT a ->
  bare_new (ENew a) = true ->
  covered p ts (ENew a) = true ->
  terms_ok terms ->
  keeps_out ts call_prec terms rest ->
  po ts terms (body p (ENew a) ++ rest) (ENew a, false, rest).
Proof.
  intros HF Hb Hc Hterms Hk.
  assert (Hc' : p = AstPrinter /\ new_target p a = true /\ covered p ts a = true).
  { destruct a as [| | | | | | |[] f args| | | | |]; cbn [covered] in Hc; try done;
    apply andb_true_iff in Hc as [Hc H3]; apply andb_true_iff in Hc as [H1 H2];
    apply bool_decide_eq_true in H1; done. }
  destruct Hc' as (Hp & H1 & H2).
  assert (Hbody : body p (ENew a) = TNew :: wrap (optional_chain p a)
                    (wrap (prec a <? call_prec) (body p a))).
  { destruct a as [| | | | | | |[] f args| | | | |]; cbn [body]; rewrite Hp;
      by rewrite ?app_nil_r. }
  rewrite Hbody. cbn [app].
  destruct (HF H2 H1 terms rest Hterms) as (f0 & b & r0 & P1 & P2).
  assert (Hl : fst (link_of rest) = LEnd /\ consume_if TLPar rest = None).
  { destruct rest as [|t rest]; [done|]. destruct Hk as [Hk|(j & Hj & Hlt)].
    - apply bool_decide_eq_true, Hterms in Hk.
      repeat (apply elem_of_cons in Hk as [->|Hk]; [done|]). by apply elem_of_nil in Hk.
    - unfold call_prec in Hlt.
      destruct t; cbn in Hj |- *; try done; injection Hj as <-; unfold call_prec in Hlt; lia. }
  eapply po_new_bare; [|exact P1|apply P2, pc_end, Hl|apply Hl].
  destruct (target_head a rest) as (t & r & -> & Ht). by apply consume_ne.
Qed.

(** Operands followed by the operator loop. *)
Lemma operand_then e terms q rest r :
  po ts terms (body p e ++ rest) (e, false, rest) ->
  q <= prec e ->
  pl ts q terms e false rest r ->
  pe ts q terms (body p e ++ rest) r.
Proof.
  intros Hp Hq Hl. eapply pe_intro; [exact Hp| |exact Hl].
  destruct (bare_yield e false) eqn:E; [|by rewrite andb_false_r].
  apply bare_yield_prec in E as [E _]. rewrite E in Hq.
  replace (3 <? q) with false by lia. done.
Qed.

Lemma pe_unary op a : PE a -> PE (EUnary op a).
Proof.
  intros HA Hc terms q rest r Hterms Hq Hn Hk Hl. cbn [covered] in Hc.
  apply operand_then; [|done|done].
  assert (Hin : pe ts (un_prec op) terms (wrap (prec a <? un_prec op) (body p a) ++ rest)
                  (a, prec a <? un_prec op, rest)).
  { apply wrapped; [done|done|done| |].
    - intros Hb. assert (un_prec op <= prec a) by lia.
      assert (3 <= un_prec op) by (destruct op; cbn; lia).
      split; [done|]. split; [intros _; lia|].
      eapply keeps_out_weaken; [exact Hk|]. cbn [redge]. rewrite Hb. cbn [wr]. lia.
    - apply keeps_out_stop; [destruct op; cbn; lia|].
      eapply keeps_out_weaken; [exact Hk|]. cbn [redge]. lia. }
  destruct (wrap_start p (prec a <? un_prec op) a rest) as (t & u & E & Hs).
  cbn [body]. rewrite <- app_assoc. rewrite E in Hin |- *.
  assert (Hh : has_operand op terms (t :: u) = true).
  { unfold has_operand. rewrite Hs. rewrite starts_not_term by done. by destruct op. }
  destruct op; cbn [un_tokens app];
    try (eapply po_unary; [reflexivity|reflexivity|exact Hh|exact Hin]).
  - eapply po_unary; [reflexivity| |exact Hh|exact Hin].
    cbn [unary_op]. rewrite consume_ne; [done|]. by intros ->.
Qed.

Lemma pe_postfix d a : PE a -> PE (EPostfix d a).
Proof.
  intros HA Hc terms q rest r Hterms Hq Hn Hk Hl. cbn [covered] in Hc.
  cbn [body]. rewrite <- app_assoc. cbn [app]. cbn [prec] in Hq.
  apply wrapped; [done|done|done| |].
  - intros Hb. assert (Ha : postfix_prec <= prec a) by lia. split; [lia|]. split.
    + intros _. unfold postfix_prec in Ha. lia.
    + right. exists postfix_prec. split; [by destruct d|].
      pose proof (redge_prec p a) as H.
      destruct (decide (prec a = postfix_prec)) as [E|E]; [|unfold postfix_prec in *; lia].
      destruct a as [| |u ?| | |o ? ?| | | | | | |]; try done; cbn in E |- *;
        try (destruct u; done); try (destruct o; done); unfold postfix_prec; try lia.
  - apply pl_postfix; [|done|done]. apply term_ok_not; [done|]. destruct d; notin.
Qed.

Lemma op_mins op :
  bin_prec op <= left_min op /\ bin_prec op <= right_min op /\ right_min op <= 50.
Proof. destruct op; cbn; lia. Qed.

Lemma pe_binary op l r : PE l -> PE r -> PE (EBinary op l r).
Proof.
  intros HL HR Hc terms q rest res Hterms Hq Hn Hk Hlp. cbn [covered] in Hc.
  apply andb_true_iff in Hc as [Hc Hcr]. apply andb_true_iff in Hc as [Hc Hcl].
  apply andb_true_iff in Hc as [Hc Haw]. apply andb_true_iff in Hc as [Hc Has].
  apply andb_true_iff in Hc as [Hty _]. apply bool_decide_eq_true in Hty.
  cbn [body]. rewrite <- app_assoc. cbn [app]. cbn [prec] in Hq.
  set (bl := force_left p op l || (prec l <? left_min op)).
  set (br := force_right p op r || (prec r <? right_min op)).
  assert (Hcm : TOp BComma ∈ terms -> op <> BComma).
  { intros H ->. specialize (Hn H). cbn in Hn. clear -Hn. lia. }
  assert (Hlr : bin_prec op <= left_min op /\ bin_prec op <= right_min op /\ right_min op <= 50).
  { apply op_mins. }
  assert (Has' : is_assignment op = true -> good_target l false = true).
  { intros H. rewrite H in Has. done. }
  assert (Hblf : bl = false -> left_min op <= prec l).
  { unfold bl. intros H. apply orb_false_iff in H as [_ H]. clear -H. lia. }
  assert (Hbrf : br = false -> right_min op <= prec r).
  { unfold br. intros H. apply orb_false_iff in H as [_ H]. clear -H. lia. }
  assert (H2 : TOp BComma ∈ terms -> 2 <= bin_prec op).
  { intros H. apply (Hn H). }
  apply wrapped; [done|done|done| |].
  - intros Hb. specialize (Hblf Hb). split; [clear -Hblf Hlr Hq; lia|]. split.
    + intros H. specialize (H2 H). clear -H2 Hblf Hlr. lia.
    + right. exists (bin_prec op). split; [done|]. by apply left_follow.
  - eapply pl_bin with (rr := r) (b := br) (rest := rest); [| | | | | |exact Hlp].
    + by apply (op_not_term _ _ l).
    + done.
    + destruct (bare_yield l bl) eqn:E; [|done].
      apply bare_yield_prec in E as [E Eb]. specialize (Hblf Eb). cbn [andb].
      clear -Hblf E Hlr. lia.
    + destruct (decide (op = BExp)) as [->|Hx]; [|by rewrite bool_decide_eq_false_2].
      rewrite bool_decide_eq_true_2 by done. cbn [andb].
      destruct bl eqn:Eb; [by destruct l as [| |[]| | | | | | | | |[]|]|].
      unfold bl in Eb. apply orb_false_iff in Eb as [Eb1 Eb2].
      destruct l as [| |u ?| | | | | | | | |k ? ?|]; try done.
      * destruct p; cbn in Eb1; [by rewrite ?bool_decide_eq_true_2 in Eb1|].
        destruct u; try done; cbn in Eb1, Haw; by rewrite ?bool_decide_eq_true_2 in *.
    + destruct (is_assignment op) eqn:Ea; [|done]. specialize (Has' eq_refl).
      assert (Eb : bl = false).
      { unfold bl. apply orb_false_iff. split.
        - destruct p, op; try done; destruct l as [| | | | | | | |[]|[]| | |]; done.
        - destruct op; try done; destruct l as [| | | | | | | |[]|[]| | |]; done. }
      rewrite Eb, Has'. done.
    + apply wrapped; [done|done|done| |].
      * intros Hb. specialize (Hbrf Hb). split; [done|]. split.
        -- intros H. specialize (H2 H). clear -H2 Hbrf Hlr. lia.
        -- eapply keeps_out_weaken; [exact Hk|]. cbn [redge]. fold br. rewrite Hb. cbn [wr]. clear. lia.
      * apply keeps_out_stop; [clear -Hlr; lia|].
        eapply keeps_out_weaken; [exact Hk|]. cbn [redge]. clear. lia.
Qed.

Lemma pe_cond t c a : PE t -> PE c -> PE a -> PE (ECond t c a).
Proof.
  intros HT HC HA Hc terms q rest res Hterms Hq Hn Hk Hlp. cbn [covered] in Hc.
  apply andb_true_iff in Hc as [Hc Hca]. apply andb_true_iff in Hc as [Hct Hcc].
  cbn [body]. rewrite <- !app_assoc. cbn [app]. rewrite <- !app_assoc. cbn [app].
  cbn [prec] in Hq.
  apply wrapped; [done|done|done| |].
  - intros Hb. assert (Ht : S cond_prec <= prec t) by lia. unfold cond_prec in *.
    split; [lia|]. split; [intros _; lia|].
    right. exists cond_prec. split; [done|]. pose proof (redge_prec p t).
    unfold cond_prec. lia.
  - eapply pl_cond; [| | | | |exact Hlp].
    + apply term_ok_not; [done|]. notin.
    + done.
    + destruct (bare_yield t _) eqn:E; [|done]. apply bare_yield_prec in E as [E Eb].
      unfold cond_prec in Eb. lia.
    + apply enclosed; [done|done|set_solver].
    + apply wrapped; [done|done|done| |].
      * intros Hb. unfold cond_prec, cond_alt_prec in *. split; [lia|].
        split; [intros _; lia|]. eapply keeps_out_weaken; [exact Hk|]. cbn [redge].
        unfold cond_prec. rewrite Hb. cbn [wr]. lia.
      * apply keeps_out_stop; [unfold cond_alt_prec; lia|].
        eapply keeps_out_weaken; [exact Hk|]. cbn [redge]. lia.
Qed.

(** The receiver of a call or access. *)
Lemma receiver o terms q rest t r :
  PE o -> covered p ts o = true -> bare_new o = false ->
  terms_ok terms -> q <= call_prec ->
  tok_prec ts t = Some call_prec ->
  pl ts q terms o (prec o <? call_prec) (t :: rest) r ->
  pe ts q terms (wrap (prec o <? call_prec) (body p o) ++ t :: rest) r.
Proof.
  intros HO Hc Hb Hterms Hq Ht Hl. apply wrapped; [done|done|done| |done].
  intros E. assert (Hp : call_prec <= prec o) by lia. split; [lia|].
  split; [intros _; unfold call_prec in Hp; lia|].
  rewrite receiver_redge by done. right. exists call_prec. split; [done|].
  unfold call_prec. lia.
Qed.

Lemma receiver_yield o : bare_yield o (prec o <? call_prec) = false.
Proof.
  destruct (bare_yield o _) eqn:E; [|done]. apply bare_yield_prec in E as [E1 E2].
  rewrite E1 in E2. done.
Qed.

Lemma pe_call opt f args : PE f -> ARGS args -> PE (ECall opt f args).
Proof.
  intros HF HA Hc terms q rest res Hterms Hq Hn Hk Hlp. cbn [covered] in Hc.
  apply andb_true_iff in Hc as [Hc Hca]. apply andb_true_iff in Hc as [Hb Hcf].
  apply negb_true_iff in Hb. cbn [prec] in Hq.
  cbn [body]. rewrite <- !app_assoc. cbn [app]. rewrite <- !app_assoc. cbn [app].
  apply receiver; [done|done|done|done|done|by destruct opt|].
  eapply pl_call; [|done|apply receiver_yield|by apply HA|exact Hlp].
  apply term_ok_not; [done|]. destruct opt; notin.
Qed.

Lemma pe_member opt o m : PE o -> PE (EMember opt o m).
Proof.
  intros HO Hc terms q rest res Hterms Hq Hn Hk Hlp. cbn [covered] in Hc.
  apply andb_true_iff in Hc as [Hb Hco].
  apply negb_true_iff in Hb. cbn [prec] in Hq.
  cbn [body]. rewrite <- !app_assoc. cbn [app].
  apply receiver; [done|done|done|done|done|by destruct opt|].
  eapply pl_member; [|done|apply receiver_yield|exact Hlp].
  apply term_ok_not; [done|]. destruct opt; notin.
Qed.

Lemma pe_index opt o i : PE o -> PE i -> PE (EIndex opt o i).
Proof.
  intros HO HI Hc terms q rest res Hterms Hq Hn Hk Hlp. cbn [covered] in Hc.
  apply andb_true_iff in Hc as [Hc Hci]. apply andb_true_iff in Hc as [Hb Hco].
  apply negb_true_iff in Hb. cbn [prec] in Hq.
  cbn [body]. rewrite <- !app_assoc. cbn [app]. rewrite <- !app_assoc. cbn [app].
  apply receiver; [done|done|done|done|done|by destruct opt|].
  eapply pl_index; [|done|apply receiver_yield| |exact Hlp].
  - apply term_ok_not; [done|]. destruct opt; notin.
  - apply enclosed; [done|done|set_solver].
Qed.

Lemma pe_as k a ty : PE a -> PE (EAs k a ty).
Proof.
  intros HA Hc terms q rest res Hterms Hq Hn Hk Hlp. cbn [covered] in Hc.
  apply andb_true_iff in Hc as [Hc Hcl]. apply andb_true_iff in Hc as [Hc Hca].
  apply andb_true_iff in Hc as [_ Hts]. cbn [prec] in Hq.
  cbn [body]. rewrite <- !app_assoc. cbn [app].
  apply wrapped; [done|done|done| |].
  - intros Hb. rewrite Hb in Hcl. cbn in Hcl. unfold as_prec in *.
    split; [lia|]. split; [intros _; lia|].
    rewrite closed_redge by done. right. exists 99. rewrite Hts. split; [done|lia].
  - apply pl_as; [done| |done]. apply term_ok_not; [done|]. notin.
Qed.

Lemma trip : (forall e, Pexpr e) /\ (forall its, Pitems its).
Proof.
  apply expr_items_ind; unfold Pexpr, Pitems.
  - intros n.
    assert (H : forall terms rest, po ts terms (body p (EId n) ++ rest) (EId n, false, rest)).
    { intros. by apply po_name. }
    assert (HE : PE (EId n)) by (intros Hc terms q rest r ? ? ? ? ?; by apply operand_then).
    split; [done|]. split; [|done]. apply nt_atom; [done|]. right. right.
    split; [done|]. split; [cbn; unfold call_prec, primary_prec; lia|done].
  - intros n.
    assert (H : forall terms rest, po ts terms (body p (ELit n) ++ rest) (ELit n, false, rest)).
    { intros. by apply po_name. }
    assert (HE : PE (ELit n)) by (intros Hc terms q rest r ? ? ? ? ?; by apply operand_then).
    split; [done|]. split; [|done]. apply nt_atom; [done|]. right. right.
    split; [done|]. split; [cbn; unfold call_prec, primary_prec; lia|done].
  - intros op a (HA & _). pose proof (pe_unary op a HA) as HE. split; [done|]. split; [|done].
    apply nt_atom; [done|]. right. left. destruct op; cbn; unfold call_prec; lia.
  - intros a (HA & HN & Hm).
    assert (HE : PE (ENew a)).
    { intros Hc terms q rest r Hterms Hq Hn Hk Hl. apply operand_then; [|done|done].
      destruct (bare_new (ENew a)) eqn:Eb.
      - apply new_bare; [done|done|done|done|]. cbn [redge] in Hk. by rewrite Eb in Hk.
      - destruct a as [| | | | | | |[] f args| | | | |]; try done. destruct Hm.
        by apply new_call. }
    split; [done|]. split; [|done]. apply nt_atom; [done|].
    destruct (optional_chain p (ENew a)) eqn:Eo; [by left|]. right. right.
    split; [done|]. split; [done|]. intros Hc Ht terms rest Hterms.
    destruct (bare_new (ENew a)) eqn:Eb.
    + cbn [new_target] in Ht. rewrite Eo in Ht. by destruct a as [| | | | | | |[]| | | | |].
    + destruct a as [| | | | | | |[] f args| | | | |]; try done. destruct Hm.
      by apply new_call.
  - intros d a (HA & _). pose proof (pe_postfix d a HA) as HE. split; [done|]. split; [|done].
    apply nt_atom; [done|]. right. left. cbn. unfold call_prec, postfix_prec. lia.
  - intros op l (HL & _) r (HR & _). pose proof (pe_binary op l r HL HR) as HE.
    split; [done|]. split; [|done].
    apply nt_atom; [done|]. right. left. destruct op; cbn; unfold call_prec; lia.
  - intros t (HT & _) c (HC & _) a (HA & _). pose proof (pe_cond t c a HT HC HA) as HE.
    split; [done|]. split; [|done].
    apply nt_atom; [done|]. right. left. cbn. unfold call_prec, cond_prec. lia.
  - intros opt f (HF & HN & _) args (HA & _). pose proof (pe_call opt f args HF HA) as HE.
    split; [done|]. split; [by apply nt_call|done].
  - intros opt o (HO & HN & _) m. pose proof (pe_member opt o m HO) as HE.
    split; [done|]. split; [by apply nt_member|done].
  - intros opt o (HO & HN & _) i (HI & _). pose proof (pe_index opt o i HO HI) as HE.
    split; [done|]. split; [by apply nt_index|done].
  - intros its (_ & HA).
    assert (H : covered p ts (EArr its) = true -> forall terms rest,
                  po ts terms (body p (EArr its) ++ rest) (EArr its, false, rest)).
    { intros Hc terms rest. cbn [body app]. rewrite <- app_assoc. cbn [app].
      apply po_array. by apply HA. }
    assert (HE : PE (EArr its))
      by (intros Hc terms q rest r ? ? ? ? ?; apply operand_then; [by apply H|done|done]).
    split; [done|]. split; [|done]. apply nt_atom; [done|]. right. right.
    split; [done|]. split; [cbn; unfold call_prec, primary_prec; lia|].
    intros Hc _ terms rest _. by apply H.
  - intros k a (HA & _) ty. pose proof (pe_as k a ty HA) as HE. split; [done|]. split; [|done].
    apply nt_atom; [done|]. right. left. cbn. unfold call_prec, as_prec. lia.
  - intros a _. split; [by intros Hc|]. split; [by intros Hc|done].
  - split; [intros _ rest; apply pa_nil|].
    intros _ rest. exists 1. done.
  - intros its (_ & HE). split; [by intros Hc|]. by apply elems_hole.
  - intros sp e (HE & _) its (HA & HB). split; [by apply args_item|by apply elems_item].
Qed.

Lemma print_parses e :
  covered p ts e = true ->
  exists n0, forall n, n0 <= n -> parse_with n ts (print_expr p e) = Ok (e, [TEnd]).
Proof.
  intros Hc. destruct (proj1 trip e) as (HE & _).
  destruct (enclosed (prec e <? 1) e TEnd [] HE Hc) as [n0 H]; [set_solver|].
  exists n0. intros n Hn. unfold parse_with, print_expr.
  by rewrite (up_e _ _ _ _ _ _ _ H) by lia.
Qed.
End trip.

Lemma covered_reparses p e : covered p false e = true -> reparses p e.
Proof.
  intros Hc. destruct (print_parses p false e Hc) as (n & H).
  eapply parse_js_complete, (H n). lia.
Qed.

Fixpoint operator_covered e {struct e} :
  operator_tree e = true -> covered AstPrinter false e = true.
Proof.
  destruct e; cbn [operator_tree covered]; intros H; try done; try by apply operator_covered.
  - apply andb_true_iff in H as [H H3]. apply andb_true_iff in H as [H H2].
    apply andb_true_iff in H as [H0 H1].
    rewrite H0, (operator_covered e1 H2), (operator_covered e2 H3).
    replace (bool_decide (AstPrinter = HirPrinter)) with false by done. cbn [negb andb].
    rewrite !andb_true_r. apply orb_true_iff in H1 as [->|H1]; [done|].
    by destruct e1; rewrite ?orb_true_r.
  - apply andb_true_iff in H as [H H3]. apply andb_true_iff in H as [H1 H2].
    by rewrite (operator_covered _ H1), (operator_covered _ H2), (operator_covered _ H3).
Qed.
