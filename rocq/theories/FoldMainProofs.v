(** * Constant folding keeps what expressions do: the induction *)
From Coq Require Import String Ascii ZArith NArith Bool List Lia.
From stdpp Require Import base decidable numbers list.
From Verif Require Import VmBase RustStr RustStrProofs PrimModel PrimSpec ConvModel ConvSpec.
From Verif Require Import FoldModel FoldSpec FoldNumProofs FoldProofs.
Local Open Scope N_scope.

Section main.
Context {W : Type} (R : rust) (h : host W) (A : agrees R h).
Notation powers := (forall x y, r_powf R x y = n_exp h x y).

Lemma binary_prim op a b v :
  op <> BSeq -> op <> BSne -> on_primitives h op (sem a) (sem b) = Some v -> binary h op (sem a) (sem b) = ret v.
Proof.
  intros N1 N2 E. assert (forall v, primitive (sem v) = true) as P by (by intros []).
  unfold binary. rewrite !P, E. by destruct op.
Qed.
Lemma order_sem (op : binop) a b x y : const_ok a -> const_ok b ->
  const_to_number R a = Some x -> const_to_number R b = Some y ->
  (forall s t, a = CStr s -> b = CStr t -> False) ->
  less h (sem a) (sem b) = number_less x y.
Proof.
  intros Va Vb Ea Eb N. unfold less. rewrite (number_sem R h A a x Va Ea), (number_sem R h A b y Vb Eb).
  destruct a, b; try done. by destruct (N s s0).
Qed.

Lemma fold_strict c op l r e :
  strict_op op = true -> lit_ok l -> lit_ok r -> (op <> BPow \/ powers) ->
  fold_binary R c op l r = Some e ->
  exists a b v, const_val l = Some a /\ const_val r = Some b /\ binary h op (sem a) (sem b) = ret v /\
    eval_link h e ≈ plain (ret v) /\ lit_ok e /\ const_val e <> None.
Proof.
  intros S Ll Lr P F.
  destruct (const_val l) as [a|] eqn:Ca; [|by destruct op; cbn in F; rewrite ?Ca in F].
  destruct (const_val r) as [b|] eqn:Cb; [|by destruct op; cbn in F; rewrite ?Ca, ?Cb in F; destruct a].
  destruct (const_link h l a Ll Ca) as [Va _], (const_link h r b Lr Cb) as [Vb _].
  exists a, b. 
  assert (forall z x y, a = CNum x -> b = CNum y -> num_op R op x y = Some z -> e = ENum z ->
    exists v, Some a = Some a /\ Some b = Some b /\ binary h op (sem a) (sem b) = ret v /\
      eval_link h e ≈ plain (ret v) /\ lit_ok e /\ const_val e <> None) as NN.
  { intros z x y -> -> Hz ->. exists (VNum z). split; [done|]. split; [done|]. split; [|split; [done|split; [|done]]].
    - apply binary_prim; [by intros ->|by intros ->|]. pose proof (num_op_sem R h A op x y z P Hz) as K.
      destruct op; cbn [on_primitives sem is_string orb]; try done; unfold arithmetic; cbn [numeric sem]; by rewrite K.
    - by apply (ag_double R h A op x y). }
  assert (op <> BSeq -> op <> BSne -> forall v, on_primitives h op (sem a) (sem b) = Some (VBool v) -> e = EBool v ->
    exists v, Some a = Some a /\ Some b = Some b /\ binary h op (sem a) (sem b) = ret v /\
      eval_link h e ≈ plain (ret v) /\ lit_ok e /\ const_val e <> None) as BB.
  { intros N1 N2 v Hv ->. exists (VBool v). repeat (split; [done|]). split; [by apply binary_prim|]. done. }
  assert (forall s, op = BAdd -> is_string (sem a) || is_string (sem b) = true -> e = EStr s None ->
    s = const_to_string R a ++ const_to_string R b ->
    exists v, Some a = Some a /\ Some b = Some b /\ binary h op (sem a) (sem b) = ret v /\
      eval_link h e ≈ plain (ret v) /\ lit_ok e /\ const_val e <> None) as SS.
  { intros s -> Hs -> Es. exists (VStr (utf16 s)). repeat (split; [done|]).
    destruct (text_sem R h A a Va) as [Ta Wa], (text_sem R h A b Vb) as [Tb Wb].
    split; [|split; [done|split; [|done]]].
    - apply binary_prim; [done..|]. cbn [on_primitives]. rewrite Hs, Ta, Tb, Es. unfold utf16. by rewrite map_app, concat_app.
    - split; [done|]. rewrite Es. by apply Forall_app. }
  destruct op; try done; cbn [fold_binary] in F; rewrite Ca, Cb in F.
  - (* + *) destruct a as [| |a|a|a|a], b as [| |b|b|b|b]; try done; injection F as <-;
      try (by eapply NN); by eapply SS.
  - destruct a, b; try done; injection F as <-; by eapply NN.
  - destruct a, b; try done; injection F as <-; by eapply NN.
  - destruct a, b; try done; injection F as <-; by eapply NN.
  - destruct a, b; try done; injection F as <-; by eapply NN.
  - destruct a, b; try done; injection F as <-; by eapply NN.
  - destruct a, b; try done; injection F as <-; by eapply NN.
  - destruct a, b; try done; injection F as <-; by eapply NN.
  - destruct a, b; try done; injection F as <-; by eapply NN.
  - destruct a, b; try done; injection F as <-; by eapply NN.
  - destruct a, b; try done; injection F as <-; by eapply NN.
  - destruct a, b; try done; injection F as <-; by eapply NN.
  - (* < *)
    destruct (match a, b with CStr _, CStr _ => true | _, _ => false end) eqn:Q.
    + destruct a as [| |a|a|a|a], b as [| |b|b|b|b]; try done. injection F as <-. eapply BB; [done..| |done].
      cbn [on_primitives sem less]. do 2 f_equal. unfold order_op, js_str_cmp.
      by destruct (lex_cmp (utf16 a) (utf16 b)).
    + assert (exists x y, const_to_number R a = Some x /\ const_to_number R b = Some y /\ e = EBool (float_op BLt x y)) as (x&y&Ea&Eb&->).
      { destruct a, b; try done; injection F as <-; by do 2 eexists. }
      eapply BB; [done..| |done]. cbn [on_primitives float_op].
      rewrite (order_sem BLt a b x y) by (try done; intros ? ? -> ->; done). by rewrite ltb_less.
  - destruct (match a, b with CStr _, CStr _ => true | _, _ => false end) eqn:Q.
    + destruct a as [| |a|a|a|a], b as [| |b|b|b|b]; try done. injection F as <-. eapply BB; [done..| |done].
      cbn [on_primitives sem less]. do 2 f_equal. unfold order_op, js_str_cmp. rewrite (lex_flip (utf16 a) (utf16 b)).
      by destruct (lex_cmp (utf16 a) (utf16 b)).
    + assert (exists x y, const_to_number R a = Some x /\ const_to_number R b = Some y /\ e = EBool (float_op BLe x y)) as (x&y&Ea&Eb&->).
      { destruct a, b; try done; injection F as <-; by do 2 eexists. }
      eapply BB; [done..| |done]. cbn [on_primitives float_op].
      rewrite (order_sem BLt b a y x) by (try done; intros ? ? -> ->; done). by rewrite leb_less.
  - destruct (match a, b with CStr _, CStr _ => true | _, _ => false end) eqn:Q.
    + destruct a as [| |a|a|a|a], b as [| |b|b|b|b]; try done. injection F as <-. eapply BB; [done..| |done].
      cbn [on_primitives sem less]. do 2 f_equal. unfold order_op, js_str_cmp. rewrite (lex_flip (utf16 a) (utf16 b)).
      by destruct (lex_cmp (utf16 a) (utf16 b)).
    + assert (exists x y, const_to_number R a = Some x /\ const_to_number R b = Some y /\ e = EBool (float_op BGt x y)) as (x&y&Ea&Eb&->).
      { destruct a, b; try done; injection F as <-; by do 2 eexists. }
      eapply BB; [done..| |done]. cbn [on_primitives float_op].
      rewrite (order_sem BLt b a y x) by (try done; intros ? ? -> ->; done). by rewrite ltb_less.
  - destruct (match a, b with CStr _, CStr _ => true | _, _ => false end) eqn:Q.
    + destruct a as [| |a|a|a|a], b as [| |b|b|b|b]; try done. injection F as <-. eapply BB; [done..| |done].
      cbn [on_primitives sem less]. do 2 f_equal. unfold order_op, js_str_cmp.
      by destruct (lex_cmp (utf16 a) (utf16 b)).
    + assert (exists x y, const_to_number R a = Some x /\ const_to_number R b = Some y /\ e = EBool (float_op BGe x y)) as (x&y&Ea&Eb&->).
      { destruct a, b; try done; injection F as <-; by do 2 eexists. }
      eapply BB; [done..| |done]. cbn [on_primitives float_op].
      rewrite (order_sem BLt a b x y) by (try done; intros ? ? -> ->; done). by rewrite leb_less.
  - destruct (js_loose_eq R a b) as [t|] eqn:E; [|done]. injection F as <-. eapply BB; [done..| |done].
    cbn [on_primitives]. by rewrite (loose_sem R h A a b t Va Vb E).
  - destruct (js_loose_eq R a b) as [t|] eqn:E; [|done]. injection F as <-. eapply BB; [done..| |done].
    cbn [on_primitives]. by rewrite (loose_sem R h A a b t Va Vb E).
  - injection F as <-. eexists. repeat (split; [done|]). split; [|done]. cbn [binary]. by rewrite (strict_sem a b Va Vb).
  - injection F as <-. eexists. repeat (split; [done|]). split; [|done]. cbn [binary]. by rewrite (strict_sem a b Va Vb).
Qed.

Definition good : expr -> Prop := everywhere (fun e => sound_position e /\ (no_power e \/ powers)) sound_item.
Definition good_items : items -> Prop := everywhere_items (fun e => sound_position e /\ (no_power e \/ powers)) sound_item.
Notation foldv := (fold R Value).

Definition object_kept (o : expr) : Prop :=
  eval h (foldv o) ≈ eval h o /\
  forall B (none : comp W B) k, on_object h none k (foldv o) ≈ on_object h none k o.
Record kept (e : expr) : Prop := Kept {
  k_value : eval h (foldv e) ≈ eval h e;
  k_test : test h (fold R Condition e) ≈ test h e;
  k_link : conditional e = false -> eval_link h (foldv e) ≈ eval_link h e;
  k_lit c : lit_ok (fold R c e);
  k_name : tails is_name e = false -> is_name (foldv e) = false;
  k_ref : tails is_reference e = false -> is_reference (foldv e) = false;
  k_anon : tails is_anonymous e = false -> is_anonymous (foldv e) = false;
  k_chain : tails in_chain e = false -> in_chain (foldv e) = false;
  k_sub : match e with
          | EMember _ o _ => object_kept o
          | EIndex _ o k => object_kept o /\ eval h (foldv k) ≈ eval h k
          | _ => True
          end }.
Definition named (x : option rstr) (e : expr) : comp W val :=
  match e with
  | EFun k => new_function h k x
  | EClass k _ => new_class h k x
  | _ => eval h e
  end.
Record kept_items (l : items) : Prop := KeptItems {
  ki_texts : texts (fold_items R l) = texts l;
  ki_args : eval_args h (fold_items R l) ≈ eval_args h l;
  ki_elements : eval_elements h (fold_items R l) ≈ eval_elements h l;
  ki_parts : eval_parts h (fold_items R l) ≈ eval_parts h l;
  ki_members o : eval_members h o (fold_items R l) ≈ eval_members h o l }.

Lemma not_conditional p e : conditional e = false -> tails p e = p e.
Proof. destruct e; try done. by destruct op. Qed.
Lemma leaves_cases p e : (forall e, conditional e = true -> p e = false) ->
  (tails p e = false -> p (foldv e) = false) -> leaves_no p e ->
  (conditional e = false /\ (p e = true \/ (p e = false /\ p (foldv e) = false))) \/
  (conditional e = true /\ p e = false /\ p (foldv e) = false).
Proof.
  intros C K L. unfold leaves_no in L. destruct (conditional e) eqn:E.
  - right. repeat split; [by apply C|by apply K, L].
  - left. split; [done|]. rewrite (not_conditional p e E) in K. destruct (p e); [by left|]. right. by split; [|apply K].
Qed.
Lemma cond_name e : conditional e = true -> is_name e = false. Proof. by destruct e. Qed.
Lemma cond_ref e : conditional e = true -> is_reference e = false. Proof. by destruct e. Qed.
Lemma cond_anon e : conditional e = true -> is_anonymous e = false. Proof. by destruct e. Qed.
Lemma cond_chain e : conditional e = true -> in_chain e = false. Proof. by destruct e. Qed.
Lemma tails_or p q e : tails (fun e => p e || q e) e = false -> tails p e = false /\ tails q e = false.
Proof.
  induction e; try (by intros H%orb_false_iff); cbn [tails].
  - destruct op; try (by intros H%orb_false_iff); apply IHe2.
  - intros [H1 H2]%orb_false_iff. destruct (IHe2 H1) as [-> ->], (IHe3 H2) as [-> ->]. done.
Qed.

Lemma object_from o : kept o -> leaves_no in_chain o -> object_kept o.
Proof.
  intros K L. split; [by apply K|]. intros B none k.
  destruct (conditional o) eqn:C.
  - mt; [apply on_object_some, (k_chain o K), L, C|]. apply meq_sym.
    mt; [apply on_object_some, cond_chain, C|]. apply bind_l, meq_sym. apply K.
  - apply bind_l. by apply K.
Qed.
Lemma callee_from f : kept f -> leaves_no (fun e => is_reference e || in_chain e) f -> eval_link h (foldv f) ≈ eval_link h f.
Proof.
  intros K L. destruct (conditional f) eqn:C; [|by apply K].
  destruct (tails_or _ _ _ (L C)) as [T1 T2].
  mt; [apply link_plain; [by apply K|by apply K]|]. apply meq_sym.
  mt; [apply link_plain; [by apply cond_ref|by apply cond_chain]|]. apply plain_ext, meq_sym. apply K.
Qed.
Lemma named_eval x e : is_anonymous e = false -> named x e = eval h e. Proof. by destruct e. Qed.
Lemma named_from x e : kept e -> leaves_no is_anonymous e -> named x (foldv e) ≈ named x e.
Proof.
  intros K L. destruct (leaves_cases is_anonymous e cond_anon (k_anon e K) L) as [[C [E|[E1 E2]]]|(C&E1&E2)].
  - by destruct e.
  - rewrite !named_eval by done. apply K.
  - rewrite !named_eval by done. apply K.
Qed.

(** Expressions that are neither conditional nor replaced. *)
Lemma kept_intro e :
  fold R Condition e = foldv e -> conditional e = false -> eval_link h (foldv e) ≈ eval_link h e ->
  lit_ok (foldv e) ->
  (is_name e = false -> is_name (foldv e) = false) -> (is_reference e = false -> is_reference (foldv e) = false) ->
  (is_anonymous e = false -> is_anonymous (foldv e) = false) -> (in_chain e = false -> in_chain (foldv e) = false) ->
  match e with
  | EMember _ o _ => object_kept o
  | EIndex _ o k => object_kept o /\ eval h (foldv k) ≈ eval h k
  | _ => True
  end -> kept e.
Proof.
  intros F C L T P1 P2 P3 P4 S.
  assert (eval h (foldv e) ≈ eval h e) as V by (by apply bind_l).
  constructor; try done; try (rewrite not_conditional by done; done).
  - rewrite F. by apply test_ext.
  - intros []; [done|by rewrite F].
Qed.

Definition un_body (op : unop) (a : expr) : comp W val :=
  match op, a with
  | UTypeof, EId x => typeof_id h x
  | UDelete, EId x => delete_id h x
  | UDelete, EMember opt o m =>
      on_object h (ret (VBool true))
        (fun v => if opt && nullish v then ret (VBool true) else delete_prop h v (str m)) o
  | UDelete, EIndex opt o k =>
      on_object h (ret (VBool true))
        (fun v => if opt && nullish v then ret (VBool true) else bind (eval h k) (fun k => delete_prop h v k)) o
  | _, _ => bind (eval h a) (unary h op)
  end.
Lemma link_un op a : eval_link h (EUn op a) = plain (un_body op a).
Proof. destruct op; try reflexivity; destruct a; reflexivity. Qed.
Lemma un_typeof a : is_name a = false -> un_body UTypeof a = bind (eval h a) (unary h UTypeof).
Proof. by destruct a. Qed.
Lemma un_delete a : is_reference a = false -> un_body UDelete a = bind (eval h a) (unary h UDelete).
Proof. by destruct a. Qed.

Lemma un_kept op a : kept a -> sound_position (EUn op a) -> un_body op (foldv a) ≈ un_body op a.
Proof.
  intros K S. assert (bind (eval h (foldv a)) (unary h op) ≈ bind (eval h a) (unary h op)) as B by (apply bind_l, K).
  destruct op; try exact B.
  - destruct (leaves_cases is_name a cond_name (k_name a K) S) as [[C [E|[E1 E2]]]|(C&E1&E2)].
    + by destruct a.
    + by rewrite !un_typeof.
    + by rewrite !un_typeof.
  - destruct (leaves_cases is_reference a cond_ref (k_ref a K) S) as [[C [E|[E1 E2]]]|(C&E1&E2)].
    + pose proof (k_sub a K) as Sub. destruct a; try done.
      * apply Sub.
      * destruct Sub as [[_ Sub] Kk]. cbn [fold un_body]. mt; [apply Sub|]. apply bind_r.
        intros [[[v ?] ?]|]; [|done]. destruct (optional && nullish v); [done|]. by apply bind_l.
    + by rewrite !un_delete.
    + by rewrite !un_delete.
Qed.

Definition as_body (op : option binop) (t e : expr) : comp W val :=
  match t with
  | EId x =>
      match op with
      | None => bind (named (Some x) e) (fun v => bind (put_id h x v) (fun _ => ret v))
      | Some op =>
          bind (get_id h x) (fun a => bind (eval h e) (fun b => bind (binary h op a b) (fun v =>
            bind (put_id h x v) (fun _ => ret v))))
      end
  | EMember _ o m =>
      bind (eval h o) (fun o =>
        match op with
        | None => bind (eval h e) (fun v => bind (put_prop h o (str m) v) (fun _ => ret v))
        | Some op =>
            bind (get_prop h o (str m)) (fun a => bind (eval h e) (fun b => bind (binary h op a b) (fun v =>
              bind (put_prop h o (str m) v) (fun _ => ret v))))
        end)
  | EIndex _ o k =>
      bind (eval h o) (fun o => bind (eval h k) (fun k =>
        match op with
        | None => bind (eval h e) (fun v => bind (put_prop h o k v) (fun _ => ret v))
        | Some op =>
            bind (to_key h k) (fun k => bind (get_prop h o k) (fun a => bind (eval h e) (fun b =>
              bind (binary h op a b) (fun v => bind (put_prop h o k v) (fun _ => ret v)))))
        end))
  | ELeaf k => bind (eval h e) (fun v => bind (put_pattern h k v) (fun _ => ret v))
  | _ => ret VUndef
  end.
Lemma link_as op t e : eval_link h (EAssign op t e) = plain (as_body op t e).
Proof. destruct t; try reflexivity; destruct op; reflexivity. Qed.
Lemma as_kept op t e : kept t -> kept e -> sound_position (EAssign op t e) ->
  as_body op (foldv t) (foldv e) ≈ as_body op t e.
Proof.
  intros Kt Ke S. pose proof (k_value e Ke) as V. pose proof (k_sub t Kt) as Sub.
  destruct t; try done; cbn [fold as_body].
  - destruct op as [op|]; [by apply bind_r; intros; apply bind_l|]. apply bind_l. by apply named_from.
  - by apply bind_l.
  - destruct Sub as [Sub _]. apply bind_ext; [done|]. intros o.
    destruct op as [op|]; [by apply bind_r; intros; apply bind_l|by apply bind_l].
  - destruct Sub as [[Sub _] Kk]. apply bind_ext; [done|]. intros o. apply bind_ext; [done|]. intros k.
    destruct op as [op|]; [apply bind_r; intros; by apply bind_r; intros; apply bind_l|by apply bind_l].
Qed.

(** Operators and conditional expressions. *)
Lemma const_not e v : const_val e = Some v ->
  is_name e = false /\ is_reference e = false /\ is_anonymous e = false /\ in_chain e = false.
Proof. by destruct e. Qed.
Lemma bin_values op l r l' r' : eval h l' ≈ eval h l -> eval h r' ≈ eval h r ->
  eval h (EBin op l' r') ≈ eval h (EBin op l r).
Proof.
  intros L K. destruct (strict_op op) eqn:S.
  - mt; [eapply eval_plain; rewrite (link_strict h op l' r' S); apply meq_refl|]. apply meq_sym.
    mt; [eapply eval_plain; rewrite (link_strict h op l r S); apply meq_refl|]. apply meq_sym.
    apply bind_ext; [done|]. intros a. by apply bind_l.
  - destruct op; try done.
    + mt; [apply eval_land|]. apply meq_sym. mt; [apply eval_land|]. apply meq_sym. apply bind_ext; [done|].
      intros v. by destruct (truthy v).
    + mt; [apply eval_lor|]. apply meq_sym. mt; [apply eval_lor|]. apply meq_sym. apply bind_ext; [done|].
      intros v. by destruct (truthy v).
    + mt; [apply eval_nullish|]. apply meq_sym. mt; [apply eval_nullish|]. apply meq_sym. apply bind_ext; [done|].
      intros v. by destruct (nullish v).
    + mt; [by apply (eval_plain h (EBin BComma l' r') (bind (eval h l') (fun _ => eval h r')))|]. apply meq_sym.
      mt; [by apply (eval_plain h (EBin BComma l r) (bind (eval h l) (fun _ => eval h r)))|]. apply meq_sym. by apply bind_ext.
Qed.
Lemma bin_link op l r : eval_link h (EBin op l r) ≈ plain (eval h (EBin op l r)).
Proof. apply link_plain; done. Qed.

Lemma eval_test e t : lit_ok e -> const_truthiness e = Some t -> test h e ≈ ret t.
Proof.
  intros L C. destruct (const_truth h e t L C) as (v&_&<-&E&_). unfold test. mt; [apply bind_l, E|]. done.
Qed.

(** [fold_binary] in value position. *)
Lemma fold_binary_value c op l r e :
  (c = Value \/ child_ctx c op = Value) -> lit_ok l -> lit_ok r -> (no_power (EBin op l r) \/ powers) ->
  fold_binary R c op l r = Some e ->
  eval h e ≈ eval h (EBin op l r) /\ lit_ok e /\ (const_val e <> None \/ (conditional (EBin op l r) = true /\ e = r)).
Proof.
  intros C Ll Lr P F. destruct (strict_op op) eqn:S.
  - assert (op <> BPow \/ powers) as P' by (destruct P as [P|]; [left; by intros ->|by right]).
    destruct (fold_strict c op l r e S Ll Lr P' F) as (a&b&v&Ca&Cb&B&E&L&N). split; [|split; [done|by left]].
    mt; [apply eval_plain, E|]. apply meq_sym.
    mt; [eapply eval_plain; rewrite (link_strict h op l r S); apply meq_refl|].
    mt; [apply bind_l, (const_eval h l a Ll Ca)|]. mt; [apply bind_ret_l|].
    mt; [apply bind_l, (const_eval h r b Lr Cb)|]. mt; [apply bind_ret_l|]. by rewrite B.
  - destruct op; try done; cbn [fold_binary child_ctx] in *.
    + assert (c = Value) as -> by (destruct c; [done|by destruct C]).
      destruct (const_truthiness l) as [t|] eqn:T; [|done]. injection F as <-.
      destruct (const_truth h l t Ll T) as (v&Cv&<-&E&_).
      split; [|destruct (truthy (sem v)); (split; [done|]); [by right|left; congruence]].
      apply meq_sym. mt; [apply eval_land|]. mt; [apply bind_l, E|]. mt; [apply bind_ret_l|].
      destruct (truthy (sem v)); [done|]. by apply meq_sym.
    + assert (c = Value) as -> by (destruct c; [done|by destruct C]).
      destruct (const_truthiness l) as [t|] eqn:T; [|done]. injection F as <-.
      destruct (const_truth h l t Ll T) as (v&Cv&<-&E&_).
      split; [|destruct (truthy (sem v)); (split; [done|]); [left; congruence|by right]].
      apply meq_sym. mt; [apply eval_lor|]. mt; [apply bind_l, E|]. mt; [apply bind_ret_l|].
      destruct (truthy (sem v)); [by apply meq_sym|done].
    + destruct (const_val l) as [v|] eqn:T; [|done]. injection F as <-.
      destruct (const_eval h l v Ll T) as [_ E].
      split; [|destruct (is_nullish v); (split; [done|]); [by right|left; congruence]].
      apply meq_sym. mt; [apply eval_nullish|]. mt; [apply bind_l, E|]. mt; [apply bind_ret_l|].
      rewrite nullish_sem. destruct (is_nullish v); [done|by apply meq_sym].
Qed.

Lemma bin_kept op l r : kept l -> kept r -> (no_power (EBin op l r) \/ powers) -> kept (EBin op l r).
Proof.
  intros Kl Kr P.
  assert (no_power (EBin op (foldv l) (foldv r)) \/ powers) as P' by (destruct P as [P|]; [left; by destruct op|by right]).
  assert (forall l r, no_power (EBin op l r) \/ powers) as P'' by (intros; destruct P as [Q|]; [left; by destruct op|by right]).
  assert (eval h (foldv (EBin op l r)) ≈ eval h (EBin op l r) /\ lit_ok (foldv (EBin op l r)) /\
    forall p, (forall l r, p (EBin op l r) = false) -> (forall e v, const_val e = Some v -> p e = false) ->
      (tails p r = false -> p (foldv r) = false) ->
      tails p (EBin op l r) = false -> p (foldv (EBin op l r)) = false) as (V&L&T).
  { assert (child_ctx Value op = Value) as CV by (by destruct op). cbn [fold]. rewrite CV.
    destruct (fold_binary R Value op (foldv l) (foldv r)) as [e|] eqn:F.
    - destruct (fold_binary_value Value op _ _ e (or_introl eq_refl) (k_lit l Kl Value) (k_lit r Kr Value) P' F) as (E&Le&N).
      split; [|split; [done|]].
      + mt; [exact E|]. apply bin_values; [apply Kl|apply Kr].
      + intros p Pb Pc Pr Tp. destruct N as [N|[N ->]].
        * destruct (const_val e) as [v|] eqn:Ce; [|done]. by eapply Pc.
        * apply Pr. by destruct op.
    - split; [|split; [done|]].
      + apply bin_values; [apply Kl|apply Kr].
      + intros p Pb _ _ _. apply Pb. }
  constructor.
  - exact V.
  - destruct (child_ctx Condition op) eqn:CC.
    + assert (fold R Condition (EBin op l r) = foldv (EBin op l r)) as ->; [|by apply test_ext].
      assert (child_ctx Value op = Value) as CV by (by destruct op). cbn [fold]. rewrite CC, CV. by destruct op.
    + cbn [fold]. rewrite CC. destruct op; try done; cbn [fold_binary].
      * apply meq_sym. mt; [apply test_land|]. apply meq_sym.
        assert (bind (test h (fold R Condition l)) (fun c : bool => if c then test h (fold R Condition r) else ret false)
          ≈ bind (test h l) (fun c : bool => if c then test h r else ret false)) as E.
        { apply bind_ext; [apply Kl|]. intros []; [apply Kr|done]. }
        mt; [|exact E]. clear E.
        destruct (const_truthiness (fold R Condition l)) as [t|] eqn:T'.
        { apply meq_sym. mt; [apply bind_l, eval_test; [apply Kl|exact T']|]. mt; [apply bind_ret_l|].
          destruct t; [done|]. apply meq_sym. apply eval_test; [apply Kl|done]. }
        destruct (is_lit true (fold R Condition r)) eqn:Q; [|apply test_land].
        destruct (fold R Condition r) eqn:Er; try done. destruct b; try done.
        apply meq_sym. mt; [|apply bind_ret_r]. apply bind_r. by intros [].
      * apply meq_sym. mt; [apply test_lor|]. apply meq_sym.
        assert (bind (test h (fold R Condition l)) (fun c : bool => if c then ret true else test h (fold R Condition r))
          ≈ bind (test h l) (fun c : bool => if c then ret true else test h r)) as E.
        { apply bind_ext; [apply Kl|]. intros []; [done|apply Kr]. }
        mt; [|exact E]. clear E.
        destruct (const_truthiness (fold R Condition l)) as [t|] eqn:T'.
        { apply meq_sym. mt; [apply bind_l, eval_test; [apply Kl|exact T']|]. mt; [apply bind_ret_l|].
          destruct t; [|done]. apply meq_sym. apply eval_test; [apply Kl|done]. }
        destruct (is_lit false (fold R Condition r)) eqn:Q; [|apply test_lor].
        destruct (fold R Condition r) eqn:Er; try done. destruct b; try done.
        apply meq_sym. mt; [|apply bind_ret_r]. apply bind_r. by intros [].
  - intros C.
    assert (is_reference (foldv (EBin op l r)) = false) as Rf
      by (apply T; [done|by intros e v (?&?&?&?)%const_not|intros; by apply Kr|by destruct op]).
    assert (in_chain (foldv (EBin op l r)) = false) as Ch
      by (apply T; [done|by intros e v (?&?&?&?)%const_not|intros; by apply Kr|by destruct op]).
    mt; [by apply link_plain|]. apply meq_sym. mt; [apply bin_link|]. apply plain_ext, meq_sym, V.
  - intros []; [done|]. cbn [fold]. destruct (fold_binary R Condition op _ _) as [e|] eqn:F; [|done].
    destruct (child_ctx Condition op) eqn:CC.
    + eapply fold_binary_value; [by right|apply Kl|apply Kr|apply P''|exact F].
    + destruct op; try done; cbn [fold_binary] in F.
      * destruct (const_truthiness _) as [[]|]; [injection F as <-; apply Kr|injection F as <-; apply Kl|].
        destruct (is_lit _ _); [|done]. injection F as <-. apply Kl.
      * destruct (const_truthiness _) as [[]|]; [injection F as <-; apply Kl|injection F as <-; apply Kr|].
        destruct (is_lit _ _); [|done]. injection F as <-. apply Kl.
  - intros. apply T; [done|by intros e v (?&?&?&?)%const_not|by apply Kr|done].
  - intros. apply T; [done|by intros e v (?&?&?&?)%const_not|by apply Kr|done].
  - intros. apply T; [done|by intros e v (?&?&?&?)%const_not|by apply Kr|done].
  - intros. apply T; [done|by intros e v (?&?&?&?)%const_not|by apply Kr|done].
  - done.
Qed.

Lemma cond_kept t a b : kept t -> kept a -> kept b -> kept (ECond t a b).
Proof.
  intros Kt Ka Kb.
  assert (forall A (f : expr -> comp W A) a' b' , 
    (forall t a b, f (ECond t a b) ≈ bind (test h t) (fun c : bool => if c then f a else f b)) ->
    f a' ≈ f a -> f b' ≈ f b ->
    f (match const_truthiness (fold R Condition t) with
       | Some v => if v then a' else b'
       | None => ECond (fold R Condition t) a' b'
       end) ≈ f (ECond t a b)) as V.
  { intros B f a' b' F Ea Eb. apply meq_sym. mt; [apply F|].
    assert (bind (test h (fold R Condition t)) (fun c : bool => if c then f a' else f b')
      ≈ bind (test h t) (fun c : bool => if c then f a else f b)) as E.
    { apply bind_ext; [apply Kt|]. by intros []. }
    mt; [apply meq_sym, E|]. apply meq_sym.
    destruct (const_truthiness (fold R Condition t)) as [v|] eqn:T; [|apply F].
    apply meq_sym. mt; [apply bind_l, eval_test; [apply Kt|exact T]|]. mt; [apply bind_ret_l|]. by destruct v. }
  constructor; try done.
  - cbn [fold]. apply V; [apply eval_cond|apply Ka|apply Kb].
  - cbn [fold]. apply V; [apply test_cond|apply Ka|apply Kb].
  - intros c. cbn [fold]. destruct (const_truthiness _) as [[]|]; [apply Ka|apply Kb|done].
  - cbn [fold tails]. intros [T1 T2]%orb_false_iff. destruct (const_truthiness _) as [[]|]; [by apply Ka|by apply Kb|done].
  - cbn [fold tails]. intros [T1 T2]%orb_false_iff. destruct (const_truthiness _) as [[]|]; [by apply Ka|by apply Kb|done].
  - cbn [fold tails]. intros [T1 T2]%orb_false_iff. destruct (const_truthiness _) as [[]|]; [by apply Ka|by apply Kb|done].
  - cbn [fold tails]. intros [T1 T2]%orb_false_iff. destruct (const_truthiness _) as [[]|]; [by apply Ka|by apply Kb|done].
Qed.

Lemma chain_kept o : kept o -> leaves_no in_chain o -> in_chain o = false -> in_chain (foldv o) = false.
Proof.
  intros K L C. apply (k_chain o K). destruct (conditional o) eqn:E; [by apply L|]. by rewrite not_conditional.
Qed.
Lemma leaves_or p q e : leaves_no (fun e => p e || q e) e -> leaves_no q e.
Proof. intros L C. apply (tails_or p q e (L C)). Qed.

Lemma by_values {B} e' e (k k' : val -> comp W B) : eval h e' ≈ eval h e -> (forall v, k v ≈ k' v) ->
  bind (eval_link h e') (fun x => k (link_value x)) ≈ bind (eval_link h e) (fun x => k' (link_value x)).
Proof.
  intros E K. assert (forall e (k : val -> comp W B), bind (eval_link h e) (fun x => k (link_value x)) ≈ bind (eval h e) k) as V.
  { intros. unfold eval. apply meq_sym. mt; [apply bind_assoc|]. done. }
  mt; [apply V|]. apply meq_sym. mt; [apply V|]. apply meq_sym. by apply bind_ext.
Qed.

Theorem all_kept : (forall e, good e -> kept e) /\ (forall l, good_items l -> kept_items l).
Proof.
  apply expr_items_ind; unfold good, good_items; cbn [everywhere everywhere_items].
  - intros. by apply kept_intro.
  - intros. by apply kept_intro.
  - intros x [[H _] _]. by apply kept_intro.
  - intros s u [[H _] _]. by apply kept_intro.
  - intros. by apply kept_intro.
  - intros. by apply kept_intro.
  - intros. by apply kept_intro.
  - intros. by apply kept_intro.
  - intros. by apply kept_intro.
  - intros. by apply kept_intro.
  - (* unary *) intros op a IH [[S _] G]. specialize (IH G). pose proof (un_kept op a IH S) as U.
    assert (eval_link h (EUn op (foldv a)) ≈ eval_link h (EUn op a)) as E by (rewrite !link_un; by apply plain_ext).
    destruct op; try (by apply kept_intro).
    + destruct (const_truthiness (foldv a)) as [t|] eqn:T.
      * assert (forall c, fold R c (EUn UNot a) = EBool (negb t)) as F by (intros; cbn [fold]; by rewrite T).
        apply kept_intro; rewrite ?F; try done. mt; [|exact E]. rewrite link_un.
        destruct (const_truth h (foldv a) t (k_lit a IH Value) T) as (v&_&<-&Ev&_). cbn [un_body].
        apply meq_sym. mt; [apply plain_ext, bind_l, Ev|]. done.
      * assert (forall c, fold R c (EUn UNot a) = EUn UNot (foldv a)) as F by (intros; cbn [fold]; by rewrite T).
        apply kept_intro; rewrite ?F; done.
    + destruct (const_val (foldv a)) as [v|] eqn:T.
      * assert (forall c, fold R c (EUn UTypeof a) = EStr (const_typeof v) None) as F by (intros; cbn [fold]; by rewrite T).
        destruct (typeof_sem h v) as (_&Ty&Vt).
        apply kept_intro; rewrite ?F; try done. mt; [|exact E]. rewrite link_un.
        destruct (const_eval h (foldv a) v (k_lit a IH Value) T) as [_ Ev].
        rewrite un_typeof by (by destruct (const_not _ _ T)).
        apply meq_sym. mt; [apply plain_ext, bind_l, Ev|]. mt; [apply plain_ext, bind_ret_l|]. mt; [apply plain_ext, Ty|]. done.
      * assert (forall c, fold R c (EUn UTypeof a) = EUn UTypeof (foldv a)) as F by (intros; cbn [fold]; by rewrite T).
        apply kept_intro; rewrite ?F; done.
  - (* binary *) intros op l IHl r IHr [[_ P] [Gl Gr]]. apply bin_kept; auto.
  - intros t IHt a IHa b IHb [_ (Gt&Ga&Gb)]. apply cond_kept; auto.
  - (* assignment *) intros op t IHt e IHe [[S _] [Gt Ge]]. apply kept_intro; try done. cbn [fold]. rewrite !link_as.
    apply plain_ext, as_kept; auto.
  - (* member *) intros opt o IH m [[S _] G]. specialize (IH G). pose proof (object_from o IH S) as [Ov Oo].
    apply kept_intro; try done.
    + cbn [fold]. rewrite !link_member. mt; [|mt; [apply (Oo _ (ret None) (fun v => if opt && nullish v then ret None
        else bind (get_prop h v (str m)) (fun p => ret (Some (p, v, None)))))|]].
      * apply bind_r. by intros [[[? ?] ?]|].
      * apply bind_r. by intros [[[? ?] ?]|].
    + cbn [fold in_chain]. intros [-> C]%orb_false_iff. by apply chain_kept.
  - intros opt o IH k IHk [[S _] [G Gk]]. specialize (IH G). specialize (IHk Gk). pose proof (object_from o IH S) as [Ov Oo].
    apply kept_intro; try done.
    + cbn [fold]. rewrite !link_index. mt; [|mt; [apply (Oo _ (ret None) (fun v => if opt && nullish v then ret None
        else bind (eval h (foldv k)) (fun k => bind (get_prop h v k) (fun p => ret (Some (p, v, None))))))|]].
      * apply bind_r. by intros [[[? ?] ?]|].
      * apply bind_r. intros [[[v ?] ?]|]; [|done]. destruct (opt && nullish v); [done|]. apply bind_l, IHk.
    + cbn [fold in_chain]. intros [-> C]%orb_false_iff. by apply chain_kept.
    + split; [done|]. apply IHk.
  - (* call *) intros opt f IH args IHa [[S _] [G Ga]]. specialize (IH G). specialize (IHa Ga).
    apply kept_intro; try done.
    + cbn [fold]. rewrite !link_call. apply bind_ext; [by apply callee_from|].
      intros [[[v this] name]|]; [|done]. destruct (opt && nullish v); [done|]. apply bind_l, IHa.
    + cbn [fold in_chain]. intros [-> C]%orb_false_iff. apply chain_kept; [done| |done]. by eapply leaves_or.
  - (* template *) intros l IH [_ G]. apply kept_intro; try done. cbn [fold].
    change (plain (bind (eval_parts h (fold_items R l)) (fun u => ret (VStr u))) ≈ plain (bind (eval_parts h l) (fun u => ret (VStr u)))).
    apply plain_ext, bind_l, IH, G.
  - intros f IH l IHl [[S _] [G Gl]]. specialize (IH G). specialize (IHl Gl). apply kept_intro; try done.
    + change (foldv (ETagged f l)) with (ETagged (foldv f) (fold_items R l)). rewrite !link_tagged. apply bind_ext; [by apply callee_from|].
      intros [[[v this] name]|]; [|done]. apply plain_ext.
      replace (texts (fold_items R l)) with (texts l) by (symmetry; apply IHl).
      apply bind_l, IHl.
    + cbn [fold in_chain]. intros C. apply chain_kept; [done| |done]. by eapply leaves_or.
  - intros l IH [_ G]. apply kept_intro; try done. cbn [fold].
    change (plain (bind (eval_elements h (fold_items R l)) (new_array h)) ≈ plain (bind (eval_elements h l) (new_array h))).
    apply plain_ext, bind_l, IH, G.
  - intros l IH [_ G]. apply kept_intro; try done. cbn [fold].
    change (plain (bind (new_object h) (fun o => bind (eval_members h o (fold_items R l)) (fun _ => ret o)))
      ≈ plain (bind (new_object h) (fun o => bind (eval_members h o l) (fun _ => ret o)))).
    apply plain_ext, bind_r. intros o. apply bind_l, IH, G.
  - (* items *) done.
  - intros r IH [_ G]. specialize (IH G). constructor; try apply IH.
    change (bind (eval_elements h (fold_items R r)) (fun vs => ret (None :: vs)) ≈ bind (eval_elements h r) (fun vs => ret (None :: vs))).
    apply bind_l, IH.
  - intros s r IH [_ G]. specialize (IH G). constructor; try apply IH.
    + cbn. by rewrite (ki_texts r IH).
    + change (bind (eval_parts h (fold_items R r)) (fun u => ret (utf16 s ++ u)) ≈ bind (eval_parts h r) (fun u => ret (utf16 s ++ u))).
      apply bind_l, IH.
  - intros e IHe r IH [_ [Ge G]]. specialize (IH G). specialize (IHe Ge). constructor; try apply IH.
    + apply (by_values (foldv e) e (fun v => bind (eval_args h (fold_items R r)) (fun vs => ret (v :: vs)))
        (fun v => bind (eval_args h r) (fun vs => ret (v :: vs)))); [apply IHe|]. intros v. apply bind_l, IH.
    + apply (by_values (foldv e) e (fun v => bind (eval_elements h (fold_items R r)) (fun vs => ret (Some v :: vs)))
        (fun v => bind (eval_elements h r) (fun vs => ret (Some v :: vs)))); [apply IHe|]. intros v. apply bind_l, IH.
    + apply (by_values (foldv e) e
        (fun v => bind (if primitive v then ret (text_of h v) else other_text h v) (fun u => bind (eval_parts h (fold_items R r)) (fun u' => ret (u ++ u'))))
        (fun v => bind (if primitive v then ret (text_of h v) else other_text h v) (fun u => bind (eval_parts h r) (fun u' => ret (u ++ u')))));
        [apply IHe|]. intros v. apply bind_r. intros u. apply bind_l, IH.
  - intros e IHe r IH [_ [Ge G]]. specialize (IH G). specialize (IHe Ge). constructor; try apply IH.
    + apply (by_values (foldv e) e (fun v => bind (spread h v) (fun us => bind (eval_args h (fold_items R r)) (fun vs => ret (us ++ vs))))
        (fun v => bind (spread h v) (fun us => bind (eval_args h r) (fun vs => ret (us ++ vs))))); [apply IHe|].
      intros v. apply bind_r. intros us. apply bind_l, IH.
    + apply (by_values (foldv e) e
        (fun v => bind (spread h v) (fun us => bind (eval_elements h (fold_items R r)) (fun vs => ret (map Some us ++ vs))))
        (fun v => bind (spread h v) (fun us => bind (eval_elements h r) (fun vs => ret (map Some us ++ vs))))); [apply IHe|].
      intros v. apply bind_r. intros us. apply bind_l, IH.
    + intros o. apply (by_values (foldv e) e (fun v => bind (copy_props h o v) (fun _ => eval_members h o (fold_items R r)))
        (fun v => bind (copy_props h o v) (fun _ => eval_members h o r))); [apply IHe|].
      intros v. apply bind_r. intros _. apply IH.
  - intros key e IHe r IH [S [Ge G]]. specialize (IH G). specialize (IHe Ge). constructor; try apply IH.
    intros o.
    change (bind (named (Some key) (foldv e)) (fun v => bind (define h o (str key) v) (fun _ => eval_members h o (fold_items R r)))
      ≈ bind (named (Some key) e) (fun v => bind (define h o (str key) v) (fun _ => eval_members h o r))).
    apply bind_ext; [by apply named_from|]. intros v. apply bind_r. intros _. apply IH.
  - intros key IHk e IHe r IH [S (Gk&Ge&G)]. specialize (IH G). specialize (IHe Ge). specialize (IHk Gk). constructor; try apply IH.
    intros o.
    apply (by_values (foldv key) key
      (fun k => bind (to_key h k) (fun k => bind (named (match k with VStr u => Some u | _ => None end) (foldv e))
         (fun v => bind (define h o k v) (fun _ => eval_members h o (fold_items R r)))))
      (fun k => bind (to_key h k) (fun k => bind (named (match k with VStr u => Some u | _ => None end) e)
         (fun v => bind (define h o k v) (fun _ => eval_members h o r))))); [apply IHk|].
    intros k. apply bind_r. intros k'. apply bind_ext; [by apply named_from|]. intros v. apply bind_r. intros _. apply IH.
  - intros x r IH [_ G]. specialize (IH G). constructor; try apply IH.
    intros o. apply bind_r. intros v. apply bind_r. intros _. apply IH.
  - intros x k r IH [_ G]. specialize (IH G). constructor; try apply IH.
    intros o. apply bind_r. intros _. apply IH.
Qed.

Theorem folding_keeps e : good e -> eval h (foldv e) ≈ eval h e /\ test h (fold R Condition e) ≈ test h e.
Proof. intros G. split; by apply all_kept. Qed.
End main.
