(** Machines and programs for the examples of DvnProperties.v. *)
From stdpp Require Import base decidable list numbers gmap.
From Coq Require Import NArith ZArith.
From Verif Require Import VmBase RustStr ILModel CfgSpec ILSpec ILCheck DomModel DvnModel DvnSpec DvnProofs.
From Verif Require EvalModel.

Local Open Scope N_scope.

(** Values: constants, paths to builtins, and one object. *)
Inductive word := WConst (k : const) | WBuiltin (p : rstr) | WObject.
Global Instance word_dec : EqDecision word.
Proof. solve_decision. Defined.
Definition word_truthy (v : word) : bool := match v with WConst k => to_boolean k | _ => true end.
Definition yes : word := WConst (KBool true).

(** An evaluator that joins strings, knows one builtin constant ([7]) and calls one
    builtin function ([1]). *)
Definition joiner : evaluator := Evaluator
  (fun op a b => match op, a, b with OAdd, KStr x, KStr y => EvalModel.Folded (KStr (x ++ y)) | _, _, _ => EvalModel.Declined end)
  (fun f _ => if bool_decide (f = [1]) then Some (KBool true) else None)
  (fun p => if bool_decide (p = [7]) then Some (KBool true) else None)
  (fun _ _ => false).
Definition word_builtin (p : rstr) : word := if bool_decide (p = [7]) then yes else WBuiltin p.
Definition word_bin (read : word) (op : binop) (a b : word) : word :=
  match op, a, b with
  | OAdd, WConst (KStr x), WConst (KStr y) => WConst (KStr (x ++ y))
  | OGetProp, WBuiltin o, WConst (KStr p) => word_builtin (o ++ [46] ++ p)
  | OGetProp, WObject, _ => read
  | _, _, _ => WConst KUndefined
  end.
Definition word_call (sp : list N) (vs : list word) (w : word * list (list word)) : (word * list (list word)) * word :=
  match sp, vs with
  | [], WBuiltin f :: _ => if bool_decide (f = [1]) then (w, yes) else ((fst w, snd w ++ [vs]), WObject)
  | _, _ => ((fst w, snd w ++ [vs]), WObject)
  end.
(** The world: the property of the object, and the calls and stores made.  The property
    can be written, or not. *)
Definition words (writable : bool) : machine word (word * list (list word)) :=
  Machine _ _ WConst word_builtin (fun _ => yes) word_truthy
    (fun op a b w => word_bin (fst w) op a b) (fun op a w => a) word_call
    (fun o p v w => if writable then (v, snd w) else w)
    (fun _ _ => yes) (fun _ v w => (fst w, snd w ++ [[v]])) (fun _ _ => yes) (fun _ v w => (fst w, snd w ++ [[v]])).
Lemma words_sound writable : sound_evaluator joiner (words writable).
Proof.
  split; cbn.
  - intros op a b k w. destruct op, a, b; try done. by intros [= <-].
  - intros p k. unfold word_builtin. case_bool_decide; [by intros [= <-]|done].
  - intros f this ks k w H. unfold word_builtin. case_bool_decide as E; [done|]. case_bool_decide as E'; [|done]. intros [= <-]. subst f. done.
  - intros o p w H Hp. unfold word_builtin at 1. case_bool_decide as E; [done|]. done.
  - intros op x y w [->| ->]; done.
Qed.
Lemma words_unaffected c : unaffected (words false) c.
Proof.
  intros l k i l' k' i' vs w _ _. split; [|done]. intros _ a b. assert (E : fst (effect (words false) i' vs w).1 = fst w).
  { unfold effect. destruct (i_t i'); cbn; try done; destruct vs as [|v1 [|v2 [|v3 [|]]]]; cbn; try done; unfold word_call; destruct (i_spreads i'); cbn; try done; destruct v1; try done; by case_bool_decide. }
  cbn. by rewrite E.
Qed.

Definition dvn_phi (t : N) (es : list (N * arg)) : inst := inst_base IPhi [t] (map snd es) (map fst es).
(** A diamond that computes the same negation above and below its branch, and joins
    strings; the join point reads what both sides computed. *)
Definition diamond : cfg := program [(0, 1); (0, 2); (1, 3); (2, 3)]
  [(0, [inst_call (Some 1) (ABuiltin [5]) (AConst KUndefined) []; inst_bin 2 (AConst (KStr [97])) OAdd (AConst (KStr [98])); inst_un 3 ONeg (AVar 1);
        inst_bin 9 (AVar 1) OGetProp (AConst (KStr [120])); inst_cond_goto (AVar 1) 1 2]);
   (1, [inst_un 4 ONeg (AVar 1); inst_prop_assign (AVar 1) (AConst (KStr [120])) (AVar 4); inst_bin 10 (AVar 1) OGetProp (AConst (KStr [120]))]);
   (2, [inst_var_assign 5 (AVar 2); inst_call (Some 7) (ABuiltin [1]) (AConst KUndefined) [AVar 2]]);
   (3, [dvn_phi 6 [(2, AVar 5); (1, AVar 4)]; inst_un 8 ONeg (AVar 1); inst_call None (ABuiltin [5]) (ABuiltin [7]) [AVar 6; AVar 8; AVar 9]])].
(** A property read twice, written in between. *)
Definition reread : cfg := program []
  [(0, [inst_call (Some 1) (ABuiltin [5]) (AConst KUndefined) []; inst_bin 2 (AVar 1) OGetProp (AConst (KStr [120]));
        inst_prop_assign (AVar 1) (AConst (KStr [120])) (AConst KNull);
        inst_bin 3 (AVar 1) OGetProp (AConst (KStr [120])); inst_call None (ABuiltin [5]) (AConst KUndefined) [AVar 3]])].

Definition calls_okb (c : cfg) : bool := forallb (fun '(_, _, i) => negb (bool_decide (i_t i = ICall)) || Nat.leb 2 (length (i_args i))) (all_at c).
Lemma calls_okb_spec c : calls_okb c = true -> calls_ok c.
Proof.
  unfold calls_okb. rewrite forallb_forall. intros H l k i I Hi. apply all_at_spec, elem_of_list_In in I. specialize (H _ I). cbn beta iota in H.
  apply orb_prop in H as [H|H]; [|by apply Nat.leb_le in H]. apply negb_true_iff, bool_decide_eq_false in H. done.
Qed.

(** A machine with a single value, for what does not depend on the machine. *)
Definition unit_machine : machine unit unit :=
  Machine _ _ (fun _ => tt) (fun _ => tt) (fun _ => tt) (fun _ => true) (fun _ _ _ _ => tt) (fun _ _ _ => tt) (fun _ _ _ => (tt, tt))
    (fun _ _ _ _ => tt) (fun _ _ => tt) (fun _ _ _ => tt) (fun _ _ => tt) (fun _ _ _ => tt).
Lemma unit_sound ev : sound_evaluator ev unit_machine.
Proof. split; try done. intros f this ks k []. done. Qed.
Lemma unit_unaffected c : unaffected unit_machine c.
Proof. done. Qed.
