(** Programs for RenameProperties.v, and decision procedures for its hypotheses. *)
From Coq Require Import NArith String.
From stdpp Require Import base decidable numbers gmap sets list.
From Verif Require Import RustStr RenameModel RenameSpec RenameProofs RenameBindProofs.
Local Open Scope N_scope.
Local Open Scope list_scope.

Definition wf_occ_b (P : program) (path : list scope) (o : occurrence) : bool :=
  match o_sym o with
  | None => true
  | Some y => bool_decide (o_name o = sym_name P y) && existsb (fun d => bool_decide (y ∈ sc_symbols d)) path
  end.
Definition wf_b (P : program) : bool :=
  bool_decide (NoDup (List.map sc_id (all_scopes P))) &&
  bool_decide (NoDup (all_scopes P ≫= sc_symbols)) &&
  forallb (fun s => bool_decide (NoDup (List.map (sym_name P) (sc_symbols s)))) (all_scopes P) &&
  forallb (fun s => forallb (fun y => decl_scope P y =? sc_id s) (sc_symbols s)) (all_scopes P) &&
  forallb (fun p => match p with [] => true | s :: _ => forallb (wf_occ_b P p) (sc_occs s) end) (all_paths P) &&
  forallb (fun y => bool_decide (y ∈ sc_symbols (root (scopes P)))) (elements (exported P)).
Lemma wf_b_spec P : wf_b P = true -> wf_program P.
Proof.
  unfold wf_b. rewrite !andb_true_iff, !bool_decide_eq_true, !forallb_forall. intros (((((A & B) & C) & D) & E) & F). constructor; try done.
  - intros s S. apply elem_of_list_In, C in S. by apply bool_decide_eq_true in S.
  - intros s y S Y. apply elem_of_list_In, D in S. rewrite forallb_forall in S. apply elem_of_list_In, S in Y. by apply N.eqb_eq in Y.
  - intros s above o y S O Eo. apply elem_of_list_In, E in S. cbn beta iota in S. rewrite forallb_forall in S. apply elem_of_list_In, S in O.
    unfold wf_occ_b in O. rewrite Eo in O. apply andb_true_iff in O as [O1 O2]. apply bool_decide_eq_true in O1.
    apply existsb_exists in O2 as (d & Din & Dy). apply bool_decide_eq_true in Dy. apply elem_of_list_In in Din. eauto.
  - intros y Y. apply elem_of_elements, elem_of_list_In, F in Y. by apply bool_decide_eq_true in Y.
Qed.

Fixpoint with_path_b (y : sym) (seen : bool) (path : list scope) : bool :=
  match path with
  | [] => true
  | d :: outer =>
      (if seen && bool_decide (y ∈ sc_symbols d) then bool_decide (outer = []) || sc_dynamic d else true) &&
      with_path_b y (seen || has_with d) outer
  end.
#[export] Instance occurrence_dec : EqDecision occurrence.
Proof. solve_decision. Defined.
#[export] Instance scope_dec : EqDecision scope.
Proof. solve_decision. Defined.
Definition withs_b (P : program) : bool :=
  forallb (fun p => match p with [] => true | s :: _ =>
    forallb (fun o => match o_sym o with None => true | Some y => with_path_b y false p end) (sc_occs s) end) (all_paths P).
Lemma with_path_seen y : forall path mid d outer, with_path_b y true path = true -> path = mid ++ d :: outer -> y ∈ sc_symbols d ->
  outer = [] \/ sc_dynamic d = true.
Proof.
  induction path as [|x path IH]; intros mid d outer; [by destruct mid|]. cbn [with_path_b]. intros H E Y.
  apply andb_true_iff in H as [H1 H2]. destruct mid as [|m mid]; injection E as -> ->.
  - rewrite bool_decide_eq_true_2 in H1 by done. cbn in H1. apply orb_true_iff in H1 as [H1|H1]; [|auto]. apply bool_decide_eq_true in H1. auto.
  - by eapply IH.
Qed.
Lemma with_path_spec y : forall path seen pre w mid d outer, with_path_b y seen path = true ->
  path = pre ++ w :: mid ++ d :: outer -> has_with w = true -> y ∈ sc_symbols d -> outer = [] \/ sc_dynamic d = true.
Proof.
  induction path as [|x path IH]; intros seen pre w mid d outer; [by destruct pre|]. cbn [with_path_b]. intros H E W Y.
  apply andb_true_iff in H as [_ H2]. destruct pre as [|m pre]; injection E as -> ->.
  - rewrite W, orb_true_r in H2. by eapply with_path_seen.
  - by eapply IH.
Qed.
Lemma withs_b_spec P : withs_b P = true -> withs_reach_dynamic P.
Proof.
  unfold withs_b. rewrite forallb_forall. intros H s above o y pre w mid d outer S O E Eq W Y.
  apply elem_of_list_In, H in S. cbn beta iota in S. rewrite forallb_forall in S. apply elem_of_list_In, S in O. rewrite E in O.
  by eapply with_path_spec.
Qed.

(** A name table. *)
Definition names_of (l : list (sym * string)) (y : sym) : rstr :=
  match List.find (fun p => fst p =? y) l with Some (_, n) => txt n | None => [] end.
Definition decl_of (t : list (sym * scope_id)) (y : sym) : scope_id :=
  match List.find (fun p => fst p =? y) t with Some (_, i) => i | None => 0 end.
Definition use (n : string) (y : sym) : occurrence := Occ (txt n) (Some y).
Definition global (n : string) : occurrence := Occ (txt n) None.

(** A program with nested functions, a global, an export, a direct [eval] and a [with]:

    [[
    export const count = 1;
    function outer(first) {
      let total = first + count;
      function inner(a) { return total + a + b; }
      return inner(total);
    }
    function evals(code) { return eval(code); }
    function withs(object) { with (object) { return count + object; } }
    ]] *)
Definition demo : program := {|
  scopes :=
    SNode (Scope 0 [1; 2; 3; 4] false false [use "count" 1; use "outer" 2; use "evals" 3; use "withs" 4])
      [SNode (Scope 1 [5; 6; 7] false false [use "first" 5; use "total" 6; use "first" 5; use "count" 1; use "inner" 7; use "total" 6])
         [SNode (Scope 2 [8] false false [use "a" 8; use "total" 6; use "a" 8; global "b"]) []];
       SNode (Scope 3 [9] true true [use "code" 9; global "eval"; use "code" 9]) [];
       SNode (Scope 4 [10] true false [use "object" 10; use "count" 1; use "object" 10]) []];
  sym_name := names_of [(1, "count"); (2, "outer"); (3, "evals"); (4, "withs"); (5, "first"); (6, "total"); (7, "inner"); (8, "a"); (9, "code"); (10, "object")]%string;
  decl_scope := decl_of [(1, 0); (2, 0); (3, 0); (4, 0); (5, 1); (6, 1); (7, 1); (8, 2); (9, 3); (10, 4)];
  annex_b := [];
  exported := {[1]};
|}.

(** A function in a block inside a block, called where it is hoisted to:

    [[
    function outer() {
      { let value = 1; { function helper() {} use(value); } }
      helper();
    }
    ]] *)
Definition hoisted : program := {|
  scopes :=
    SNode (Scope 0 [1] false false [use "outer" 1])
      [SNode (Scope 1 [2] false false [use "helper" 2])
         [SNode (Scope 2 [3] false false [use "value" 3])
            [SNode (Scope 3 [4] false false [use "helper" 4; global "use"; use "value" 3]) []]]];
  sym_name := names_of [(1, "outer"); (2, "helper"); (3, "value"); (4, "helper")]%string;
  decl_scope := decl_of [(1, 0); (2, 1); (3, 2); (4, 3)];
  annex_b := [(4, 2)];
  exported := ∅;
|}.

(** A [with] that pins a short name between a variable and its use:

    [[
    function outer() {
      var long;
      function middle() {
        var a;
        function inner(o) { with (o) { a; } }
        return long;
      }
    }
    ]] *)
Definition pinned_name : program := {|
  scopes :=
    SNode (Scope 0 [1] false false [use "outer" 1])
      [SNode (Scope 1 [2; 3] false false [use "long" 2; use "middle" 3])
         [SNode (Scope 2 [4; 5] false false [use "a" 4; use "inner" 5; use "long" 2])
            [SNode (Scope 3 [6] true false [use "o" 6; use "o" 6; use "a" 4]) []]]];
  sym_name := names_of [(1, "outer"); (2, "long"); (3, "middle"); (4, "a"); (5, "inner"); (6, "o")]%string;
  decl_scope := decl_of [(1, 0); (2, 1); (3, 1); (4, 2); (5, 2); (6, 3)];
  annex_b := [];
  exported := ∅;
|}.

(** [function f() { try {} catch (x) { var x = 1; } }]: the binder gives the token
    after [var] the variable of the function, though it assigns to the parameter
    of the [catch]. *)
Definition catch_var : program := {|
  scopes :=
    SNode (Scope 0 [1] false false [use "f" 1])
      [SNode (Scope 1 [2] false false [])
         [SNode (Scope 2 [3] false false [use "x" 3; use "x" 2]) []]];
  sym_name := names_of [(1, "f"); (2, "x"); (3, "x")]%string;
  decl_scope := decl_of [(1, 0); (2, 1); (3, 2)];
  annex_b := [];
  exported := ∅;
|}.
