(** * What it means for a minified function to do the same *)
From stdpp Require Import base decidable numbers gmap sets list.
From Verif Require Import StmtModel StmtSpec MinModel.
Local Open Scope N_scope.

(** 7.1.2 ToBoolean of a literal.  A double is falsy if it is +0, -0 or
    NaN: all exponent bits and some other bit of the magnitude set. *)
Definition literal_truth (l : literal) : bool :=
  match l with
  | LBool b => b
  | LNull => false
  | LNum n =>
      negb (bool_decide (n `mod` 2 ^ 63 = 0) || bool_decide (2047 * 2 ^ 52 < n `mod` 2 ^ 63))
  | LStr s => negb (bool_decide (s = []))
  | LBigInt n => negb (bool_decide (n = 0))
  end.

(** Literals have values and no effects, and an environment that will
    never hold a binding is as good as none. *)
Definition lawful (M : machine) : Prop :=
  (forall l w, exists v, lit M l w = (Some v, w) /\ to_boolean M v w = literal_truth l) /\
  (forall E w, new_env M false E w = (Some E, w)).

(** ** What a function declares *)
Section Declared.
(** The names a `for`-`of` head declares with `var`. *)
Context (of_vars : N -> list N).
(** The functions in blocks that also get a variable of the function:
    Annex B.3.3, outside of strict mode only. *)
Context (hoists : N -> bool).

(** 8.2.6 VarDeclaredNames, and those of Annex B. *)
Fixpoint var_names (s : stmt) : gset N :=
  match s with
  | SVar ds => list_to_set (map fst ds)
  | SFunction n => if hoists n then {[n]} else ∅
  | SFor i _ _ body =>
      match i with InitVar ds => list_to_set (map fst ds) | _ => ∅ end ∪ ⋃ (map var_names body)
  | SForOf b _ body => list_to_set (of_vars b) ∪ ⋃ (map var_names body)
  | SBlock body => ⋃ (map var_names body)
  | SIf _ c a => var_names c ∪ match a with Some a => var_names a | None => ∅ end
  | SWhile _ s | SDoWhile s _ | SLabel _ s => var_names s
  | SSwitch _ a d =>
      ⋃ (map (fun b => ⋃ (map var_names (snd b))) a) ∪
      match d with
      | Some (s, b) => ⋃ (map var_names s) ∪ ⋃ (map (fun b => ⋃ (map var_names (snd b))) b)
      | None => ∅
      end
  | STry body h f =>
      ⋃ (map var_names body) ∪
      match h with Some (_, b) => ⋃ (map var_names b) | None => ∅ end ∪
      match f with Some b => ⋃ (map var_names b) | None => ∅ end
  | _ => ∅
  end.

(** Those of a function body.  Its own function declarations are not in
    blocks. *)
Definition body_vars (body : list stmt) : gset N :=
  ⋃ (map (fun s => match s with SFunction _ => ∅ | _ => var_names s end) body).

(** 11.2.1: the directive prologue, the strings a body starts with. *)
Fixpoint directives (body : list stmt) : list (list N) :=
  match body with
  | SExpr (ELit (LStr s)) :: body => s :: directives body
  | _ => []
  end.

(** A call of a function: an environment is set up for its directives, its
    variables and its declarations, and its statements run there. *)
Definition function_call (M : machine)
    (setup : list (list N) -> gset N -> list decl -> world M -> env M * world M)
    (body : list stmt) (w : world M) (r : res (value M) (value M)) (w' : world M) : Prop :=
  let '(E, w1) := setup (directives body) (body_vars body) (decls body) w in
  call_gives M E body w1 r w'.
End Declared.

(** ** Programs *)

(** 8.3: no label is declared twice around a statement, and a labelled
    `continue` is in a loop with that label.  [enclosing] are the labels
    around a statement, [loops] those of loops around it, [own] those
    right before it. *)
Fixpoint labels_valid (enclosing loops own : list N) (s : stmt) : bool :=
  match s with
  | SContinue (Some l) => bool_decide (l ∈ loops)
  | SLabel l s => negb (bool_decide (l ∈ enclosing)) && labels_valid (l :: enclosing) loops (l :: own) s
  | SWhile _ s | SDoWhile s _ => labels_valid enclosing (own ++ loops) [] s
  | SFor _ _ _ body | SForOf _ _ body => forallb (labels_valid enclosing (own ++ loops) []) body
  | SBlock body => forallb (labels_valid enclosing loops []) body
  | SIf _ c a =>
      labels_valid enclosing loops [] c &&
      match a with Some a => labels_valid enclosing loops [] a | None => true end
  | SSwitch _ a d =>
      forallb (fun b => forallb (labels_valid enclosing loops []) (snd b)) a &&
      match d with
      | Some (s, b) => forallb (labels_valid enclosing loops []) s &&
                       forallb (fun b => forallb (labels_valid enclosing loops []) (snd b)) b
      | None => true
      end
  | STry body h f =>
      forallb (labels_valid enclosing loops []) body &&
      match h with Some (_, b) => forallb (labels_valid enclosing loops []) b | None => true end &&
      match f with Some b => forallb (labels_valid enclosing loops []) b | None => true end
  | _ => true
  end.

(** No `let`, `const` or function declaration stands where a statement is
    asked for: the first two never do, the third may outside of strict
    mode, in an `if` (Annex B.3.4) or after a label.  And no statement is
    a mere string. *)
Definition proper (s : stmt) : bool :=
  match s with SLexical _ | SFunction _ => false | _ => true end.

Fixpoint plain (s : stmt) : bool :=
  match s with
  | SExpr (ELit (LStr _)) => false
  | SBlock body | SFor _ _ _ body | SForOf _ _ body => forallb plain body
  | SIf _ c a =>
      proper c && plain c && match a with Some a => proper a && plain a | None => true end
  | SWhile _ s | SDoWhile s _ | SLabel _ s => proper s && plain s
  | SSwitch _ a d =>
      forallb (fun b => forallb plain (snd b)) a &&
      match d with
      | Some (s, b) => forallb plain s && forallb (fun b => forallb plain (snd b)) b
      | None => true
      end
  | STry body h f =>
      forallb plain body &&
      match h with Some (_, b) => forallb plain b | None => true end &&
      match f with Some b => forallb plain b | None => true end
  | _ => true
  end.

(** A function body: a directive prologue, then statements. *)
Definition sound_body (body : list stmt) : Prop :=
  exists (prologue : list (list N)) (rest : list stmt),
    body = map (fun s => SExpr (ELit (LStr s))) prologue ++ rest /\
    forallb plain rest = true /\ forallb (labels_valid [] [] []) rest = true.

(** What is told to a pass about the code around is right: outside of
    strict mode only do functions in blocks get a variable. *)
Definition informed (hoists : N -> bool) (p : pass) : Prop :=
  match p with
  | RewriteStmts strict => strict = true -> forall n, hoists n = false
  | RewriteFlow B => forall n, MinModel.hoists B n = hoists n
  | _ => True
  end.
