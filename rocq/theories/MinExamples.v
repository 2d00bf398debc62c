(** * A small machine and a function to minify *)
From stdpp Require Import base decidable numbers gmap sets list.
From Verif Require Import StmtModel StmtSpec StmtExamples MinModel MinSpec.
Local Open Scope N_scope.

(** The machine of [StmtExamples], with the truth of literals as in
    ECMAScript. *)
Definition neat : machine :=
  let T := toy false false in {|
  value := value T; world := world T; env := env T; undefined := undefined T;
  to_boolean := to_boolean T; strict_equal := strict_equal T; atom := atom T;
  lit l w := (Some (if literal_truth l then match l with LNum t => t | _ => 1 end else 0), w);
  new_env := new_env T; instantiate := instantiate T; put_var := put_var T; lexical := lexical T;
  bind_name := bind_name T; bind_pattern := bind_pattern T; iter := iter T; get_iterator := get_iterator T;
  step := step T; close := close T; bind_each := bind_each T;
|}.

(** The numbers of directives and names show in the number of the next
    scope. *)
Definition neat_setup (ds : list (list N)) (vars : gset N) (decls : list decl) (w : world neat) : env neat * world neat :=
  (0, ToyWorld (next_scope w + 10 * N.of_nat (length ds) + N.of_nat (size vars)) (bound w) (log w)).

(** A directive, then `if (false) { var a } else say(2); l: if (1) m:
    while (more) { {} say(3); continue m; say(9) } ; var b; var c = e4;
    if (more) return 5; else say(6); throw 7; var d; say(1)`. *)
Definition long_body : list stmt := [
  SExpr (ELit (LStr [117]));
  SIf (ELit (LBool false)) (SBlock [SVar [(1, None)]]) (Some (say 2));
  SLabel 1 (SIf (ELit (LNum 1)) (SLabel 2 (SWhile (EAtom 0) (SBlock [SBlock []; say 3; SContinue (Some 2); say 9]))) None);
  SEmpty;
  SVar [(2, None)];
  SVar [(3, Some (EAtom 4))];
  SIf (EAtom 0) (SReturn (Some (ELit (LNum 5)))) (Some (say 6));
  SThrow (EAtom 7);
  SVar [(4, None)];
  say 1].

Definition some_binder : binder := Binder (fun _ => false) (fun _ => false) (fun _ => false) (fun _ => true) false.

Definition all_passes : list pass := [RewriteStmts false; Cleanup; CombineDecls; RewriteFlow some_binder].

(** `"u"; var a; say(2); l: m: while (more) { say(3); continue m } var b, c = e4;
    if (more) return 5; say(6); throw 7; var d`. *)
Definition short_body : list stmt := [
  SExpr (ELit (LStr [117]));
  SVar [(1, None)];
  say 2;
  SLabel 1 (SLabel 2 (SWhile (EAtom 0) (SBlock [say 3; SContinue (Some 2)])));
  SVar [(2, None); (3, Some (EAtom 4))];
  SIf (EAtom 0) (SReturn (Some (ELit (LNum 5)))) None;
  say 6;
  SThrow (EAtom 7);
  SVar [(4, None)]].
