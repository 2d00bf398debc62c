(** * A small machine to run statements on *)
From stdpp Require Import base decidable numbers list.
From Verif Require Import StmtModel StmtSpec.

(** Scopes are numbered; a world knows the next number, which names are
    initialised in which scope, and what was logged. *)
Record toy_world := ToyWorld { next_scope : N; bound : list (N * N); log : list N }.

Definition logged (n : N) (w : toy_world) : toy_world :=
  ToyWorld (next_scope w) (bound w) (log w ++ [n]).

(** Values are numbers, 0 is `undefined` and the only falsy one.  The
    expression 0 asks whether fewer than two things were logged; any other
    logs its number and gives it.  A scope that will
    hold nothing is left out.  A `let` is what heap.rs 1945-1975 makes
    of it: to initialise a name twice in one scope stops the engine.  A
    pattern never matches, and throws 66.  An iterator gives 3 again and
    again, or throws 77; closing it logs 99, and may throw 88. *)
Definition toy (step_throws close_throws : bool) : machine := {|
  value := N;
  world := toy_world;
  env := N;
  undefined := 0%N;
  to_boolean v _ := negb (v =? 0)%N;
  strict_equal a b _ := (a =? b)%N;
  atom n _ w :=
    if (n =? 0)%N then (RVal (if bool_decide (length (log w) < 2) then 1%N else 0%N), w)
    else (RVal n, logged n w);
  lit l w := (Some (match l with LNum t => t | LBool true => 1%N | _ => 0%N end), w);
  new_env used E w :=
    if used then (Some (next_scope w), ToyWorld (next_scope w + 1) (bound w) (log w)) else (Some E, w);
  instantiate _ _ w := (Some tt, w);
  put_var _ _ _ w := (RVal tt, w);
  lexical n E w :=
    if bool_decide ((E, n) ∈ bound w) then (RFatal, w)
    else (RVal tt, ToyWorld (next_scope w) ((E, n) :: bound w) (log w));
  bind_name _ _ _ w := (Some tt, w);
  bind_pattern _ _ _ w := (RThrow 66%N, w);
  iter := unit;
  get_iterator _ w := (RVal tt, w);
  step _ w := if step_throws then (RThrow 77%N, w) else (RVal (Some 3%N), w);
  close _ w := (if close_throws then RThrow 88%N else RVal tt, logged 99 w);
  bind_each _ _ _ w := (RVal tt, w);
|}.

Definition toy_start : toy_world := ToyWorld 1 [] [].

(** The atom logging [n]. *)
Definition say (n : N) : stmt := SExpr (EAtom n).

(** `l: while (more) { switch (7) { case 5: say 1; case 7: try { throw 4 }
    catch (e) { say 2; continue l } finally { say 3 } default: say 4 } }` *)
Definition toy_program : stmt :=
  SLabel 1 (SWhile (EAtom 0) (SBlock [
    SSwitch (ELit (LNum 7))
      [(ELit (LNum 5), [say 1]);
       (ELit (LNum 7),
         [STry [SThrow (EAtom 4)]
               (Some (CatchName 1, [SLexical 8; say 2; SContinue (Some 1%N)]))
               (Some [say 3])])]
      (Some ([say 6], []))])).
