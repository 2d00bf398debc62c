(** * The statement passes of the minifier

    minify-js/src/opt: stmt_rewrite.rs, cf_rewrite.rs, cleanup.rs and
    decl_combine.rs, over the statements of [StmtModel].  Locations and
    associated data are left out, and so is the `changed` flag.  `with`,
    `for`-`in`, classes and module items are not in the language; `let`
    and `const` statements are opaque, so that decl_combine.rs merges
    `var`s only.  Patterns in `var`s are names.  Function bodies are
    rewritten one by one, by the same functions. *)
From stdpp Require Import base decidable numbers list.
From Verif Require Import StmtModel.
Local Open Scope N_scope.

(** ** Parts of statements *)

Definition map_handler (f : list stmt -> list stmt) (h : option (catch_param * list stmt)) :=
  option_map (fun h => (fst h, f (snd h))) h.

Definition map_cases (f : list stmt -> list stmt) (a : list (expr * list stmt)) :=
  map (fun b => (fst b, f (snd b))) a.

Definition map_default (f : list stmt -> list stmt) (d : option (list stmt * list (expr * list stmt))) :=
  option_map (fun p => (f (fst p), map_cases f (snd p))) d.

(** ** stmt_rewrite.rs *)

(** stmt_rewrite.rs 393-402, `const_truthiness`: `value != 0.0` fails for
    both zeros; `is_nan`. *)
Definition const_truthiness (e : expr) : option bool :=
  match e with
  | ELit (LBool b) => Some b
  | ELit LNull => Some false
  | ELit (LNum n) =>
      let magnitude := n mod 2 ^ 63 in
      Some (negb (magnitude =? 0) && negb (2047 * 2 ^ 52 <? magnitude))
  | ELit (LStr s) => Some (match s with [] => false | _ => true end)
  | ELit (LBigInt n) => Some (negb (n =? 0))
  | _ => None
  end.

(** stmt_rewrite.rs 360-383, `stmt_to_expr`; in the `Err` case the
    statement is rebuilt as it was. *)
Fixpoint stmt_to_expr (s : stmt) : option expr :=
  match s with
  | SExpr e => Some e
  | SBlock [s] => stmt_to_expr s
  | _ => None
  end.

(** stmt_rewrite.rs 435-498, `contains_function_decl`. *)
Fixpoint contains_function_decl (s : stmt) : bool :=
  match s with
  | SFunction _ => true
  | SBlock body | SFor _ _ _ body | SForOf _ _ body => existsb contains_function_decl body
  | SIf _ c a =>
      contains_function_decl c || match a with Some a => contains_function_decl a | None => false end
  | SWhile _ s | SDoWhile s _ | SLabel _ s => contains_function_decl s
  | SSwitch _ a d =>
      existsb (fun b => existsb contains_function_decl (snd b)) a ||
      match d with
      | Some (s, b) =>
          existsb contains_function_decl s || existsb (fun b => existsb contains_function_decl (snd b)) b
      | None => false
      end
  | STry body h f =>
      existsb contains_function_decl body ||
      match h with Some (_, b) => existsb contains_function_decl b | None => false end ||
      match f with Some b => existsb contains_function_decl b | None => false end
  | _ => false
  end.

(** stmt_rewrite.rs 604-608, `push_unique`. *)
Definition push_unique (out : list N) (name : N) : list N :=
  if existsb (N.eqb name) out then out else out ++ [name].

Section Rewrite.
(** The names a `for`-`of` head declares with `var`: none for other heads. *)
Context (of_vars : N -> list N).

(** stmt_rewrite.rs 500-577, `collect_var_names`.  Here the names come in
    order and with repetitions; [push_unique] removes these. *)
Fixpoint collect_var_names (s : stmt) : list N :=
  match s with
  | SVar ds => map fst ds
  | SFor i _ _ body =>
      match i with InitVar ds => map fst ds | _ => [] end ++ flat_map collect_var_names body
  | SForOf b _ body => of_vars b ++ flat_map collect_var_names body
  | SBlock body => flat_map collect_var_names body
  | SIf _ c a =>
      collect_var_names c ++ match a with Some a => collect_var_names a | None => [] end
  | SWhile _ s | SDoWhile s _ | SLabel _ s => collect_var_names s
  | SSwitch _ a d =>
      flat_map (fun b => flat_map collect_var_names (snd b)) a ++
      match d with
      | Some (s, b) =>
          flat_map collect_var_names s ++ flat_map (fun b => flat_map collect_var_names (snd b)) b
      | None => []
      end
  | STry body h f =>
      flat_map collect_var_names body ++
      match h with Some (_, b) => flat_map collect_var_names b | None => [] end ++
      match f with Some b => flat_map collect_var_names b | None => [] end
  | _ => []
  end.

(** stmt_rewrite.rs 610-640, `build_hoisted_var_decl`; the same as
    cf_rewrite.rs 219-257, `build_var_stub`, but for the order. *)
Definition build_hoisted_var_decl (names : list N) : stmt := SVar (map (fun x => (x, None)) names).

(** stmt_rewrite.rs 309-329, `rewrite_single_stmt`, given the rewritten
    statements. *)
Definition single (rewritten : list stmt) : stmt :=
  match rewritten with
  | [] => SEmpty
  | [s] => s
  | body => SBlock body
  end.

(** stmt_rewrite.rs 135-257: an `if` whose branches are rewritten. *)
Definition rewrite_if (strict in_list : bool) (t : expr) (c : stmt) (a : option stmt) : list stmt :=
  match const_truthiness t with
  | Some cond =>
      let dead := if cond then a else Some c in
      let live := if cond then Some c else a in
      if negb strict && match dead with Some d => contains_function_decl d | None => false end
      then [SIf t c a]
      else
        let hoisted := match dead with Some d => fold_left push_unique (collect_var_names d) [] | None => [] end in
        match hoisted, live with
        | _ :: _, Some s =>
            if in_list then [build_hoisted_var_decl hoisted; s] else [SIf t c a]
        | _ :: _, None => [build_hoisted_var_decl hoisted]
        | [], Some s => [s]
        | [], None => []
        end
  | None =>
      match a with
      | Some a =>
          match stmt_to_expr c, stmt_to_expr a with
          | Some ce, Some ae => [SExpr (ECond t ce ae)]
          | None, None => [SIf t c (Some a)]
          | None, Some ae => [SIf t c (Some (SExpr ae))]
          | Some ce, None => [SIf t (SExpr ce) (Some a)]
          end
      | None =>
          match stmt_to_expr c with
          | Some ce => [SExpr (EAnd t ce)]
          | None => [SIf t c None]
          end
      end
  end.

(** stmt_rewrite.rs 122-307, `rewrite_stmt`, with 331-358 for the parts. *)
Fixpoint rewrite_stmt (strict in_list : bool) (s : stmt) : list stmt :=
  match s with
  | SBlock body => [SBlock (flat_map (rewrite_stmt strict true) body)]
  | SIf t c a =>
      rewrite_if strict in_list t (single (rewrite_stmt strict false c))
        (option_map (fun a => single (rewrite_stmt strict false a)) a)
  | SWhile t s => [SWhile t (single (rewrite_stmt strict false s))]
  | SDoWhile s t => [SDoWhile (single (rewrite_stmt strict false s)) t]
  | SFor i t p body => [SFor i t p (flat_map (rewrite_stmt strict true) body)]
  | SForOf b e body => [SForOf b e (flat_map (rewrite_stmt strict true) body)]
  | SSwitch e a d =>
      [SSwitch e (map_cases (flat_map (rewrite_stmt strict true)) a)
                 (map_default (flat_map (rewrite_stmt strict true)) d)]
  | STry body h f =>
      [STry (flat_map (rewrite_stmt strict true) body)
            (map_handler (flat_map (rewrite_stmt strict true)) h)
            (option_map (flat_map (rewrite_stmt strict true)) f)]
  | SLabel l s => [SLabel l (single (rewrite_stmt strict false s))]
  | _ => [s]
  end.

(** stmt_rewrite.rs 114-120, `rewrite_stmts`. *)
Definition rewrite_stmts (strict : bool) (body : list stmt) : list stmt :=
  flat_map (rewrite_stmt strict true) body.

(** ** cf_rewrite.rs *)

(** cf_rewrite.rs 61-71, `is_unconditional_terminator`. *)
Fixpoint is_unconditional_terminator (s : stmt) : bool :=
  match s with
  | SReturn _ | SThrow _ | SBreak _ | SContinue _ => true
  | SBlock body =>
      (fix on_last (body : list stmt) : bool :=
         match body with
         | [] => false
         | [s] => is_unconditional_terminator s
         | _ :: body => on_last body
         end) body
  | _ => false
  end.

(** What the binder knows: the functions in blocks that also get a
    variable (Annex B.3.3 of ECMA-262), the statements it has a reason to
    keep (flags of their symbols, 159-216), the lists in a scope with
    `with` or direct `eval` (270-271), the `for` bodies with braces
    (73-78), and whether the code is outside of all functions of a script,
    where there is no variable scope (268). *)
Record binder := Binder {
  hoists : N -> bool;
  keeps : stmt -> bool;
  disabled : list stmt -> bool;
  braced : list stmt -> bool;
  global : bool;
}.
Context (B : binder).

(** The functions declared in a statement, but not in one of its functions. *)
Fixpoint functions (s : stmt) : list N :=
  match s with
  | SFunction n => [n]
  | SBlock body | SFor _ _ _ body | SForOf _ _ body => flat_map functions body
  | SIf _ c a => functions c ++ match a with Some a => functions a | None => [] end
  | SWhile _ s | SDoWhile s _ | SLabel _ s => functions s
  | SSwitch _ a d =>
      flat_map (fun b => flat_map functions (snd b)) a ++
      match d with
      | Some (s, b) => flat_map functions s ++ flat_map (fun b => flat_map functions (snd b)) b
      | None => []
      end
  | STry body h f =>
      flat_map functions body ++
      match h with Some (_, b) => flat_map functions b | None => [] end ++
      match f with Some b => flat_map functions b | None => [] end
  | _ => []
  end.

Inductive action := Drop | Keep | StubVar (names : list N).

(** cf_rewrite.rs 131-217, `analyze_unreachable_stmt`, with 86-123.  What
    is declared in the list itself is kept.  Otherwise only names of the
    variable scope matter: those of `var`s and of functions in blocks that
    get a variable. *)
Definition analyze_unreachable_stmt (s : stmt) : action :=
  match s with
  | SLexical _ | SFunction _ => Keep
  | _ =>
      match collect_var_names s ++ List.filter (hoists B) (functions s) with
      | [] => Drop
      | names => if keeps B s then Keep else StubVar (fold_left push_unique names [])
      end
  end.

(** cf_rewrite.rs 291-317, `drop_terminating_else`.  A statement comes with
    what 351-408 make of it afterwards. *)
Definition drop_terminating_else (ss : list (stmt * stmt)) : list (stmt * stmt) :=
  flat_map (fun p =>
    match p with
    | (SIf t c (Some a), SIf t' c' (Some a')) =>
        if is_unconditional_terminator c && match a with SFunction _ => false | _ => true end
        then [(SIf t c None, SIf t' c' None); (a, a')]
        else [p]
    | _ => [p]
    end) ss.

(** cf_rewrite.rs 319-349, `trim_unreachable_after_terminator`. *)
Fixpoint trim (terminated : bool) (ss : list (stmt * stmt)) : list (stmt * stmt) :=
  match ss with
  | [] => []
  | (s, s') :: ss =>
      if terminated then
        match analyze_unreachable_stmt s with
        | Drop => trim true ss
        | Keep => (s, s') :: trim true ss
        | StubVar names => (build_hoisted_var_decl names, build_hoisted_var_decl names) :: trim true ss
        end
      else (s, s') :: trim (is_unconditional_terminator s) ss
  end.

(** cf_rewrite.rs 259-289, `rewrite_stmts`. *)
Definition cf_list (in_list : bool) (ss : list (stmt * stmt)) : list stmt :=
  let off := disabled B (map fst ss) in
  let ss1 := if negb off && in_list then drop_terminating_else ss else ss in
  let ss2 := if negb off && negb (global B) then trim false ss1 else ss1 in
  map snd ss2.

(** cf_rewrite.rs 351-444, `rewrite_stmt` and the parts. *)
Fixpoint cf_stmt (s : stmt) : stmt :=
  match s with
  | SBlock body => SBlock (cf_list true (map (fun s => (s, cf_stmt s)) body))
  | SIf t c a => SIf t (cf_stmt c) (option_map cf_stmt a)
  | SWhile t s => SWhile t (cf_stmt s)
  | SDoWhile s t => SDoWhile (cf_stmt s) t
  | SFor i t p body => SFor i t p (cf_list (braced B body) (map (fun s => (s, cf_stmt s)) body))
  | SForOf b e body => SForOf b e (cf_list (braced B body) (map (fun s => (s, cf_stmt s)) body))
  | SSwitch e a d =>
      SSwitch e (map_cases (fun body => cf_list true (map (fun s => (s, cf_stmt s)) body)) a)
                (map_default (fun body => cf_list true (map (fun s => (s, cf_stmt s)) body)) d)
  | STry body h f =>
      STry (cf_list true (map (fun s => (s, cf_stmt s)) body))
           (map_handler (fun body => cf_list true (map (fun s => (s, cf_stmt s)) body)) h)
           (option_map (fun body => cf_list true (map (fun s => (s, cf_stmt s)) body)) f)
  | SLabel l s => SLabel l (cf_stmt s)
  | _ => s
  end.

Definition cf_stmts (body : list stmt) : list stmt :=
  cf_list true (map (fun s => (s, cf_stmt s)) body).

(** ** cleanup.rs *)

(** cleanup.rs 43-60, `clean_stmt_in_list`, given the cleaned statement. *)
Definition clean_in_list (s : stmt) : list stmt :=
  match s with
  | SEmpty | SBlock [] | SVar [] => []
  | _ => [s]
  end.

(** cleanup.rs 62-75, `clean_single_stmt`, likewise. *)
Definition clean_single (s : stmt) : stmt :=
  match s with
  | SBlock [] | SVar [] => SEmpty
  | _ => s
  end.

(** cleanup.rs 77-197, `clean_stmt` and the parts. *)
Fixpoint clean_stmt (s : stmt) : stmt :=
  match s with
  | SBlock body => SBlock (flat_map (fun s => clean_in_list (clean_stmt s)) body)
  | SIf t c a => SIf t (clean_single (clean_stmt c)) (option_map (fun a => clean_single (clean_stmt a)) a)
  | SWhile t s => SWhile t (clean_single (clean_stmt s))
  | SDoWhile s t => SDoWhile (clean_single (clean_stmt s)) t
  | SFor i t p body => SFor i t p (flat_map (fun s => clean_in_list (clean_stmt s)) body)
  | SForOf b e body => SForOf b e (flat_map (fun s => clean_in_list (clean_stmt s)) body)
  | SSwitch e a d =>
      SSwitch e (map_cases (flat_map (fun s => clean_in_list (clean_stmt s))) a)
                (map_default (flat_map (fun s => clean_in_list (clean_stmt s))) d)
  | STry body h f =>
      STry (flat_map (fun s => clean_in_list (clean_stmt s)) body)
           (map_handler (flat_map (fun s => clean_in_list (clean_stmt s))) h)
           (option_map (flat_map (fun s => clean_in_list (clean_stmt s))) f)
  | SLabel l s => SLabel l (clean_single (clean_stmt s))
  | _ => s
  end.

(** cleanup.rs 33-41, `clean_stmts`. *)
Definition clean_stmts (body : list stmt) : list stmt :=
  flat_map (fun s => clean_in_list (clean_stmt s)) body.

(** ** decl_combine.rs *)

(** decl_combine.rs 33-78, one round of `combine_stmts` with
    `merge_adjacent_var_decls`; [out] is in reverse. *)
Definition combine_push (out : list stmt) (s : stmt) : list stmt :=
  match out, s with
  | SVar (d :: ds) :: out', SVar (e :: es) => SVar ((d :: ds) ++ e :: es) :: out'
  | _, _ => s :: out
  end.

Definition combine_list (ss : list stmt) : list stmt := rev (fold_left combine_push ss []).

(** decl_combine.rs 80-171, `combine_stmt` and the parts. *)
Fixpoint combine_stmt (s : stmt) : stmt :=
  match s with
  | SBlock body => SBlock (combine_list (map combine_stmt body))
  | SIf t c a => SIf t (combine_stmt c) (option_map combine_stmt a)
  | SWhile t s => SWhile t (combine_stmt s)
  | SDoWhile s t => SDoWhile (combine_stmt s) t
  | SFor i t p body => SFor i t p (combine_list (map combine_stmt body))
  | SForOf b e body => SForOf b e (combine_list (map combine_stmt body))
  | SSwitch e a d =>
      SSwitch e (map_cases (fun body => combine_list (map combine_stmt body)) a)
                (map_default (fun body => combine_list (map combine_stmt body)) d)
  | STry body h f =>
      STry (combine_list (map combine_stmt body))
           (map_handler (fun body => combine_list (map combine_stmt body)) h)
           (option_map (fun body => combine_list (map combine_stmt body)) f)
  | SLabel l s => SLabel l (combine_stmt s)
  | _ => s
  end.

Definition combine_stmts (body : list stmt) : list stmt := combine_list (map combine_stmt body).
End Rewrite.

(** ** All of them *)

(** The passes modelled here of those that minify-js/src/opt/mod.rs 26-59
    and 129-140 run, in turn and again; the binder's answers may be new
    ones each time. *)
Inductive pass :=
  | RewriteStmts (strict : bool)
  | RewriteFlow (B : binder)
  | Cleanup
  | CombineDecls.

Definition run_pass (of_vars : N -> list N) (body : list stmt) (p : pass) : list stmt :=
  match p with
  | RewriteStmts strict => rewrite_stmts of_vars strict body
  | RewriteFlow B => cf_stmts of_vars B body
  | Cleanup => clean_stmts body
  | CombineDecls => combine_stmts body
  end.

Definition run_passes (of_vars : N -> list N) (passes : list pass) (body : list stmt) : list stmt :=
  fold_left (run_pass of_vars) passes body.
