(** * Statement evaluation: a model of vm-js/src/exec.rs

    The statement evaluator of the interpreter: how statements transfer
    control, which completion each ends with, and which lexical
    environment is current while each part of it runs.

    What the statement evaluator asks of the rest of the interpreter is
    gathered in the record [machine]: how an opaque expression evaluates,
    how a binding is made, how an iterator steps.  Nothing is assumed
    about these: each is an arbitrary function of the environment it is
    given and of the world (heap, globals, host), it may change the world,
    and where the code can throw or stop the engine there, so can it.

    Not modelled: the budget tick in front of each statement and each
    expression, the rooting of values against garbage collection, and the
    stack trace kept with a thrown value.  A tick or a root that fails
    ends the evaluation like any other engine error. *)
From stdpp Require Import base decidable numbers list.

(** ** Syntax *)

(** The literals the minifier knows the truth value of:
    parse-js/src/ast/expr/lit.rs.  A number is given by the bits of its
    IEEE double, a bigint by its value. *)
Inductive literal :=
  | LBool (b : bool)
  | LNull
  | LNum (bits : N)
  | LStr (s : list N)
  | LBigInt (n : N).

(** parse-js/src/ast/expr/mod.rs: an expression is opaque, except for the
    literals, `t ? c : a` and `l && r`. *)
Inductive expr :=
  | EAtom (n : N)
  | ELit (l : literal)
  | ECond (t c a : expr)
  | EAnd (l r : expr).

(** A `let`, `const` or function declaration found directly in a
    statement list.  Its binding is made when the list is entered. *)
Inductive decl :=
  | DLexical (n : N)
  | DFunction (n : N).

(** The parameter of a `catch` clause: none, a name, or a pattern. *)
Inductive catch_param :=
  | CatchNone
  | CatchName (n : N)
  | CatchPattern (n : N).

(** `Stmt` of parse-js/src/ast/stmt/mod.rs.  [SVar] is a `var` statement
    (a name and an initialiser each), [SLexical n] a `let` or `const`
    statement, [SFunction n] a function declaration.  The branches of a
    `switch` are given as those before the default branch, and the default
    branch with those after it: exec.rs 2703-2738 splits them so. *)
Inductive stmt :=
  | SEmpty
  | SExpr (e : expr)
  | SVar (ds : list (N * option expr))
  | SLexical (n : N)
  | SFunction (n : N)
  | SBlock (body : list stmt)
  | SIf (t : expr) (c : stmt) (a : option stmt)
  | SThrow (e : expr)
  | SReturn (e : option expr)
  | STry (body : list stmt) (handler : option (catch_param * list stmt)) (final : option (list stmt))
  | SWhile (t : expr) (body : stmt)
  | SDoWhile (body : stmt) (t : expr)
  | SFor (init : for_init) (t post : option expr) (body : list stmt)
  | SForOf (binder : N) (e : expr) (body : list stmt)
  | SSwitch (e : expr) (before : list (expr * list stmt))
            (rest : option (list stmt * list (expr * list stmt)))
  | SLabel (l : N) (body : stmt)
  | SBreak (l : option N)
  | SContinue (l : option N)
with for_init :=
  | InitNone
  | InitExpr (e : expr)
  | InitVar (ds : list (N * option expr)).

(** The declarations found directly in a statement list:
    exec.rs 1347-1391, `instantiate_block_decls_in_stmt_list`.  There the
    functions come after the `let`s and `const`s, and outside strict mode
    they are left out; [instantiate] may do nothing for them. *)
Definition decls (body : list stmt) : list decl :=
  flat_map (fun s => match s with
                     | SLexical n => [DLexical n]
                     | SFunction n => [DFunction n]
                     | _ => []
                     end) body.

Definition declares (body : list stmt) : bool :=
  match decls body with [] => false | _ => true end.

(** The declarations in all branches of a `switch`: exec.rs 2695-2697. *)
Definition switch_decls (before : list (expr * list stmt))
    (rest : option (list stmt * list (expr * list stmt))) : list decl :=
  flat_map (fun b => decls (snd b)) before ++
  match rest with
  | Some (body, after) => decls body ++ flat_map (fun b => decls (snd b)) after
  | None => []
  end.

(** ** The rest of the interpreter *)

(** `Result<T, VmError>`: a value, a thrown value (`VmError::Throw`, or
    one of the errors exec.rs 1784-1861 turns into a thrown TypeError),
    or an error no script can catch. *)
Inductive res (V A : Type) :=
  | RVal (a : A)
  | RThrow (v : V)
  | RFatal.
Arguments RVal {V A} _.
Arguments RThrow {V A} _.
Arguments RFatal {V A}.

(** What statement evaluation relies on.  [None] is a fatal error, where
    the code cannot throw.  The boolean given to [new_env], which the code
    does not have, says whether the environment will ever hold a binding:
    a machine may leave out one that will not. *)
Record machine := Machine {
  value : Type;
  world : Type;
  env : Type;
  undefined : value;
  to_boolean : value -> world -> bool;
  strict_equal : value -> value -> world -> bool;
  atom : N -> env -> world -> res value value * world;
  lit : literal -> world -> option value * world;
  new_env : bool -> env -> world -> option env * world;
  instantiate : decl -> env -> world -> option unit * world;
  put_var : N -> value -> env -> world -> res value unit * world;
  lexical : N -> env -> world -> res value unit * world;
  bind_name : N -> value -> env -> world -> option unit * world;
  bind_pattern : N -> value -> env -> world -> res value unit * world;
  iter : Type;
  get_iterator : value -> world -> res value iter * world;
  step : iter -> world -> res value (option value) * world;
  close : iter -> world -> res value unit * world;
  bind_each : N -> value -> env -> world -> res value unit * world;
}.

(** ** Completions *)

(** exec.rs 45-55, `Completion`. *)
Inductive completion (V : Type) :=
  | CNormal (v : option V)
  | CThrow (v : V)
  | CReturn (v : V)
  | CBreak (l : option N) (v : option V)
  | CContinue (l : option N) (v : option V).
Arguments CNormal {V} _.
Arguments CThrow {V} _.
Arguments CReturn {V} _.
Arguments CBreak {V} _ _.
Arguments CContinue {V} _ _.

(** exec.rs 66-74, `Completion::value`. *)
Definition completion_value {V} (c : completion V) : option V :=
  match c with
  | CNormal v => v
  | CThrow v | CReturn v => Some v
  | CBreak _ v | CContinue _ v => v
  end.

(** exec.rs 76-78, `Completion::is_abrupt`. *)
Definition is_abrupt {V} (c : completion V) : bool :=
  match c with CNormal _ => false | _ => true end.

(** exec.rs 81-88, `Completion::update_empty`. *)
Definition update_empty {V} (c : completion V) (value : option V) : completion V :=
  match c with
  | CNormal None => CNormal value
  | CBreak target None => CBreak target value
  | CContinue target None => CContinue target value
  | other => other
  end.

(** exec.rs 2130-2137, `loop_continues`. *)
Definition loop_continues {V} (c : completion V) (label_set : list N) : bool :=
  match c with
  | CNormal _ => true
  | CContinue None _ => true
  | CContinue (Some target) _ => existsb (N.eqb target) label_set
  | _ => false
  end.

(** exec.rs 2141-2146, `normalise_iteration_break`. *)
Definition normalise_iteration_break {V} (undef : V) (c : completion V) : completion V :=
  match c with
  | CBreak None v => CNormal (Some (default undef v))
  | other => other
  end.

(** ** The evaluator *)

(** The state the evaluator works on: `self.env.lexical_env` and the rest. *)
Record state (M : machine) := State { lexical_env : env M; rest : world M }.
Arguments State {M} _ _.
Arguments lexical_env {M} _.
Arguments rest {M} _.

(** The outcome of a call: [XErr v] is `Err(VmError::Throw(v))` on its way
    up through `?`, [XFatal] any other `Err`, [XFuel] that the model ran
    out of steps. *)
Inductive outcome (V A : Type) :=
  | XOk (a : A)
  | XErr (v : V)
  | XFatal
  | XFuel.
Arguments XOk {V A} _.
Arguments XErr {V A} _.
Arguments XFatal {V A}.
Arguments XFuel {V A}.

Section Evaluator.
Context {M : machine}.

Definition act (A : Type) : Type := state M -> outcome (value M) A * state M.

Definition ret {A} (a : A) : act A := fun st => (XOk a, st).

(** The operator `?`. *)
Definition bind {A B} (m : act A) (k : A -> act B) : act B := fun st =>
  match m st with
  | (XOk a, st') => k a st'
  | (XErr v, st') => (XErr v, st')
  | (XFatal, st') => (XFatal, st')
  | (XFuel, st') => (XFuel, st')
  end.

(** A call that works on the current environment and the world. *)
Definition call {A} (f : env M -> world M -> res (value M) A * world M) : act A := fun st =>
  match f (lexical_env st) (rest st) with
  | (RVal a, w) => (XOk a, State (lexical_env st) w)
  | (RThrow v, w) => (XErr v, State (lexical_env st) w)
  | (RFatal, w) => (XFatal, State (lexical_env st) w)
  end.

(** The same for a call that cannot throw. *)
Definition call_total {A} (f : env M -> world M -> option A * world M) : act A := fun st =>
  match f (lexical_env st) (rest st) with
  | (Some a, w) => (XOk a, State (lexical_env st) w)
  | (None, w) => (XFatal, State (lexical_env st) w)
  end.

(** `to_boolean(scope.heap(), v)`. *)
Definition truth (v : value M) : act bool := fun st => (XOk (to_boolean M v (rest st)), st).

(** `strict_equal(scope.heap(), a, b)`. *)
Definition same (a b : value M) : act bool := fun st => (XOk (strict_equal M a b (rest st)), st).

(** exec.rs 237-240, `set_lexical_env`. *)
Definition set_lexical_env (e : env M) : act unit := fun st => (XOk tt, State e (rest st)).

(** Run, then put an environment back however it ended:
    `let result = m; self.env.set_lexical_env(outer); result`. *)
Definition restoring {A} (outer : env M) (m : act A) : act A := fun st =>
  let '(r, st') := m st in (r, State outer (rest st')).

(** exec.rs 2818-2850, `eval_expr`; 4324-4331, `eval_cond`; 4386-4392, the
    case `LogicalAnd` of `eval_binary`. *)
Fixpoint eval_expr (e : expr) : act (value M) :=
  match e with
  | EAtom n => call (atom M n)
  | ELit l => call_total (fun _ => lit M l)
  | ECond t c a =>
      bind (eval_expr t) (fun v => bind (truth v) (fun b =>
      if b then eval_expr c else eval_expr a))
  | EAnd l r =>
      bind (eval_expr l) (fun v => bind (truth v) (fun b =>
      if negb b then ret v else eval_expr r))
  end.

(** exec.rs 1875-1925, `eval_var_decl`, mode `Var`: a declarator without
    an initialiser does nothing. *)
Fixpoint eval_var (ds : list (N * option expr)) : act unit :=
  match ds with
  | [] => ret tt
  | (_, None) :: ds' => eval_var ds'
  | (x, Some e) :: ds' =>
      bind (eval_expr e) (fun v => bind (call (put_var M x v)) (fun _ => eval_var ds'))
  end.

(** exec.rs 1347-1391, `instantiate_block_decls_in_stmt_list`: one binding
    after the other, in the environment given. *)
Fixpoint instantiate_decls (ds : list decl) (e : env M) : act unit :=
  match ds with
  | [] => ret tt
  | d :: ds' => bind (call_total (fun _ => instantiate M d e)) (fun _ => instantiate_decls ds' e)
  end.

(** The environment of exec.rs 1698, 2072, 2689: `env_create(Some(outer))`. *)
Definition env_create (used : bool) (outer : env M) : act (env M) := call_total (fun _ => new_env M used outer).

(** exec.rs 2094-2115, `bind_catch_param`: binds in the current environment. *)
Definition bind_catch_param (p : catch_param) (thrown : value M) : act unit :=
  match p with
  | CatchNone => ret tt
  | CatchName n => call_total (bind_name M n thrown)
  | CatchPattern n => call (bind_pattern M n thrown)
  end.

(** exec.rs 1783-1862: a thrown value coming out of a statement as an
    error becomes a throw completion. *)
Definition catching (m : act (completion (value M))) : act (completion (value M)) := fun st =>
  match m st with
  | (XErr v, st') => (XOk (CThrow v), st')
  | other => other
  end.

(** The iterator is closed and whatever that does is forgotten:
    `let _ = iterator::iterator_close(..)`. *)
Definition close_ignoring (it : iter M) : act unit := fun st =>
  (XOk tt, State (lexical_env st) (snd (close M it (rest st)))).

(** `if let Err(err) = m { let _ = iterator_close(..); return Err(err) }`. *)
Definition closing_on_error {A} (it : iter M) (m : act A) : act A := fun st =>
  match m st with
  | (XOk a, st') => (XOk a, st')
  | (other, st') => (other, snd (close_ignoring it st'))
  end.

(** exec.rs 1661-2816.  [n] bounds the number of nested calls and loop
    rounds, and [XFuel] says it was not enough. *)
Fixpoint eval_stmt (n : nat) (label_set : list N) (s : stmt) {struct n} : act (completion (value M)) :=
  match n with
  | O => fun st => (XFuel, st)
  | S n =>
    catching
      match s with
      | SEmpty => ret (CNormal None)
      | SExpr e => bind (eval_expr e) (fun v => ret (CNormal (Some v)))          (* 1866-1873 *)
      | SVar ds => bind (eval_var ds) (fun _ => ret (CNormal None))
      | SLexical d => bind (call (lexical M d)) (fun _ => ret (CNormal None))    (* 1926-1989 *)
      | SFunction _ => ret (CNormal None)
      | SBlock body => eval_block n body
      | SIf t c a =>                                                             (* 1991-2000 *)
          bind (eval_expr t) (fun v => bind (truth v) (fun b =>
          if b then eval_stmt n [] c
          else match a with Some alt => eval_stmt n [] alt | None => ret (CNormal None) end))
      | SThrow e => bind (eval_expr e) (fun v => ret (CThrow v))                 (* 2002-2030 *)
      | SReturn (Some e) => bind (eval_expr e) (fun v => ret (CReturn v))        (* 2117-2127 *)
      | SReturn None => ret (CReturn (undefined M))
      | STry body handler final =>                                               (* 2032-2063 *)
          bind (eval_block n body) (fun result =>
          bind match result, handler with
               | CThrow thrown, Some (p, hbody) => eval_catch n p hbody thrown
               | _, _ => ret result
               end (fun result =>
          bind match final with
               | Some fbody =>
                   bind (eval_block n fbody) (fun finally_result =>
                   ret (if is_abrupt finally_result then finally_result else result))
               | None => ret result
               end (fun result =>
          ret (update_empty result (Some (undefined M))))))
      | SWhile t body =>                                                         (* 2148-2156 *)
          bind (while_loop n label_set t body (undefined M)) (fun result =>
          ret (normalise_iteration_break (undefined M) result))
      | SDoWhile body t =>                                                       (* 2189-2197 *)
          bind (do_while_loop n label_set body t (undefined M)) (fun result =>
          ret (normalise_iteration_break (undefined M) result))
      | SFor init t post body =>                                                 (* 2230-2265 *)
          bind match init with
               | InitNone => ret tt
               | InitExpr e => bind (eval_expr e) (fun _ => ret tt)
               | InitVar ds => eval_var ds
               end (fun _ =>
          bind (for_loop n label_set t post body (undefined M)) (fun result =>
          ret (normalise_iteration_break (undefined M) result)))
      | SForOf binder e body =>                                                  (* 2491-2532 *)
          bind (eval_expr e) (fun iterable =>
          bind (call (fun _ => get_iterator M iterable)) (fun it =>
          bind (for_of_loop n label_set binder it body (undefined M)) (fun result =>
          ret (normalise_iteration_break (undefined M) result))))
      | SSwitch e before rest_ =>                                                   (* 2672-2816 *)
          bind (eval_expr e) (fun discriminant => fun st =>
          let outer := lexical_env st in
          bind (env_create true outer) (fun switch_env =>
          bind (set_lexical_env switch_env) (fun _ =>
          bind (restoring outer
            (bind (instantiate_decls (switch_decls before rest_) switch_env) (fun _ =>
             eval_switch n discriminant before rest_))) (fun result =>
          ret (normalise_iteration_break (undefined M) result)))) st)
      | SLabel l body =>                                                         (* 2651-2670 *)
          bind (eval_stmt n (label_set ++ [l]) body) (fun result =>
          ret match result with
              | CBreak (Some target) v => if (target =? l)%N then CNormal v else result
              | _ => result
              end)
      | SBreak l => ret (CBreak l None)
      | SContinue l => ret (CContinue l None)
      end
  end

(** exec.rs 1661-1691, `eval_stmt_list`, from the second statement on:
    [last_value] is the running completion value. *)
with eval_list (n : nat) (stmts : list stmt) (last_value : option (value M)) {struct n}
    : act (completion (value M)) :=
  match n with
  | O => fun st => (XFuel, st)
  | S n =>
    match stmts with
    | [] => ret (CNormal last_value)
    | s :: stmts' =>
        bind (eval_stmt n [] s) (fun c =>
        match update_empty c last_value with
        | CNormal v => eval_list n stmts' (match v with Some v => Some v | None => last_value end)
        | abrupt => ret abrupt
        end)
    end
  end

(** exec.rs 1693-1708, `eval_block_stmt`. *)
with eval_block (n : nat) (body : list stmt) {struct n} : act (completion (value M)) :=
  match n with
  | O => fun st => (XFuel, st)
  | S n => fun st =>
    let outer := lexical_env st in
    bind (env_create (declares body) outer) (fun block_env =>
    bind (set_lexical_env block_env) (fun _ =>
    restoring outer
      (bind (instantiate_decls (decls body) block_env) (fun _ => eval_list n body None)))) st
  end

(** exec.rs 2065-2092, `eval_catch`. *)
with eval_catch (n : nat) (p : catch_param) (body : list stmt) (thrown : value M) {struct n}
    : act (completion (value M)) :=
  match n with
  | O => fun st => (XFuel, st)
  | S n => fun st =>
    let outer := lexical_env st in
    bind (env_create true outer) (fun catch_env =>
    bind (set_lexical_env catch_env) (fun _ =>
    restoring outer
      (bind (instantiate_decls (decls body) catch_env) (fun _ =>
       bind (bind_catch_param p thrown) (fun _ => eval_list n body None))))) st
  end

(** exec.rs 2159-2187, `while_loop_evaluation`, one round. *)
with while_loop (n : nat) (label_set : list N) (t : expr) (body : stmt) (v : value M) {struct n}
    : act (completion (value M)) :=
  match n with
  | O => fun st => (XFuel, st)
  | S n =>
    bind (eval_expr t) (fun test => bind (truth test) (fun b =>
    if negb b then ret (CNormal (Some v))
    else
      bind (eval_stmt n [] body) (fun stmt_result =>
      if negb (loop_continues stmt_result label_set) then ret (update_empty stmt_result (Some v))
      else while_loop n label_set t body (default v (completion_value stmt_result)))))
  end

(** exec.rs 2200-2228, `do_while_loop_evaluation`, one round. *)
with do_while_loop (n : nat) (label_set : list N) (body : stmt) (t : expr) (v : value M) {struct n}
    : act (completion (value M)) :=
  match n with
  | O => fun st => (XFuel, st)
  | S n =>
    bind (eval_stmt n [] body) (fun stmt_result =>
    if negb (loop_continues stmt_result label_set) then ret (update_empty stmt_result (Some v))
    else
      let v := default v (completion_value stmt_result) in
      bind (eval_expr t) (fun test => bind (truth test) (fun b =>
      if negb b then ret (CNormal (Some v)) else do_while_loop n label_set body t v)))
  end

(** exec.rs 2274-2299, the loop of `for_triple_loop_evaluation`, one
    round; 2643-2649, `eval_for_body`: the body's statements are run in
    the environment the loop runs in. *)
with for_loop (n : nat) (label_set : list N) (t post : option expr) (body : list stmt) (v : value M)
    {struct n} : act (completion (value M)) :=
  match n with
  | O => fun st => (XFuel, st)
  | S n =>
    bind match t with
         | Some cond => bind (eval_expr cond) (fun test => truth test)
         | None => ret true
         end (fun b =>
    if negb b then ret (CNormal (Some v))
    else
      bind (eval_list n body None) (fun stmt_result =>
      if negb (loop_continues stmt_result label_set) then ret (update_empty stmt_result (Some v))
      else
        bind match post with
             | Some e => bind (eval_expr e) (fun _ => ret tt)
             | None => ret tt
             end (fun _ =>
        for_loop n label_set t post body (default v (completion_value stmt_result)))))
  end

(** exec.rs 2533-2641, the loop of `for_of_loop_evaluation`, one round. *)
with for_of_loop (n : nat) (label_set : list N) (binder : N) (it : iter M) (body : list stmt)
    (v : value M) {struct n} : act (completion (value M)) :=
  match n with
  | O => fun st => (XFuel, st)
  | S n =>
    bind (closing_on_error it (call (fun _ => step M it))) (fun next_value =>
    match next_value with
    | None => ret (CNormal (Some v))
    | Some x =>
        bind (closing_on_error it (call (bind_each M binder x))) (fun _ =>
        bind (closing_on_error it (eval_list n body None)) (fun body_completion =>
        if negb (loop_continues body_completion label_set)
        then bind (close_ignoring it) (fun _ => ret (update_empty body_completion (Some v)))
        else for_of_loop n label_set binder it body (default v (completion_value body_completion))))
    end)
  end

(** exec.rs 2703-2812, the branches of `eval_switch`: those before the
    default branch, the default branch, and those after it. *)
with eval_switch (n : nat) (discriminant : value M) (a : list (expr * list stmt))
    (rest_ : option (list stmt * list (expr * list stmt))) {struct n} : act (completion (value M)) :=
  match n with
  | O => fun st => (XFuel, st)
  | S n =>
    match rest_ with
    | None =>
        bind (eval_cases n discriminant a false (undefined M)) (fun r =>
        match r with
        | inl abrupt => ret abrupt
        | inr (_, v) => ret (CNormal (Some v))
        end)
    | Some (default_body, b) =>
        bind (eval_cases n discriminant a false (undefined M)) (fun r =>
        match r with
        | inl abrupt => ret abrupt
        | inr (found, v) =>
            bind (if found then ret (inr (false, v)) else eval_cases n discriminant b false v) (fun r =>
            match r with
            | inl abrupt => ret abrupt
            | inr (true, v) => ret (CNormal (Some v))
            | inr (false, v) =>
                bind (eval_list n default_body None) (fun default_r =>
                let v := default v (completion_value default_r) in
                if is_abrupt default_r then ret (update_empty default_r (Some v))
                else
                  bind (eval_cases n discriminant b true v) (fun r =>
                  match r with
                  | inl abrupt => ret abrupt
                  | inr (_, v) => ret (CNormal (Some v))
                  end))
            end)
        end)
    end
  end

(** The loop of exec.rs 2710-2731, 2739-2760, 2764-2785 and, with [found]
    set from the start, 2800-2809: [inl] an abrupt completion that leaves
    the switch, [inr] whether a case was found and the running value. *)
with eval_cases (n : nat) (discriminant : value M) (branches : list (expr * list stmt))
    (found : bool) (v : value M) {struct n}
    : act (completion (value M) + bool * value M) :=
  match n with
  | O => fun st => (XFuel, st)
  | S n =>
    match branches with
    | [] => ret (inr (found, v))
    | (case_expr, body) :: branches' =>
        bind (if found then ret true
              else bind (eval_expr case_expr) (fun case_value => same discriminant case_value)) (fun found =>
        if found then
          bind (eval_list n body None) (fun r =>
          let v := default v (completion_value r) in
          if is_abrupt r then ret (inl (update_empty r (Some v)))
          else eval_cases n discriminant branches' true v)
        else eval_cases n discriminant branches' false v)
    end
  end.

(** exec.rs 4948-4960, the end of `run_ecma_function`: what a call of a
    function with these statements for a body gives. *)
Definition run_function (n : nat) (body : list stmt) : act (value M) :=
  bind (eval_list n body None) (fun completion => fun st =>
  match completion with
  | CNormal _ => (XOk (undefined M), st)
  | CReturn v => (XOk v, st)
  | CThrow v => (XErr v, st)
  | CBreak _ _ | CContinue _ _ => (XFatal, st)
  end).

(** exec.rs 623-637, the end of `exec_script_source_with_host`: the value
    of a script. *)
Definition run_script (n : nat) (body : list stmt) : act (value M) :=
  bind (eval_list n body None) (fun completion => fun st =>
  match completion with
  | CNormal v => (XOk (default (undefined M) v), st)
  | CThrow v => (XErr v, st)
  | CReturn _ | CBreak _ _ | CContinue _ _ => (XFatal, st)
  end).
End Evaluator.
