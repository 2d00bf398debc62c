(** Model of the minifier's renaming of variables: minify-js/src/rename/mod.rs. *)
From Coq Require Import NArith Ascii String.
From stdpp Require Import base decidable numbers gmap list.
From Verif Require Import RustStr LineModel.
Local Open Scope N_scope.
Local Open Scope list_scope.

(** A text given as ASCII. *)
Definition txt (s : string) : rstr := List.map N_of_ascii (list_ascii_of_string s).

(* ------------------------------------------------------------------ *)
(** * Generated names *)

(** minify-js/src/rename/mod.rs 318-319 [FIRST_CHARS], [NON_FIRST_CHARS]. *)
Definition FIRST_CHARS : rstr := txt "abcdefghijklmnopqrstuvwxyzABCDEFGHIJKLMNOPQRSTUVWXYZ$_".
Definition NON_FIRST_CHARS : rstr := txt "abcdefghijklmnopqrstuvwxyzABCDEFGHIJKLMNOPQRSTUVWXYZ$_0123456789".

(** 326-337 [NameGenerator::encode]; the loop divides by 64 until nothing is left.
    [fuel] bounds its turns by the number of bits of [n], which is enough
    (RenameProofs.v). *)
Fixpoint encode_rest (fuel : nat) (n : N) : rstr :=
  match fuel with
  | O => []
  | S fuel =>
      if n =? 0 then []
      else List.nth (N.to_nat (n mod 64)) NON_FIRST_CHARS 0 :: encode_rest fuel (n / 64)
  end.
Definition encode (n : N) : rstr :=
  List.nth (N.to_nat (n mod 54)) FIRST_CHARS 0 :: encode_rest (N.to_nat (N.size (n / 54))) (n / 54).

(** 339-347 [next_name]: the name and the new counter.  The loop has no bound in
    the code; [fuel] is the number of candidates tried.  Simplified: the counter
    is a [usize] there and does not overflow here. *)
Fixpoint next_name (fuel : nat) (counter : N) (allowed : rstr -> bool) : option (rstr * N) :=
  match fuel with
  | O => None
  | S fuel =>
      let candidate := encode counter in
      if allowed candidate then Some (candidate, counter + 1)
      else next_name fuel (counter + 1) allowed
  end.

(** parse-js/src/lex/mod.rs 355-438 [KEYWORDS_MAPPING], values. *)
Definition keywords : list rstr :=
  List.map txt
      ["as"; "async"; "await"; "break"; "case"; "catch"; "class"; "const"; "constructor"; "continue";
       "debugger"; "default"; "delete"; "do"; "else"; "enum"; "export"; "extends"; "finally"; "for";
       "from"; "function"; "get"; "if"; "import"; "in"; "instanceof"; "let"; "new"; "of"; "out";
       "return"; "set"; "static"; "super"; "switch"; "this"; "throw"; "try"; "typeof"; "using"; "var";
       "void"; "while"; "with"; "yield"; "abstract"; "accessor"; "any"; "asserts"; "bigint";
       "boolean"; "declare"; "implements"; "infer"; "intrinsic"; "interface"; "is"; "keyof"; "module";
       "namespace"; "never"; "number"; "object"; "override"; "private"; "protected"; "public";
       "readonly"; "satisfies"; "string"; "symbol"; "type"; "undefined"; "unique"; "unknown"; "false";
       "null"; "true"]%string.
(** 350-362 [reserved_names]. *)
Definition reserved_names : gset rstr :=
  list_to_set (keywords ++ List.map txt ["true"; "false"; "null"; "package"; "eval"; "arguments"]%string).

(* ------------------------------------------------------------------ *)
(** * Scopes *)

Definition sym := N.
Definition scope_id := N.

(** An identifier token: the name written, and the symbol the binder gave it
    ([resolved_symbol] or [declared_symbol], semantic-js/src/assoc/js.rs). *)
Record occurrence := Occ { o_name : rstr; o_sym : option sym }.

(** semantic-js/src/js/mod.rs 186-204 [ScopeData], as far as the minifier reads
    it, with the identifier tokens whose [scope_id] it is. *)
Record scope := Scope {
  sc_id : scope_id;
  sc_symbols : list sym; (* [scope_symbols]: in the order of the table *)
  sc_dynamic : bool; (* [is_dynamic] *)
  sc_eval : bool; (* [has_direct_eval] *)
  sc_occs : list occurrence;
}.

(** The scopes, as the tree their [parent] and [children] links form. *)
Inductive stree := SNode (s : scope) (children : list stree).
Definition root (t : stree) : scope := match t with SNode s _ => s end.

(** semantic-js/src/js/mod.rs 268-286 [JsSemantics], and the symbols exported by
    declarations (minify-js/src/rename/mod.rs 136-140 [maybe_mark_export]).
    [annex_b]: [annex_b_function_decls], from the function's symbol in its block
    to the hoisted [var]. *)
Record program := Program {
  scopes : stree;
  sym_name : sym -> rstr;
  decl_scope : sym -> scope_id;
  annex_b : list (sym * sym);
  exported : gset sym;
}.

(** Every scope with the scopes around it, innermost first, itself included. *)
Fixpoint paths (above : list scope) (t : stree) : list (list scope) :=
  match t with
  | SNode s children =>
      let p := s :: above in
      p :: (fix go (l : list stree) : list (list scope) :=
              match l with [] => [] | c :: l => paths p c ++ go l end) children
  end.
Definition all_paths (P : program) : list (list scope) := paths [] (scopes P).

(** minify-js/src/rename/mod.rs 22-26 [ScopeUsages]. *)
Record usages := Usages { foreign : gset sym; unknown : gset rstr }.
Definition no_usages : usages := Usages ∅ ∅.
Definition usage_map := gmap scope_id usages.
Definition usage_of (m : usage_map) (s : scope_id) : usages := default no_usages (m !! s).

(** 106-117 [record_unknown], walking up from the innermost scope. *)
Definition record_unknown (n : rstr) (path : list scope) (m : usage_map) : usage_map :=
  fold_left (fun m s => let u := usage_of m (sc_id s) in
                        <[sc_id s := Usages (foreign u) ({[n]} ∪ unknown u)]> m) path m.
(** 119-134 [record_symbol_usage], up to the declaring scope. *)
Fixpoint record_symbol_usage (P : program) (y : sym) (path : list scope) (m : usage_map) : usage_map :=
  match path with
  | [] => m
  | s :: path =>
      if sc_id s =? decl_scope P y then m
      else let u := usage_of m (sc_id s) in
           record_symbol_usage P y path (<[sc_id s := Usages ({[y]} ∪ foreign u) (unknown u)]> m)
  end.
(** 193-253: the visitor, at one identifier token. *)
Definition record_occ (P : program) (path : list scope) (m : usage_map) (o : occurrence) : usage_map :=
  match o_sym o with
  | Some y => record_symbol_usage P y path m
  | None => record_unknown (o_name o) path m
  end.
(** 263-313 [collect_usages]: [scope_usages]. *)
Definition collect (P : program) : usage_map :=
  fold_left (fun m path =>
    match path with
    | [] => m
    | s :: _ => fold_left (record_occ P path) (sc_occs s) m
    end) (all_paths P) ∅.

(** All scopes, and [symbol_names] (292-297): the symbols listed in some scope. *)
Definition all_scopes (P : program) : list scope := omap head (all_paths P).
Definition symbol_name (P : program) (y : sym) : option rstr :=
  if bool_decide (y ∈ (all_scopes P ≫= sc_symbols)) then Some (sym_name P y) else None.

(** 285-291 [ScopeHazards]. *)
Definition has_with (s : scope) : bool := sc_dynamic s && negb (sc_eval s).

(** 368-383 [disabled_scopes]. *)
Definition disabled_scopes (P : program) : gset scope_id :=
  list_to_set (all_paths P ≫= fun path =>
    match path with
    | [] => []
    | s :: above =>
        (if has_with s || sc_eval s then [sc_id s] else []) ++
        (if sc_eval s then List.map sc_id above else [])
    end).
(** 386-397 [pinned_symbols]. *)
Definition pinned_symbols (P : program) : gset sym :=
  ⋃ (List.map (fun s => if has_with s then foreign (usage_of (collect P) (sc_id s)) else ∅) (all_scopes P)).

(* ------------------------------------------------------------------ *)
(** * [assign_names] *)

Definition renames := gmap sym rstr.

(** 400-411: [annex_b_block_to_var], [annex_b_var_to_blocks]. *)
Definition block_to_var (P : program) (y : sym) : option sym :=
  option_map snd (List.find (fun bv => fst bv =? y) (annex_b P)).
Definition var_to_blocks (P : program) (y : sym) : list sym :=
  List.map fst (List.filter (fun bv => snd bv =? y) (annex_b P)).

Section assign.
Context (P : program).
Let usage := collect P.
Let disabled := disabled_scopes P.
Let pinned := pinned_symbols P.

(** [renames.get(sym).or(symbol_names.get(sym))]. *)
Definition current_name (r : renames) (y : sym) : option rstr :=
  match r !! y with Some n => Some n | None => symbol_name P y end.

(** 449-461: the names a scope may not use. *)
Definition names_used_in (r : renames) (s : scope_id) : gset rstr :=
  list_to_set (omap (current_name r) (elements (foreign (usage_of usage s)))) ∪ unknown (usage_of usage s).

Definition keeps_name (y : sym) : bool := bool_decide (y ∈ exported P) || bool_decide (y ∈ pinned).

(** 468-475: pinned and exported bindings. *)
Definition reserve_pinned (order : list sym) : gset rstr :=
  list_to_set (omap (fun y => if keeps_name y then symbol_name P y else None) order).

(** 481-498: block functions of Annex B. *)
Definition reserve_block_functions (order : list sym) (used : gset rstr) (r : renames) : gset rstr * renames :=
  fold_left (fun '(used, r) y =>
    match block_to_var P y with
    | None => (used, r)
    | Some rep =>
        let group := match current_name r rep with Some n => Some n | None => symbol_name P y end in
        let used := match group with Some n => {[n]} ∪ used | None => used end in
        let r := match r !! rep with Some n => <[y := n]> r | None => r end in
        (used, r)
    end) order (used, r).

(** 523-549 [group_disallowed]. *)
Definition group_disallowed (r : renames) (blocks : list sym) : gset rstr :=
  ⋃ (List.map (fun b =>
       let s := decl_scope P b in
       reserved_names ∪ names_used_in r s ∪
       match List.find (fun x => sc_id x =? s) (all_scopes P) with
       | Some x => reserve_pinned (sc_symbols x)
       | None => ∅
       end) blocks).

(** [generator.next_name] with the names to avoid, given enough candidates. *)
Definition fresh_name (avoid : gset rstr) (counter : N) : option (rstr * N) :=
  next_name (S (size avoid)) counter (fun c => negb (bool_decide (c ∈ avoid))).

(** 500-572: the renaming of one scope's symbols. *)
Fixpoint assign_symbols (disallowed : gset rstr) (order : list sym)
    (used : gset rstr) (counter : N) (r : renames) : option renames :=
  match order with
  | [] => Some r
  | y :: order =>
      match block_to_var P y, symbol_name P y with
      | Some _, _ => assign_symbols disallowed order used counter r
      | None, None => assign_symbols disallowed order used counter r
      | None, Some n =>
          match var_to_blocks P y with
          | [] =>
              if keeps_name y then assign_symbols disallowed order used counter r
              else
                match fresh_name (disallowed ∪ used) counter with
                | None => None
                | Some (new_name, counter) =>
                    assign_symbols disallowed order ({[new_name]} ∪ used) counter (<[y := new_name]> r)
                end
          | blocks =>
              if keeps_name y || existsb (fun b => bool_decide (decl_scope P b ∈ disabled)) blocks
              then assign_symbols disallowed order ({[n]} ∪ used) counter r
              else
                match fresh_name (disallowed ∪ used ∪ group_disallowed r blocks) counter with
                | None => None
                | Some (new_name, counter) =>
                    let r := <[y := new_name]> r in
                    let r := fold_left (fun r b => <[b := new_name]> r) blocks r in
                    assign_symbols disallowed order ({[new_name]} ∪ used) counter r
                end
          end
      end
  end.

Definition assign_own (s : scope) (r : renames) : option renames :=
  let disallowed := reserved_names ∪ names_used_in r (sc_id s) in
  let '(used, r) := reserve_block_functions (sc_symbols s) (reserve_pinned (sc_symbols s)) r in
  assign_symbols disallowed (sc_symbols s) used 0 r.

(** 413-587 [assign_scope]. *)
Fixpoint assign_scope (t : stree) (r : renames) : option renames :=
  match t with
  | SNode s children =>
      r ← (if bool_decide (sc_id s ∈ disabled) then Some r else assign_own s r);
      (fix go (l : list stree) (r : renames) : option renames :=
         match l with
         | [] => Some r
         | c :: l => r ← assign_scope c r; go l r
         end) children r
  end.

(** 364-601 [assign_names]. *)
Definition assign_names : option renames := assign_scope (scopes P) ∅.
End assign.

(** 728-744 [maybe_apply]: the name written after renaming. *)
Definition apply_occ (r : renames) (o : occurrence) : rstr :=
  match o_sym o with
  | Some y => match r !! y with Some n => n | None => o_name o end
  | None => o_name o
  end.

(* ------------------------------------------------------------------ *)
(** * [rewrite_source] *)

(** 41-47 [Replacement]. *)
Record replacement := Rep { r_start : N; r_end : N; r_text : rstr }.

(** 834-851: the end of the string literal whose body starts at byte [at]; [None]
    when it is not closed. *)
Fixpoint literal_end (quote : N) (body : rstr) (escaped : bool) (pos : N) : option N :=
  match body with
  | [] => None
  | c :: body =>
      if escaped then literal_end quote body false (pos + len_utf8 c)
      else if c =? 0x5C then literal_end quote body true (pos + len_utf8 c)
      else if c =? quote then Some (pos + len_utf8 c)
      else literal_end quote body false (pos + len_utf8 c)
  end.
(** 825-852.  Simplified: a start inside a character is taken as not at a quote
    (a continuation byte is never a quote). *)
Definition extend (source : rstr) (r : replacement) : replacement :=
  match split_at (r_start r) source with
  | Some (_, q :: body) =>
      if (q =? 0x22) || (q =? 0x27) then
        match literal_end q body false (r_start r + 1) with
        | Some e => if r_end r <? e then Rep (r_start r) e (r_text r) else r
        | None => r
        end
      else r
  | _ => r
  end.

(** 857-863: the pieces; [None] is a panic (the assertion, or a slice that is not
    on character boundaries). *)
Fixpoint rewrite_loop (source : rstr) (cur : N) (reps : list replacement) : option rstr :=
  match reps with
  | [] => slice source cur (str_len source)
  | r :: reps =>
      if (cur <=? r_start r) && (r_start r <=? r_end r) then
        kept ← slice source cur (r_start r);
        rest ← rewrite_loop source (r_end r) reps;
        Some (kept ++ r_text r ++ rest)
      else None
  end.
(** 815-865 [rewrite_source]. *)
Definition rewrite_source (source : rstr) (reps : list replacement) : option rstr :=
  rewrite_loop source 0
    (sort_by (fun a b => N.compare (r_start a) (r_start b)) (List.map (extend source) reps)).
