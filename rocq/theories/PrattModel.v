(** The operator-precedence parser: parse-js/src/parse/expr/mod.rs.

    The parser is modelled on token lists ending in [TEnd] (the end of the
    input), with a fuel argument bounding the depth of calls.  Automatic
    semicolon insertion is off ([Asi::no()], as in [expr]); [await] and [yield]
    are operators (the context of an async generator); line terminators, error
    recovery (taken only where the strict parser fails), arrow functions and the
    productions left out of [expr] are not modelled.  [ts] switches the
    TypeScript dialect on; type arguments ([a<b>(c)]) are not modelled, so the
    TypeScript parser here is faithful only where no [<] occurs. *)
From stdpp Require Import base decidable numbers list.
From Verif Require Import PrintModel.

Inductive res (A : Type) : Type :=
  | Ok (a : A)
  | Err
  | OutOfFuel.
Arguments Ok {A} a.
Arguments Err {A}.
Arguments OutOfFuel {A}.

Definition bind {A B} (m : res A) (k : A -> res B) : res B :=
  match m with
  | Ok a => k a
  | Err => Err
  | OutOfFuel => OutOfFuel
  end.

(** parse-js/src/parse/operator.rs 65-83, [UNARY_OPERATOR_MAPPING], without
    [new]. *)
Definition unary_of (t : token) : option unop :=
  match t with
  | TNot => Some UNot
  | TTilde => Some UBitNot
  | TOp BAdd => Some UPlus
  | TOp BSub => Some UMinus
  | TInc => Some UInc
  | TDec => Some UDec
  | TOp BTypeof => Some UTypeof
  | TVoid => Some UVoid
  | TDelete => Some UDelete
  | TAwait => Some UAwait
  | TYield => Some UYield
  | _ => None
  end.

(** parse-js/src/parse/operator.rs 9-65, [MULTARY_OPERATOR_MAPPING]. *)
Inductive multary : Type :=
  | MBin (op : binop)
  | MCall (optional : bool)
  | MIndex (optional : bool)
  | MMember (optional : bool)
  | MCond.

Definition multary_of (t : token) : option multary :=
  match t with
  | TOp op => Some (MBin op)
  | TLPar => Some (MCall false)
  | TQLPar => Some (MCall true)
  | TLBr => Some (MIndex false)
  | TQLBr => Some (MIndex true)
  | TDot => Some (MMember false)
  | TQDot => Some (MMember true)
  | TQuestion => Some MCond
  | _ => None
  end.

Definition multary_prec (m : multary) : nat :=
  match m with
  | MBin op => bin_prec op
  | MCall _ | MIndex _ | MMember _ => call_prec
  | MCond => cond_prec
  end.

(** parse-js/src/parse/expr/mod.rs 806-861, [starts_assignment_expr]: the tokens
    an operand can start with. *)
Definition starts_operand (t : token) : bool :=
  match t with
  | TId _ | TLit _ | TLPar | TLBr | TNew | TAwait | TYield
  | TOp BAdd | TOp BSub | TInc | TDec | TNot | TTilde | TDelete | TOp BTypeof
  | TVoid => true
  | _ => false
  end.

(** An unparenthesised [yield] or [yield*]. *)
Definition bare_yield (e : expr) (par : bool) : bool :=
  match e with
  | EUnary UYield _ | EUnary UYieldStar _ => negb par
  | _ => false
  end.

(** parse-js/src/parse/expr/mod.rs 1722-1742: operands [**] does not accept
    unparenthesised on its left. *)
Definition bad_exp_base (e : expr) (par : bool) : bool :=
  match e with
  | EUnary UAwait _ | EUnary UBitNot _ | EUnary UDelete _ | EUnary UNot _
  | EUnary UTypeof _ | EUnary UMinus _ | EUnary UPlus _ | EUnary UVoid _ => negb par
  | EAs false _ _ => negb par
  | _ => false
  end.

(** parse-js/src/parse/expr/util.rs 252-320,
    [lhs_expr_to_assign_target_with_recover] without recovery: names and plain
    member expressions are targets, parenthesised ones are not.  Array and
    object patterns are left out. *)
Definition good_target (e : expr) (par : bool) : bool :=
  match e with
  | EId _ | EMember false _ _ | EIndex false _ _ => negb par
  | _ => false
  end.

(** The name used for a missing operand of [yield]:
    [create_synthetic_undefined], mod.rs 69-79. *)
Definition undefined_name : N := 0%N.

Definition is_term (terms : list token) (t : token) : bool :=
  bool_decide (t ∈ terms).

(** parse-js/src/parse/mod.rs, [consume_if]: the rest of the input if it starts
    with the token. *)
Definition consume_if (t : token) (toks : list token) : option (list token) :=
  match toks with
  | u :: rest => if decide (u = t) then Some rest else None
  | [] => None
  end.

(** parse-js/src/parse/mod.rs, [require]. *)
Definition require (t : token) (toks : list token) : res (list token) :=
  match consume_if t toks with
  | Some rest => Ok rest
  | None => Err
  end.

(** mod.rs 85, [consume_if(TT::DotDotDot)]. *)
Definition take_spread (toks : list token) : bool * list token :=
  match consume_if TDots toks with
  | Some rest => (true, rest)
  | None => (false, toks)
  end.

(** A property name after a dot: mod.rs 1660-1672 (keywords count as names, as
    they do for [TId]). *)
Definition take_name (toks : list token) : option (N * list token) :=
  match toks with
  | TId m :: rest => Some (m, rest)
  | _ => None
  end.

(** A type after [as]. *)
Definition take_type (toks : list token) : option (N * list token) :=
  match toks with
  | TType m :: rest => Some (m, rest)
  | _ => None
  end.

(** How an operand starts: mod.rs 763-792 and 1138-1256. *)
Inductive start : Type :=
  | SName (e : expr)
  | SNew
  | SArray
  | SGroup
  | SUnary (op : unop)
  | SNone.

Definition start_of (t : token) : start :=
  match t with
  | TId m => SName (EId m)
  | TLit m => SName (ELit m)
  | TNew => SNew
  | TLBr => SArray
  | TLPar => SGroup
  | _ => match unary_of t with Some op => SUnary op | None => SNone end
  end.

(** mod.rs 797-804: [yield] followed by [*]. *)
Definition unary_op (op : unop) (toks : list token) : unop * list token :=
  match op with
  | UYield =>
      match consume_if (TOp BMul) toks with
      | Some rest => (UYieldStar, rest)
      | None => (UYield, toks)
      end
  | _ => (op, toks)
  end.

(** mod.rs 863-909, [has_operand]. *)
Definition has_operand (op : unop) (terms toks : list token) : bool :=
  match toks with
  | [] => false
  | u :: _ =>
      match op with
      | UYield | UYieldStar | UAwait => negb (is_term terms u) && starts_operand u
      | _ => true
      end
  end.

(** mod.rs 955-1015: the member accesses a [new] target may contain. *)
Inductive link : Type :=
  | LMember (optional : bool)
  | LIndex (optional : bool)
  | LEnd.

Definition link_of (toks : list token) : link * list token :=
  match toks with
  | TDot :: rest => (LMember false, rest)
  | TQDot :: rest => (LMember true, rest)
  | TLBr :: rest => (LIndex false, rest)
  | TQLBr :: rest => (LIndex true, rest)
  | _ => (LEnd, toks)
  end.

(** What follows a complete operand: mod.rs 1323-1778.  In TypeScript, [!]
    before [=] or [==] is put back and the loop starts again (1364-1366):
    [FAgain]. *)
Inductive follow : Type :=
  | FPostfix (decrement : bool)
  | FNonNull
  | FAgain
  | FAs (satisfies : bool)
  | FInfix (m : multary)
  | FNone.

Definition follow_of (ts : bool) (t : token) (rest : list token) : follow :=
  match t with
  | TInc => FPostfix false
  | TDec => FPostfix true
  | TNot =>
      if ts then
        match rest with
        | u :: _ =>
            if decide (u = TOp BAssign \/ u = TOp BEq) then FAgain else FNonNull
        | [] => FNonNull
        end
      else FNone
  | TAs k => if ts then FAs k else FNone
  | _ => match multary_of t with Some m => FInfix m | None => FNone end
  end.

(** [operand] is mod.rs 757-1260, [expr_operand] (with [grouping] 215-237 and
    parse-js/src/parse/expr/lit.rs 724-751, [lit_arr], as [array_items]);
    [new_chain] is the member chain of a [new] target, 954-1015; [expr_min] is
    1262-1312, [expr_with_min_prec] and the start of
    [expr_with_min_prec_after_left]; [loop] is 1314-1777; [call_args] is 81-95.
    [new.target] is not modelled. *)
Fixpoint operand (n : nat) (ts : bool) (terms toks : list token)
  : res (expr * bool * list token) :=
  match n with
  | 0 => OutOfFuel
  | S n =>
      match toks with
      | [] => Err
      | t :: rest =>
          match start_of t with
          | SName e => Ok (e, false, rest)
          | SNew =>
              if consume_if TDot rest then Err
              else
                bind (operand n ts terms rest) (fun '(callee, _, rest) =>
                bind (new_chain n ts callee rest) (fun '(callee, rest) =>
                match consume_if TLPar rest with
                | Some rest =>
                    bind (call_args n ts rest) (fun '(args, rest) =>
                    bind (require TRPar rest) (fun rest =>
                    Ok (ENew (ECall false callee args), false, rest)))
                | None => Ok (ENew callee, false, rest)
                end))
          | SArray =>
              bind (array_items n ts rest) (fun '(elems, rest) =>
              bind (require TRBr rest) (fun rest => Ok (EArr elems, false, rest)))
          | SGroup =>
              bind (expr_min n ts 1 [TRPar] rest) (fun '(e, _, rest) =>
              bind (require TRPar rest) (fun rest => Ok (e, true, rest)))
          | SUnary op =>
              let '(op, rest) := unary_op op rest in
              if has_operand op terms rest then
                bind (expr_min n ts (un_prec op) terms rest) (fun '(a, _, rest) =>
                Ok (EUnary op a, false, rest))
              else if decide (op = UYield) then
                Ok (EUnary op (EId undefined_name), false, rest)
              else Err
          | SNone => Err
          end
      end
  end
with new_chain (n : nat) (ts : bool) (callee : expr) (toks : list token)
  : res (expr * list token) :=
  match n with
  | 0 => OutOfFuel
  | S n =>
      let '(k, rest) := link_of toks in
      match k with
      | LMember opt =>
          match take_name rest with
          | Some (m, rest) => new_chain n ts (EMember opt callee m) rest
          | None => Err
          end
      | LIndex opt =>
          bind (expr_min n ts 1 [TRBr] rest) (fun '(i, _, rest) =>
          bind (require TRBr rest) (fun rest =>
          new_chain n ts (EIndex opt callee i) rest))
      | LEnd => Ok (callee, toks)
      end
  end
with expr_min (n : nat) (ts : bool) (q : nat) (terms toks : list token)
  : res (expr * bool * list token) :=
  match n with
  | 0 => OutOfFuel
  | S n =>
      bind (operand n ts terms toks) (fun '(lhs, par, rest) =>
      if (3 <? q) && bare_yield lhs par then Err
      else loop n ts q terms lhs par rest)
  end
with loop (n : nat) (ts : bool) (q : nat) (terms : list token)
    (lhs : expr) (par : bool) (toks : list token)
  : res (expr * bool * list token) :=
  match n with
  | 0 => OutOfFuel
  | S n =>
      match toks with
      | [] => Err
      | t :: rest =>
          if is_term terms t then Ok (lhs, par, toks)
          else
            match follow_of ts t rest with
            | FPostfix d =>
                if postfix_prec <? q then Ok (lhs, par, toks)
                else loop n ts q terms (EPostfix d lhs) false rest
            | FNonNull => loop n ts q terms (ENonNull lhs) false rest
            | FAgain => loop n ts q terms lhs par toks
            | FAs k =>
                match take_type rest with
                | Some (ty, rest) => loop n ts q terms (EAs k lhs ty) false rest
                | None => Err
                end
            | FNone => Err
            | FInfix m =>
                if multary_prec m <? q then Ok (lhs, par, toks)
                else if bare_yield lhs par && (3 <? multary_prec m) then Err
                else
                  match m with
                  | MCall opt =>
                      bind (call_args n ts rest) (fun '(args, rest) =>
                      bind (require TRPar rest) (fun rest =>
                      loop n ts q terms (ECall opt lhs args) false rest))
                  | MIndex opt =>
                      bind (expr_min n ts 1 [TRBr] rest) (fun '(i, _, rest) =>
                      bind (require TRBr rest) (fun rest =>
                      loop n ts q terms (EIndex opt lhs i) false rest))
                  | MCond =>
                      bind (expr_min n ts 1 [TColon] rest) (fun '(c, _, rest) =>
                      bind (require TColon rest) (fun rest =>
                      bind (expr_min n ts cond_alt_prec terms rest)
                        (fun '(a, _, rest) =>
                      loop n ts q terms (ECond lhs c a) false rest)))
                  | MMember opt =>
                      match take_name rest with
                      | Some (m, rest) =>
                          loop n ts q terms (EMember opt lhs m) false rest
                      | None => Err
                      end
                  | MBin op =>
                      if bool_decide (op = BExp) && bad_exp_base lhs par then Err
                      else if is_assignment op && negb (good_target lhs par) then Err
                      else
                        bind (expr_min n ts (right_min op) terms rest)
                          (fun '(r, _, rest) =>
                        loop n ts q terms (EBinary op lhs r) false rest)
                  end
            end
      end
  end
with call_args (n : nat) (ts : bool) (toks : list token) : res (items * list token) :=
  match n with
  | 0 => OutOfFuel
  | S n =>
      if consume_if TRPar toks then Ok (INil, toks)
      else
        let '(spread, rest) := take_spread toks in
        bind (expr_min n ts 1 [TOp BComma; TRPar] rest) (fun '(e, _, rest) =>
        match consume_if (TOp BComma) rest with
        | Some rest =>
            bind (call_args n ts rest) (fun '(its, rest) =>
            Ok (IItem spread e its, rest))
        | None => Ok (IItem spread e INil, rest)
        end)
  end
with array_items (n : nat) (ts : bool) (toks : list token) : res (items * list token) :=
  match n with
  | 0 => OutOfFuel
  | S n =>
      match consume_if (TOp BComma) toks with
      | Some rest =>
          bind (array_items n ts rest) (fun '(its, rest) => Ok (IHole its, rest))
      | None =>
          if consume_if TRBr toks then Ok (INil, toks)
          else
            let '(spread, rest) := take_spread toks in
            bind (expr_min n ts 1 [TOp BComma; TRBr] rest) (fun '(e, _, rest) =>
            if consume_if TRBr rest then Ok (IItem spread e INil, rest)
            else
              bind (require (TOp BComma) rest) (fun rest =>
              bind (array_items n ts rest) (fun '(its, rest) =>
              Ok (IItem spread e its, rest))))
      end
  end.

(** mod.rs 97-103, [expr], on a whole input: the tree, and what is left after
    it. *)
Definition parse_with (n : nat) (ts : bool) (toks : list token)
  : res (expr * list token) :=
  bind (expr_min n ts 1 [TEnd] (toks ++ [TEnd])) (fun '(e, _, rest) => Ok (e, rest)).

(** The JavaScript parser, with fuel enough for every input (PrintProofs). *)
Definition parse_js (toks : list token) : res (expr * list token) :=
  parse_with (4 * length toks + 8) false toks.
