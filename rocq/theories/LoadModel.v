(** Static module loading (vm-js/src/module_loading.rs 108-579) as a machine whose host
    may complete a request inside the hook (re-entrantly) or at any later time, in any
    order, for any number of concurrent loads. Not modelled: running out of memory, a
    count overflowing [usize], and errors from settling the promise itself. *)
From stdpp Require Import base decidable list numbers.
From Coq Require Import NArith.
From Verif Require Import RustStr ModuleModel.

(** Why a load is rejected: 400-404 a module id the graph does not have, 420-458 an
    unsupported import attribute, 514-528 a request resolved to two modules, or the
    host's own error. *)
Inductive load_error := ErrMissing | ErrUnsupported | ErrConflict | ErrHost (e : N).
Inductive outcome := Fulfilled | Rejected (e : load_error).

(** 114-122 [GraphLoadingStateInner]: [ld_rooted] is [promise_roots.is_some()]. [ld_root] is
    the module passed to [load_requested_modules]; the code does not keep it, it is here
    for the statements only and nothing reads it. *)
Record load := Load { ld_root : nat; ld_loading : bool; ld_pending : nat; ld_visited : list nat; ld_rooted : bool }.
(** A [host_load_imported_module] call that the host has not completed: the payload's load,
    the referrer and the request. *)
Record token := Token { tk_load : nat; tk_ref : nat; tk_req : request }.
Global Instance token_dec : EqDecision token.
Proof. solve_decision. Defined.
(** The Rust stack: [FLoop k m rest], [inner_module_loading] for load [k] and module [m] in
    its loop with the requests [rest] still to do; [FHost], a host call into the engine. *)
Inductive frame := FLoop (k m : nat) (rest : list request) | FHost.
(** What runs now. [CHost]: host code, idle if the stack is empty and inside the hook
    otherwise. *)
Inductive control := CInner (k m : nat) | CLoop (k m : nat) (rest : list request) | CReturn | CHost.
Record lstate := LState {
  ls_graph : graph; ls_loads : list load; ls_tokens : list token; ls_stack : list frame; ls_control : control;
  ls_log : list (nat * outcome) (* calls of the promise's resolving functions, oldest first *) }.
Definition lstate_init : lstate := LState [] [] [] [] CHost [].

Definition put_graph (s : lstate) g := LState g (ls_loads s) (ls_tokens s) (ls_stack s) (ls_control s) (ls_log s).
Definition put_tokens (s : lstate) t := LState (ls_graph s) (ls_loads s) t (ls_stack s) (ls_control s) (ls_log s).
Definition put_load (s : lstate) k l := LState (ls_graph s) (<[k := l]> (ls_loads s)) (ls_tokens s) (ls_stack s) (ls_control s) (ls_log s).
Definition goto (s : lstate) st c := LState (ls_graph s) (ls_loads s) (ls_tokens s) st c (ls_log s).
Definition put_log (s : lstate) l := LState (ls_graph s) (ls_loads s) (ls_tokens s) (ls_stack s) (ls_control s) l.

(** 235-279 [resolve_promise], [reject_promise]: nothing once the roots are gone. *)
Definition settle (s : lstate) (k : nat) (o : outcome) : lstate :=
  match ls_loads s !! k with
  | Some l =>
      if ld_rooted l then put_log (put_load s k (Load (ld_root l) (ld_loading l) (ld_pending l) (ld_visited l) false)) (ls_log s ++ [(k, o)])
      else s
  | None => s
  end.
(** 197-199 [set_is_loading(false)]. *)
Definition stop_loading (s : lstate) (k : nat) : lstate :=
  match ls_loads s !! k with
  | Some l => put_load s k (Load (ld_root l) false (ld_pending l) (ld_visited l) (ld_rooted l))
  | None => s
  end.
Definition is_loading (s : lstate) (k : nat) : bool := match ls_loads s !! k with Some l => ld_loading l | None => false end.
(** 729-733 [all_import_attributes_supported]. *)
Definition all_supported (sup : list rstr) (attrs : list attribute) : bool :=
  forallb (fun a => existsb (fun k => bool_decide (k = at_key a)) sup) attrs.
(** 479-489: the visited modules become unlinked. *)
Definition unlink (r : module_record) : module_record :=
  MRecord (mr_requested r) StUnlinked (mr_local r) (mr_indirect r) (mr_star r) (mr_loaded r).
Definition unlink_all (visited : list nat) (g : graph) : graph := foldl (fun g m => alter unlink m g) g visited.

(** One step of engine code; [None] when the host is running. *)
Definition engine_step (sup : list rstr) (s : lstate) : option lstate :=
  match ls_control s with
  | CHost => None
  (* 392-413 [inner_module_loading], up to its loop *)
  | CInner k m =>
      match ls_graph s !! m, ls_loads s !! k with
      | None, _ => Some (goto (settle (stop_loading s k) k (Rejected ErrMissing)) (ls_stack s) CReturn)
      | Some r, Some l =>
          if match mr_status r with StNew => true | _ => false end && bool_decide (m ∉ ld_visited l) then
            Some (goto (put_load s k (Load (ld_root l) (ld_loading l) (ld_pending l + length (mr_requested r)) (ld_visited l ++ [m]) (ld_rooted l)))
              (ls_stack s) (CLoop k m (mr_requested r)))
          else Some (goto s (ls_stack s) (CLoop k m []))
      | _, None => None
      end
  (* 415-474: one turn of the loop, up to the test that follows the call *)
  | CLoop k m (q :: rest) =>
      let st := FLoop k m rest :: ls_stack s in
      if negb (all_supported sup (rq_attributes q)) then
        (* 416-458 and 552-579 [continue_module_loading] with an error *)
        Some (if is_loading s k then goto (settle (stop_loading s k) k (Rejected ErrUnsupported)) st CReturn else goto s st CReturn)
      else
        match match ls_graph s !! m with Some r => imported r q | None => None end with
        | Some m' => Some (goto s st (CInner k m'))
        | None => Some (goto (put_tokens s (ls_tokens s ++ [Token k m q])) st CHost)
        end
  (* 475-493: after the loop *)
  | CLoop k m [] =>
      match ls_loads s !! k with
      | None => None
      | Some l =>
          let p := pred (ld_pending l) in
          let s := put_load s k (Load (ld_root l) (ld_loading l) p (ld_visited l) (ld_rooted l)) in
          if bool_decide (p <> 0) then Some (goto s (ls_stack s) CReturn)
          else
            let s := stop_loading s k in
            let s := put_graph s (unlink_all (ld_visited l) (ls_graph s)) in
            Some (goto (settle s k Fulfilled) (ls_stack s) CReturn)
      end
  | CReturn =>
      match ls_stack s with
      (* 470-473: return at once if the load is over *)
      | FLoop k m rest :: st => Some (goto s st (if is_loading s k then CLoop k m rest else CReturn))
      | FHost :: st => Some (goto s st CHost)
      | [] => None
      end
  end.

(** 503-549 [finish_loading_imported_module] and 552-579 [continue_module_loading]. *)
Definition continue_load (s : lstate) (k : nat) (res : nat + load_error) : lstate :=
  if is_loading s k then
    match res with
    | inl m => goto s (FHost :: ls_stack s) (CInner k m)
    | inr e => settle (stop_loading s k) k (Rejected e)
    end
  else s.
Definition finish_load (s : lstate) (t : token) (res : nat + load_error) : lstate :=
  match res with
  | inl m =>
      match ls_graph s !! tk_ref t with
      | Some r =>
          match List.find (fun l => requests_equal (fst l) (tk_req t)) (mr_loaded r) with
          | Some l => if bool_decide (snd l <> m) then continue_load s (tk_load t) (inr ErrConflict) else continue_load s (tk_load t) res
          | None =>
              continue_load (put_graph s (alter (fun r =>
                MRecord (mr_requested r) (mr_status r) (mr_local r) (mr_indirect r) (mr_star r) (mr_loaded r ++ [(tk_req t, m)])) (tk_ref t) (ls_graph s)))
                (tk_load t) res
          end
      | None => continue_load s (tk_load t) res
      end
  | inr _ => continue_load s (tk_load t) res
  end.

(** What the host may do while it runs. *)
Inductive haction :=
| HLoad (m : nat)                               (* 378-388 [load_requested_modules] *)
| HComplete (i : nat) (res : nat + N)           (* complete the i-th outstanding hook call *)
| HRepeat (t : token) (res : nat + N)           (* complete a hook call again, or one never made *)
| HReturn                                       (* the hook returns [Ok] *)
| HFail                                         (* the hook returns [Err]: every [?] up to the host call returns *)
| HAdd (r : module_record)                      (* module_graph.rs 24-28 [add_module], of a new record *)
| HLink (m : nat) (q : request) (m' : nat)      (* module_graph.rs 131-138: one entry of [link_all_by_specifier] *)
| HEngine.                                      (* let the engine take one step *)
Definition completion (res : nat + N) : nat + load_error := match res with inl m => inl m | inr e => inr (ErrHost e) end.
Fixpoint drop_to_host (st : list frame) : list frame :=
  match st with [] => [] | FHost :: st => st | FLoop _ _ _ :: st => drop_to_host st end.
Definition host_step (sup : list rstr) (s : lstate) (a : haction) : option lstate :=
  match a, ls_control s with
  | HEngine, _ => engine_step sup s
  | _, CHost =>
      match a with
      | HLoad m =>
          let k := length (ls_loads s) in
          Some (LState (ls_graph s) (ls_loads s ++ [Load m true 1 [] true]) (ls_tokens s) (FHost :: ls_stack s) (CInner k m) (ls_log s))
      | HComplete i res =>
          match ls_tokens s !! i with
          | Some t => Some (finish_load (put_tokens s (delete i (ls_tokens s))) t (completion res))
          | None => None
          end
      | HRepeat t res => Some (finish_load s t (completion res))
      | HReturn => match ls_stack s with FLoop _ _ _ :: _ => Some (goto s (ls_stack s) CReturn) | _ => None end
      | HFail => match ls_stack s with FLoop _ _ _ :: _ => Some (goto s (drop_to_host (ls_stack s)) CHost) | _ => None end
      | HAdd r => match mr_status r with StNew => Some (put_graph s (ls_graph s ++ [r])) | _ => None end
      | HLink m q m' =>
          Some (put_graph s (alter (fun r =>
            MRecord (mr_requested r) (mr_status r) (mr_local r) (mr_indirect r) (mr_star r) (mr_loaded r ++ [(q, m')])) m (ls_graph s)))
      | HEngine => None
      end
  | _, _ => None
  end.
Fixpoint host_run (sup : list rstr) (s : lstate) (l : list haction) : option lstate :=
  match l with
  | [] => Some s
  | a :: l => match host_step sup s a with Some s => host_run sup s l | None => None end
  end.
