(** Module requests, module records and the module graph (vm-js/src/module_request.rs,
    module_record.rs, module_graph.rs). *)
From stdpp Require Import base decidable list numbers.
From Coq Require Import NArith.
From Verif Require Import RustStr.

(** ** module_request.rs *)
(** module_request.rs 16-31 [cmp_utf16]. *)
Definition cmp_utf16 (a b : rstr) : comparison := lex_cmp (utf16 a) (utf16 b).
(** 36-40 [ImportAttribute]. *)
Record attribute := Attr { at_key : rstr; at_value : rstr }.
(** 52-57 [cmp_import_attribute]. *)
Definition cmp_attribute (a b : attribute) : comparison :=
  match cmp_utf16 (at_key a) (at_key b) with Eq => cmp_utf16 (at_value a) (at_value b) | c => c end.
(** 62-66 [ModuleRequest]; its derived [PartialEq] is equality. *)
Record request := Request { rq_specifier : rstr; rq_attributes : list attribute }.
Global Instance attribute_dec : EqDecision attribute.
Proof. solve_decision. Defined.
Global Instance request_dec : EqDecision request.
Proof. solve_decision. Defined.
(** 76-82 [ModuleRequest::new]; 86-88 [canonicalize]; 92-96 [with_import_attribute]. *)
Definition canonicalize (r : request) : request := Request (rq_specifier r) (sort_by cmp_attribute (rq_attributes r)).
Definition request_new (s : rstr) (attrs : list attribute) : request := canonicalize (Request s attrs).
Definition with_import_attribute (r : request) (k v : rstr) : request :=
  canonicalize (Request (rq_specifier r) (rq_attributes r ++ [Attr k v])).
(** 160-187 [module_requests_equal]. *)
Definition requests_equal (l r : request) : bool :=
  bool_decide (rq_specifier l = rq_specifier r) &&
  bool_decide (length (rq_attributes l) = length (rq_attributes r)) &&
  forallb (fun x => existsb (fun y => bool_decide (at_key x = at_key y) && bool_decide (at_value x = at_value y)) (rq_attributes r))
    (rq_attributes l).

(** ** module_record.rs *)
(** 29-34 [ModuleStatus]. *)
Inductive module_status := StNew | StUnlinked.
(** 43-47 [ImportName]; 49-54 [IndirectExportEntry]; 37-41 [LocalExportEntry] and 56-59
    [StarExportEntry] are a pair and a request. *)
Inductive import_name := ImName (n : rstr) | ImAll.
Record indirect_entry := Indirect { ie_name : rstr; ie_request : request; ie_import : import_name }.
(** 61-71 [BindingName], [ResolvedBinding]. *)
Inductive binding_name := BnName (n : rstr) | BnNamespace.
Record binding := Binding { bd_module : nat; bd_name : binding_name }.
Global Instance binding_name_dec : EqDecision binding_name.
Proof. solve_decision. Defined.
Global Instance binding_dec : EqDecision binding.
Proof. solve_decision. Defined.
(** 88-106 [SourceTextModuleRecord] (without [has_tla] and the namespace cache); a
    [ModuleId] is the index in the graph (module_graph.rs 24-28, 172-177). *)
Record module_record := MRecord {
  mr_requested : list request; mr_status : module_status; mr_local : list (rstr * rstr); mr_indirect : list indirect_entry;
  mr_star : list request; mr_loaded : list (request * nat) }.
(** module_graph.rs 14-18 [ModuleGraph] (the host resolution map is a parameter of linking). *)
Definition graph := list module_record.

(** A call that may index out of range (panic); [MFuel]: the model's recursion bound. *)
Inductive mres (A : Type) := MOk (a : A) | MPanic | MFuel.
Arguments MOk {A} a.
Arguments MPanic {A}.
Arguments MFuel {A}.

(** module_record.rs 769-773 [push_requested_module]. *)
Definition push_requested (out : list request) (r : request) : list request :=
  if existsb (fun e => requests_equal e r) out then out else out ++ [r].

(** module_graph.rs 153-160 [get_imported_module], given the referrer's record. *)
Definition imported (m : module_record) (r : request) : option nat :=
  match List.find (fun l => requests_equal (fst l) r) (mr_loaded m) with Some l => Some (snd l) | None => None end.

Definition default_name : rstr := [100; 101; 102; 97; 117; 108; 116]%N.
(** The own export names, in the order of steps 4 and 5. *)
Definition own_names (m : module_record) : list rstr := map fst (mr_local m) ++ map ie_name (mr_indirect m).
(** 309-319: merging the names of one star export. *)
Fixpoint merge_names (names star : list rstr) : list rstr :=
  match star with
  | [] => names
  | n :: star => merge_names (if bool_decide (n = default_name) then names else if bool_decide (n ∈ names) then names else names ++ [n]) star
  end.
(** 261-323 [get_exported_names], [get_exported_names_with_star_set]. *)
Fixpoint exported_names_with (fuel : nat) (g : graph) (m : nat) (set : list nat) : mres (list rstr * list nat) :=
  match g !! m with
  | None => MPanic
  | Some r =>
      if bool_decide (m ∈ set) then MOk ([], set)
      else match fuel with
      | O => MFuel
      | S fuel =>
          (fix go (stars : list request) (names : list rstr) (set : list nat) : mres (list rstr * list nat) :=
             match stars with
             | [] => MOk (names, set)
             | e :: stars =>
                 match imported r e with
                 | None => go stars names set
                 | Some m' =>
                     match exported_names_with fuel g m' set with
                     | MOk (star, set) => go stars (merge_names names star) set
                     | MPanic => MPanic
                     | MFuel => MFuel
                     end
                 end
             end) (mr_star r) (own_names r) (set ++ [m])
      end
  end.
Definition exported_names (g : graph) (m : nat) : mres (list rstr) :=
  match exported_names_with (S (length g)) g m [] with MOk (l, _) => MOk l | MPanic => MPanic | MFuel => MFuel end.

(** 73-78 [ResolveExportResult]. *)
Inductive resolution := Resolved (b : binding) | NotFound | Ambiguous.
(** 326-452 [resolve_export], [resolve_export_with_set]. *)
Fixpoint resolve_with (fuel : nat) (g : graph) (m : nat) (n : rstr) (set : list (nat * rstr)) : mres (resolution * list (nat * rstr)) :=
  match g !! m with
  | None => MPanic
  | Some r =>
      if bool_decide ((m, n) ∈ set) then MOk (NotFound, set)
      else match fuel with
      | O => MFuel
      | S fuel =>
          let set := set ++ [(m, n)] in
          match List.find (fun e => bool_decide (fst e = n)) (mr_local r) with
          | Some e => MOk (Resolved (Binding m (BnName (snd e))), set)
          | None =>
              match List.find (fun e => bool_decide (ie_name e = n)) (mr_indirect r) with
              | Some e =>
                  match imported r (ie_request e) with
                  | None => MOk (NotFound, set)
                  | Some m' =>
                      match ie_import e with
                      | ImAll => MOk (Resolved (Binding m' BnNamespace), set)
                      | ImName n' => resolve_with fuel g m' n' set
                      end
                  end
              | None =>
                  if bool_decide (n = default_name) then MOk (NotFound, set)
                  else (fix go (stars : list request) (star : option binding) (set : list (nat * rstr)) : mres (resolution * list (nat * rstr)) :=
                    match stars with
                    | [] => MOk (match star with Some b => Resolved b | None => NotFound end, set)
                    | e :: stars =>
                        match imported r e with
                        | None => go stars star set
                        | Some m' =>
                            match resolve_with fuel g m' n set with
                            | MOk (Ambiguous, set) => MOk (Ambiguous, set)
                            | MOk (NotFound, set) => go stars star set
                            | MOk (Resolved b, set) =>
                                match star with
                                | None => go stars (Some b) set
                                | Some b' => if bool_decide (b' = b) then go stars star set else MOk (Ambiguous, set)
                                end
                            | MPanic => MPanic
                            | MFuel => MFuel
                            end
                        end
                    end) (mr_star r) None set
              end
          end
      end
  end.
(** Enough recursion for every graph: one more than the (module, name) pairs there are. *)
Definition import_names (g : graph) : list rstr :=
  flat_map (fun r => flat_map (fun e => match ie_import e with ImName n => [n] | ImAll => [] end) (mr_indirect r)) g.
Definition resolve_export (g : graph) (m : nat) (n : rstr) : mres resolution :=
  match resolve_with (S (length g * S (length (import_names g)))) g m n [] with
  | MOk (r, _) => MOk r
  | MPanic => MPanic
  | MFuel => MFuel
  end.

(** module_graph.rs 88-125, 190-199: the sorted [[Exports]] of a module namespace (the
    namespace object itself is built with the heap model's operations). *)
Fixpoint keep_resolved (g : graph) (m : nat) (names : list rstr) : mres (list rstr) :=
  match names with
  | [] => MOk []
  | n :: names =>
      match resolve_export g m n, keep_resolved g m names with
      | MOk (Resolved _), MOk l => MOk (n :: l)
      | MOk _, MOk l => MOk l
      | MPanic, _ => MPanic
      | MFuel, _ => MFuel
      | _, MPanic => MPanic
      | _, MFuel => MFuel
      end
  end.
Definition namespace_exports (g : graph) (m : nat) : mres (list rstr) :=
  match exported_names g m with
  | MOk names => match keep_resolved g m names with MOk l => MOk (sort_by cmp_utf16 l) | MPanic => MPanic | MFuel => MFuel end
  | MPanic => MPanic
  | MFuel => MFuel
  end.
