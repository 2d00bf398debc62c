(** What module linking is expected to compute, stated without the algorithms. *)
From stdpp Require Import base decidable list numbers.
From Verif Require Import RustStr ModuleModel.

(** Every loaded module is in the graph. *)
Definition closed (g : graph) : Prop :=
  forall m r l, g !! m = Some r -> l ∈ mr_loaded r -> snd l < length g.

(** The first entry for a name, if any. *)
Definition local_export (r : module_record) (n l : rstr) : Prop :=
  exists a b, mr_local r = a ++ (n, l) :: b /\ n ∉ map fst a.
Definition no_local (r : module_record) (n : rstr) : Prop := n ∉ map fst (mr_local r).
Definition indirect_export (r : module_record) (e : indirect_entry) : Prop :=
  exists a b, mr_indirect r = a ++ e :: b /\ ie_name e ∉ map ie_name a.
Definition no_indirect (r : module_record) (n : rstr) : Prop := n ∉ map ie_name (mr_indirect r).

(** ECMA-262 ResolveExport, as a relation: module [m] provides [b] under the name [n],
    through any chain of re-exports. A module's own exports hide the names of its star
    exports; [default] is never taken from a star export. *)
Inductive provides (g : graph) : nat -> rstr -> binding -> Prop :=
| prov_local m r n l : g !! m = Some r -> local_export r n l -> provides g m n (Binding m (BnName l))
| prov_namespace m r e m' : g !! m = Some r -> no_local r (ie_name e) -> indirect_export r e ->
    imported r (ie_request e) = Some m' -> ie_import e = ImAll -> provides g m (ie_name e) (Binding m' BnNamespace)
| prov_indirect m r e m' n' b : g !! m = Some r -> no_local r (ie_name e) -> indirect_export r e ->
    imported r (ie_request e) = Some m' -> ie_import e = ImName n' -> provides g m' n' b -> provides g m (ie_name e) b
| prov_star m r n q m' b : g !! m = Some r -> no_local r n -> no_indirect r n -> n <> default_name ->
    q ∈ mr_star r -> imported r q = Some m' -> provides g m' n b -> provides g m n b.

(** Reachable through star exports. *)
Inductive star_reaches (g : graph) : nat -> nat -> Prop :=
| star_refl m : star_reaches g m m
| star_step m r q m' m'' : g !! m = Some r -> q ∈ mr_star r -> imported r q = Some m' -> star_reaches g m' m'' -> star_reaches g m m''.
Definition declares (g : graph) (m : nat) (n : rstr) : Prop := exists r, g !! m = Some r /\ n ∈ own_names r.

(** UTF-16 order. *)
Definition utf16_lt (a b : rstr) : Prop := cmp_utf16 a b = Lt.
