(** One round of the optimizer (optimize-js/src/lib.rs 494-518). *)
From stdpp Require Import base list numbers gmap.
From Coq Require Import NArith.
From Verif Require Import VmBase RustStr ILModel PassModel DomModel DvnModel CfgPruneModel.

(** 496-505: value numbering, dead code and copies, which leave the graph as it is.
    [None] is a panic ([value_numbering_ends]: the fuel is enough). *)
Definition straight_passes (ev : evaluator) (c : cfg) : option cfg :=
  match dom_of c with
  | None => None
  | Some d =>
      match optpass_dvn ev c d with
      | Done b => optpass_redundant_assigns (optpass_trivial_dce (Cfg (c_graph c) b (c_entry c)))
      | _ => None
      end
  end.
(** 496-509: then impossible branches; [Some None] is the end of the fuel. *)
Definition first_passes (ev : evaluator) (fuel : nat) (c : cfg) : option (option cfg) :=
  match straight_passes ev c with Some c => branches_loop fuel c | None => None end.
(** 496-513: the same, then pruning.  The dominator tree is kept between rounds unless
    blocks changed; here it is computed anew. *)
Definition optimizer_round (ev : evaluator) (fuel : nat) (c : cfg) : option (option cfg) :=
  match first_passes ev fuel c with
  | Some (Some c) => optpass_cfg_prune fuel c
  | o => o
  end.
