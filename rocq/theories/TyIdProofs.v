(** Distinct types can be given distinct ids: the hypothesis of TyProperties.v is
    met.  (InternProperties.v proves that the store does so.) *)
From Coq Require Import NArith ZArith.
From stdpp Require Import base decidable numbers countable list.
From Verif Require Import RustStr TyModel TySpec TyProofs.

Definition leaf := (bool + (Z + list N))%type.
Definition other_number (d : other_kind) : nat :=
  match d with
  | KVoid => 0 | KNull => 1 | KUndefined => 2 | KThis => 3 | KInfer => 4 | KTuple => 5
  | KArray => 6 | KObject => 7 | KCallable => 8 | KRef => 9 | KTypeParam => 10
  | KPredicate => 11 | KConditional => 12 | KMapped => 13 | KIndexedAccess => 14
  | KKeyOf => 15 | KEmptyObject => 16 | KIntrinsic => 17
  end.
Definition number_other (n : nat) : other_kind :=
  nth n [KVoid; KNull; KUndefined; KThis; KInfer; KTuple; KArray; KObject; KCallable; KRef; KTypeParam;
         KPredicate; KConditional; KMapped; KIndexedAccess; KKeyOf; KEmptyObject; KIntrinsic] KVoid.

Fixpoint tree_of (t : ty) : gen_tree leaf :=
  match t with
  | TAny => GenNode 0 [] | TUnknown => GenNode 1 [] | TNever => GenNode 2 []
  | TBoolean => GenNode 3 [] | TNumber => GenNode 4 [] | TString => GenNode 5 []
  | TBigInt => GenNode 6 [] | TSymbol => GenNode 7 [] | TUniqueSymbol => GenNode 8 []
  | TBoolLit b => GenNode 9 [GenLeaf (inl b)]
  | TNumLit z => GenNode 10 [GenLeaf (inr (inl z))]
  | TStrLit s => GenNode 11 [GenLeaf (inr (inr s))]
  | TBigLit z => GenNode 12 [GenLeaf (inr (inl z))]
  | TTemplate k args => GenNode 13 (GenLeaf (inr (inr [k])) :: List.map tree_of args)
  | TUnion ms => GenNode 14 (List.map tree_of ms)
  | TInter ms => GenNode 15 (List.map tree_of ms)
  | TOther d k args => GenNode (16 + other_number d) (GenLeaf (inr (inr [k])) :: List.map tree_of args)
  end.
Fixpoint of_tree (t : gen_tree leaf) : ty :=
  match t with
  | GenLeaf _ => TAny
  | GenNode n l =>
      match n, l with
      | 0, _ => TAny | 1, _ => TUnknown | 2, _ => TNever | 3, _ => TBoolean | 4, _ => TNumber
      | 5, _ => TString | 6, _ => TBigInt | 7, _ => TSymbol | 8, _ => TUniqueSymbol
      | 9, [GenLeaf (inl b)] => TBoolLit b
      | 10, [GenLeaf (inr (inl z))] => TNumLit z
      | 11, [GenLeaf (inr (inr s))] => TStrLit s
      | 12, [GenLeaf (inr (inl z))] => TBigLit z
      | 13, GenLeaf (inr (inr [k])) :: args => TTemplate k (List.map of_tree args)
      | 14, ms => TUnion (List.map of_tree ms)
      | 15, ms => TInter (List.map of_tree ms)
      | n, GenLeaf (inr (inr [k])) :: args => TOther (number_other (n - 16)) k (List.map of_tree args)
      | _, _ => TAny
      end
  end.
Lemma of_tree_of t : of_tree (tree_of t) = t.
Proof.
  assert (forall l, Forall (fun t => of_tree (tree_of t) = t) l -> List.map of_tree (List.map tree_of l) = l) as M.
  { induction 1 as [|x l Hx _ IH]; [done|]. cbn [List.map]. by rewrite Hx, IH. }
  induction t as [t L|k args IH|ms IH|ms IH|d k args IH] using ty_strong_ind.
  - destruct t; first [by destruct L|reflexivity|cbn; by destruct s as [|? [|? ?]]].
  - cbn [tree_of of_tree]. by rewrite M.
  - cbn [tree_of of_tree]. by rewrite M.
  - cbn [tree_of of_tree]. by rewrite M.
  - destruct d; cbn [tree_of of_tree other_number Nat.add]; by rewrite M.
Qed.
Definition some_id (t : ty) : N := Npos (encode (tree_of t)).
Lemma some_id_inj a b : some_id a = some_id b -> a = b.
Proof.
  unfold some_id. intros E. assert (encode (tree_of a) = encode (tree_of b)) as E' by congruence.
  apply (inj encode) in E'. rewrite <- (of_tree_of a), <- (of_tree_of b). by rewrite E'.
Qed.
