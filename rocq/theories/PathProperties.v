(** C47: normalised paths. *)
From Coq Require Import NArith.
From stdpp Require Import base decidable numbers list.
From Verif Require Import RustStr PathModel PathSpec PathProofs.

Local Open Scope N_scope.

(** Normalising writes the root and, after it, the segments the path names. *)
Theorem normalize_resolves raw root parts : names raw root parts -> normalize_ts_path raw = root ++ joined (resolve parts).
Proof. intros H. apply normalize_names, H. Qed.
Print Assumptions normalize_resolves.
(** Every string names some path. *)
Theorem every_path_named raw : exists root parts, names raw root parts.
Proof. apply names_total. Qed.
Print Assumptions every_path_named.
(* [C:\a\..\b/./c] *)
Example normalize_case :
  normalize_ts_path [0x43; 0x3A; 0x5C; 0x61; 0x5C; 0x2E; 0x2E; 0x5C; 0x62; 0x2F; 0x2E; 0x2F; 0x63] = [0x63; 0x3A; 0x2F; 0x62; 0x2F; 0x63] /\
  names [0x43; 0x3A; 0x5C; 0x61; 0x5C; 0x2E; 0x2E; 0x5C; 0x62; 0x2F; 0x2E; 0x2F; 0x63] [0x63; 0x3A; 0x2F] [[]; [0x61]; [0x2E; 0x2E]; [0x62]; [0x2E]; [0x63]].
Proof.
  split; [vm_compute; reflexivity|]. eexists _, [], _. split; [right; right; split; [reflexivity|split; intros [k [=]]]|]. split; [reflexivity|].
  split; [intros c Hc; inversion Hc|]. split; [intros c r [= <- _] [|]; discriminate|]. left. eexists 0x43, 0x63, _. split; [reflexivity|].
  split; [left; split; [split; discriminate|reflexivity]|]. split; [reflexivity|].
  exact (split_parts_pieces [0x5C; 0x61; 0x5C; 0x2E; 0x2E; 0x5C; 0x62; 0x2F; 0x2E; 0x2F; 0x63] [] ltac:(intros c Hc; inversion Hc)).
Qed.

(** A normalised path is [/] or [d:/] with [d] in lower case, followed by segments separated by
    single slashes, none of which is empty, [.] or [..] or holds a slash of either kind. *)
Theorem normalized_form raw : exists root segs, normalize_ts_path raw = root ++ joined segs /\ Forall good_segment segs /\
  (root = [0x2F] \/ exists d, 0x61 <= d <= 0x7A /\ root = [d; 0x3A; 0x2F]).
Proof.
  destruct (names_total raw) as (root & parts & N). destruct (normalize_names raw root parts N) as [E G].
  exists root, (resolve parts). split; [exact E|]. split; [exact G|].
  destruct N as (s & lead & rest & _ & _ & _ & _ & [(c & d & r & _ & L & -> & _)|(_ & -> & _)]); [right|left; reflexivity].
  exists d. split; [|reflexivity]. destruct L as [[[L1 L2] ->]|[L ->]]; [|exact L].
  split; [apply (proj1 (N.add_le_mono_r 65 c 32) L1)|apply (proj1 (N.add_le_mono_r c 90 32) L2)].
Qed.
Print Assumptions normalized_form.

(** Normalising again changes nothing, unless a path without a drive has a first segment that
    looks like one. *)
Theorem normalize_idempotent_partial raw root segs :
  normalize_ts_path raw = root ++ joined segs -> Forall good_segment segs ->
  (exists d, 0x61 <= d <= 0x7A /\ root = [d; 0x3A; 0x2F]) \/ (root = [0x2F] /\ forall p ps, segs = p :: ps -> ~ drive_like p) ->
  normalize_ts_path (normalize_ts_path raw) = normalize_ts_path raw.
Proof.
  intros E G S. rewrite E. destruct (names_self root segs G S) as (parts & N & R).
  destruct (normalize_names _ _ _ N) as [E' _]. rewrite E', R. reflexivity.
Qed.
Print Assumptions normalize_idempotent_partial.
Example idempotent_case : normalize_ts_path [0x61; 0x2F; 0x2E; 0x2E; 0x2F; 0x62] = [0x2F] ++ joined [[0x62]].
Proof. vm_compute. reflexivity. Qed.
(** The path [./C:/x] becomes [/C:/x], which becomes [c:/x]. *)
Theorem normalize_idempotent_refuted : exists raw, normalize_ts_path (normalize_ts_path raw) <> normalize_ts_path raw.
Proof. exists [0x2E; 0x2F; 0x43; 0x3A; 0x2F; 0x78]. vm_compute. discriminate. Qed.
Print Assumptions normalize_idempotent_refuted.
