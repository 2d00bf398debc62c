(** C46: positions and underlines of diagnostics. *)
From Coq Require Import NArith Sorting.Sorted.
From stdpp Require Import base decidable numbers sorting list.
From Verif Require Import RustStr LineModel LineSpec LineProofs.

Local Open Scope N_scope.

(** The position printed for an offset on a character boundary: one more than the number of
    newlines before it, and one more than the width of the characters since the line's start. *)
Theorem position_exact before seg post tab :
  before = [] \/ last before = Some 0x0A -> 0x0A ∉ seg ->
  reported_position (before ++ seg ++ post) (str_len (before ++ seg)) tab =
    Some (N.of_nat (newlines before) + 1, width (N.max tab 1) seg + 1).
Proof.
  intros Hb Hs. unfold reported_position.
  destruct (clamp_offset_spec (before ++ seg ++ post) (str_len (before ++ seg))) as (B & L & M). 
  assert (clamp_offset (before ++ seg ++ post) (str_len (before ++ seg)) = str_len (before ++ seg)) as ->.
  { apply N.le_antisymm; [exact L|]. apply M; [|apply N.le_refl]. apply is_char_boundary_iff. exists (before ++ seg), post.
    split; [rewrite app_assoc; reflexivity|reflexivity]. }
  apply line_and_column_spec; assumption.
Qed.
Print Assumptions position_exact.
(* a newline, then a tab and a two-byte letter, then more *)
Example position_case :
  reported_position ([0x61; 0x0A] ++ [0x09; 0xE9] ++ [0x62; 0x0A; 0x63]) (str_len ([0x61; 0x0A] ++ [0x09; 0xE9])) 4 = Some (2, 6).
Proof. apply position_exact; [right; reflexivity|]. intros H. repeat (apply elem_of_cons in H as [?|H]; [discriminate|]). inversion H. Qed.

(** Any other offset is moved to the closest character boundary before it, so that every
    offset has a position. *)
Theorem position_of_any_offset s o tab : exists before seg post,
  s = before ++ seg ++ post /\ (before = [] \/ last before = Some 0x0A) /\ 0x0A ∉ seg /\
  longest_prefix s (before ++ seg) o /\
  reported_position s o tab = Some (N.of_nat (newlines before) + 1, width (N.max tab 1) seg + 1).
Proof.
  destruct (longest_of_clamp s o) as (p & q & E & Lp & P).
  destruct (line_of p (newlines p)) as (before & seg & after & (E' & Hn & Hb & Ha) & Hk); [reflexivity|].
  assert (after = []) as ->.
  { destruct Ha as [->|Ha]; [reflexivity|]. exfalso. destruct after as [|c after]; [discriminate|]. injection Ha as ->.
    change (10 :: after) with ([10] ++ after) in E'. rewrite E', !newlines_app, (newlines_none seg Hn) in Hk. cbn in Hk.
    change (newlines [10]) with 1%nat in Hk. revert Hk. clear. intros H. apply (f_equal (fun n => n - newlines before)%nat) in H.
    rewrite Nat.sub_diag, Nat.add_comm, Nat.add_sub in H. discriminate. }
  rewrite app_nil_r in E'. exists before, seg, q. subst p. rewrite <- app_assoc in E. split; [exact E|]. split; [exact Hb|]. split; [exact Hn|].
  split; [exact P|]. unfold reported_position. rewrite <- Lp, E. apply line_and_column_spec; assumption.
Qed.
Print Assumptions position_of_any_offset.
Example position_clamped_case : reported_position [0x61; 0x0A; 0xE9] 3 4 = Some (2, 1) /\ reported_position [0x61; 0x0A; 0xE9] 1000 4 = Some (2, 2).
Proof. split; vm_compute; reflexivity. Qed.

(** Each line that is displayed is a line of the text. *)
Theorem displayed_line_exact s before line after : is_line s before line after ->
  let '(a, b) := line_bounds s (newlines before) in slice s a b = Some line.
Proof. apply line_slice. Qed.
Print Assumptions displayed_line_exact.
Example displayed_line_case : is_line [0x61; 0x0A; 0x62; 0x0A] [0x61; 0x0A] [0x62] [0x0A] /\
  line_bounds [0x61; 0x0A; 0x62; 0x0A] (newlines [0x61; 0x0A]) = (2, 3).
Proof.
  split; [|vm_compute; reflexivity]. split; [reflexivity|]. split; [|split; right; reflexivity].
  intros H. apply elem_of_cons in H as [?|H]; [discriminate|]. inversion H.
Qed.

(** A label on bytes [a..b] never panics, and underlines exactly the characters of its range:
    on each line shown, the underline covers the characters of that line that are in it. *)
Theorem underlines_exact s a b tab n : exists p m q hs,
  s = p ++ m ++ q /\ longest_prefix s p a /\ longest_prefix s (p ++ m) (N.max a b) /\
  label_highlights s a b tab n = Some hs /\
  (forall k col len, (k, col, len) ∈ hs -> exists before line after,
     is_line s before line after /\ newlines before = k /\ marks (N.max tab 1) p m before line col len) /\
  StronglySorted lt (hs.*1.*1) /\ (forall k, k ∈ hs.*1.*1 -> newlines p <= k <= last_line p m)%nat /\
  length hs = Nat.min n (last_line p m - newlines p + 1) /\
  (1 <= n -> newlines p ∈ hs.*1.*1)%nat /\ (2 <= n -> last_line p m ∈ hs.*1.*1)%nat.
Proof.
  destruct (label_highlights_spec s a b tab n) as (p & m & q & hs & E & P1 & P2 & EH & EV & M). exists p, m, q, hs.
  assert (Q : (newlines p <= last_line p m)%nat) by (unfold last_line; rewrite newlines_app; apply Nat.le_add_r).
  destruct (visible_spec (newlines p) (last_line p m) n Q) as (V1 & V2 & V3 & V4 & V5). rewrite <- EV in V1, V2, V3, V4, V5.
  rewrite !fmap_length in V2. auto 12.
Qed.
Print Assumptions underlines_exact.
Example underlines_case : label_highlights [0x61; 0x09; 0x62; 0x63; 0x0A; 0x64; 0x65] 1 6 4 10 = Some [(0%nat, 1, 6); (1%nat, 0, 1)].
Proof. vm_compute. reflexivity. Qed.
