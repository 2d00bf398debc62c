(** Path normalisation: diagnostics/src/paths.rs 16-117. Strings are lists of characters; the
    code indexes bytes, but only at ASCII characters. *)
From stdpp Require Import base decidable numbers list.
From Coq Require Import NArith.
From Verif Require Import RustStr.

Local Open Scope N_scope.

Definition is_slash (c : N) : bool := (c =? 0x2F) || (c =? 0x5C).
(** [str::strip_prefix]. *)
Fixpoint strip_prefix (p s : rstr) : option rstr :=
  match p, s with
  | [], _ => Some s
  | a :: p, b :: s => if a =? b then strip_prefix p s else None
  | _ :: _, [] => None
  end.
(** 28-31: the prefixes [\\?\] and [//?/]. *)
Definition strip_extended (raw : rstr) : rstr :=
  match strip_prefix [0x5C; 0x5C; 0x3F; 0x5C] raw with
  | Some r => r
  | None => match strip_prefix [0x2F; 0x2F; 0x3F; 0x2F] raw with Some r => r | None => raw end
  end.
(** 33-38, 47-52. *)
Fixpoint skip_slashes (s : rstr) : rstr :=
  match s with c :: s' => if is_slash c then skip_slashes s' else s | [] => [] end.
(** [u8::is_ascii_alphabetic], [to_ascii_lowercase]. *)
Definition is_alpha (c : N) : bool := ((0x41 <=? c) && (c <=? 0x5A)) || ((0x61 <=? c) && (c <=? 0x7A)).
Definition to_lower (c : N) : N := if (0x41 <=? c) && (c <=? 0x5A) then c + 32 else c.
(** 40-54. *)
Definition take_drive (rest : rstr) : option N * rstr :=
  match rest with
  | a :: b :: rest' => if is_alpha a && (b =? 0x3A) then (Some (to_lower a), skip_slashes rest') else (None, rest)
  | _ => (None, rest)
  end.
(** 60-68. *)
Definition root_of (drive : option N) : rstr := match drive with Some d => [d; 0x3A; 0x2F] | None => [0x2F] end.
(** 71-76: the parts between slashes; [cur] is the part read so far. *)
Fixpoint split_parts (s cur : rstr) : list rstr :=
  match s with
  | [] => [cur]
  | c :: s => if is_slash c then cur :: split_parts s [] else split_parts s (cur ++ [c])
  end.
(** [str::rfind]: the place of the last slash. *)
Fixpoint rfind_slash (s : rstr) : option nat :=
  match s with
  | [] => None
  | c :: s => match rfind_slash s with Some k => Some (S k) | None => if c =? 0x2F then Some O else None end
  end.
Definition ends_with_slash (s : rstr) : bool := match last s with Some c => c =? 0x2F | None => false end.
(** 77-114: the body of the loop. *)
Definition step_part (root_len : nat) (normalized part : rstr) : rstr :=
  if bool_decide (part = []) || bool_decide (part = [0x2E]) then normalized
  else if bool_decide (part = [0x2E; 0x2E]) then
    if Nat.leb (length normalized) root_len then normalized
    else
      let end_ := length normalized in
      let search_end := if Nat.ltb root_len end_ && ends_with_slash normalized then (end_ - 1)%nat else end_ in
      if Nat.leb search_end root_len then take root_len normalized
      else match rfind_slash (take search_end normalized) with
           | Some pos => if Nat.ltb pos root_len then take root_len normalized else take pos normalized
           | None => take root_len normalized
           end
  else (if negb (ends_with_slash normalized) then normalized ++ [0x2F] else normalized) ++ part.
(** 27-116 [normalize_ts_path_into]. *)
Definition normalize_ts_path (raw : rstr) : rstr :=
  let rest := skip_slashes (strip_extended raw) in
  let '(drive, rest) := take_drive rest in
  let root := root_of drive in
  foldl (step_part (length root)) root (split_parts rest []).
