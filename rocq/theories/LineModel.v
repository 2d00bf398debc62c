(** Lines and columns: diagnostics/src/render.rs 500-600. Offsets are bytes; a text is its
    list of characters. *)
From stdpp Require Import base decidable numbers sorting list.
From Coq Require Import NArith.
From Verif Require Import RustStr.

Local Open Scope N_scope.

(** [str::is_char_boundary] and [&text[a..b]] ([None] is the panic). *)
Fixpoint split_at (o : N) (s : rstr) : option (rstr * rstr) :=
  if o =? 0 then Some ([], s)
  else match s with
       | [] => None
       | c :: s => if len_utf8 c <=? o then match split_at (o - len_utf8 c) s with Some (a, b) => Some (c :: a, b) | None => None end else None
       end.
Definition is_char_boundary (s : rstr) (o : N) : bool := match split_at o s with Some _ => true | None => false end.
Definition slice (s : rstr) (a b : N) : option rstr :=
  match split_at a s with
  | Some (_, r) => if a <=? b then match split_at (b - a) r with Some (m, _) => Some m | None => None end else None
  | None => None
  end.
(** 522-531 [clamp_offset_to_char_boundary]. *)
Fixpoint step_back (fuel : nat) (s : rstr) (o : N) : N :=
  match fuel with
  | O => o
  | S fuel => if (0 <? o) && negb (is_char_boundary s o) then step_back fuel s (o - 1) else o
  end.
Definition clamp_offset (s : rstr) (o : N) : N :=
  let o := if str_len s <? o then str_len s else o in step_back (N.to_nat o) s o.
(** 504-520 [clamp_range]. *)
Definition clamp_range (s : rstr) (a b : N) : N * N :=
  let a := if str_len s <? a then str_len s else a in
  let b := if str_len s <? b then str_len s else b in
  let b := if b <? a then a else b in
  (clamp_offset s a, clamp_offset s b).
(** 533-547 [display_column]: [idx] counts bytes. *)
Fixpoint column_loop (line : rstr) (idx target tab col : N) : N :=
  match line with
  | c :: line' =>
      if idx <? target then
        if target <? idx + len_utf8 c then col
        else column_loop line' (idx + len_utf8 c) target tab (col + if c =? 0x09 then tab else 1)
      else col
  | [] => col
  end.
Definition display_column (line : rstr) (offset tab_width : N) : N :=
  column_loop line 0 (N.min offset (str_len line)) (N.max tab_width 1) 0.
(** 564-575 [LineCache::new]: the starts of the lines. *)
Fixpoint starts_from (s : rstr) (pos : N) : list N :=
  match s with
  | [] => []
  | c :: s => if c =? 0x0A then (pos + 1) :: starts_from s (pos + len_utf8 c) else starts_from s (pos + len_utf8 c)
  end.
Definition line_starts (s : rstr) : list N := 0 :: starts_from s 0.
(** 581-589 [line_bounds]. *)
Definition line_bounds (s : rstr) (k : nat) : N * N :=
  let starts := line_starts s in
  let start := match starts !! k with Some x => x | None => str_len s end in
  let end_ := match starts !! S k with Some x => x - 1 | None => str_len s end in
  (start, N.max end_ start).
(** [slice::binary_search] on a strictly increasing slice: [Ok] the place of the value or
    [Err] the number of smaller elements. *)
Fixpoint binary_search (x : N) (l : list N) : (nat + nat) :=
  match l with
  | [] => inr O
  | y :: l => if y =? x then inl O else if x <? y then inr O else match binary_search x l with inl k => inl (S k) | inr k => inr (S k) end
  end.
(** 591-598 [line_index_at_offset]. *)
Definition line_index_at_offset (s : rstr) (o : N) : nat :=
  match binary_search (N.min o (str_len s)) (line_starts s) with
  | inl k => Nat.min k (length (line_starts s) - 1)
  | inr O => O
  | inr (S k) => k
  end.
(** 549-558 [line_and_column]; [None] is the slicing panic. *)
Definition line_and_column (s : rstr) (o tab_width : N) : option (N * N) :=
  let k := line_index_at_offset s o in
  let '(a, b) := line_bounds s k in
  match slice s a b with
  | Some line => Some (N.of_nat k + 1, display_column line (o - a) tab_width + 1)
  | None => None
  end.
(** 140-143: the position printed for a span starting at [o]. *)
Definition reported_position (s : rstr) (o tab_width : N) : option (N * N) := line_and_column s (clamp_offset s o) tab_width.

(** 450-487 [visible_lines_for_span]. Lines are [nat]; [usize::MAX] as a limit needs no case
    of its own. *)
Fixpoint dedup (l : list nat) : list nat :=
  match l with
  | x :: l' => match dedup l' with y :: r => if Nat.eqb x y then y :: r else x :: y :: r | [] => [x] end
  | [] => []
  end.
Definition visible_lines (a b max_lines : nat) : list nat :=
  let total := (b - a + 1)%nat in
  if Nat.eqb max_lines 0 then []
  else if Nat.leb total max_lines then seq a (b + 1 - a)
  else
    let head_count := ((max_lines + 1) / 2)%nat in
    let tail_count := (max_lines - head_count)%nat in
    let head := seq a (Nat.min head_count (b + 1 - a)) in
    let tail := if Nat.ltb 0 tail_count then seq (b - (tail_count - 1)) (b + 1 - (b - (tail_count - 1))) else [] in
    dedup (merge_sort le (head ++ tail)).
(** 392-431: the underline of one label on line [k], as column and length; [None] is a panic
    ([clamp] with [min > max], or slicing off a character boundary). *)
Definition clamp (x lo hi : N) : option N := if hi <? lo then None else Some (if x <? lo then lo else if hi <? x then hi else x).
Definition line_highlight (s : rstr) (start_offset end_offset : N) (start_line end_line : nat) (tab : N) (k : nat) : option (nat * N * N) :=
  let '(line_start, line_end) := line_bounds s k in
  let effective_start := if Nat.eqb k start_line then start_offset else line_start in
  let effective_end := if Nat.eqb k end_line then end_offset else line_end in
  match clamp effective_start line_start line_end with
  | None => None
  | Some cs =>
      match clamp effective_end cs line_end, slice s line_start line_end with
      | Some ce, Some line =>
          let start_col := display_column line (cs - line_start) tab in
          let end_col := display_column line (ce - line_start) tab in
          Some (k, start_col, N.max 1 (end_col - start_col))
      | _, _ => None
      end
  end.
(** 372-431 [plan_file_render] for one label with range [a..b]; markers, messages and context
    lines are left out. *)
Definition label_highlights (s : rstr) (a b tab : N) (max_lines : nat) : option (list (nat * N * N)) :=
  let '(start_offset, end_offset) := clamp_range s a b in
  let start_line := line_index_at_offset s start_offset in
  let end_lookup := if 0 <? end_offset then end_offset - 1 else end_offset in
  let end_line := line_index_at_offset s end_lookup in
  let end_line := if Nat.ltb end_line start_line then start_line else end_line in
  mapM (line_highlight s start_offset end_offset start_line end_line tab) (visible_lines start_line end_line max_lines).
