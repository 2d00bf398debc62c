(** The span index: hir-js/src/span_map.rs 300-560, diagnostics/src/lib.rs 56-82.
    Identifiers ([T: Copy + Ord]) are lists of numbers compared lexicographically: a number
    or a tuple of numbers. *)
From stdpp Require Import base decidable numbers list.
From Coq Require Import NArith.
From Verif Require Import RustStr RustStrProofs RustOrd.

Local Open Scope N_scope.

(** [TextRange] with its identifier: [SpanEntry], [ActiveSpan], [SpanResult]. *)
Record span := Span { sp_start : N; sp_end : N; sp_id : list N }.
Global Instance span_dec : EqDecision span.
Proof. solve_decision. Defined.
(** lib.rs 69-82 ([saturating_sub] is [N.sub]). *)
Definition sp_len (s : span) : N := sp_end s - sp_start s.
Definition sp_empty (s : span) : bool := sp_end s <=? sp_start s.
(** span_map.rs 435-446 [Ord for ActiveSpan]. *)
Definition span_cmp : span -> span -> comparison :=
  cmp_then (cmp_on sp_len N.compare) (cmp_then (cmp_on sp_start N.compare) (cmp_then (cmp_on sp_id lex_cmp) (cmp_on sp_end N.compare))).
(** [<] and [std::cmp::min] (the first argument on a tie). *)
Definition span_lt (x y : span) : bool := match span_cmp x y with Lt => true | _ => false end.
Definition span_min (x y : span) : span := match span_cmp x y with Gt => y | _ => x end.
(** 455-466 [Segment]. *)
Record segment := Segment { seg_start : N; seg_end : N; seg_best : span }.
(** 468-479 [EventKind] (End before Start), [Event]. *)
Record event := Event { ev_pos : N; ev_starts : bool; ev_span : span }.
(** 482-510. *)
Definition events_of (s : span) : list event :=
  if sp_empty s then [] else [Event (sp_start s) true s; Event (sp_end s) false s].
Definition event_cmp : event -> event -> comparison :=
  cmp_then (cmp_on ev_pos N.compare) (cmp_then (cmp_on ev_starts bool_cmp) (cmp_on ev_span span_cmp)).
(** 557-569 [push_segment]; the vector is kept in order. *)
Definition push_segment (segs : list segment) (start end_ : N) (best : span) : list segment :=
  match last segs with
  | Some p => if bool_decide (seg_best p = best) && (seg_end p =? start) then removelast segs ++ [Segment (seg_start p) end_ (seg_best p)] else segs ++ [Segment start end_ best]
  | None => segs ++ [Segment start end_ best]
  end.
(** The active [BTreeSet], as the list of its elements; its first element is the least. *)
Definition set_remove (s : span) (active : list span) : list span := filter (fun x => x <> s) active.
Definition set_insert (s : span) (active : list span) : list span := if bool_decide (s ∈ active) then active else s :: active.
Definition set_first (active : list span) : option span :=
  match active with [] => None | s :: active => Some (fold_left span_min active s) end.
(** 527-531: the events at one position. *)
Fixpoint take_pos (pos : N) (evs : list event) : list event * list event :=
  match evs with
  | [] => ([], [])
  | e :: evs' => if ev_pos e =? pos then let '(g, rest) := take_pos pos evs' in (e :: g, rest) else ([], evs)
  end.
(** 533-542: first the ends, then the starts. *)
Definition run_ends (g : list event) (active : list span) : list span :=
  fold_left (fun a e => if ev_starts e then a else set_remove (ev_span e) a) g active.
Definition run_starts (g : list event) (active : list span) : list span :=
  fold_left (fun a e => if ev_starts e then set_insert (ev_span e) a else a) g active.
(** 512-549: the sweep; the fuel is the number of events. *)
Fixpoint sweep (fuel : nat) (evs : list event) (prev : option N) (active : list span) (segs : list segment) : list segment :=
  match fuel, evs with
  | S fuel, e :: _ =>
      let pos := ev_pos e in
      let segs := match prev with
                  | Some p => if p <? pos then match set_first active with Some b => push_segment segs p pos b | None => segs end else segs
                  | None => segs
                  end in
      let '(g, rest) := take_pos pos evs in
      sweep fuel rest (Some pos) (run_starts g (run_ends g active)) segs
  | _, _ => segs
  end.
Definition build_segments (spans : list span) : list segment :=
  let evs := sort_by event_cmp (flat_map events_of spans) in sweep (length evs) evs None [] [].
(** 302-362: the index after [add]ing the spans in order and [finalize]. *)
Record span_index := SpanIndex { ix_spans : list span; ix_segments : list segment; ix_empties : list span; ix_all : list span }.
Definition entry_cmp : span -> span -> comparison :=
  cmp_then (cmp_on sp_start N.compare) (cmp_then (cmp_on sp_end N.compare) (cmp_on sp_id lex_cmp)).
Definition from_spans (all : list span) : span_index :=
  let spans := sort_by entry_cmp (filter (fun s => sp_empty s = false) all) in
  SpanIndex spans (build_segments spans) (sort_by span_cmp (filter (fun s => sp_empty s = true) all)) all.
(** [slice::partition_point]: the length of the longest prefix satisfying the predicate;
    with the standard library's binary search this needs a partitioned slice, see
    [segments_partitioned]. *)
Fixpoint partition_point {A} (p : A -> bool) (l : list A) : nat :=
  match l with [] => O | x :: l => if p x then S (partition_point p l) else O end.
(** 378-386: the least of the empty spans at the offset. *)
Fixpoint best_empty (offset : N) (l : list span) (best : option span) : option span :=
  match l with
  | [] => best
  | s :: l =>
      if sp_start s =? offset then
        best_empty offset l (match best with Some b => if span_lt s b then Some s else best | None => Some s end)
      else best
  end.
(** 368-394 [query_span]. *)
Definition query_span (ix : span_index) (offset : N) : option span :=
  let non_empty := match ix_segments ix !! partition_point (fun seg => seg_end seg <=? offset) (ix_segments ix) with
                   | Some seg => if seg_start seg <=? offset then Some (seg_best seg) else None
                   | None => None
                   end in
  let empty := best_empty offset (drop (partition_point (fun s => sp_start s <? offset) (ix_empties ix)) (ix_empties ix)) None in
  match non_empty, empty with
  | None, None => None
  | Some b, None => Some b
  | None, Some e => Some e
  | Some b, Some e => Some (span_min b e)
  end.
(** 364-366 [query]. *)
Definition query (ix : span_index) (offset : N) : option (list N) := sp_id <$> query_span ix offset.
(** 332-346 [record_by_id] and 396-398 [span_of]. *)
Fixpoint by_id (id : list N) (all : list span) (best : option span) : option span :=
  match all with
  | [] => best
  | s :: all =>
      if bool_decide (sp_id s = id) then by_id id all (match best with Some b => if span_lt s b then Some s else best | None => Some s end)
      else by_id id all best
  end.
Definition span_of (ix : span_index) (id : list N) : option (N * N) :=
  match by_id id (ix_all ix) None with Some s => Some (sp_start s, sp_end s) | None => None end.
