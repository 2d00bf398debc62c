(** The conformance harness: shards, expectations and timeouts. *)
From stdpp Require Import base decidable numbers list gmap.
From Coq Require Import NArith.
From Verif Require Import RustStr.

Local Open Scope N_scope.

(** * conformance-harness/src/shard.rs *)
Record shard := Shard { s_index : N; s_total : N }.
(** 11-16 [Shard::includes]. *)
Definition includes (s : shard) (idx : N) : bool := idx mod s_total s =? s_index s.
(** [usize::from_str] (64 bits): an optional [+], then digits. *)
Definition usize_max : N := 0xFFFFFFFFFFFFFFFF.
Fixpoint digits_from (s : rstr) (acc : N) : option N :=
  match s with
  | [] => Some acc
  | c :: s => if (0x30 <=? c) && (c <=? 0x39) then let v := acc * 10 + (c - 0x30) in if v <=? usize_max then digits_from s v else None else None
  end.
Definition parse_usize (s : rstr) : option N :=
  match s with
  | [] => None
  | c :: r => if c =? 0x2B then match r with [] => None | _ => digits_from r 0 end else digits_from s 0
  end.
(** [str::split_once('/')]. *)
Fixpoint split_once (sep : N) (s : rstr) : option (rstr * rstr) :=
  match s with
  | [] => None
  | c :: s => if c =? sep then Some ([], s) else match split_once sep s with Some (a, b) => Some (c :: a, b) | None => None end
  end.
(** 21-43 [Shard::from_str]; errors are [None]. *)
Definition parse_shard (raw : rstr) : option shard :=
  match split_once 0x2F raw with
  | None => None
  | Some (a, b) =>
      match parse_usize a with
      | None => None
      | Some index =>
          match parse_usize b with
          | None => None
          | Some total => if total =? 0 then None else if total <=? index then None else Some (Shard index total)
          end
      end
  end.
(** 47-54 [apply_shard]: [idx] is the counter of [enumerate]. *)
Fixpoint apply_from {A} (s : shard) (idx : N) (items : list A) : list A :=
  match items with
  | [] => []
  | x :: items => if includes s idx then x :: apply_from s (idx + 1) items else apply_from s (idx + 1) items
  end.
Definition apply_shard {A} (s : shard) (items : list A) : list A := apply_from s 0 items.

(** * conformance-harness/src/expectations.rs *)
Inductive expectation_kind := Pass | Skip | Xfail | Flaky.
Record expectation := Expectation { e_kind : expectation_kind; e_reason : option rstr; e_issue : option rstr }.
(** 34-39 [AppliedExpectation]; the default is a pass that comes from no manifest. *)
Record applied := Applied { a_expectation : expectation; a_from_manifest : bool }.
Definition default_applied : applied := Applied (Expectation Pass None None) false.
(** 47-53 [matches], 55-60 [covers_mismatch]. *)
Definition expected (a : applied) (mismatched : bool) : bool :=
  match e_kind (a_expectation a) with Pass => negb mismatched | Skip => true | Xfail | Flaky => mismatched end.
Definition covers_mismatch (a : applied) : bool := match e_kind (a_expectation a) with Pass => false | _ => true end.
(** 193-202 [RawEntry]. *)
Record raw_entry := RawEntry {
  r_id : option rstr; r_glob : option rstr; r_regex : option rstr; r_status : option expectation_kind; r_reason : option rstr; r_issue : option rstr }.

Section expectations.
(** The glob and regex libraries: a pattern that compiles gives a test on ids. *)
Context (compile_glob compile_regex : rstr -> option (rstr -> bool)).
(** 168-183 [Matcher]. *)
Inductive matcher := MExact (id : rstr) | MGlob (f : rstr -> bool) | MRegex (f : rstr -> bool).
Definition matcher_matches (m : matcher) (id : rstr) : bool :=
  match m with MExact p => bool_decide (p = id) | MGlob f => f id | MRegex f => f id end.
(** 205-240 [RawEntry::matcher]; errors are [None]. *)
Definition count_some (e : raw_entry) : nat :=
  ((if r_id e then 1 else 0) + (if r_glob e then 1 else 0) + (if r_regex e then 1 else 0))%nat.
Definition raw_matcher (e : raw_entry) : option matcher :=
  if Nat.eqb (count_some e) 0 then None
  else if Nat.ltb 1 (count_some e) then None
  else match r_id e with
       | Some id => Some (MExact id)
       | None => match r_glob e with
                 | Some g => match compile_glob g with Some f => Some (MGlob f) | None => None end
                 | None => match r_regex e with
                           | Some r => match compile_regex r with Some f => Some (MRegex f) | None => None end
                           | None => None
                           end
                 end
       end.
(** 73-77 [Expectations]. *)
Record expectations := Expectations { x_exact : list (matcher * expectation); x_globs : list (matcher * expectation); x_regexes : list (matcher * expectation) }.
(** 127-157 [from_manifest]. *)
Definition push_entry (x : expectations) (e : raw_entry) : option expectations :=
  match raw_matcher e with
  | None => None
  | Some m =>
      match r_status e with
      | None => None
      | Some k =>
          let ex := Expectation k (r_reason e) (r_issue e) in
          Some (match m with
                | MExact _ => Expectations (x_exact x ++ [(m, ex)]) (x_globs x) (x_regexes x)
                | MGlob _ => Expectations (x_exact x) (x_globs x ++ [(m, ex)]) (x_regexes x)
                | MRegex _ => Expectations (x_exact x) (x_globs x) (x_regexes x ++ [(m, ex)])
                end)
      end
  end.
Fixpoint push_all (x : expectations) (l : list raw_entry) : option expectations :=
  match l with [] => Some x | e :: l => match push_entry x e with Some x => push_all x l | None => None end end.
Definition from_manifest (l : list raw_entry) : option expectations := push_all (Expectations [] [] []) l.
(** 114-125 [lookup_in]. *)
Fixpoint lookup_in (l : list (matcher * expectation)) (id : rstr) : option applied :=
  match l with [] => None | (m, e) :: l => if matcher_matches m id then Some (Applied e true) else lookup_in l id end.
(** 98-112 [lookup]. *)
Definition lookup_expectation (x : expectations) (id : rstr) : applied :=
  match lookup_in (x_exact x) id with
  | Some a => a
  | None => match lookup_in (x_globs x) id with
            | Some a => a
            | None => match lookup_in (x_regexes x) id with Some a => a | None => default_applied end
            end
  end.
End expectations.

(** * conformance-harness/src/timeout.rs
    Times are numbers. [register] takes its id before the lock, so the two are separate steps.
    Everything between taking and releasing the lock is one step. Reading the clock and starting
    to wait are one instant. Ids do not wrap. The cancellation token is known by its id. *)
Record entry := Entry { en_deadline : N; en_cancelled : bool }.
(** The timeout thread: not yet holding the lock for the first time, or waiting on the condition
    variable until a time if any, and whether it was notified since; or returned. *)
Inductive thread := TStarting | TWaiting (until : option N) (notified : bool) | TDone.
Record manager := Manager {
  m_next : N; m_active : gmap N entry; m_shutdown : bool; m_thread : thread }.
Definition new_manager : manager := Manager 1 ∅ false TStarting.
(** [Condvar::notify_one]: the thread is the only one that waits. *)
Definition notify (t : thread) : thread := match t with TWaiting u _ => TWaiting u true | t => t end.
(** 66-67: [fetch_add]. *)
Definition take_id (m : manager) : N * manager := (m_next m, Manager (m_next m + 1) (m_active m) (m_shutdown m) (m_thread m)).
(** 68-82: the rest of [register]. *)
Definition insert_entry (id deadline : N) (m : manager) : manager :=
  Manager (m_next m) (<[id := Entry deadline false]> (m_active m)) (m_shutdown m) (notify (m_thread m)).
(** 107-113: [TimeoutGuard::drop]. *)
Definition drop_guard (id : N) (m : manager) : manager := Manager (m_next m) (delete id (m_active m)) (m_shutdown m) (notify (m_thread m)).
(** 92-98: [TimeoutManager::drop]. *)
Definition shut_down (m : manager) : manager := Manager (m_next m) (m_active m) true (notify (m_thread m)).
(** 126-142: one entry of the loop; cancelled ids are collected. *)
Definition visit (now : N) (e : entry) : entry := if en_cancelled e then e else if en_deadline e <=? now then Entry (en_deadline e) true else e.
Definition overdue (now : N) (e : entry) : bool := negb (en_cancelled e) && (en_deadline e <=? now).
Definition min_deadline (now : N) (next : option N) (e : entry) : option N :=
  if en_cancelled e then next else if en_deadline e <=? now then next
  else Some (match next with Some x => N.min x (en_deadline e) | None => en_deadline e end).
(** 115-154: the thread takes the lock and runs up to the next wait. The order of the map's
    values does not matter to the new state; the cancelled ids are listed in key order. *)
Definition run_thread (now : N) (m : manager) : list N * manager :=
  match m_thread m with
  | TDone => ([], m)
  | _ =>
      if m_shutdown m then ([], Manager (m_next m) (m_active m) (m_shutdown m) TDone)
      else
        let cancelled := (map_to_list (m_active m)) ≫= (fun '(id, e) => if overdue now e then [id] else []) in
        let next := foldl (min_deadline now) None (map_to_list (m_active m)).*2 in
        (cancelled, Manager (m_next m) (visit now <$> m_active m) (m_shutdown m) (TWaiting next false))
  end.
