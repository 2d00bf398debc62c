(** What the harness promises. *)
From stdpp Require Import base decidable numbers list gmap.
From Coq Require Import NArith.
From Verif Require Import RustStr HarnessModel.

Local Open Scope N_scope.

(** The number a string of digits denotes. *)
Inductive decimal : rstr -> N -> Prop :=
| dec_one d : d < 10 -> decimal [0x30 + d] d
| dec_more s v d : decimal s v -> d < 10 -> decimal (s ++ [0x30 + d]) (10 * v + d).
(** How Rust reads a [usize]. *)
Definition reads_usize (s : rstr) (v : N) : Prop := (decimal s v \/ exists r, s = 0x2B :: r /\ decimal r v) /\ v < 2 ^ 64.

(** The first element that satisfies a test. *)
Inductive first_such {A} (P : A -> Prop) : list A -> A -> Prop :=
| first_here x l : P x -> first_such P (x :: l) x
| first_later x l y : ~ P x -> first_such P l y -> first_such P (x :: l) y.

(** * Expectations *)
Section expectations.
Context (compile_glob compile_regex : rstr -> option (rstr -> bool)).
(** What an entry names: exactly one of an id, a glob and a regular expression. *)
Definition names_id (e : raw_entry) (id : rstr) : Prop := r_id e = Some id /\ r_glob e = None /\ r_regex e = None.
Definition names_glob (e : raw_entry) (id : rstr) : Prop :=
  r_id e = None /\ r_regex e = None /\ exists g f, r_glob e = Some g /\ compile_glob g = Some f /\ f id = true.
Definition names_regex (e : raw_entry) (id : rstr) : Prop :=
  r_id e = None /\ r_glob e = None /\ exists g f, r_regex e = Some g /\ compile_regex g = Some f /\ f id = true.
Definition kinds (e : raw_entry) : nat := length (filter is_Some [r_id e; r_glob e; r_regex e]).
(** A manifest that is accepted. *)
Definition valid_entry (e : raw_entry) : Prop :=
  kinds e = 1%nat /\ is_Some (r_status e) /\
  (forall g, r_glob e = Some g -> is_Some (compile_glob g)) /\ (forall g, r_regex e = Some g -> is_Some (compile_regex g)).
Definition from_entry (e : raw_entry) (a : applied) : Prop :=
  exists k, r_status e = Some k /\ a = Applied (Expectation k (r_reason e) (r_issue e)) true.
(** The expectation of a test. *)
Inductive expectation_of (l : list raw_entry) (id : rstr) : applied -> Prop :=
| of_id e a : first_such (fun e => names_id e id) l e -> from_entry e a -> expectation_of l id a
| of_glob e a : (forall e, e ∈ l -> ~ names_id e id) -> first_such (fun e => names_glob e id) l e -> from_entry e a -> expectation_of l id a
| of_regex e a : (forall e, e ∈ l -> ~ names_id e id) -> (forall e, e ∈ l -> ~ names_glob e id) ->
    first_such (fun e => names_regex e id) l e -> from_entry e a -> expectation_of l id a
| of_none : (forall e, e ∈ l -> ~ names_id e id) -> (forall e, e ∈ l -> ~ names_glob e id) -> (forall e, e ∈ l -> ~ names_regex e id) ->
    expectation_of l id default_applied.
End expectations.

(** * Timeouts: histories of a manager *)
Inductive event :=
| ETake (id : N)                 (* a caller of [register] was given an id *)
| EInsert (id deadline : N)      (* and its registration became active *)
| EDrop (id : N)                 (* its guard was dropped *)
| EShutdown                      (* the manager was dropped *)
| ERun (now : N) (cancelled : list N). (* the thread ran at a time and cancelled these *)
(** One step. Guards exist from insertion to drop, and each is dropped once; an id is inserted
    once, by the caller that took it. The thread can run at any time, as condition variables
    wake spuriously. [h] is the history so far, latest first. *)
Definition guard_alive (h : list event) (id : N) : Prop := (exists d, EInsert id d ∈ h) /\ EDrop id ∉ h.
Inductive step : list event -> manager -> event -> manager -> Prop :=
| step_take h m m' id : take_id m = (id, m') -> step h m (ETake id) m'
| step_insert h m id d : ETake id ∈ h -> (forall d', EInsert id d' ∉ h) -> step h m (EInsert id d) (insert_entry id d m)
| step_drop h m id : guard_alive h id -> step h m (EDrop id) (drop_guard id m)
| step_shut h m : step h m EShutdown (shut_down m)
| step_run h m m' now ids : run_thread now m = (ids, m') -> step h m (ERun now ids) m'.
Inductive history : list event -> manager -> Prop :=
| history_new : history [] new_manager
| history_step h m e m' : history h m -> step h m e m' -> history (e :: h) m'.
(** The times at which an id was cancelled, and how often. *)
Definition cancellations (h : list event) (id : N) : list N :=
  h ≫= (fun e => match e with ERun now ids => ids ≫= (fun i => if decide (i = id) then [now] else []) | _ => [] end).
