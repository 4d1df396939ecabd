(* Time limits: util/Timer.h, engine/Operation.cpp 47-56 (recursivelySetTimeoutTimer), 61-144 (getResult), 147-151
   (checkTimeout), engine/Operation.h 143-155 (checkTimeoutAfterNCallsFactory), engine/Sort.cpp 56-69 and OrderBy.cpp
   81-94 (sorts that are expected to take too long), engine/Server.cpp 175-182 and 213-219. Times are exact integers
   (no overflow of off_t); the messages of exceptions and the log are left out. *)
From Coq Require Import List NArith ZArith Bool.
From Verif Require Import Table_Spec Timeout_Spec.
Import ListNotations.
Local Open Scope Z_scope.

(* gettimeofday: seconds and microseconds; the n-th reading is clock n *)
Definition tv := (Z * Z)%type.
Definition us (t : tv) : Z := 1000000 * fst t + snd t.

(* Timer.h:26-41 and 182-183; a limit of None is _isUnlimited *)
Record timer := T { usecs : Z; at_mark : Z; tstart : tv; running : bool; limit : option Z }.
(* Timer.h:62-66 *)
Definition start (now : tv) (t : timer) : timer := T 0 0 now true (limit t).
(* Timer.h:70-75 *)
Definition cont (now : tv) (t : timer) : timer :=
  if running t then t else T (usecs t) (at_mark t) now true (limit t).
(* Timer.h:78-85 *)
Definition stop (now : tv) (t : timer) : timer :=
  T (if running t then usecs t + (1000000 * (fst now - fst (tstart t)) + (snd now - snd (tstart t))) else usecs t)
    (at_mark t) (tstart t) false (limit t).

(* One reading of the clock for stop, and one for cont. Timer.h:136-148: hasTimedOut *)
Definition hasTimedOut (clock : nat -> tv) (n : nat) (t : timer) : nat * timer * bool :=
  match limit t with
  | None => (n, t, false)
  | Some l =>
      let t1 := stop (clock n) t in
      let out := l <? usecs t1 in
      if running t then (S (S n), cont (clock (S n)) t1, out) else (S n, t1, out)
  end.
(* Timer.h:166-179 *)
Definition remainingMicroseconds (clock : nat -> tv) (n : nat) (t : timer) : nat * timer * Z :=
  match limit t with
  | None => (n, t, 2 ^ 63 - 1)
  | Some l =>
      let t1 := stop (clock n) t in
      let res := if l <? usecs t1 then 0 else l - usecs t1 in
      if running t then (S (S n), cont (clock (S n)) t1, res) else (S n, t1, res)
  end.
(* Timer.h:120-132; fromSeconds: us = the double seconds * 1000 * 1000, without its fraction (None: infinite or not a
   number); a conversion to off_t that does not fit is UB (None) *)
Definition unlimited : timer := T 0 0 (0, 0) false None.
Definition fromMicroseconds (l : Z) : timer := T 0 0 (0, 0) false (Some l).
Definition fromSeconds (us : option Z) : option timer :=
  match us with
  | Some l => if (- 2 ^ 63 <=? l) && (l <? 2 ^ 63) then Some (fromMicroseconds l) else None
  | None => None
  end.

(* What computeResult of an operation does: it gets the results of its subtrees, looks at the timer (Operation.cpp:147,
   Timer.h:152), compares the expected time of a sort (in microseconds) with the remaining time, and returns a table or
   throws. *)
Inductive body :=
| Return (t : table)
| Throws
| Get (i : nat) (k : table -> body)
| Check (k : body)
| Estimate (e : Z) (k : body).
(* An operation: its key in the cache (asString), its timer (a shared pointer), its subtrees (getChildren; a null pointer
   is None) *)
Inductive op := Op (key : N) (tm : nat) (children : list (option op)) (b : body).
Definition op_key (o : op) : N := match o with Op k _ _ _ => k end.
Definition op_timer (o : op) : nat := match o with Op _ t _ _ => t end.
Definition op_children (o : op) : list (option op) := match o with Op _ _ c _ => c end.
Definition op_body (o : op) : body := match o with Op _ _ _ b => b end.

(* Operation.cpp:47-56 *)
Fixpoint recursivelySetTimeoutTimer (tm : nat) (o : op) : op :=
  match o with
  | Op k _ cs b => Op k tm (map (option_map (recursivelySetTimeoutTimer tm)) cs) b
  end.

(* What the concurrent cache does with a request (ConcurrentCache.h:234-291): the result is there or another thread that
   computes it ends with it, another thread that computes it fails, or this thread has to compute it. The answers come
   from the environment. *)
Inductive lookup := Present (t : table) | Failed | Compute.

Record state := St { s_clock : nat; s_asked : nat; s_timers : nat -> timer }.
Definition set_timers (s : state) (n : nat) (j : nat) (t : timer) : state :=
  St n (s_asked s) (fun i => if Nat.eqb i j then t else s_timers s i).
Inductive outcome := Val (t : table) | Aborted (c : cause) | Undefined.

Section Execution.
Variable clock : nat -> tv.
Variable env : nat -> N -> lookup.

Definition timed_out (j : nat) (s : state) : state * bool :=
  let '(n, t, out) := hasTimedOut clock (s_clock s) (s_timers s j) in (set_timers s n j t, out).
Definition remaining (j : nat) (s : state) : state * Z :=
  let '(n, t, res) := remainingMicroseconds clock (s_clock s) (s_timers s j) in (set_timers s n j t, res).

Fixpoint run (cs : list (option (state -> state * outcome))) (tm : nat) (b : body) (s : state) : state * outcome :=
  match b with
  | Return t => (s, Val t)
  | Throws => (s, Aborted OtherError)
  | Get i k =>
      match nth_error cs i with
      | Some (Some f) => match f s with (s', Val t) => run cs tm (k t) s' | (s', x) => (s', x) end
      | _ => (s, Undefined)
      end
  | Check k => let (s', out) := timed_out tm s in if out then (s', Aborted TimeLimit) else run cs tm k s'
  | Estimate e k => let (s', res) := remaining tm s in if res * 3 <? e then (s', Aborted SortExpected) else run cs tm k s'
  end.

(* Operation.cpp:61-144: getResult; exceptions end as an AbortException with the message of the first one *)
Fixpoint getResult (o : op) : state -> state * outcome :=
  match o with
  | Op key tm cs b =>
      let cs' := map (option_map getResult) cs in
      fun s =>
        let s1 := St (s_clock s) (S (s_asked s)) (s_timers s) in
        match env (s_asked s) key with
        | Present t => (s1, Val t)
        | Failed => (s1, Aborted OtherQuery)
        | Compute =>
            let (s2, out) := timed_out tm s1 in
            if out then (s2, Aborted TimeLimit) else
            match run cs' tm b s2 with
            | (s3, Val t) => let (s4, out4) := timed_out tm s3 in if out4 then (s4, Aborted TimeLimit) else (s4, Val t)
            | x => x
            end
        end
  end.

(* Server.cpp:175-182, 213, 219 and the execution: the timer (number 0) is started with reading n; the planner needs
   some time, up to reading n + 1 + planning; the timer is set in all operations; the result is computed. *)
Definition answer (t : timer) (n planning asked : nat) (o : op) : state * outcome :=
  getResult (recursivelySetTimeoutTimer 0 o)
    (St (S n + planning) asked (fun j => if Nat.eqb j 0 then start (clock n) t else unlimited)).
End Execution.

(* Operation.h:143-155: the calls of the lambda with the given increments, and if they look at the timer *)
Fixpoint after_n_calls (n : N) (i : N) (increments : list N) : list (N * bool) :=
  match increments with
  | [] => []
  | x :: l =>
      let i' := ((i + x) mod 2 ^ 64)%N in
      if (n <=? i')%N then (x, true) :: after_n_calls n 0 l else (x, false) :: after_n_calls n i' l
  end.

(* The result of an operation without time limits and cache; None: it throws (or an operation is called without the
   subtrees it needs) *)
Fixpoint value_run (vs : list (option (option table))) (b : body) : option table :=
  match b with
  | Return t => Some t
  | Throws => None
  | Get i k => match nth_error vs i with Some (Some (Some t)) => value_run vs (k t) | _ => None end
  | Check k => value_run vs k
  | Estimate _ k => value_run vs k
  end.
Fixpoint value (o : op) : option table :=
  match o with Op _ _ cs b => value_run (map (option_map value) cs) b end.
