(* Model of util/AllocatorWithLimit.h with the SpinLock of util/Synchronized.h:36-50, as an interleaving of
   threads. The accesses to the shared counter free_ are separate steps (first read, then write), only
   test_and_set and clear of the atomic flag are atomic. T is known by its size; a block of memory is (n, sz)
   with n the number of elements and sz = sizeof(T). Sequentially consistent memory is assumed (the flag is
   used with acquire/release). *)
From Coq Require Import List NArith Arith Bool.
From Verif Require Import Cache_Model.
Import ListNotations.
Open Scope N_scope.

Definition block := (N * N)%type.
(* AllocatorWithLimit.h:143, 153: n * sizeof(T) in size_t *)
Definition amount (b : block) : N := (fst b * snd b) mod W64.
(* the memory really used by a block *)
Definition bytes (b : block) : N := fst b * snd b.

(* where a thread is *)
Inductive tpc :=
| Idle
| A_lock (b : block)              (* 143 wlock(): spinning *)
| A_read (b : block)              (* 46: lock held *)
| A_write (b : block) (f : N)     (* 47: free_ read, enough left *)
| A_unlock (b : block)            (* end of the full expression in 143: ~LockPtr, Synchronized.h:215-221 *)
| A_throw (b : block) (f : N)     (* 49: exception, ~LockPtr still to come *)
| A_alloc (b : block)             (* 145 *)
| D_free (b : block)              (* 151: memory given back *)
| D_read (b : block)              (* 54: lock held *)
| D_write (b : block) (f : N)
| D_unlock (b : block)
| F_lock | F_read | F_unlock (f : N).   (* 158-165 numFreeBytes *)

Record state := {
  s_flag : bool;         (* Synchronized.h:42 *)
  s_free : N;            (* AllocatorWithLimit.h:39 *)
  s_live : list block;   (* the memory handed out *)
  s_threads : list tpc;
  s_lost : N }.          (* not in the code: what was subtracted for allocations which then failed *)

Definition initial (limit : N) (threads : nat) : state :=
  {| s_flag := false; s_free := limit; s_live := []; s_threads := repeat Idle threads; s_lost := 0 |}.

Definition goes (s : state) (i : nat) (p : tpc) : list tpc := set_nth i p (s_threads s).
Definition with_pc (s : state) (i : nat) (p : tpc) : state :=
  {| s_flag := s_flag s; s_free := s_free s; s_live := s_live s; s_threads := goes s i p; s_lost := s_lost s |}.
Definition locking (s : state) (i : nat) (p : tpc) : state :=
  {| s_flag := true; s_free := s_free s; s_live := s_live s; s_threads := goes s i p; s_lost := s_lost s |}.
Definition unlocking (s : state) (i : nat) (p : tpc) : state :=
  {| s_flag := false; s_free := s_free s; s_live := s_live s; s_threads := goes s i p; s_lost := s_lost s |}.
Definition writing (s : state) (i : nat) (p : tpc) (f : N) : state :=
  {| s_flag := s_flag s; s_free := f; s_live := s_live s; s_threads := goes s i p; s_lost := s_lost s |}.

Inductive event := Call | Quiet | Refused (b : block) | Granted (b : block) | BadAlloc (b : block) | Told (f : N).

Inductive step : state -> nat * event -> state -> Prop :=
(* 140 allocate(n) is called *)
| T_allocate s i b : nth_error (s_threads s) i = Some Idle ->
    step s (i, Call) (with_pc s i (A_lock b))
(* Synchronized.h:46 test_and_set returned false; if it returns true the thread spins *)
| T_a_lock s i b : nth_error (s_threads s) i = Some (A_lock b) -> s_flag s = false ->
    step s (i, Quiet) (locking s i (A_read b))
(* AllocatorWithLimit.h:46 n <= free_ *)
| T_a_read s i b : nth_error (s_threads s) i = Some (A_read b) -> amount b <= s_free s ->
    step s (i, Quiet) (with_pc s i (A_write b (s_free s)))
| T_a_read_throw s i b : nth_error (s_threads s) i = Some (A_read b) -> s_free s < amount b ->
    step s (i, Quiet) (with_pc s i (A_throw b (s_free s)))
(* 47 free_ -= n *)
| T_a_write s i b f : nth_error (s_threads s) i = Some (A_write b f) ->
    step s (i, Quiet) (writing s i (A_unlock b) (sub64 f (amount b)))
| T_a_unlock s i b : nth_error (s_threads s) i = Some (A_unlock b) ->
    step s (i, Quiet) (unlocking s i (A_alloc b))
| T_a_throw s i b f : nth_error (s_threads s) i = Some (A_throw b f) ->
    step s (i, Refused b) (unlocking s i Idle)
(* 145 allocator_.allocate(n): succeeds only if n * sizeof(T) does not exceed size_t *)
| T_a_alloc s i b : nth_error (s_threads s) i = Some (A_alloc b) -> bytes b < W64 ->
    step s (i, Granted b)
      {| s_flag := s_flag s; s_free := s_free s; s_live := b :: s_live s; s_threads := goes s i Idle;
         s_lost := s_lost s |}
(* ... or throws bad_alloc or bad_array_new_length *)
| T_a_fail s i b : nth_error (s_threads s) i = Some (A_alloc b) ->
    step s (i, BadAlloc b)
      {| s_flag := s_flag s; s_free := s_free s; s_live := s_live s; s_threads := goes s i Idle;
         s_lost := s_lost s + amount b |}
(* 149-151 deallocate(p, n) of a live block, with the n it was allocated with *)
| T_deallocate s i l1 b l2 : nth_error (s_threads s) i = Some Idle -> s_live s = l1 ++ b :: l2 ->
    step s (i, Call)
      {| s_flag := s_flag s; s_free := s_free s; s_live := l1 ++ l2; s_threads := goes s i (D_free b);
         s_lost := s_lost s |}
| T_d_lock s i b : nth_error (s_threads s) i = Some (D_free b) -> s_flag s = false ->
    step s (i, Quiet) (locking s i (D_read b))
(* 54 free_ += n *)
| T_d_read s i b : nth_error (s_threads s) i = Some (D_read b) ->
    step s (i, Quiet) (with_pc s i (D_write b (s_free s)))
| T_d_write s i b f : nth_error (s_threads s) i = Some (D_write b f) ->
    step s (i, Quiet) (writing s i (D_unlock b) (add64 f (amount b)))
| T_d_unlock s i b : nth_error (s_threads s) i = Some (D_unlock b) ->
    step s (i, Quiet) (unlocking s i Idle)
(* 158-165 numFreeBytes *)
| T_free s i : nth_error (s_threads s) i = Some Idle -> step s (i, Call) (with_pc s i F_lock)
| T_f_lock s i : nth_error (s_threads s) i = Some F_lock -> s_flag s = false ->
    step s (i, Quiet) (locking s i F_read)
| T_f_read s i : nth_error (s_threads s) i = Some F_read ->
    step s (i, Quiet) (with_pc s i (F_unlock (s_free s)))
| T_f_unlock s i f : nth_error (s_threads s) i = Some (F_unlock f) ->
    step s (i, Told f) (unlocking s i Idle).

Inductive reach (limit : N) (threads : nat) : state -> list (nat * event) -> Prop :=
| R_init : reach limit threads (initial limit threads) []
| R_step s tr e s' : reach limit threads s tr -> step s e s' -> reach limit threads s' (tr ++ [e]).
