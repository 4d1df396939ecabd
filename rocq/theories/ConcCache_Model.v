(* Model of util/ConcurrentCache.h: any number of threads calling computeOnce / computeOncePinned,
   as an interleaving of atomic steps. Code between two lock operations on the shared state is one step:
   a section holding the lock of _cacheAndInProgressMap (Synchronized.h:145 wlock; LockPtr unlocks at the end
   of its scope), or one of finish, abort, getResult (which hold the mutex of the ResultInProgress).

   The underlying cache is the abstract LRU cache of Cache_Spec, which Cache_Thm.C21_lru proves the real one
   to implement. Every call is separate; a computation may itself issue calls (sub-operations of a query)
   and waits for them, these have the computing call as parent. Not modelled: bad_alloc in the locked
   sections, spurious wake-ups of the condition variable (the waiting predicate is rechecked). *)
From Coq Require Import List NArith Arith Bool.
From Verif Require Import Cache_Spec Cache_Model.
Import ListNotations.
Open Scope N_scope.

(* ConcurrentCache.h:88-95 ResultInProgress: status and result *)
Inductive status := InProgress | Finished (v : N) | Aborted.

(* where a call of computeOnceImpl (234-291) is; rid identifies the ResultInProgress *)
Inductive pc :=
| Start                              (* before 241 *)
| Computing (rid : nat)              (* 272: mustCompute, lock released *)
| Computed (rid : nat) (v : N)       (* 273: result computed *)
| Moved (rid : nat) (v : N)          (* 275: result in the cache *)
| Failing (rid : nat)                (* 280: in the catch block *)
| Aborting (rid : nat)               (* 282 *)
| Waiting (rid : nat)                (* 289 *)
| Returned (v : N) (cached : bool)
| Threw                              (* 283: exception of the computation (or of the insertion) *)
| ThrewWaited                        (* 83: WaitedForResultWhichThenFailedException *)
| Broken.                            (* an AD_CHECK of finish or abort failed *)

Record call := { ca_key : N; ca_pinned : bool; ca_parent : option nat; ca_pc : pc }.
Definition at_pc (c : call) (p : pc) : call :=
  {| ca_key := ca_key c; ca_pinned := ca_pinned c; ca_parent := ca_parent c; ca_pc := p |}.
Definition final (c : call) : bool :=
  match ca_pc c with Returned _ _ | Threw | ThrewWaited | Broken => true | _ => false end.

Record state := {
  s_cache : lru;                            (* 202 _cache *)
  s_inprog : list (N * (bool * nat));       (* 205 _inProgress *)
  s_rips : list status;                     (* the ResultInProgress objects *)
  s_calls : list call }.

Inductive event :=
| ESpawn | EHit (v : N) | EJoin (rid : nat) | EReg (rid : nat) | EOk (rid : nat) (v : N)
| EFail (rid : nat) | EMove (rid : nat) (v : N) (pinned : bool) | EMoveFail (rid : nat)
| EFinish (rid : nat) | EErase (rid : nat) | EAbort (rid : nat) | EGot (rid : nat) (v : N)
| EGotErr (rid : nat).

Definition initial (maxNum : N) : state :=
  {| s_cache := {| l_max := maxNum; l_ents := []; l_pins := [] |}; s_inprog := []; s_rips := [];
     s_calls := [] |}.

Section Conc.
  Variable size : N -> N.
  Variables maxSize maxSingle : N.
  Notation cstep := (lru_step size maxSize maxSingle).

  Definition set_call (s : state) (i : nat) (c : call) : list call := set_nth i c (s_calls s).

  Inductive step : state -> nat * event -> state -> Prop :=
  (* somebody calls computeOnce(Pinned): from outside, or from within a computation *)
  | St_spawn s k p parent :
      match parent with
      | None => True
      | Some j => exists c rid, nth_error (s_calls s) j = Some c /\ ca_pc c = Computing rid
      end ->
      step s (length (s_calls s), ESpawn)
        {| s_cache := s_cache s; s_inprog := s_inprog s; s_rips := s_rips s;
           s_calls := s_calls s ++ [{| ca_key := k; ca_pinned := p; ca_parent := parent; ca_pc := Start |}] |}
  (* 241-248: the result is cached *)
  | St_hit s i c c1 c2 v now :
      nth_error (s_calls s) i = Some c -> ca_pc c = Start ->
      cstep (s_cache s) (if ca_pinned c then ContainsPin (ca_key c) else Contains (ca_key c)) c1
        (Answer true) ->
      cstep c1 (Lookup (ca_key c) now) c2 (Value v) ->
      step s (i, EHit v)
        {| s_cache := c2; s_inprog := s_inprog s; s_rips := s_rips s;
           s_calls := set_call s i (at_pc c (Returned v true)) |}
  (* 249-259: somebody else is computing it *)
  | St_join s i c c1 p rid :
      nth_error (s_calls s) i = Some c -> ca_pc c = Start ->
      cstep (s_cache s) (if ca_pinned c then ContainsPin (ca_key c) else Contains (ca_key c)) c1
        (Answer false) ->
      get (ca_key c) (s_inprog s) = Some (p, rid) ->
      step s (i, EJoin rid)
        {| s_cache := c1;
           s_inprog := (ca_key c, (p || ca_pinned c, rid)) :: remove (ca_key c) (s_inprog s);
           s_rips := s_rips s; s_calls := set_call s i (at_pc c (Waiting rid)) |}
  (* 260-266: we compute it *)
  | St_register s i c c1 :
      nth_error (s_calls s) i = Some c -> ca_pc c = Start ->
      cstep (s_cache s) (if ca_pinned c then ContainsPin (ca_key c) else Contains (ca_key c)) c1
        (Answer false) ->
      get (ca_key c) (s_inprog s) = None ->
      step s (i, EReg (length (s_rips s)))
        {| s_cache := c1;
           s_inprog := (ca_key c, (ca_pinned c, length (s_rips s))) :: s_inprog s;
           s_rips := s_rips s ++ [InProgress];
           s_calls := set_call s i (at_pc c (Computing (length (s_rips s)))) |}
  (* 272: the computation succeeds or fails, after all the calls it made have ended *)
  | St_compute s i c rid v :
      nth_error (s_calls s) i = Some c -> ca_pc c = Computing rid ->
      (forall j d, nth_error (s_calls s) j = Some d -> ca_parent d = Some i -> final d = true) ->
      step s (i, EOk rid v)
        {| s_cache := s_cache s; s_inprog := s_inprog s; s_rips := s_rips s;
           s_calls := set_call s i (at_pc c (Computed rid v)) |}
  | St_fail s i c rid :
      nth_error (s_calls s) i = Some c -> ca_pc c = Computing rid ->
      (forall j d, nth_error (s_calls s) j = Some d -> ca_parent d = Some i -> final d = true) ->
      step s (i, EFail rid)
        {| s_cache := s_cache s; s_inprog := s_inprog s; s_rips := s_rips s;
           s_calls := set_call s i (at_pc c (Failing rid)) |}
  (* 273, 217-229 moveFromInProgressToCache *)
  | St_move s i c rid v p rid' c1 r now :
      nth_error (s_calls s) i = Some c -> ca_pc c = Computed rid v ->
      get (ca_key c) (s_inprog s) = Some (p, rid') ->
      cstep (s_cache s) (if p then InsertPinned (ca_key c) v else Insert (ca_key c) v now) c1 r ->
      r = Value v \/ r = Null ->
      step s (i, EMove rid v p)
        {| s_cache := c1; s_inprog := remove (ca_key c) (s_inprog s); s_rips := s_rips s;
           s_calls := set_call s i (at_pc c (Moved rid v)) |}
  (* the insertion (223, 226) or the check in 220 throws: to the catch block *)
  | St_move_throws s i c rid v p rid' c1 r now :
      nth_error (s_calls s) i = Some c -> ca_pc c = Computed rid v ->
      get (ca_key c) (s_inprog s) = Some (p, rid') ->
      cstep (s_cache s) (if p then InsertPinned (ca_key c) v else Insert (ca_key c) v now) c1 r ->
      r = Duplicate \/ r = TooBig ->
      step s (i, EMoveFail rid)
        {| s_cache := c1; s_inprog := s_inprog s; s_rips := s_rips s;
           s_calls := set_call s i (at_pc c (Failing rid)) |}
  | St_move_check s i c rid v :
      nth_error (s_calls s) i = Some c -> ca_pc c = Computed rid v ->
      get (ca_key c) (s_inprog s) = None ->
      step s (i, EMoveFail rid)
        {| s_cache := s_cache s; s_inprog := s_inprog s; s_rips := s_rips s;
           s_calls := set_call s i (at_pc c (Failing rid)) |}
  (* 275, 56-62 finish *)
  | St_finish s i c rid v :
      nth_error (s_calls s) i = Some c -> ca_pc c = Moved rid v ->
      nth_error (s_rips s) rid = Some InProgress ->
      step s (i, EFinish rid)
        {| s_cache := s_cache s; s_inprog := s_inprog s; s_rips := set_nth rid (Finished v) (s_rips s);
           s_calls := set_call s i (at_pc c (Returned v false)) |}
  | St_finish_check s i c rid v :
      nth_error (s_calls s) i = Some c -> ca_pc c = Moved rid v ->
      nth_error (s_rips s) rid <> Some InProgress ->
      step s (i, EFinish rid)
        {| s_cache := s_cache s; s_inprog := s_inprog s; s_rips := s_rips s;
           s_calls := set_call s i (at_pc c Broken) |}
  (* 280 *)
  | St_erase s i c rid :
      nth_error (s_calls s) i = Some c -> ca_pc c = Failing rid ->
      step s (i, EErase rid)
        {| s_cache := s_cache s; s_inprog := remove (ca_key c) (s_inprog s); s_rips := s_rips s;
           s_calls := set_call s i (at_pc c (Aborting rid)) |}
  (* 282-283, 68-73 abort *)
  | St_abort s i c rid :
      nth_error (s_calls s) i = Some c -> ca_pc c = Aborting rid ->
      nth_error (s_rips s) rid = Some InProgress ->
      step s (i, EAbort rid)
        {| s_cache := s_cache s; s_inprog := s_inprog s; s_rips := set_nth rid Aborted (s_rips s);
           s_calls := set_call s i (at_pc c Threw) |}
  | St_abort_check s i c rid :
      nth_error (s_calls s) i = Some c -> ca_pc c = Aborting rid ->
      nth_error (s_rips s) rid <> Some InProgress ->
      step s (i, EAbort rid)
        {| s_cache := s_cache s; s_inprog := s_inprog s; s_rips := s_rips s;
           s_calls := set_call s i (at_pc c Broken) |}
  (* 289, 78-86 getResult: blocks while the status is InProgress *)
  | St_got s i c rid v :
      nth_error (s_calls s) i = Some c -> ca_pc c = Waiting rid ->
      nth_error (s_rips s) rid = Some (Finished v) ->
      step s (i, EGot rid v)
        {| s_cache := s_cache s; s_inprog := s_inprog s; s_rips := s_rips s;
           s_calls := set_call s i (at_pc c (Returned v false)) |}
  | St_got_error s i c rid :
      nth_error (s_calls s) i = Some c -> ca_pc c = Waiting rid ->
      nth_error (s_rips s) rid = Some Aborted ->
      step s (i, EGotErr rid)
        {| s_cache := s_cache s; s_inprog := s_inprog s; s_rips := s_rips s;
           s_calls := set_call s i (at_pc c ThrewWaited) |}.

  (* 146-152, 183-193: other threads clear the cache or look at it *)
  Inductive env_step : state -> state -> Prop :=
  | Env s o c1 r :
      cstep (s_cache s) o c1 r ->
      match o with ClearUnpinned | ClearAll | Lookup _ _ | Contains _ => True | _ => False end ->
      env_step s {| s_cache := c1; s_inprog := s_inprog s; s_rips := s_rips s; s_calls := s_calls s |}.

  (* executions; the events are listed oldest first *)
  Inductive reach (maxNum : N) : state -> list (nat * event) -> Prop :=
  | R_init : reach maxNum (initial maxNum) []
  | R_step s tr e s' : reach maxNum s tr -> step s e s' -> reach maxNum s' (tr ++ [e])
  | R_env s tr s' : reach maxNum s tr -> env_step s s' -> reach maxNum s' tr.
End Conc.
