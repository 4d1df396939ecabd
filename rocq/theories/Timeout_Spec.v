(* What C80 says about time limits, without the timers of the code. Times are in microseconds. *)
From Coq Require Import List NArith ZArith.
Import ListNotations.
Local Open Scope Z_scope.

(* Why a query has no result: the time limit was exceeded, a sort was expected to exceed it, another error in the
   computation of the result, or another query failed that computed a result this one waited for. *)
Inductive cause := TimeLimit | SortExpected | OtherError | OtherQuery.

(* the time from reading a to reading b of the clock *)
Definition elapsed (clock : nat -> Z) (a b : nat) : Z := clock b - clock a.
Definition not_backwards (clock : nat -> Z) : Prop := forall a b, (a <= b)%nat -> clock a <= clock b.

(* Work is done in portions; after each portion the limit is looked at or not. `prompt n l`: never is work of n or more
   done without a look at the limit, and a look comes only after work of n or more since the last one. *)
Fixpoint total (l : list N) : N := match l with [] => 0%N | x :: l' => (x + total l')%N end.
Definition prompt (n : N) (l : list (N * bool)) : Prop :=
  forall before block after, l = before ++ block ++ after ->
    (forall x, In x block -> snd x = false) ->
    (total (map fst block) < n)%N /\
    (forall x after', after = (x, true) :: after' -> (before = [] \/ exists y before', before = before' ++ [(y, true)]) ->
       (n <= total (map fst block) + x)%N).
