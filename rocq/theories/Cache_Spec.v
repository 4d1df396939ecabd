(* What a least-recently-used cache with pinned entries is: an abstract machine without any heap,
   handles or counters, and vocabulary about histories. Nothing here refers to the code. *)
From Coq Require Import List NArith Bool Sorted Permutation.
Import ListNotations.
Open Scope N_scope.

(* The operations. [now] is the reading of the clock when the operation runs; values are opaque
   numbers, their size is given by a function. *)
Inductive op :=
| Lookup (k now : N)
| Insert (k v now : N)
| InsertPinned (k v : N)
| SetMax (n : N)
| Contains (k : N)
| ContainsPin (k : N)
| Erase (k : N)
| ClearUnpinned
| ClearAll.

Inductive res :=
| Value (v : N)      (* a non-null pointer to v *)
| Null               (* a null pointer *)
| Answer (b : bool)
| Done
| Duplicate          (* exception: key already present *)
| TooBig.            (* exception: too big to be pinned *)

Definition op_time (o : op) : list N :=
  match o with Lookup _ now | Insert _ _ now => [now] | _ => [] end.
(* the clock never goes backwards *)
Definition clock_ok (h : list op) : Prop := StronglySorted N.le (flat_map op_time h).

(* association lists *)
Section Assoc.
  Context {A : Type}.
  Fixpoint get (k : N) (m : list (N * A)) : option A :=
    match m with [] => None | (k', a) :: m' => if k =? k' then Some a else get k m' end.
  Definition remove (k : N) (m : list (N * A)) : list (N * A) :=
    filter (fun e => negb (fst e =? k)) m.
End Assoc.

Section Lru.
  Variable size : N -> N.
  Variables maxSize maxSingle : N.

  Definition total (vs : list N) : N := fold_right (fun v n => size v + n) 0 vs.

  (* The abstract cache: unpinned entries are (key, (value, time of last use)). *)
  Record lru := { l_max : N; l_ents : list (N * (N * N)); l_pins : list (N * N) }.

  Definition l_size (c : lru) : N :=
    total (map (fun e => fst (snd e)) (l_ents c)) + total (map snd (l_pins c)).
  Definition over (c : lru) : Prop :=
    l_max c < N.of_nat (length (l_ents c) + length (l_pins c)) \/ maxSize < l_size c.

  Definition with_ents (c : lru) es := {| l_max := l_max c; l_ents := es; l_pins := l_pins c |}.

  (* Shrinking: as long as there are unpinned entries and the limits are exceeded, remove one whose
     last use is oldest. *)
  Inductive shrinks : lru -> lru -> Prop :=
  | shrink_stop c : l_ents c = [] \/ ~ over c -> shrinks c c
  | shrink_evict c k v t rest c' :
      over c ->
      Permutation (l_ents c) ((k, (v, t)) :: rest) ->
      Forall (fun e => t <= snd (snd e)) rest ->
      shrinks (with_ents c rest) c' ->
      shrinks c c'.

  Inductive lru_step : lru -> op -> lru -> res -> Prop :=
  | S_lookup_pinned c k now v :
      get k (l_pins c) = Some v -> lru_step c (Lookup k now) c (Value v)
  | S_lookup_none c k now :
      get k (l_pins c) = None -> get k (l_ents c) = None -> lru_step c (Lookup k now) c Null
  | S_lookup c k now v t es :
      get k (l_pins c) = None -> get k (l_ents c) = Some (v, t) ->
      Permutation es ((k, (v, now)) :: remove k (l_ents c)) ->
      lru_step c (Lookup k now) (with_ents c es) (Value v)
  | S_insert_dup c k v now :
      get k (l_pins c) <> None \/ get k (l_ents c) <> None ->
      lru_step c (Insert k v now) c Duplicate
  | S_insert_big c k v now :
      get k (l_pins c) = None -> get k (l_ents c) = None -> maxSingle < size v ->
      lru_step c (Insert k v now) c Null
  | S_insert c k v now c' :
      get k (l_pins c) = None -> get k (l_ents c) = None -> size v <= maxSingle ->
      shrinks (with_ents c ((k, (v, now)) :: l_ents c)) c' ->
      lru_step c (Insert k v now) c' (Value v)
  | S_pin_dup c k v :
      get k (l_pins c) <> None \/ get k (l_ents c) <> None ->
      lru_step c (InsertPinned k v) c Duplicate
  | S_pin_big c k v :
      get k (l_pins c) = None -> get k (l_ents c) = None -> maxSingle < size v ->
      lru_step c (InsertPinned k v) c TooBig
  | S_pin c k v c' :
      get k (l_pins c) = None -> get k (l_ents c) = None -> size v <= maxSingle ->
      shrinks {| l_max := l_max c; l_ents := l_ents c; l_pins := (k, v) :: l_pins c |} c' ->
      lru_step c (InsertPinned k v) c' (Value v)
  | S_setmax c n c' :
      shrinks {| l_max := n; l_ents := l_ents c; l_pins := l_pins c |} c' ->
      lru_step c (SetMax n) c' Done
  | S_contains c k :
      lru_step c (Contains k) c
        (Answer (match get k (l_pins c), get k (l_ents c) with None, None => false | _, _ => true end))
  | S_containspin_pinned c k v :
      get k (l_pins c) = Some v -> lru_step c (ContainsPin k) c (Answer true)
  | S_containspin_none c k :
      get k (l_pins c) = None -> get k (l_ents c) = None ->
      lru_step c (ContainsPin k) c (Answer false)
  | S_containspin c k v t :
      get k (l_pins c) = None -> get k (l_ents c) = Some (v, t) ->
      lru_step c (ContainsPin k)
        {| l_max := l_max c; l_ents := remove k (l_ents c); l_pins := (k, v) :: l_pins c |}
        (Answer true)
  | S_erase c k :
      lru_step c (Erase k)
        {| l_max := l_max c; l_ents := remove k (l_ents c); l_pins := remove k (l_pins c) |} Done
  | S_clear_unpinned c : lru_step c ClearUnpinned (with_ents c []) Done
  | S_clear_all c :
      lru_step c ClearAll {| l_max := l_max c; l_ents := []; l_pins := [] |} Done.

  (* a run with the results of its operations *)
  Inductive lru_run : lru -> list (op * res) -> lru -> Prop :=
  | run_nil c : lru_run c [] c
  | run_snoc c tr c' o r c'' :
      lru_run c tr c' -> lru_step c' o c'' r -> lru_run c (tr ++ [(o, r)]) c''.

  (* The sizes of everything ever handed to the cache. *)
  Definition op_size (o : op) : N :=
    match o with Insert _ v _ | InsertPinned _ v => size v | _ => 0 end.
  Definition inserted_size (h : list op) : N := fold_right (fun o n => op_size o + n) 0 h.
End Lru.

(* --- vocabulary about histories: operations with their results, oldest first --- *)

(* the value most recently inserted under k by an accepted insertion *)
Definition inserted_here (k : N) (e : op * res) : option N :=
  match e with
  | (Insert k' v _, Value _) | (InsertPinned k' v, Value _) => if k' =? k then Some v else None
  | _ => None
  end.
Definition last_inserted (tr : list (op * res)) (k : N) : option N :=
  fold_left (fun a e => match inserted_here k e with Some v => Some v | None => a end) tr None.

(* the time of the last accepted insertion of or successful access to k *)
Definition used_here (k : N) (e : op * res) : option N :=
  match e with
  | (Insert k' _ now, Value _) | (Lookup k' now, Value _) => if k' =? k then Some now else None
  | _ => None
  end.
Definition last_use (tr : list (op * res)) (k : N) : option N :=
  fold_left (fun a e => match used_here k e with Some t => Some t | None => a end) tr None.
