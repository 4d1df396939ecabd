(* Model of util/PriorityQueue.h (HeapBasedPQ) and util/Cache.h (FlexibleCache with HeapBasedPQ, i.e.
   HeapBasedLRUCache, the LRUCache used by the engine: QueryExecutionContext.h:42-43).

   Keys and values are numbers, the ValueSizeGetter is a function [size]; the scores (time points) are
   numbers, the value read from the clock comes with the operation. Nodes (PqNode) live in a list and are
   addressed by their position, as shared_ptr<PqNode> are by their address. Simplified: nodes are never
   freed; HashMap is an association list; mSize++ does not wrap around (mSize-- does). *)
From Coq Require Import List NArith Arith Bool.
From Verif Require Import Cache_Spec.
Import ListNotations.
Open Scope N_scope.

Definition W64 : N := 2 ^ 64.
Definition add64 (a b : N) : N := (a + b) mod W64.
Definition sub64 (a b : N) : N := (a + (W64 - b mod W64)) mod W64.
(* --n *)
Definition dec64 (n : N) : N := if n =? 0 then W64 - 1 else n - 1.

(* PriorityQueue.h:32-46, std::get on the wrong alternative, and undefined behaviour *)
Inductive error := NotInPQ | EmptyPop | BadVariant | Undef | OutOfFuel.
Inductive outcome (A : Type) := Ok (a : A) | Err (e : error).
Arguments Ok {A}. Arguments Err {A}.
Definition bind {A B} (x : outcome A) (f : A -> outcome B) : outcome B :=
  match x with Ok a => f a | Err e => Err e end.
Notation "'let*' p ':=' x 'in' y" := (bind x (fun p => y)) (at level 200, p pattern, y at level 200).

(* PriorityQueue.h:215-222 PqNode. nd_score None = monostate; nd_entry None = the default constructed Entry
   (null value pointer) after eraseAndInvalidate. *)
Record node := { nd_score : option N; nd_entry : option (N * N); nd_in : bool }.
Definition dead : node := {| nd_score := None; nd_entry := None; nd_in := false |}.

(* PriorityQueue.h:298-301 *)
Record pq := { q_nodes : list node; q_heap : list (N * nat); q_size : N }.

Definition set_nth {A} (i : nat) (a : A) (l : list A) : list A :=
  firstn i l ++ match skipn i l with [] => [] | _ :: r => a :: r end.
Definition get_node (q : pq) (h : nat) : node := nth h (q_nodes q) dead.
Definition set_node (q : pq) (h : nat) (n : node) : pq :=
  {| q_nodes := set_nth h n (q_nodes q); q_heap := q_heap q; q_size := q_size q |}.

Section Cache.
  (* std::priority_queue: position of top() in the container; see [top_ok] in Cache_Proof *)
  Variable top : list (N * nat) -> nat.
  Variable size : N -> N.
  Variables maxSize maxSingle : N.

  Definition remove_nth {A} (i : nat) (l : list A) : list A := firstn i l ++ skipn (S i) l.

  (* PriorityQueue.h:238-239 Handle::score *)
  Definition h_score (q : pq) (h : nat) : outcome N :=
    match nd_score (get_node q h) with Some s => Ok s | None => Err BadVariant end.

  (* PriorityQueue.h:312-315 clear: the nodes keep mIsInPQ *)
  Definition pq_clear (q : pq) : pq := {| q_nodes := q_nodes q; q_heap := []; q_size := 0 |}.

  (* PriorityQueue.h:325-329 erase, 254-258 eraseAndInvalidate, 416-420 assertValidHandle *)
  Definition pq_erase (q : pq) (h : nat) : outcome pq :=
    if nd_in (get_node q h) then
      let q' := set_node q h dead in
      Ok {| q_nodes := q_nodes q'; q_heap := q_heap q'; q_size := dec64 (q_size q') |}
    else Err NotInPQ.

  (* PriorityQueue.h:334-340 insert *)
  Definition pq_insert (q : pq) (s : N) (e : N * N) : pq * nat :=
    let h := length (q_nodes q) in
    ({| q_nodes := q_nodes q ++ [{| nd_score := Some s; nd_entry := Some e; nd_in := true |}];
        q_heap := q_heap q ++ [(s, h)];
        q_size := q_size q + 1 |}, h).

  (* PriorityQueue.h:402-413 pruneChangedKeys; the fuel is the size of the heap *)
  Definition entry_current (q : pq) (e : N * nat) : bool :=
    match nd_score (get_node q (snd e)) with Some s => fst e =? s | None => false end.
  Fixpoint prune (fuel : nat) (q : pq) (heap : list (N * nat)) : outcome (list (N * nat)) :=
    match heap with
    | [] => Ok []
    | _ =>
        match fuel with
        | O => Err OutOfFuel
        | S fuel' =>
            match nth_error heap (top heap) with
            | None => Err Undef
            | Some e =>
                if entry_current q e then Ok heap
                else prune fuel' q (remove_nth (top heap) heap)
            end
        end
    end.

  (* PriorityQueue.h:354-365 pop *)
  Definition pq_pop (q : pq) : outcome (pq * nat) :=
    let* heap := prune (length (q_heap q)) q (q_heap q) in
    match heap with
    | [] => Err EmptyPop
    | _ =>
        match nth_error heap (top heap) with
        | None => Err Undef
        | Some (s, h) =>
            let n := get_node q h in
            let q1 := {| q_nodes := q_nodes q; q_heap := remove_nth (top heap) heap;
                         q_size := dec64 (q_size q) |} in
            Ok (set_node q1 h {| nd_score := nd_score n; nd_entry := nd_entry n; nd_in := false |}, h)
        end
    end.

  (* PriorityQueue.h:376-383 updateKey *)
  Definition pq_update (q : pq) (s : N) (h : nat) : outcome pq :=
    let n := get_node q h in
    if nd_in n then
      let* old := h_score q h in
      if s =? old then Ok q
      else
        let q1 := set_node q h {| nd_score := Some s; nd_entry := nd_entry n; nd_in := nd_in n |} in
        Ok {| q_nodes := q_nodes q1; q_heap := q_heap q1 ++ [(s, h)]; q_size := q_size q1 |}
    else Err NotInPQ.

  (* Cache.h:331-344 data members *)
  Record cache := {
    c_max : N; c_np : N; c_pp : N;   (* _maxNumEntries, _totalSizeNonPinned, _totalSizePinned *)
    c_q : pq; c_pins : list (N * N); c_acc : list (N * nat) }.

  Definition empty_pq : pq := {| q_nodes := []; q_heap := []; q_size := 0 |}.
  (* Cache.h:129-141 constructor *)
  Definition new_cache (maxNum : N) : cache :=
    {| c_max := maxNum; c_np := 0; c_pp := 0; c_q := empty_pq; c_pins := []; c_acc := [] |}.

  (* handle.value().key(), *handle.value().value(): null dereference for an invalidated node *)
  Definition h_entry (q : pq) (h : nat) : outcome (N * N) :=
    match nd_entry (get_node q h) with Some e => Ok e | None => Err Undef end.

  (* Cache.h:233-235 contains *)
  Definition contains (c : cache) (k : N) : bool :=
    match get k (c_pins c) with
    | Some _ => true
    | None => match get k (c_acc c) with Some _ => true | None => false end
    end.

  (* Cache.h:346-360 shrinkToFit; the fuel is the number of entries in the heap *)
  Fixpoint shrink (fuel : nat) (c : cache) : outcome cache :=
    if negb (q_size (c_q c) =? 0)
       && ((c_max c <? q_size (c_q c) + N.of_nat (length (c_pins c)))
           || (maxSize <? add64 (c_np c) (c_pp c)))
    then
      match fuel with
      | O => Err OutOfFuel
      | S fuel' =>
          let* (q, h) := pq_pop (c_q c) in
          let* (k, v) := h_entry q h in
          shrink fuel'
            {| c_max := c_max c; c_np := sub64 (c_np c) (size v); c_pp := c_pp c; c_q := q;
               c_pins := c_pins c; c_acc := remove k (c_acc c) |}
      end
    else Ok c.
  Definition shrink_to_fit (c : cache) : outcome cache := shrink (length (q_heap (c_q c))) c.

  (* map[key] = a for a key that is not in the map *)
  Definition add_key {A} (k : N) (a : A) (m : list (N * A)) : list (N * A) := (k, a) :: m.

  (* Cache.h:145-162 operator[] *)
  Definition cache_lookup (c : cache) (k now : N) : outcome (cache * res) :=
    match get k (c_pins c) with
    | Some v => Ok (c, Value v)
    | None =>
        match get k (c_acc c) with
        | None => Ok (c, Null)
        | Some h =>
            let* q := pq_update (c_q c) now h in
            let* (_, v) := h_entry q h in
            Ok ({| c_max := c_max c; c_np := c_np c; c_pp := c_pp c; c_q := q; c_pins := c_pins c;
                   c_acc := c_acc c |}, Value v)
        end
    end.

  (* Cache.h:182-203 insert *)
  Definition cache_insert (c : cache) (k v now : N) : outcome (cache * res) :=
    if contains c k then Ok (c, Duplicate)
    else if maxSingle <? size v then Ok (c, Null)
    else
      let '(q, h) := pq_insert (c_q c) now (k, v) in
      let* c' := shrink_to_fit
        {| c_max := c_max c; c_np := add64 (c_np c) (size v); c_pp := c_pp c; c_q := q;
           c_pins := c_pins c; c_acc := add_key k h (c_acc c) |} in
      let* (_, v') := h_entry (c_q c') h in
      Ok (c', Value v').

  (* Cache.h:208-224 insertPinned *)
  Definition cache_insert_pinned (c : cache) (k v : N) : outcome (cache * res) :=
    if contains c k then Ok (c, Duplicate)
    else if maxSingle <? size v then Ok (c, TooBig)
    else
      let* c' := shrink_to_fit
        {| c_max := c_max c; c_np := c_np c; c_pp := add64 (c_pp c) (size v); c_q := c_q c;
           c_pins := add_key k v (c_pins c); c_acc := c_acc c |} in
      Ok (c', Value v).

  (* Cache.h:227-230 setMaxNumEntries *)
  Definition cache_set_max (c : cache) (n : N) : outcome (cache * res) :=
    let* c' := shrink_to_fit
      {| c_max := n; c_np := c_np c; c_pp := c_pp c; c_q := c_q c; c_pins := c_pins c;
         c_acc := c_acc c |} in
    Ok (c', Done).

  (* Cache.h:239-259 containsAndMakePinnedIfExists *)
  Definition cache_contains_pin (c : cache) (k : N) : outcome (cache * res) :=
    match get k (c_pins c) with
    | Some _ => Ok (c, Answer true)
    | None =>
        match get k (c_acc c) with
        | None => Ok (c, Answer false)
        | Some h =>
            let* (_, v) := h_entry (c_q c) h in
            let* q := pq_erase (c_q c) h in
            Ok ({| c_max := c_max c; c_np := sub64 (c_np c) (size v); c_pp := add64 (c_pp c) (size v);
                   c_q := q; c_pins := add_key k v (c_pins c); c_acc := remove k (c_acc c) |},
                Answer true)
        end
    end.

  (* Cache.h:263-280 erase. Line 277 reads *mapIt->second, which does not exist for this kind of handle
     (the member function is never instantiated); modelled as *mapIt->second.value().value(). *)
  Definition cache_erase (c : cache) (k : N) : outcome (cache * res) :=
    match get k (c_pins c) with
    | Some v =>
        Ok ({| c_max := c_max c; c_np := c_np c; c_pp := sub64 (c_pp c) (size v); c_q := c_q c;
               c_pins := remove k (c_pins c); c_acc := c_acc c |}, Done)
    | None =>
        match get k (c_acc c) with
        | None => Ok (c, Done)
        | Some h =>
            let* (_, v) := h_entry (c_q c) h in
            let* q := pq_erase (c_q c) h in
            Ok ({| c_max := c_max c; c_np := sub64 (c_np c) (size v); c_pp := c_pp c; c_q := q;
                   c_pins := c_pins c; c_acc := remove k (c_acc c) |}, Done)
        end
    end.

  (* Cache.h:283-290 clearUnpinnedOnly *)
  Definition cache_clear_unpinned (c : cache) : cache :=
    {| c_max := c_max c; c_np := 0; c_pp := c_pp c; c_q := pq_clear (c_q c); c_pins := c_pins c;
       c_acc := [] |}.

  (* Cache.h:293-302 clearAll *)
  Definition cache_clear_all (c : cache) : cache :=
    {| c_max := c_max c; c_np := 0; c_pp := 0; c_q := pq_clear (c_q c); c_pins := []; c_acc := [] |}.

  (* Cache.h:305-323 pinnedSize, nonPinnedSize *)
  Definition pinned_size (c : cache) : N :=
    fold_left (fun x e => add64 x (size (snd e))) (c_pins c) 0.
  Definition non_pinned_size (c : cache) : outcome N :=
    fold_left (fun x e => let* s := x in let* (_, v) := h_entry (c_q c) (snd e) in Ok (add64 s (size v)))
      (c_acc c) (Ok 0).

  (* Cache.h:326-329 *)
  Definition num_non_pinned (c : cache) : N := N.of_nat (length (c_acc c)).
  Definition num_pinned (c : cache) : N := N.of_nat (length (c_pins c)).

  Definition cache_step (c : cache) (o : op) : outcome (cache * res) :=
    match o with
    | Lookup k now => cache_lookup c k now
    | Insert k v now => cache_insert c k v now
    | InsertPinned k v => cache_insert_pinned c k v
    | SetMax n => cache_set_max c n
    | Contains k => Ok (c, Answer (contains c k))
    | ContainsPin k => cache_contains_pin c k
    | Erase k => cache_erase c k
    | ClearUnpinned => Ok (cache_clear_unpinned c, Done)
    | ClearAll => Ok (cache_clear_all c, Done)
    end.

  Fixpoint cache_run (c : cache) (h : list op) : outcome (cache * list (op * res)) :=
    match h with
    | [] => Ok (c, [])
    | o :: h' =>
        let* (c1, r) := cache_step c o in
        let* (c2, tr) := cache_run c1 h' in
        Ok (c2, (o, r) :: tr)
    end.
End Cache.
