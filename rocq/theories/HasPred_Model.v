(* Model of engine/HasPredicateScan.cpp and engine/CountAvailablePredicates.cpp. *)
From Coq Require Import List NArith Arith Bool.
From Verif Require Import Table_Spec HasPred_Spec.
Import ListNotations.
Open Scope N_scope.

(* The three branches common to all the functions below: the entity has a pattern, it is below
   hasPredicate.size(), or none of these. Fault: patterns[..] out of bounds. *)
Inductive branch := Preds (ps : list N) (byPattern : option N) | Neither | Fault.
Definition lookup (ix : pattern_index) (id : N) : branch :=
  let explicit :=
    if id <? N.of_nat (length (hasPredicate ix))
    then Preds (nth (N.to_nat id) (hasPredicate ix) []) None else Neither in
  if id <? N.of_nat (length (hasPattern ix)) then
    let k := nth (N.to_nat id) (hasPattern ix) 0 in
    if k =? NO_PATTERN then explicit
    else match nth_error (patterns ix) (N.to_nat k) with
         | Some ps => Preds ps (Some k)
         | None => Fault
         end
  else explicit.

(* the ids for which the while loops run *)
Definition all_ids (ix : pattern_index) : list N :=
  map N.of_nat (seq 0 (max (length (hasPattern ix)) (length (hasPredicate ix)))).

(* HasPredicateScan.cpp:263-294 computeFreeS *)
Fixpoint free_s (ix : pattern_index) (objectId : N) (ids : list N) : option table :=
  match ids with
  | [] => Some []
  | id :: ids' =>
      match lookup ix id, free_s ix objectId ids' with
      | Fault, _ | _, None => None
      | Preds ps _, Some rest => Some (map (fun _ => [id]) (filter (fun p => p =? objectId) ps) ++ rest)
      | Neither, Some rest => Some rest
      end
  end.
Definition compute_free_s (ix : pattern_index) (objectId : N) := free_s ix objectId (all_ids ix).

(* HasPredicateScan.cpp:296-324 computeFreeO *)
Definition compute_free_o (ix : pattern_index) (subjectId : N) : option table :=
  match lookup ix subjectId with
  | Fault => None
  | Preds ps _ => Some (map (fun p => [p]) ps)
  | Neither => Some []
  end.

(* HasPredicateScan.cpp:326-358 computeFullScan *)
Fixpoint full_scan (ix : pattern_index) (ids : list N) : option table :=
  match ids with
  | [] => Some []
  | id :: ids' =>
      match lookup ix id, full_scan ix ids' with
      | Fault, _ | _, None => None
      | Preds ps _, Some rest => Some (map (fun p => [id; p]) ps ++ rest)
      | Neither, Some rest => Some rest
      end
  end.
Definition compute_full_scan (ix : pattern_index) := full_scan ix (all_ids ix).

(* HasPredicateScan.cpp:360-403 computeSubqueryS; Neither is the `break` of line 399. *)
Fixpoint compute_subquery_s (ix : pattern_index) (c : nat) (input : table) : option table :=
  match input with
  | [] => Some []
  | r :: input' =>
      match lookup ix (col c r) with
      | Fault => None
      | Preds ps _ =>
          match compute_subquery_s ix c input' with
          | Some rest => Some (map (fun p => r ++ [p]) ps ++ rest)
          | None => None
          end
      | Neither => Some []
      end
  end.

(* ---- CountAvailablePredicates ---- *)

(* HashMap<Id, size_t>: map[k] += n. The counts do not reach 2^64. *)
Definition counts := list (N * N).
Fixpoint incr (m : counts) (k n : N) : counts :=
  match m with
  | [] => [(k, n)]
  | (k', c) :: m' => if k' =? k then (k', c + n) :: m' else (k', c) :: incr m' k n
  end.
Definition incr_all (m : counts) (ps : list N) (n : N) : counts :=
  fold_left (fun m p => incr m p n) ps m.

(* One entity: CountAvailablePredicates.cpp:193-210, 250-274. *)
Definition count_entity (ix : pattern_index) (e : N) (st : counts * counts) : option (counts * counts) :=
  let (preds, pats) := st in
  match lookup ix e with
  | Fault => Some (preds, incr pats (nth (N.to_nat e) (hasPattern ix) 0) 1)
  | Preds _ (Some k) => Some (preds, incr pats k 1)
  | Preds ps None => Some (incr_all preds ps 1, pats)
  | Neither => Some (preds, pats)
  end.
(* CountAvailablePredicates.cpp:243-275 *)
Fixpoint count_rows (ix : pattern_index) (lastSubject : N) (subjects : list N) (st : counts * counts)
  : option (counts * counts) :=
  match subjects with
  | [] => Some st
  | s :: rest =>
      if s =? lastSubject then count_rows ix lastSubject rest st
      else match count_entity ix s st with
           | Some st' => count_rows ix s rest st'
           | None => None
           end
  end.
(* CountAvailablePredicates.cpp:192-211 *)
Fixpoint count_ids (ix : pattern_index) (ids : list N) (st : counts * counts) : option (counts * counts) :=
  match ids with
  | [] => Some st
  | i :: ids' => match count_entity ix i st with
                 | Some st' => count_ids ix ids' st'
                 | None => None
                 end
  end.
(* CountAvailablePredicates.cpp:215-224, 281-293: resolve the patterns; `entries` is the pattern
   map in its iteration order. None: patterns[..] out of bounds. *)
Fixpoint resolve (ix : pattern_index) (preds : counts) (entries : counts) : option counts :=
  match entries with
  | [] => Some preds
  | (k, n) :: entries' =>
      match nth_error (patterns ix) (N.to_nat k) with
      | Some ps => resolve ix (incr_all preds ps n) entries'
      | None => None
      end
  end.
(* The iteration order of a hash map. *)
Definition map_order := counts -> counts.
Definition finish (ix : pattern_index) (order : map_order) (st : option (counts * counts)) : option table :=
  match st with
  | Some (preds, pats) =>
      match resolve ix preds (order pats) with
      | Some preds' => Some (map (fun e => [fst e; snd e]) (order preds'))
      | None => None
      end
  | None => None
  end.
(* CountAvailablePredicates.cpp:228-294 computePatternTrick, 182-225 for all entities, and
   150-161 for one entity. *)
Definition pattern_trick (ix : pattern_index) (order : map_order) (c : nat) (input : table) : option table :=
  finish ix order (count_rows ix UNBOUND (map (col c) input) ([], [])).
Definition pattern_trick_all (ix : pattern_index) (order : map_order) : option table :=
  finish ix order (count_ids ix (all_ids ix) ([], [])).
Definition pattern_trick_one (ix : pattern_index) (order : map_order) (e : N) : option table :=
  pattern_trick ix order 0 [[e]].
