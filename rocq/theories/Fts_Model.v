(* Model of src/index/FTSAlgorithms.cpp: filtering, intersection and aggregation of text
   postings.
   - A posting is a triple (context id, word or entity id, score). Where the code has three
     vectors of equal length that are read together, the model has one list of triples; where
     the code passes vectors that need not belong together (intersectTwoPostingLists,
     intersectKWay) they stay separate and reading past the end is `Oob`.
   - Score is uint16_t (global/Id.h:10): additions wrap modulo 2^16.
   - LOG output and reserve() calls are left out. *)
From Coq Require Import List NArith Arith Bool Permutation.
From Verif Require Import Std_Model.
Import ListNotations.
Open Scope N_scope.

Notation posting := (N * N * N)%type.
Definition p_cid (p : posting) : N := fst (fst p).
Definition p_eid (p : posting) : N := snd (fst p).
Definition p_score (p : posting) : N := snd p.

(* Score addition: the operands are promoted to int, the sum is converted back to uint16_t *)
Definition add16 (a b : N) : N := (a + b) mod 2 ^ 16.

(* `Oob`: access outside a vector (undefined behaviour). `Fuel`: the loop did not finish within
   the given number of rounds; excluded by the theorems. *)
Inductive outcome (A : Type) := Ok (a : A) | Oob | Fuel.
Arguments Ok {A} _. Arguments Oob {A}. Arguments Fuel {A}.
Definition bind {A B} (x : outcome A) (f : A -> outcome B) : outcome B :=
  match x with Ok a => f a | Oob => Oob | Fuel => Fuel end.
Definition get {A} (l : list A) (i : nat) : outcome A :=
  match nth_error l i with Some a => Ok a | None => Oob end.

(* FTSAlgorithms.cpp:16-44, filterByRange. The loop of lines 31-36; the results are resized to
   the number of elements written (38-39), so what they held before is gone. *)
Fixpoint filter_range_loop (first last : N) (block : list posting) (res : list (N * N))
  : list (N * N) :=
  match block with
  | [] => res
  | p :: block' =>
      if (first <=? p_eid p) && (p_eid p <=? last)
      then filter_range_loop first last block' (res ++ [(p_cid p, p_score p)])
      else filter_range_loop first last block' res
  end.
Definition filterByRange (first last : N) (block : list posting) : list (N * N) :=
  filter_range_loop first last block [].

(* FTSAlgorithms.cpp:71-99, the loop of intersect. `m` and `e` are the parts of
   matchingContexts and of the block from positions i and j on. Lines 72-77: advance i; lines
   78-83: advance j; lines 84-97: copy all postings with this context; line 98. *)
Fixpoint intersect_loop (fuel : nat) (m : list N) (e : list posting) (res : list posting)
  : outcome (list posting) :=
  match m, e with
  | _ :: _, p :: _ =>
      match fuel with
      | O => Fuel
      | S fuel' =>
          match drop_while (fun x => x <? p_cid p) m with
          | [] => Ok res
          | x :: m' =>
              match drop_while (fun q => p_cid q <? x) e with
              | [] => Ok res
              | e' => intersect_loop fuel' m' (drop_while (fun q => x =? p_cid q) e')
                        (res ++ take_while (fun q => x =? p_cid q) e')
              end
          end
      end
  | _, _ => Ok res
  end.

(* FTSAlgorithms.cpp:47-100, intersect. `old`: what the result vectors held before the call;
   they are not cleared when one of the inputs is empty (58-60). *)
Definition intersect (old : list posting) (m : list N) (e : list posting)
  : outcome (list posting) :=
  match m, e with
  | [], _ | _, [] => Ok old
  | _, _ => intersect_loop (length m + length e) m e []
  end.

(* The scores and contexts of one of the lists of intersectTwoPostingLists are separate
   vectors: positions i and j are kept next to the remaining contexts. Lines 126-131 and
   132-137: advance while the context is smaller. *)
Fixpoint skip_below (x : N) (l : list N) (i : nat) : list N * nat :=
  match l with
  | [] => ([], i)
  | y :: l' => if y <? x then skip_below x l' (S i) else (l, i)
  end.
(* FTSAlgorithms.cpp:138-146 *)
Fixpoint take_equal (s1 s2 : list N) (l1 l2 : list N) (i j : nat) (res : list (N * N))
  : outcome (list N * nat * (list N * nat) * list (N * N)) :=
  match l1, l2 with
  | x :: l1', y :: l2' =>
      if x =? y then
        bind (get s1 i) (fun a => bind (get s2 j) (fun b =>
          take_equal s1 s2 l1' l2' (S i) (S j) (res ++ [(y, add16 a b)])))
      else Ok (l1, i, (l2, j), res)
  | _, _ => Ok (l1, i, (l2, j), res)
  end.
(* FTSAlgorithms.cpp:125-147 *)
Fixpoint two_loop (fuel : nat) (s1 s2 l1 l2 : list N) (i j : nat) (res : list (N * N))
  : outcome (list (N * N)) :=
  match l1, l2 with
  | _ :: _, y :: _ =>
      match fuel with
      | O => Fuel
      | S fuel' =>
          match skip_below y l1 i with
          | ([], _) => Ok res
          | (x :: l1', i') =>
              match skip_below x l2 j with
              | ([], _) => Ok res
              | (l2', j') =>
                  bind (take_equal s1 s2 (x :: l1') l2' i' j' res)
                    (fun '(m1, a, (m2, b), res') => two_loop fuel' s1 s2 m1 m2 a b res')
              end
          end
      end
  | _, _ => Ok res
  end.
(* FTSAlgorithms.cpp:103-148, intersectTwoPostingLists *)
Definition intersectTwoPostingLists (old : list (N * N)) (c1 s1 c2 s2 : list N)
  : outcome (list (N * N)) :=
  match c1, c2 with
  | [], _ | _, [] => Ok old
  | _, _ => two_loop (length c1 + length c2) s1 s2 c1 c2 0 0 []
  end.

(* Index.Text.cpp:532-571, getContextListForWords, the case of two terms (549-552): the second
   score vector is passed for both lists. *)
Definition context_list_two_words (c1 s1 c2 s2 : list N) : outcome (list (N * N)) :=
  intersectTwoPostingLists [] c1 s2 c2 s2.

(* FTSAlgorithms.cpp:208-213, the state of the loop of intersectKWay: currentList,
   currentContext, streak, nextIndices and the postings written to the result. *)
Record kstate := mk_kstate
  { k_list : nat; k_context : N; k_streak : nat; k_next : list nat; k_out : list posting }.
Inductive kresult := KStop (out : list posting) | KNext (s : kstate).

Definition get2 (ll : list (list N)) (i j : nat) : outcome N := bind (get ll i) (fun l => get l j).
(* nextIndices[i] - 1 in size_t: 0 - 1 is a position outside of every vector *)
Definition get2_before (ll : list (list N)) (i j : nat) : outcome N :=
  match j with O => Oob | S j' => get2 ll i j' end.
Fixpoint list_set {A} (l : list A) (i : nat) (x : A) : list A :=
  match l, i with
  | [], _ => []
  | _ :: l', O => x :: l'
  | y :: l', S i' => y :: list_set l' i' x
  end.

(* Lines 232-235: the sum of the scores of the lists 0 .. k-2 *)
Fixpoint sum_scores (scores : list (list N)) (c : nat) (next : list nat) (i : nat) (lists : nat)
    (s : N) : outcome N :=
  match lists with
  | O => Ok s
  | S lists' =>
      bind (get next i) (fun n =>
      bind (if Nat.eqb i c then get2 scores i n else get2_before scores i n) (fun x =>
        sum_scores scores c next (S i) lists' (add16 s x)))
  end.
(* Lines 241-247: all postings of the last list with the current context; `l` are its contexts
   from position m on. Result: the new matchInEL and the postings. *)
Fixpoint emit_entities (x s : N) (eids scores : list N) (l : list N) (m : nat)
  : outcome (nat * list posting) :=
  match l with
  | y :: l' =>
      if y =? x then
        bind (get eids m) (fun e => bind (get scores m) (fun v =>
        bind (emit_entities x s eids scores l' (S m)) (fun '(m', ps) =>
          Ok (m', (x, e, add16 s v) :: ps))))
      else Ok (m, [])
  | [] => Ok (m, [])
  end.

(* Lines 219-224: the first position from n on with a context that is not below x *)
Definition advance_to (x : N) (l : list N) (n : nat) : nat :=
  (n + length (take_while (fun y => (y <? x)%N) (skipn n l)))%nat.

(* Lines 214-269, one round of the loop; `room` is the size of the result vectors (187-193). *)
Definition kway_step (cids scores : list (list N)) (eids : option (list N)) (room : nat)
    (st : kstate) : outcome kresult :=
  let k := length cids in
  let c := k_list st in
  let x := k_context st in
  bind (get cids c) (fun l =>
  bind (get (k_next st) c) (fun n0 =>
  if Nat.eqb n0 (length l) then Ok (KStop (k_out st)) else
  let n := advance_to x l n0 in
  if Nat.eqb n (length l) then Ok (KStop (k_out st)) else
  bind (get l n) (fun a =>
  let next := list_set (k_next st) c n in
  let advance (x' : N) (streak : nat) :=
    Ok (KNext (mk_kstate (if Nat.eqb (S c) k then 0 else S c)%nat x' streak
                 (list_set next c (S n)) (k_out st))) in
  if a =? x then
    if Nat.eqb (S (k_streak st)) k then
      bind (sum_scores scores c next 0 (k - 1) 0) (fun s =>
      bind (get next (k - 1)) (fun nl =>
      match eids with
      | Some es =>
          bind (if Nat.eqb (k - 1) c then Ok nl
                else match nl with O => Oob | S m => Ok m end) (fun m0 =>
          bind (get cids (k - 1)) (fun last =>
          bind (get scores (k - 1)) (fun sl =>
          bind (emit_entities x s es sl (skipn m0 last) m0) (fun '(m1, ps) =>
          if Nat.leb (length (k_out st) + length ps) room
          then Ok (KNext (mk_kstate (k - 1) x (S (k_streak st)) (list_set next (k - 1) m1)
                            (k_out st ++ ps)))
          else Oob))))
      | None =>
          bind (if Nat.eqb (k - 1) c then get2 scores (k - 1) nl
                else get2_before scores (k - 1) nl) (fun v =>
          if Nat.ltb (length (k_out st)) room
          then Ok (KNext (mk_kstate (k - 1) x (S (k_streak st)) next
                            (k_out st ++ [(x, 0, add16 s v)])))
          else Oob)
      end))
    else advance x (S (k_streak st))
  else advance a 1%nat))).

Fixpoint kway_loop (fuel : nat) (cids scores : list (list N)) (eids : option (list N))
    (room : nat) (st : kstate) : outcome (list posting) :=
  match fuel with
  | O => Fuel
  | S fuel' =>
      bind (kway_step cids scores eids room st) (fun r =>
        match r with
        | KStop out => Ok out
        | KNext st' => kway_loop fuel' cids scores eids room st'
        end)
  end.

(* FTSAlgorithms.cpp:151-277, intersectKWay. `eids`: the entities parallel to the last list
   (None: nullptr; the entity of a result posting is then 0 in the model). cidVecs[k - 1] with
   k = 0 is outside the vector. The results are not cleared when the last list or, without
   entities, any list is empty. *)
Definition total_length (ll : list (list N)) : nat := fold_right (fun l n => (length l + n)%nat) 0%nat ll.
Definition min_length (ll : list (list N)) : nat :=
  match ll with
  | [] => 0%nat
  | l :: ll' => fold_left (fun m l' => Nat.min m (length l')) ll' (length l)
  end.
Definition intersectKWay (old : list posting) (cids scores : list (list N))
    (eids : option (list N)) : outcome (list posting) :=
  let k := length cids in
  match k with
  | O => Oob
  | S k1 =>
      bind (get cids k1) (fun last =>
      match last with
      | [] => Ok old
      | x :: _ =>
          if match eids with None => existsb (fun l => match l with [] => true | _ => false end) cids
             | Some _ => false end
          then Ok old
          else
            let room := match eids with Some es => length es | None => min_length cids end in
            kway_loop (2 * total_length cids + 2) cids scores eids room
              (mk_kstate k1 x 0 (repeat 0%nat k) [])
      end)
  end.

(* std::set<pair<Score, Id>>: an ordered list of distinct pairs (score, context). *)
Definition pair_ltb (a b : N * N) : bool :=
  (fst a <? fst b) || ((fst a =? fst b) && (snd a <? snd b)).
Fixpoint set_insert (p : N * N) (s : list (N * N)) : list (N * N) :=
  match s with
  | [] => [p]
  | q :: s' => if pair_ltb p q then p :: s
               else if pair_ltb q p then q :: set_insert p s' else s
  end.

Section Agg.
  (* The key type of the hash map: an entity, or the vector of entities of the variables. *)
  Context {K : Type} (keqb : K -> K -> bool).

  (* pair<Score, ScoreToContext>: the number of postings so far (a uint16_t) and the best
     contexts *)
  Notation entry := (K * (N * list (N * N)))%type.

  (* FTSAlgorithms.cpp:336-345: the key is in the map already. `stc.begin()` of an empty set
     cannot occur: every entry is created with one element. *)
  Definition update_best (k : nat) (score cid : N) (v : N * list (N * N)) : N * list (N * N) :=
    let '(cnt, stc) := v in
    (add16 cnt 1,
     match stc with
     | [] => if Nat.ltb 0 k then set_insert (score, cid) stc else stc
     | (low, _) :: stc' =>
         if Nat.ltb (length stc) k || (low <? score)
         then set_insert (score, cid) (if Nat.eqb (length stc) k then stc' else stc)
         else stc
     end).
  (* FTSAlgorithms.cpp:331-346, also 541-556, 576-591, 859-874, 950-965, 1061-1076, 1106-1121,
     1233-1248 and 1278-1293: one key occurs in context cid with this score. The hash map is a
     list of entries with distinct keys. *)
  Fixpoint agg_add (k : nat) (key : K) (score cid : N) (m : list entry) : list entry :=
    match m with
    | [] => [(key, (1, [(score, cid)]))]
    | (key', v) :: m' =>
        if keqb key' key then (key', update_best k score cid v) :: m'
        else (key', v) :: agg_add k key score cid m'
    end.
  (* the loop over all occurrences (key, score, cid) *)
  Definition agg_all (k : nat) (occ : list (K * N * N)) : list entry :=
    fold_left (fun m o => let '(key, score, cid) := o in agg_add k key score cid m) occ [].

  (* FTSAlgorithms.cpp:448-461, also 670-679 and 698-707: the special case of one context per
     key; the entry is the number of postings, the best context and its score. *)
  Definition update_top (score cid : N) (v : N * (N * N)) : N * (N * N) :=
    let '(cnt, (c, s)) := v in (add16 cnt 1, if s <? score then (cid, score) else (c, s)).
  Fixpoint top_add (key : K) (score cid : N) (m : list (K * (N * (N * N)))) :=
    match m with
    | [] => [(key, (1, (cid, score)))]
    | (key', v) :: m' =>
        if keqb key' key then (key', update_top score cid v) :: m'
        else (key', v) :: top_add key score cid m'
    end.
  Definition top_all (occ : list (K * N * N)) : list (K * (N * (N * N))) :=
    fold_left (fun m o => let '(key, score, cid) := o in top_add key score cid m) occ [].
End Agg.

(* One variable: the occurrences are the postings. *)
Definition occurrences (ps : list posting) : list (N * N * N) :=
  map (fun p => (p_eid p, p_score p, p_cid p)) ps.

(* The hash map is iterated in an unknown order: `it` is any permutation of the entries. The
   rows are {context, count, entity} in descending order of (score, context)
   (FTSAlgorithms.cpp:350-357, 970-977), or one row per entity (466-471). *)
Definition agg_rows {K} (cols : N -> N -> K -> list (list N)) (it : list (K * (N * list (N * N))))
  : list (list N) :=
  flat_map (fun e => let '(key, (cnt, stc)) := e in
                     flat_map (fun sc => cols (snd sc) cnt key) (rev stc)) it.
Definition top_rows {K} (cols : N -> N -> K -> list (list N)) (it : list (K * (N * (N * N))))
  : list (list N) :=
  flat_map (fun e => let '(key, (cnt, (cid, _))) := e in cols cid cnt key) it.
Definition one_var_cols (cid cnt eid : N) : list (list N) := [[cid; cnt; eid]].

(* FTSAlgorithms.cpp:306-366 and 440-476, aggScoresAndTakeTopKContexts and
   aggScoresAndTakeTopContext<3>, as a relation to its possible results. *)
Definition aggScoresAndTakeTopKContexts (ps : list posting) (k : nat) (res : list (list N)) : Prop :=
  if Nat.eqb k 1 then
    exists it, Permutation (top_all N.eqb (occurrences ps)) it /\
               res = top_rows one_var_cols it
  else
    exists it, Permutation (agg_all N.eqb k (occurrences ps)) it /\
               res = agg_rows one_var_cols it.

(* FTSAlgorithms.cpp:833-897, oneVarFilterAggScoresAndTakeTopKContexts with the hash map fMap
   from entities to rows of the other operand (Index.Text.cpp:727-763 builds it from the table
   `filter`): the rows with entity e are the rows of `filter` with e in the filter column, in
   order. *)
Definition filter_rows (filter_table : list (list N)) (col : nat) (e : N) : list (list N) :=
  filter (fun r => nth col r 0 =? e) filter_table.
Definition in_filter (filter_table : list (list N)) (col : nat) (e : N) : bool :=
  existsb (fun r => nth col r 0 =? e) filter_table.
Definition oneVarFilterMap (ps : list posting) (filter_table : list (list N)) (col : nat) (k : nat)
    (res : list (list N)) : Prop :=
  exists it,
    Permutation
      (agg_all N.eqb k (occurrences (filter (fun p => in_filter filter_table col (p_eid p)) ps))) it /\
    res = agg_rows (fun cid cnt e => map (fun r => cid :: cnt :: r) (filter_rows filter_table col e)) it.

(* FTSAlgorithms.cpp:924-980, the variant for a filter of one column (a hash set) *)
Definition oneVarFilterSet (ps : list posting) (fset : list N) (k : nat) (res : list (list N)) : Prop :=
  exists it,
    Permutation
      (agg_all N.eqb k (occurrences (filter (fun p => existsb (N.eqb (p_eid p)) fset) ps))) it /\
    res = agg_rows one_var_cols it.

(* FTSAlgorithms.cpp:534-540: the j-th key for nofVars variables over the entities of a
   context; entitiesInContext is never empty here. `j mod m`, `j / m` as in the code. *)
Fixpoint nth_key (ents : list N) (vars : nat) (j : nat) : list N :=
  match vars with
  | O => []
  | S vars' => nth (j mod length ents) ents 0%N :: nth_key ents vars' (j / length ents)
  end%nat.
(* Lines 531-540 and 566-575. pow() of doubles is taken to be exact (it is below 2^53). *)
Definition all_keys (ents : list N) (vars : nat) : list (list N) :=
  map (nth_key ents vars) (seq 0 (length ents ^ vars)).
(* FTSAlgorithms.cpp:1046-1060: the first variable is bound by the filter *)
Definition filtered_key (fents ents : list N) (vars : nat) (j : nat) : list N :=
  (nth (j mod length fents) fents 0%N :: nth_key ents (vars - 1) (j / length fents))%nat.
Definition filtered_keys (fents ents : list N) (vars : nat) : list (list N) :=
  match fents with
  | [] => []
  | _ => map (filtered_key fents ents vars) (seq 0 (length fents * length ents ^ (vars - 1)))%nat
  end.

(* FTSAlgorithms.cpp:525-563: the loop over the postings collects the entities of a context
   until the context changes; cscore is the score of its first posting. `keys` builds the keys
   of a context from its entities. *)
Fixpoint context_loop (keys : list N -> list (list N)) (cur cscore : N) (ents : list N)
    (ps : list posting) : list (list N * N * N) :=
  match ps with
  | [] => map (fun key => (key, cscore, cur)) (keys ents)
  | p :: ps' =>
      if p_cid p =? cur then context_loop keys cur cscore (ents ++ [p_eid p]) ps'
      else map (fun key => (key, cscore, cur)) (keys ents) ++
           context_loop keys (p_cid p) (p_score p) [p_eid p] ps'
  end.
Definition context_occurrences (keys : list N -> list (list N)) (ps : list posting)
  : list (list N * N * N) :=
  match ps with [] => [] | p :: _ => context_loop keys (p_cid p) (p_score p) [] ps end.

Fixpoint list_eqb (a b : list N) : bool :=
  match a, b with
  | [], [] => true
  | x :: a', y :: b' => (x =? y) && list_eqb a' b'
  | _, _ => false
  end.

(* FTSAlgorithms.cpp:498-610 and 632-726, multVarsAggScoresAndTakeTopKContexts and
   multVarsAggScoresAndTakeTopContext: rows {context, count, entities}. *)
Definition mult_var_cols (cid cnt : N) (key : list N) : list (list N) := [cid :: cnt :: key].
Definition multVarsAggScoresAndTakeTopKContexts (ps : list posting) (vars k : nat)
    (res : list (list N)) : Prop :=
  let occ := context_occurrences (fun ents => all_keys ents vars) ps in
  if Nat.eqb k 1 then
    exists it, Permutation (top_all list_eqb occ) it /\ res = top_rows mult_var_cols it
  else
    exists it, Permutation (agg_all list_eqb k occ) it /\ res = agg_rows mult_var_cols it.

(* FTSAlgorithms.cpp:1013-1152, multVarsFilterAggScoresAndTakeTopKContexts with the hash map:
   rows {context, count, other entities, filter row}. *)
Definition multVarsFilterMap (ps : list posting) (filter_table : list (list N)) (col : nat)
    (vars k : nat) (res : list (list N)) : Prop :=
  let occ := context_occurrences
    (fun ents => filtered_keys (filter (in_filter filter_table col) ents) ents vars) ps in
  exists it,
    Permutation (agg_all list_eqb k occ) it /\
    res = agg_rows (fun cid cnt key =>
            map (fun r => cid :: cnt :: tl key ++ r) (filter_rows filter_table col (hd 0 key))) it.

(* FTSAlgorithms.cpp:1302-1314: the row written by the variant with the hash set; columns
   never written keep the value `junk` of the freshly appended row. Line 1310 writes to column
   2 + i, line 1313 to column off. None: a column outside the row. *)
Fixpoint write_cols (row : list N) (col : nat) (key : list N) : list N :=
  match key with [] => row | e :: key' => write_cols (list_set row col e) (S col) key' end.
Definition set_row (junk : N) (width : nat) (cid cnt : N) (key : list N) : option (list N) :=
  let row := list_set (list_set (repeat junk width) 0 cid) 1 cnt in
  if Nat.ltb (length key + 1) width
  then Some (list_set (write_cols row 3 (tl key)) (2 + (length key - 1)) (hd 0 key))
  else None.
