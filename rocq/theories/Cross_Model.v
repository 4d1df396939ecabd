(* Model of FTSAlgorithms::appendCrossProduct: the rows for the postings of one text record, combined with the matching rows
   of sub results. The ids of records, the entities and the scores are three lists; reading behind the end of one, and the
   modulo of 0, are None (undefined behaviour). HashMaps and HashSets are functions. size_t wraps where numbers of rows are
   multiplied. *)
From Coq Require Import List NArith Arith Bool.
Import ListNotations.

Notation row := (list N).
Definition two64 : N := 18446744073709551616.

(* index/FTSAlgorithms.cpp:793-799: the rows for the entity are appended to the matches of each sub result *)
Definition push_matches (maps : list (N -> option (list row))) (e : N) (matches : list (list row)) : list (list row) :=
  map (fun ml => match fst ml e with Some rows => snd ml ++ rows | None => snd ml end) (combine maps matches).
(* FTSAlgorithms.cpp:788-800; count = toExclusive - i *)
Fixpoint collect (maps : list (N -> option (list row))) (eids : list N) (count i : nat) (distinctEids : list N)
    (matches : list (list row)) : option (list (list row)) :=
  match count with
  | O => Some matches
  | S count' =>
      match nth_error eids i with
      | None => None
      | Some e =>
          if existsb (N.eqb e) distinctEids then collect maps eids count' (S i) distinctEids matches
          else collect maps eids count' (S i) (e :: distinctEids) (push_matches maps e matches)
      end
  end.
(* FTSAlgorithms.cpp:811-814 *)
Definition nofResultRows (matches : list (list row)) : N :=
  fold_left (fun acc l => (acc * N.of_nat (length l)) mod two64)%N matches 1%N.
(* FTSAlgorithms.cpp:818-826; before: the matches that n has to be divided by. A division by the size of one of them needs no
   check, as the modulo by it comes first *)
Fixpoint fill (before rest : list (list row)) (n : nat) (resRow : row) : option row :=
  match rest with
  | [] => Some resRow
  | l :: rest' =>
      let index := fold_left (fun idx k => idx / length k) before n in
      if length l =? 0 then None
      else match nth_error l (index mod length l) with
           | None => None
           | Some append => fill (before ++ [l]) rest' n (resRow ++ append)
           end
  end.
(* FTSAlgorithms.cpp:816-828 *)
Fixpoint fill_all (matches : list (list row)) (head : row) (ns : list nat) (res : list row) : option (list row) :=
  match ns with
  | [] => Some res
  | n :: ns' => match fill [] matches n head with None => None | Some r => fill_all matches head ns' (res ++ [r]) end
  end.
(* FTSAlgorithms.cpp:801-829 *)
Fixpoint append_rows (matches : list (list row)) (cids eids scores : list N) (count i : nat) (res : list row) : option (list row) :=
  match count with
  | O => Some res
  | S count' =>
      match nth_error eids i, nth_error scores i, nth_error cids i with
      | Some e, Some s, Some c =>
          match fill_all matches [e; s; c] (seq 0 (N.to_nat (nofResultRows matches))) res with
          | None => None
          | Some res' => append_rows matches cids eids scores count' (S i) res'
          end
      | _, _, _ => None
      end
  end.
(* FTSAlgorithms.cpp:780-830 *)
Definition appendCrossProduct (cids eids scores : list N) (from toExclusive : nat) (subResMaps : list (N -> option (list row)))
    (res : list row) : option (list row) :=
  match collect subResMaps eids (toExclusive - from) from [] (map (fun _ => []) subResMaps) with
  | None => None
  | Some matches => append_rows matches cids eids scores (toExclusive - from) from res
  end.

(* FTSAlgorithms.cpp:756-768 *)
Fixpoint collect_two (subRes1 subRes2 : N -> bool) (eids : list N) (count i : nat) (done r1 r2 : list N) : option (list N * list N) :=
  match count with
  | O => Some (r1, r2)
  | S count' =>
      match nth_error eids i with
      | None => None
      | Some e =>
          if existsb (N.eqb e) done then collect_two subRes1 subRes2 eids count' (S i) done r1 r2
          else collect_two subRes1 subRes2 eids count' (S i) (e :: done) (if subRes1 e then r1 ++ [e] else r1) (if subRes2 e then r2 ++ [e] else r2)
      end
  end.
(* FTSAlgorithms.cpp:769-776 *)
Fixpoint append_two (r1 r2 cids eids scores : list N) (count i : nat) (res : list row) : option (list row) :=
  match count with
  | O => Some res
  | S count' =>
      match r1, r2 with
      | _ :: _, _ :: _ =>
          match nth_error eids i, nth_error scores i, nth_error cids i with
          | Some e, Some s, Some c =>
              append_two r1 r2 cids eids scores count' (S i) (res ++ flat_map (fun a => map (fun b => [e; s; c; a; b]) r2) r1)
          | _, _, _ => None
          end
      | _, _ => append_two r1 r2 cids eids scores count' (S i) res
      end
  end.
(* FTSAlgorithms.cpp:748-777 *)
Definition appendCrossProductTwo (cids eids scores : list N) (from toExclusive : nat) (subRes1 subRes2 : N -> bool) (res : list row) : option (list row) :=
  match collect_two subRes1 subRes2 eids (toExclusive - from) from [] [] [] with
  | None => None
  | Some (r1, r2) => append_two r1 r2 cids eids scores (toExclusive - from) from res
  end.
