(* Model of Index::createPatternsImpl (index/Index.cpp:556-867) and of reading the patterns file
   (index/Index.cpp:999-1088). The vectors of vectors (CompactStringVector) are lists of lists, see
   Csv_Thm.v. Not modelled: the two multiplicities (doubles; passed through as 8 bytes), logging. *)
From Coq Require Import List NArith Arith Bool.
From Verif Require Import HasPred_Spec Bytes Csv_Model Std_Model Ops_Model.
Import ListNotations.
Open Scope N_scope.

Definition pattern := list N.
Definition triple : Type := N * N * N.
Definition subj (t : triple) : N := fst (fst t).
Definition pred (t : triple) : N := snd (fst t).

Fixpoint pattern_eqb (a b : pattern) : bool :=
  match a, b with
  | [], [] => true
  | x :: a', y :: b' => (x =? y) && pattern_eqb a' b'
  | _, _ => false
  end.

(* Index.cpp:589-595, 739-745 *)
Definition add_predicate (lo hi : N) (pat : pattern) (p : N) : pattern :=
  if match pat with [] => true | _ => negb (last pat 0 =? p) end
  then if (p <? lo) || (hi <=? p) then pat ++ [p] else pat
  else pat.

(* HashMap<Pattern, size_t>: map[pat]++ *)
Definition pattern_counts := list (pattern * N).
Fixpoint pcount (m : pattern_counts) (pat : pattern) : pattern_counts :=
  match m with
  | [] => [(pat, 1)]
  | (q, c) :: m' => if pattern_eqb q pat then (q, c + 1) :: m' else (q, c) :: pcount m' pat
  end.

(* Index.cpp:579-599: the first pass *)
Fixpoint first_pass (lo hi : N) (currentSubj : N) (pat : pattern) (m : pattern_counts)
    (ts : list triple) : pattern_counts :=
  match ts with
  | [] => pcount m pat
  | t :: ts' =>
      if subj t =? currentSubj
      then first_pass lo hi currentSubj (add_predicate lo hi pat (pred t)) m ts'
      else first_pass lo hi (subj t) (add_predicate lo hi [] (pred t)) (pcount m pat) ts'
  end.

(* Pattern.h:62-70 operator> *)
Definition pattern_gt (a b : pattern) : bool :=
  match b, a with
  | [], _ => true
  | _, [] => false
  | y :: _, x :: _ => y <? x
  end.
(* Index.cpp:616-621 comparePatternCounts *)
Definition more_frequent (a b : pattern * N) : bool :=
  (snd b <? snd a) || ((snd a =? snd b) && pattern_gt (fst a) (fst b)).

(* Index.cpp:622-651: select the most frequent patterns; `sort` is std::sort with
   comparePatternCounts. None: back() of an empty vector. *)
Fixpoint select (maxNum : nat) (sort : pattern_counts -> pattern_counts) (sp : pattern_counts)
    (entries : pattern_counts) : option pattern_counts :=
  match entries with
  | [] => Some (if (length sp <? maxNum)%nat then sort sp else sp)
  | it :: entries' =>
      if (length sp <? maxNum)%nat then
        let sp1 := sp ++ [it] in
        select maxNum sort (if (length sp1 =? maxNum)%nat then sort sp1 else sp1) entries'
      else match sp with
           | [] => None
           | _ =>
               if more_frequent it (last sp ([], 0)) then
                 let sp1 := removelast sp in
                 match lower_bound (fun i => more_frequent (nth i sp1 ([], 0)) it) 0 (length sp1) with
                 | Some pos => select maxNum sort (firstn pos sp1 ++ it :: skipn pos sp1) entries'
                 | None => None
                 end
               else select maxNum sort sp entries'
           end
  end.

(* Index.cpp:665-669: patternSet *)
Fixpoint index_of (pats : list pattern) (pat : pattern) : option N :=
  match pats with
  | [] => None
  | q :: pats' => if pattern_eqb q pat then Some 0 else option_map N.succ (index_of pats' pat)
  end.

(* entityHasPattern, entityHasPredicate, fullHasPredicateSize *)
Record assoc := { e_pattern : list (N * N); e_predicate : list (N * N); full_size : N }.
Definition empty_assoc := {| e_pattern := []; e_predicate := []; full_size := 0 |}.
(* Index.cpp:702-736, 748-772: one entity *)
Definition assign (pats : list pattern) (a : assoc) (s : N) (pat : pattern) : assoc :=
  match index_of pats pat with
  | None => {| e_pattern := e_pattern a; e_predicate := e_predicate a ++ map (fun p => (s, p)) pat;
               full_size := full_size a + N.of_nat (length pat) |}
  | Some k => {| e_pattern := e_pattern a ++ [(s, k)]; e_predicate := e_predicate a;
                 full_size := full_size a + N.of_nat (length pat) |}
  end.
(* Index.cpp:696-772: the second pass; patternIndex is always pattern.size() *)
Fixpoint second_pass (lo hi : N) (pats : list pattern) (currentSubj : N) (pat : pattern) (a : assoc)
    (ts : list triple) : assoc :=
  match ts with
  | [] => assign pats a currentSubj pat
  | t :: ts' =>
      if subj t =? currentSubj
      then second_pass lo hi pats currentSubj (add_predicate lo hi pat (pred t)) a ts'
      else second_pass lo hi pats (subj t) (add_predicate lo hi [] (pred t)) (assign pats a currentSubj pat) ts'
  end.

(* Index.cpp:836-848, 1054-1065: the lookup vector hasPattern of 32 bit PatternIDs. None: write
   out of bounds. *)
Fixpoint fill_no_pattern (hp : list N) (pos n : nat) : option (list N) :=
  match n with
  | O => Some hp
  | S n' => match list_set hp pos NO_PATTERN with
            | Some hp' => fill_no_pattern hp' (pos + 1) n'
            | None => None
            end
  end.
Fixpoint fill_patterns (hp : list N) (pos : nat) (entries : list (N * N)) : option (list N) :=
  match entries with
  | [] => Some hp
  | (e, k) :: entries' =>
      let n := (N.to_nat e - pos)%nat in
      match fill_no_pattern hp pos n with
      | Some hp1 =>
          match list_set hp1 (pos + n) (k mod 2 ^ 32) with
          | Some hp2 => fill_patterns hp2 (pos + n + 1) entries'
          | None => None
          end
      | None => None
      end
  end.
Definition has_pattern_vector (entries : list (N * N)) : option (list N) :=
  match entries with
  | [] => Some []
  | _ => fill_patterns (repeat 0 (N.to_nat (fst (last entries (0, 0))) + 1)) 0 entries
  end.

(* Index.cpp:850-866, 1067-1084: the lookup vector hasPredicate. `current`: inside the inner while
   loop for that entity; None: at the head of the for loop. The entry at which the inner loop stops
   is skipped by the i++ of the for loop, and everything is added to hasPredicateTmp.back(). *)
Definition push_to_last (tmp : list (list N)) (p : N) : list (list N) :=
  removelast tmp ++ [last tmp [] ++ [p]].
Fixpoint fill_predicates (current : option N) (entries : list (N * N)) (tmp : list (list N))
  : list (list N) :=
  match entries with
  | [] => tmp
  | (e, p) :: entries' =>
      match current with
      | None => fill_predicates (Some e) entries' (push_to_last tmp p)
      | Some c => if e =? c then fill_predicates current entries' (push_to_last tmp p)
                  else fill_predicates None entries' tmp
      end
  end.
Definition has_predicate_vector (entries : list (N * N)) : list (list N) :=
  match entries with
  | [] => []
  | _ => fill_predicates None entries (repeat [] (N.to_nat (fst (last entries (0, 0))) + 1))
  end.

Definition lookup_vectors (a : assoc) (pats : list pattern) : option pattern_index :=
  match has_pattern_vector (e_pattern a) with
  | Some hp => Some {| hasPattern := hp; hasPredicate := has_predicate_vector (e_predicate a);
                       patterns := pats |}
  | None => None
  end.

(* Index.cpp:556-772: the patterns and the association of the entities. `order` is the iteration
   order of patternCounts. *)
Definition find_patterns (lo hi : N) (maxNum : nat) (order sort : pattern_counts -> pattern_counts)
    (ts : list triple) : option (list pattern * assoc) :=
  match ts with
  | [] => Some ([], empty_assoc)
  | t :: _ =>
      match select maxNum sort [] (order (first_pass lo hi (subj t) [] [] ts)) with
      | Some sp => let pats := map fst sp in Some (pats, second_pass lo hi pats (subj t) [] empty_assoc ts)
      | None => None
      end
  end.
Definition create_patterns lo hi maxNum order sort ts : option pattern_index :=
  match find_patterns lo hi maxNum order sort ts with
  | Some (pats, a) => lookup_vectors a pats
  | None => None
  end.

(* ---- the patterns file, Index.cpp:806-831 ---- *)
Definition PATTERNS_FILE_VERSION : N := 0. (* Index.cpp:28 *)
Definition flatten (l : list (N * N)) : list N := flat_map (fun e => [fst e; snd e]) l.
Definition write_patterns (mult1 mult2 : N) (a : assoc) (pats : csv) : list N :=
  le 1 255 ++ le 4 PATTERNS_FILE_VERSION ++ le 8 mult1 ++ le 8 mult2 ++ le 8 (full_size a) ++
  le 8 (N.of_nat (length (e_pattern a))) ++ words 8 (flatten (e_pattern a)) ++
  le 8 (N.of_nat (length (e_predicate a))) ++ words 8 (flatten (e_predicate a)) ++
  csv_write pats.

Fixpoint pairs (l : list N) : list (N * N) :=
  match l with x :: y :: l' => (x, y) :: pairs l' | _ => [] end.
Fixpoint all_some {A} (l : list (option A)) : option (list A) :=
  match l with
  | [] => Some []
  | Some x :: l' => option_map (cons x) (all_some l')
  | None :: _ => None
  end.
(* Index.cpp:1002-1086. None: wrong version (exception), short read or access out of bounds. *)
Definition read_patterns (file : list N) : option (N * N * N * pattern_index) :=
  match load_word file 0 1, load_word file 1 4, load_word file 5 8, load_word file 13 8,
        load_word file 21 8, load_word file 29 8 with
  | Some firstByte, Some version, Some mult1, Some mult2, Some fullSize, Some n1 =>
      if negb (version =? PATTERNS_FILE_VERSION) || negb (firstByte =? 255) then None
      else
        let k1 := N.to_nat n1 in
        match load_words file 37 8 (k1 * 2), load_word file (37 + k1 * 16) 8 with
        | Some ws1, Some n2 =>
            let k2 := N.to_nat n2 in
            match load_words file (37 + k1 * 16 + 8) 8 (k2 * 2),
                  csv_load 8 file (37 + k1 * 16 + 8 + k2 * 16) with
            | Some ws2, Some c =>
                match all_some (map (csv_get 8 8 c) (seq 0 (c_size c))) with
                | Some pats =>
                    match lookup_vectors {| e_pattern := pairs ws1; e_predicate := pairs ws2;
                                            full_size := fullSize |} pats with
                    | Some ix => Some (mult1, mult2, fullSize, ix)
                    | None => None
                    end
                | None => None
                end
            | _, _ => None
            end
        | _, _ => None
        end
  | _, _, _, _, _, _ => None
  end.
