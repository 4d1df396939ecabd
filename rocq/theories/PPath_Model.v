(* Property paths: the parser for their text (parser/PropertyPathParser.cpp), the flag for paths that
   can be empty (parser/ParsedQuery.cpp) and the graph pattern that the planner makes of a path
   (engine/QueryPlanner.cpp). Texts are lists of bytes.
   Simplified: the texts of the exceptions, and the positions of the tokens that only occur in them,
   are left out. *)
From Coq Require Import List Arith NArith Bool.
From Verif Require Import Conv_Model Keys_Model.
Import ListNotations.
Open Scope N_scope.

(* parser/ParsedQuery.h:35-43 *)
Inductive operation := SEQUENCE | ALTERNATIVE | TRANSITIVE | TRANSITIVE_MIN | TRANSITIVE_MAX | INVERSE | IRI.
(* parser/ParsedQuery.h:67-80: _operation, _limit, _iri, _children, _can_be_null *)
Inductive path := Path (o : operation) (limit : N) (iri : list N) (children : list path) (null : bool).
(* parser/ParsedQuery.h:51-52 *)
Definition node (o : operation) (limit : N) (children : list path) : path := Path o limit [] children false.
Definition leaf (iri : list N) : path := Path IRI 0 iri [] false.

(* What a call ends in: a value, an exception of the parser (ParseException), an exception of
   std::stoi, an exception of the planner, undefined behaviour, or too little fuel. *)
Inductive result (A : Type) :=
| Val (a : A) | ParseError | StoiError | PlanError | Undefined | Fuel.
Arguments Val {A}. Arguments ParseError {A}. Arguments StoiError {A}. Arguments PlanError {A}.
Arguments Undefined {A}. Arguments Fuel {A}.
Definition bind {A B} (r : result A) (f : A -> result B) : result B :=
  match r with
  | Val a => f a | ParseError => ParseError | StoiError => StoiError | PlanError => PlanError
  | Undefined => Undefined | Fuel => Fuel
  end.

Definition QUESTION : N := 63. Definition STAR : N := 42. Definition PLUS : N := 43. Definition SLASH : N := 47.
Definition BAR : N := 124. Definition OPEN : N := 40. Definition CLOSE : N := 41. Definition CARET : N := 94.
Definition LESS : N := 60. Definition GREATER : N := 62. Definition BACKSLASH : N := 92.

(* parser/PropertyPathParser.cpp:111-119 *)
Definition delimiter (c : N) : bool :=
  (c =? QUESTION) || (c =? STAR) || (c =? PLUS) || (c =? SLASH) || (c =? BAR) || (c =? OPEN) || (c =? CLOSE) || (c =? CARET).
(* 121-128. std::isgraph in the "C" locale *)
Definition isgraph (c : N) : bool := (33 <=? c) && (c <=? 126).
Definition valid (c : N) : bool := delimiter c || ((c <? 128) && isgraph c).
(* std::isdigit *)
Definition isdigit (c : N) : bool := (48 <=? c) && (c <=? 57).
Fixpoint digits (l : list N) : list N * list N :=
  match l with
  | c :: l' => if isdigit c then let '(ds, r) := digits l' in (c :: ds, r) else ([], l)
  | [] => ([], [])
  end.

(* 82-97: the loop over a run of delimiters. `first` is the variable c, which is not changed by the
   loop; `rest` is the text from pos (= start) on. The tokens found and the text that is left. *)
Fixpoint delimiter_run (fuel : nat) (first : N) (rest : list N) : result (list (list N) * list N) :=
  match fuel with
  | O => Fuel
  | S fuel' =>
      match rest with
      | d :: rest' =>
          if delimiter d then
            let '(ds, rest'') := if first =? STAR then digits rest' else ([], rest') in
            bind (delimiter_run fuel' first rest'') (fun '(tokens, r) => Val ((d :: ds) :: tokens, r))
          else Val ([], rest)
      | [] => Val ([], [])
      end
  end.

(* 52-106: the main loop. `at_start` is pos == 0, `cur` the text from start to pos, `rest` the text
   from pos on. *)
Fixpoint tokenize_loop (fuel : nat) (at_start inside_iri escaped : bool) (cur rest : list N) (tokens : list (list N))
  : result (list (list N)) :=
  match fuel with
  | O => Fuel
  | S fuel' =>
      match rest with
      | [] => Val (match cur with [] => tokens | _ => tokens ++ [cur] end)
      | c :: rest' =>
          if negb (valid c) then ParseError
          else
            let inside_iri := if c =? LESS then true else if c =? GREATER then false else inside_iri in
            if negb inside_iri && (c =? BACKSLASH) then
              tokenize_loop fuel' false inside_iri (negb escaped) (cur ++ [c]) rest' tokens
            else if negb inside_iri && delimiter c && escaped then
              tokenize_loop fuel' false inside_iri false (cur ++ [c]) rest' tokens
            else if negb inside_iri && delimiter c && (negb at_start || negb (c =? QUESTION)) then
              let tokens := match cur with [] => tokens | _ => tokens ++ [cur] end in
              bind (delimiter_run fuel' c rest) (fun '(run, rest'') =>
                tokenize_loop fuel' false inside_iri false [] rest'' (tokens ++ run))
            else tokenize_loop fuel' false inside_iri false (cur ++ [c]) rest' tokens
      end
  end.
(* 38-107 *)
Definition tokenize (str : list N) : result (list (list N)) :=
  tokenize_loop (length str + 2) true false false [] str [].

(* 211: std::stoi on a text without signs and spaces: the leading digits; it throws if there are none
   or if the value does not fit into an int *)
Definition stoi (s : list N) : result N :=
  match digits s with
  | ([], _) => StoiError
  | (ds, _) =>
      let n := fold_left (fun a d => a * 10 + (d - 48)) ds 0 in
      if n <? 2 ^ 31 then Val n else StoiError
  end.

Definition tokens := list (list N).
(* 238-244 *)
Definition accept (token : list N) (ts : tokens) : option tokens :=
  match ts with
  | t :: ts' => if text_eqb t token then Some ts' else None
  | [] => None
  end.
(* 138-141, 158-162: items with a separator between them *)
Fixpoint items (fuel : nat) (separator : list N) (item : tokens -> result (path * tokens)) (acc : list path) (ts : tokens)
  : result (list path * tokens) :=
  match fuel with
  | O => Fuel
  | S fuel' =>
      bind (item ts) (fun '(p, ts') =>
        match accept separator ts' with
        | Some ts'' => items fuel' separator item (acc ++ [p]) ts''
        | None => Val (acc ++ [p], ts')
        end)
  end.
(* 143-149, 164-170 *)
Definition one_or (o : operation) (paths : list path) : path :=
  match paths with [p] => p | _ => node o 0 paths end.
(* 187-217, with pathPrimary as an argument *)
Definition pathElt (primary : tokens -> result (path * tokens)) (ts : tokens) : result (path * tokens) :=
  bind (primary ts) (fun '(child, ts1) =>
    match ts1 with
    | [] => Val (child, [])
    | t :: ts2 =>
        if text_eqb t [QUESTION] then Val (node TRANSITIVE_MAX 1 [child], ts2)
        else if text_eqb t [STAR] then Val (node TRANSITIVE 0 [child], ts2)
        else if text_eqb t [PLUS] then Val (node TRANSITIVE_MIN 1 [child], ts2)
        else match t with
             | c :: count => if c =? STAR then bind (stoi count) (fun n => Val (node TRANSITIVE_MAX n [child], ts2)) else Val (child, ts1)
             | [] => Val (child, ts1)
             end
    end).
(* 174-184 *)
Definition pathEltOrInverse (elt : tokens -> result (path * tokens)) (ts : tokens) : result (path * tokens) :=
  match accept [CARET] ts with
  | Some ts' => bind (elt ts') (fun '(p, ts'') => Val (node INVERSE 0 [p], ts''))
  | None => elt ts
  end.
(* 153-171 *)
Definition pathSequence (fuel : nat) (eltOrInverse : tokens -> result (path * tokens)) (ts : tokens) : result (path * tokens) :=
  bind (items fuel [SLASH] eltOrInverse [] ts) (fun '(paths, ts') => Val (one_or SEQUENCE paths, ts')).
(* 220-235 *)
Definition pathPrimary (inner : tokens -> result (path * tokens)) (ts : tokens) : result (path * tokens) :=
  match ts with
  | [] => ParseError
  | t :: ts' =>
      if text_eqb t [OPEN] then
        bind (inner ts') (fun '(p, ts'') =>
          match accept [CLOSE] ts'' with
          | Some ts3 => Val (p, ts3)
          | None => ParseError
          end)
      else Val (leaf t, ts')
  end.
(* 132-150 *)
Fixpoint parse_path (fuel : nat) (ts : tokens) : result (path * tokens) :=
  match fuel with
  | O => Fuel
  | S fuel' =>
      bind (items fuel' [BAR] (pathSequence fuel' (pathEltOrInverse (pathElt (pathPrimary (parse_path fuel'))))) [] ts)
        (fun '(paths, ts') => Val (one_or ALTERNATIVE paths, ts'))
  end.

(* parser/ParsedQuery.cpp:182-193 *)
Fixpoint computeCanBeNull (p : path) : path :=
  match p with
  | Path o limit iri children _ =>
      let children := map computeCanBeNull children in
      let all := match children with [] => false | _ => forallb (fun '(Path _ _ _ _ null) => null) children end in
      Path o limit iri children
        (match o with
         | TRANSITIVE | TRANSITIVE_MAX => true
         | TRANSITIVE_MIN => (limit =? 0) || all
         | _ => all
         end)
  end.
Definition can_be_null (p : path) : bool := match p with Path _ _ _ _ null => null end.

(* parser/PropertyPathParser.cpp:25-35 *)
Definition parse (str : list N) : result path :=
  bind (tokenize str) (fun ts =>
    bind (parse_path (length ts + 2) ts) (fun '(p, rest) =>
      match rest with [] => Val (computeCanBeNull p) | _ => ParseError end)).

(* The graph patterns that occur (parser/ParsedQuery.h): a graph pattern is a list of operations, a
   basic pattern here has one triple. *)
Inductive operation_ :=
| Basic (s : list N) (p : path) (o : list N)
| Union (a b : list operation_)
| TransPath (left right innerLeft innerRight : list N) (min max : N) (child : list operation_).
Definition pattern := list operation_.

(* engine/QueryPlanner.cpp:1821-1823. The counter is passed along. *)
Definition uniqueVarName (n : N) : list N := [QUESTION; 58] ++ decimal n.
(* the largest size_t *)
Definition SIZE_MAX : N := 2 ^ 64 - 1.

(* what a call of seedFromPropertyPath does for a fixed path *)
Definition seeder := list N -> list N -> N -> result (pattern * N).

(* 1548-1561: the end of the chunk. `size reached`, the index, and whether there is a child that can
   not be null. *)
Fixpoint chunk_end (has_null has_non_null : bool) (end_ : nat) (nulls : list bool) : bool * nat * bool :=
  match nulls with
  | [] => (true, end_, has_non_null)
  | true :: nulls' => chunk_end true has_non_null (S end_) nulls'
  | false :: nulls' => if has_null && has_non_null then (false, (end_ - 1)%nat, has_non_null) else chunk_end has_null true (S end_) nulls'
  end.
Definition set_last_end (e : nat) (chunks : list (nat * nat)) : list (nat * nat) :=
  match rev chunks with (a, _) :: r => rev r ++ [(a, e)] | [] => [] end.
(* 1542-1574 *)
Fixpoint nonNullChunks (fuel : nat) (nulls : list bool) (start : nat) (chunks : list (nat * nat)) : result (list (nat * nat)) :=
  match fuel with
  | O => Fuel
  | S fuel' =>
      if (start <? length nulls)%nat then
        let '(wasAtEnd, e, has_non_null) := chunk_end false false start (skipn start nulls) in
        let e := if wasAtEnd then (e - 1)%nat else e in
        let chunks' :=
          if wasAtEnd && match chunks with [] => false | _ => true end && negb has_non_null then set_last_end (S e) chunks
          else chunks ++ [(start, S e)] in
        nonNullChunks fuel' nulls (S e) chunks'
      else Val chunks
  end.

(* 1620-1621: the bit masks from 0 on, as lists of their bits, lowest first *)
Fixpoint bitmasks (k : nat) : list (list bool) :=
  match k with
  | O => [[]]
  | S k' => flat_map (fun high => [false :: high; true :: high]) (bitmasks k')
  end.
(* 1623-1629: the children of a chunk included for a mask. The bit of a child that can be null is the
   number of such children before it. *)
Fixpoint included {A} (mask : list bool) (children : list (bool * A)) : list A :=
  match children with
  | [] => []
  | (false, f) :: children' => f :: included mask children'
  | (true, f) :: children' =>
      match mask with
      | b :: mask' => if b then f :: included mask' children' else included mask' children'
      | [] => included [] children'
      end
  end.
(* 1634-1657: the included children one after the other, with new variables between them *)
Fixpoint join_children (l : list N) (fs : list seeder) (right : list N) (n : N) : result (pattern * N) :=
  match fs with
  | [] => Val ([], n)
  | [f] => f l right n
  | f :: fs' =>
      let r := uniqueVarName n in
      bind (f l r (n + 1)) (fun '(child, n1) =>
        bind (join_children r fs' right n1) (fun '(p, n2) => Val (child ++ p, n2)))
  end.
(* 1621-1659 *)
Fixpoint join_patterns (left right : list N) (children : list (bool * seeder)) (masks : list (list bool)) (n : N)
  : result (list pattern * N) :=
  match masks with
  | [] => Val ([], n)
  | m :: masks' =>
      match included m children with
      | [] => join_patterns left right children masks' n
      | fs =>
          bind (join_children left fs right n) (fun '(p, n1) =>
            bind (join_patterns left right children masks' n1) (fun '(ps, n2) => Val (p :: ps, n2)))
      end
  end.
(* 1803-1818. patterns[0] and patterns[1] have to exist. *)
Definition uniteGraphPatterns (patterns : list pattern) : result pattern :=
  match patterns with
  | p0 :: p1 :: ps => Val (fold_left (fun p q => [Union p q]) ps [Union p0 p1])
  | _ => Undefined
  end.
(* 1588-1666, one chunk. The variables chunkLeft and chunkRight (1590-1591) are not used. The vector
   null_child_indices has one element per child of the chunk but is indexed by the number of the
   child in the whole sequence (1603, 1626). *)
Definition chunk_pattern (left right : list N) (children : list (bool * seeder)) (chunk : nat * nat) (n : N)
  : result (pattern * N) :=
  let '(a, b) := chunk in
  let here := firstn (b - a) (skipn a children) in
  let num_null_children := length (filter fst here) in
  if existsb (fun '(i, (null, _)) => null && (b - a <=? i)%nat) (combine (seq a (b - a)) here) then Undefined
  else if (10 <? num_null_children)%nat then PlanError
  else bind (join_patterns left right here (bitmasks num_null_children) n) (fun '(ps, n1) =>
         match ps with
         | [p] => Val (p, n1)
         | _ => bind (uniteGraphPatterns ps) (fun p => Val (p, n1))
         end).
Fixpoint chunk_patterns (left right : list N) (children : list (bool * seeder)) (chunks : list (nat * nat)) (n : N)
  : result (list pattern * N) :=
  match chunks with
  | [] => Val ([], n)
  | c :: chunks' =>
      bind (chunk_pattern left right children c n) (fun '(p, n1) =>
        bind (chunk_patterns left right children chunks' n1) (fun '(ps, n2) => Val (p :: ps, n2)))
  end.
(* 1526-1684. A sequence with one child calls itself without an end (1536). 1576-1582 use up one
   number per inner connection variable. *)
Definition seedFromSequence (left right : list N) (children : list (bool * seeder)) (n : N) : result (pattern * N) :=
  match children with
  | [] => PlanError
  | [_] => Undefined
  | _ =>
      bind (nonNullChunks (length children + 1) (map fst children) 0 []) (fun chunks =>
        bind (chunk_patterns left right children chunks (n + N.of_nat (length chunks - 1))) (fun '(ps, n1) =>
          match ps with
          | [p] => Val (p, n1)
          | _ => Val (fold_left (fun fp p => p ++ fp) ps [], n1)
          end))
  end.
(* 1703-1705 *)
Fixpoint seed_all (left right : list N) (fs : list seeder) (n : N) : result (list pattern * N) :=
  match fs with
  | [] => Val ([], n)
  | f :: fs' =>
      bind (f left right n) (fun '(p, n1) =>
        bind (seed_all left right fs' n1) (fun '(ps, n2) => Val (p :: ps, n2)))
  end.
(* 1687-1715 *)
Definition seedFromAlternative (left right : list N) (children : list seeder) (n : N) : result (pattern * N) :=
  match children with
  | [] => PlanError
  | [_] => Undefined
  | _ => bind (seed_all left right children n) (fun '(ps, n1) => bind (uniteGraphPatterns ps) (fun p => Val (p, n1)))
  end.
(* 1718-1781 *)
Definition seedTrans (left right : list N) (children : list seeder) (min max : N) (n : N) : result (pattern * N) :=
  match children with
  | [] => Undefined
  | f :: _ =>
      let innerLeft := uniqueVarName n in
      let innerRight := uniqueVarName (n + 1) in
      bind (f innerLeft innerRight (n + 2)) (fun '(child, n1) =>
        Val ([TransPath left right innerLeft innerRight min max child], n1))
  end.
(* 1784-1788 *)
Definition seedFromInverse (left right : list N) (children : list seeder) (n : N) : result (pattern * N) :=
  match children with [] => Undefined | f :: _ => f right left n end.

(* 1500-1523, 1791-1801 *)
Fixpoint seedFromPropertyPath (p : path) : seeder :=
  match p with
  | Path o limit iri children null =>
      let seeds := map (fun c => (can_be_null c, seedFromPropertyPath c)) children in
      let fs := map snd seeds in
      fun left right n =>
        match o with
        | ALTERNATIVE => seedFromAlternative left right fs n
        | INVERSE => seedFromInverse left right fs n
        | IRI => Val ([Basic left p right], n)
        | SEQUENCE => seedFromSequence left right seeds n
        | TRANSITIVE => seedTrans left right fs 1 SIZE_MAX n
        | TRANSITIVE_MAX => seedTrans left right fs 1 limit n
        | TRANSITIVE_MIN => seedTrans left right fs (N.max 1 limit) SIZE_MAX n
        end
  end.
(* 1479-1489: the pattern for a triple; n is _internalVarCount *)
Definition seedFromPropertyPathTriple (s : list N) (p : path) (o : list N) (n : N) : result (pattern * N) :=
  if can_be_null p then PlanError else seedFromPropertyPath p s o n.
