(* Model of the text index: src/index/Index.Text.cpp 118-306 (collecting the postings of a
   context file and writing the index), 390-443 (blocks), 532-694 and 796-874 (reading the
   postings of a term); src/index/TextMetaData.h, TextMetaData.cpp (the metadata and its bytes);
   StxxlSortFunctors.h 145-166 (the order of the postings).
   - Words and entities are ids: the look-ups in the two vocabularies are not part of this model.
     A line of the context file holds the id, `None` for an entity that is not in the knowledge
     base (Index.Text.cpp:160-170).
   - A hash map or set is a list of entries in the order of insertion. The order in which it is
     iterated does not matter: what depends on it is sorted afterwards, and the sorted vector is
     a relation (any permutation) in the theorems.
   - `TextVec v(nofLines)` (line 20) has nofLines default entries that are overwritten; that
     there are at least as many postings as lines is not modelled.
   - Files are lists of bytes; writing does not fail. off_t and size_t have 8 bytes. *)
From Coq Require Import List NArith Arith Bool.
From Verif Require Import Bytes Std_Model Fts_Model Postings_Model.
Import ListNotations.
Open Scope N_scope.

Definition rbind {A B} (r : result A) (f : A -> result B) : result B :=
  match r with Done a => f a | Throw => Throw | Overrun => Overrun | Hang => Hang end.
(* FTSAlgorithms; out of fuel does not happen (C04) *)
Definition of_fts {A} (o : outcome A) : result A :=
  match o with Ok a => Done a | Oob => Overrun | Fuel => Overrun end.

(* ---- collecting the postings ---- *)

(* ContextFileParser.h: a line of the context file with its ids *)
Record line := mk_line { ln_cid : N; ln_entity : bool; ln_id : option N; ln_score : N }.
(* the words and entities of a context with their scores *)
Record context := mk_context { c_id : N; c_words : list (N * N); c_ents : list (N * N) }.

(* entitiesInContext[eid] += line._score (161, 184): scores have 16 bits, a new entry is 0 *)
Fixpoint add_score (id s : N) (m : list (N * N)) : list (N * N) :=
  match m with
  | [] => [(id, add16 0 s)]
  | (id', s') :: m' => if id' =? id then (id', add16 s' s) :: m' else (id', s') :: add_score id s m'
  end.

(* Lines 157-185 *)
Definition take_line (l : line) (c : context) : context :=
  match ln_id l with
  | None => c
  | Some i =>
      if ln_entity l then mk_context (c_id c) (c_words c) (add_score i (ln_score l) (c_ents c))
      else mk_context (c_id c) (add_score i (ln_score l) (c_words c)) (c_ents c)
  end.
(* Lines 142-192, passContextFileIntoVector: the contexts given to addContextToVector *)
Fixpoint pass_loop (cur : context) (lines : list line) : list context :=
  match lines with
  | [] => [cur]
  | l :: lines' =>
      if ln_cid l =? c_id cur then pass_loop (take_line l cur) lines'
      else cur :: pass_loop (take_line l (mk_context (ln_cid l) [] [])) lines'
  end.
Definition passContextFile (lines : list line) : list context :=
  pass_loop (mk_context 0 [] []) lines.

(* Lines 428-443; the bounds are _blockBoundaries *)
Definition below (bounds : list N) (w : N) (i : nat) : bool := nth i bounds 0 <? w.
Definition getWordBlockId (bounds : list N) (w : N) : N :=
  match lower_bound (below bounds w) 0 (length bounds) with
  | Some i => N.of_nat i
  | None => 0
  end.
Definition getEntityBlockId (bounds : list N) (e : N) : N := add64 e (N.of_nat (length bounds)).
Definition isEntityBlockId (bounds : list N) (b : N) : bool := N.of_nat (length bounds) <=? b.

(* tuple<Id, Id, Id, Score, bool> *)
Record entry := mk_entry
  { t_block : N; t_cid : N; t_word : N; t_score : N; t_ent : bool }.
(* Lines 202-235, addContextToVector *)
Definition touchedBlocks (bounds : list N) (c : context) : list N :=
  nodup N.eq_dec (map (fun w => getWordBlockId bounds (fst w)) (c_words c) ++
                  map (fun e => getEntityBlockId bounds (fst e)) (c_ents c)).
Definition addContextToVector (bounds : list N) (c : context) : list entry :=
  map (fun w => mk_entry (getWordBlockId bounds (fst w)) (c_id c) (fst w) (snd w) false) (c_words c) ++
  map (fun e => mk_entry (getEntityBlockId bounds (fst e)) (c_id c) (fst e) (snd e) false) (c_ents c) ++
  flat_map (fun b => map (fun e => mk_entry b (c_id c) (fst e) (snd e) true) (c_ents c))
           (touchedBlocks bounds c).
Definition text_vec (bounds : list N) (cs : list context) : list entry :=
  flat_map (addContextToVector bounds) cs.

(* StxxlSortFunctors.h:145-166, SortText *)
Definition text_less (a b : entry) : bool :=
  if t_block a =? t_block b then
    if Bool.eqb (t_ent a) (t_ent b) then
      if t_cid a =? t_cid b then
        if t_word a =? t_word b then t_score a <? t_score b
        else t_word a <? t_word b
      else t_cid a <? t_cid b
    else negb (t_ent a)
  else t_block a <? t_block b.

(* ---- writing the index ---- *)

(* TextMetaData.h:54-76, TextBlockMetaData *)
Record block := mk_block { b_first : N; b_last : N; b_cl : list_meta; b_ecl : list_meta }.
(* what has been written: the file, the blocks, nofEntities and nofEntityContexts *)
Record written := mk_written
  { o_file : list N; o_blocks : list block; o_ents : N; o_ectxs : N }.

Section Create.
  (* The codebooks createCodebooks arrives at for a list of words or scores; `nat` is the
     position in the file, so that no two calls need to agree. *)
  Variables wbook sbook : nat -> list N -> list N.
  Variable bounds : list N.

  Definition write_list (out : list N) (ps : list posting) (skip : bool)
    : result (list N * list_meta) :=
    match writePostings (length out) ps skip (wbook (length out) (map p_eid ps))
            (sbook (length out) (map p_score ps)) with
    | Some (bytes, m) => Done (out ++ bytes, m)
    | None => Overrun
    end.

  (* Lines 253-261 and 283-292: write one block *)
  Definition write_block (cur mn mx : N) (classic ents : list posting) (w : written)
    : result written :=
    match classic with
    | [] => Throw
    | _ =>
        rbind (write_list (o_file w) classic true) (fun '(f1, m1) =>
        rbind (write_list f1 ents false) (fun '(f2, m2) =>
          let e := isEntityBlockId bounds cur in
          Done (mk_written f2 (o_blocks w ++ [mk_block mn mx m1 m2])
                  (if e then o_ents w + 1 else o_ents w)
                  (if e then o_ectxs w + N.of_nat (length classic) else o_ectxs w))))
    end.

  (* Lines 251-292, the loop of createTextIndex *)
  Fixpoint index_loop (vec : list entry) (cur mn mx : N) (classic ents : list posting)
      (w : written) : result written :=
    match vec with
    | [] => write_block cur mn mx classic ents w
    | l :: vec' =>
        let p := (t_cid l, t_word l, t_score l) in
        let add cur mn mx classic ents w :=
          if t_ent l then index_loop vec' cur mn mx classic (ents ++ [p]) w
          else index_loop vec' cur (if t_word l <? mn then t_word l else mn)
                 (if mx <? t_word l then t_word l else mx) (classic ++ [p]) ents w in
        if t_block l =? cur then add cur mn mx classic ents w
        else rbind (write_block cur mn mx classic ents w) (fun w' =>
               add (t_block l) (t_word l) (t_word l) [] [] w')
    end.
End Create.

(* TextMetaData.cpp:163-171, 141-146: the bytes of the metadata of a block. _lastByte is l_end - 1. *)
Definition cl_words (m : list_meta) : list N :=
  [N.of_nat (l_count m); N.of_nat (l_contexts m); N.of_nat (l_words m); N.of_nat (l_scores m);
   sub64 (N.of_nat (l_end m)) 1].
Definition block_words (b : block) : list N :=
  b_first b :: b_last b :: cl_words (b_cl b) ++ cl_words (b_ecl b).

(* TextMetaData as it is used: the blocks, _blockUpperBoundWordIds, _blockUpperBoundEntityIds, the
   five numbers _nofEntities, _nofEntityContexts, _nofTextRecords, _nofWordPostings,
   _nofEntityPostings, and the name. *)
Record text_meta := mk_text_meta
  { m_blocks : list block; m_words : list N; m_ents : list N; m_stats : list N; m_name : list N }.
(* 84-99 *)
Definition meta_bytes (blocks : list block) (stats name : list N) : list N :=
  le 8 (N.of_nat (length blocks)) ++ flat_map (fun b => words 8 (block_words b)) blocks ++
  words 8 stats ++ le 8 (N.of_nat (length name)) ++ name.

(* 265-267 *)
Definition getOffsetAfter (blocks : list block) : result N :=
  match rev blocks with [] => Overrun | b :: _ => Done (N.of_nat (l_end (b_ecl b))) end.

(* Lines 238-306, createTextIndex, with the numbers set in lines 193-195 (nofs) and 293-294 *)
Definition createTextIndex (wbook sbook : nat -> list N -> list N) (bounds : list N)
    (vec : list entry) (nofs name : list N) : result (list N) :=
  rbind (index_loop wbook sbook bounds vec 0 (2 ^ 64 - 1) 0 [] [] (mk_written [] [] 0 0)) (fun w =>
  rbind (getOffsetAfter (o_blocks w)) (fun off =>
  Done (o_file w ++ meta_bytes (o_blocks w) (o_ents w :: o_ectxs w :: nofs) name ++ le 8 off))).

(* ---- loading the metadata ---- *)

(* TextMetaData.cpp:174-187 *)
Definition cl_of_words (ws : list N) : option list_meta :=
  match ws with
  | [n; c; w; s; l] =>
      Some (mk_list_meta (N.to_nat n) (N.to_nat c) (N.to_nat w) (N.to_nat s) (N.to_nat (add64 l 1)))
  | _ => None
  end.
(* 149-160 *)
Definition read_block (buf : list N) (off : nat) : result block :=
  match load_word buf off 8, load_word buf (off + 8) 8,
        load_words buf (off + 16) 8 5, load_words buf (off + 56) 8 5 with
  | Some f, Some l, Some c, Some e =>
      match cl_of_words c, cl_of_words e with
      | Some c, Some e => Done (mk_block f l c e)
      | _, _ => Overrun
      end
  | _, _, _, _ => Overrun
  end.
(* 106-122; the flag is stepEntity *)
Fixpoint read_blocks (n : nat) (buf : list N) (off : nat) (step : bool) (m : text_meta)
  : result (nat * text_meta) :=
  match n with
  | O => Done (off, m)
  | S n' =>
      rbind (read_block buf off) (fun b =>
      let is_word := negb step &&
        match rev (m_blocks m) with [] => true | p :: _ => add64 (b_last p) 1 =? b_first b end in
      read_blocks n' buf (off + 96) (negb is_word)
        (if is_word
         then mk_text_meta (m_blocks m ++ [b]) (m_words m ++ [b_last b]) (m_ents m) [] []
         else mk_text_meta (m_blocks m ++ [b]) (m_words m) (m_ents m ++ [b_last b]) [] []))
  end.
(* 102-138 *)
Definition createFromByteBuffer (buf : list N) : result text_meta :=
  match load_word buf 0 8 with
  | None => Overrun
  | Some n =>
      rbind (read_blocks (N.to_nat n) buf 8 false (mk_text_meta [] [] [] [] [])) (fun '(off, m) =>
      match load_words buf off 8 5, load_word buf (off + 40) 8 with
      | Some stats, Some len =>
          match load buf (off + 48) (N.to_nat len) with
          | Some name => Done (mk_text_meta (m_blocks m) (m_words m) (m_ents m) stats name)
          | None => Overrun
          end
      | _, _ => Overrun
      end)
  end.
(* Index.Text.cpp:73-80; File::getLastOffset (util/File.h:245-252) *)
Definition load_text_meta (file : list N) : result text_meta :=
  if Nat.ltb (length file) 8 then Hang else
  let to := (length file - 8)%nat in
  match load_word file to 8 with
  | None => Hang
  | Some from =>
      if Nat.ltb to (N.to_nat from) then Overrun else
      match load file (N.to_nat from) (to - N.to_nat from) with
      | None => Hang
      | Some buf => createFromByteBuffer buf
      end
  end.

(* ---- finding blocks ---- *)

Definition find (l : list N) (x : N) : nat :=
  match lower_bound (below l x) 0 (length l) with Some i => i | None => 0%nat end.
Definition get_block (m : text_meta) (i : nat) : result block :=
  match nth_error (m_blocks m) i with Some b => Done b | None => Overrun end.

(* TextMetaData.cpp:10-44 *)
Definition getBlockInfoByWordRange (m : text_meta) (lower upper : N) : result block :=
  if upper <? lower then Throw else
  let it := find (m_words m) lower in
  let it := if Nat.eqb it (length (m_words m)) then (it - 1)%nat else it in
  match nth_error (m_words m) it with
  | None => Overrun
  | Some bound => if bound <? upper then Throw else get_block m it
  end.
(* 47-57: the iterator is dereferenced even if it is at the end *)
Definition existsTextBlockForEntityId (m : text_meta) (e : N) : result bool :=
  match nth_error (m_ents m) (find (m_ents m) e) with
  | None => Overrun
  | Some x => Done (x =? e)
  end.
(* 60-78; the assertions are off in a release build *)
Definition getBlockInfoByEntityId (m : text_meta) (e : N) : result block :=
  get_block m (find (m_ents m) e + length (m_words m))%nat.

(* ---- the postings of a term ---- *)

(* A term after the look-up in the vocabularies: a word or prefix with its range of word ids, an
   entity, or something not in the vocabulary. *)
Inductive term := Words (lo hi : N) | Entity (e : N) | Unknown.

Definition term_range (t : term) : N * N :=
  match t with Words lo hi => (lo, hi) | Entity e => (e, e) | Unknown => (0, 0) end.
Definition term_block (m : text_meta) (t : term) : result block :=
  match t with
  | Words lo hi => getBlockInfoByWordRange m lo hi
  | Entity e => getBlockInfoByEntityId m e
  | Unknown => Throw
  end.
Definition full_block (b : block) (t : term) : bool :=
  (b_first b =? fst (term_range t)) && (b_last b =? snd (term_range t)).
(* three vectors of the same length *)
Definition zip3 (a b c : list N) : list posting := combine (combine a b) c.

(* Index.Text.cpp:573-635 *)
Definition getWordPostingsForTerm (file : list N) (m : text_meta) (t : term)
  : result (list (N * N)) :=
  match t with
  | Unknown => Done []
  | _ =>
      rbind (match t with Entity e => existsTextBlockForEntityId m e | _ => Done true end) (fun known =>
      if negb known then Done [] else
      rbind (term_block m t) (fun b =>
      rbind (read_contexts file (b_cl b)) (fun cids =>
      if hasMultipleWords (b_cl b) && negb (full_block b t) then
        rbind (read_word_ids file (b_cl b)) (fun wids =>
        rbind (read_scores file (b_cl b)) (fun scores =>
          Done (filterByRange (fst (term_range t)) (snd (term_range t)) (zip3 cids wids scores))))
      else
        rbind (read_scores file (b_cl b)) (fun scores => Done (combine cids scores)))))
  end.

Definition read_entity_list (file : list N) (b : block) : result (list posting) :=
  rbind (read_contexts file (b_ecl b)) (fun cids =>
  rbind (read_word_ids file (b_ecl b)) (fun eids =>
  rbind (read_scores file (b_ecl b)) (fun scores => Done (zip3 cids eids scores)))).
(* Index.Text.cpp:796-874 *)
Definition getEntityPostingsForTerm (file : list N) (m : text_meta) (t : term)
  : result (list posting) :=
  match t with
  | Unknown => Done []
  | _ =>
      rbind (term_block m t) (fun b =>
      if negb (hasMultipleWords (b_cl b)) || full_block b t then read_entity_list file b
      else
        rbind (getWordPostingsForTerm file m t) (fun matching =>
        rbind (read_entity_list file b) (fun block =>
          of_fts (intersect [] (map fst matching) block))))
  end.

(* the word postings of several terms *)
Fixpoint all_word_postings (file : list N) (m : text_meta) (ts : list term)
  : result (list (list (N * N))) :=
  match ts with
  | [] => Done []
  | t :: ts' =>
      rbind (getWordPostingsForTerm file m t) (fun p =>
      rbind (all_word_postings file m ts') (fun ps => Done (p :: ps)))
  end.

(* Index.Text.cpp:532-571, getContextListForWords: rows of context and score *)
Definition getContextListForWords (file : list N) (m : text_meta) (ts : list term)
  : result (list (N * N)) :=
  match ts with
  | [] => Throw
  | [t] => getWordPostingsForTerm file m t
  | _ =>
      rbind (all_word_postings file m ts) (fun pss =>
      match pss with
      | [p1; p2] => of_fts (context_list_two_words (map fst p1) (map snd p1) (map fst p2) (map snd p2))
      | _ => rbind (of_fts (intersectKWay [] (map (map fst) pss) (map (map snd) pss) None)) (fun out =>
               Done (map (fun p => (p_cid p, p_score p)) out))
      end)
  end.

(* Index.Text.cpp:638-694, getContextEntityScoreListsForWords. `use` is the index chosen by
   getIndexOfBestSuitedElTerm (1155-1211), which is any index in the theorems. *)
Definition remove_nth {A} (i : nat) (l : list A) : list A := firstn i l ++ skipn (S i) l.
Definition getContextEntityScoreListsForWords (file : list N) (m : text_meta) (use : nat)
    (ts : list term) : result (list posting) :=
  match ts with
  | [] => Throw
  | [t] => getEntityPostingsForTerm file m t
  | [t1; t2] =>
      rbind (getWordPostingsForTerm file m (nth (1 - use) ts Unknown)) (fun w =>
      rbind (getEntityPostingsForTerm file m (nth use ts Unknown)) (fun e =>
        of_fts (intersect [] (map fst w) e)))
  | _ =>
      rbind (all_word_postings file m (remove_nth use ts)) (fun pss =>
      rbind (getEntityPostingsForTerm file m (nth use ts Unknown)) (fun e =>
        of_fts (intersectKWay [] (map (map fst) pss ++ [map p_cid e])
                  (map (map snd) pss ++ [map p_score e]) (Some (map p_eid e)))))
  end.
