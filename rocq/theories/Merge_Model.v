(* Model of the first pass of the index build: index/VocabularyGeneratorImpl.h,
   index/IndexBuilderTypes.h and, of index/Index.cpp, passFileForVocabulary,
   writeNextPartialVocabulary, convertPartialToGlobalIds and tripleToInternalRepresentation.
   Words are lists of bytes. Hash maps are lists of pairs; the order in which they are iterated is
   covered by sorting their elements afterwards. *)
From Coq Require Import List NArith Arith Bool.
From Verif Require Import Bytes Table_Spec Std_Model Ops_Spec Strings_Model Collate_Model Vocab_Model.
Import ListNotations.
Open Scope N_scope.

Notation word := (list N).
Definition word_eqb (a b : word) : bool := if list_eq_dec N.eq_dec a b then true else false.
Definition triple {A} := (A * A * A)%type.

(* a failed check; reading behind the end of something; a result *)
Inductive outcome (A : Type) := Ok (a : A) | CheckFailed | Garbage.
Arguments Ok {A} a.
Arguments CheckFailed {A}.
Arguments Garbage {A}.
Definition bind {A B} (x : outcome A) (f : A -> outcome B) : outcome B :=
  match x with Ok a => f a | CheckFailed => CheckFailed | Garbage => Garbage end.

(* ---- IndexBuilderTypes.h ---- *)
Definition lookup {A} (eqb : A -> A -> bool) {B} (m : list (A * B)) (k : A) : option B :=
  option_map snd (find (fun p => eqb (fst p) k) m).
(* ItemMapManager, 34-65. The SplitVal of a word is a function of the word. *)
Record item_map := Items { items : list (word * N); min_id : N }.
(* 47-56 *)
Definition assignNextId (m : item_map) (key : word) : N * item_map :=
  match lookup word_eqb (items m) key with
  | Some id => (id, m)
  | None =>
      let res := wrap64 (N.of_nat (length (items m)) + min_id m) in
      (res, Items (items m ++ [(key, res)]) (min_id m))
  end.
(* 59-61; the elements of a braced list are evaluated from left to right *)
Definition assignTriple (m : item_map) (t : @triple word) : @triple N * item_map :=
  let '(s, p, o) := t in
  let (i, m1) := assignNextId m s in
  let (j, m2) := assignNextId m1 p in
  let (k, m3) := assignNextId m2 o in
  ((i, j, k), m3).
(* global/Constants.h:52, 54: <QLever-internal-function/ and the predicate for language tags *)
Definition URI_PREFIX : word :=
  [60; 81; 76; 101; 118; 101; 114; 45; 105; 110; 116; 101; 114; 110; 97; 108; 45; 102; 117; 110;
   99; 116; 105; 111; 110; 47].
Definition LANGUAGE_PREDICATE : word := URI_PREFIX ++ [108; 97; 110; 103; 116; 97; 103; 62].
(* util/Conversions.h:644-646 and 658-661 *)
Definition convertLangtagToEntityUri (tag : word) : word := URI_PREFIX ++ [64] ++ tag ++ [62].
Definition convertToLanguageTaggedPredicate (pred tag : word) : word := [64] ++ tag ++ [64] ++ pred.
(* 126-147: the ids of a triple and of the extra triples of a language tag *)
Definition triple_ids (m : item_map) (lt : word * @triple word) : list (@triple N) * item_map :=
  let (tag, t) := lt in
  let '(ids, m1) := assignTriple m t in
  match tag with
  | [] => ([ids], m1)
  | _ =>
      let '(s, p, o) := ids in
      let (tagId, m2) := assignNextId m1 (convertLangtagToEntityUri tag) in
      let (predId, m3) := assignNextId m2 (convertToLanguageTaggedPredicate (snd (fst t)) tag) in
      let (langId, m4) := assignNextId m3 LANGUAGE_PREDICATE in
      ([ids; (s, predId, o); (o, langId, tagId)], m4)
  end.
(* 108-114 *)
Definition init_map (maxTriples : N) (j : nat) : item_map :=
  snd (assignNextId (Items [] (wrap64 (N.of_nat j * 100 * maxTriples))) LANGUAGE_PREDICATE).
Definition init_maps (n : nat) (maxTriples : N) : list item_map := map (init_map maxTriples) (seq 0 n).
Fixpoint set_nth {A} (i : nat) (x : A) (l : list A) : list A :=
  match l, i with
  | [], _ => []
  | _ :: l', O => x :: l'
  | y :: l', Datatypes.S i' => y :: set_nth i' x l'
  end.
(* Index.cpp:162-196: the triples of a part, each processed with one of the maps. Which one depends
   on the batches of the pipeline; it is given with the triple. A map is used by one thread at a
   time and for the triples in their order. *)
Fixpoint part_triples (maps : list item_map) (lts : list (nat * (word * @triple word)))
  : outcome (list (@triple N) * list item_map) :=
  match lts with
  | [] => Ok ([], maps)
  | (j, lt) :: lts' =>
      match nth_error maps j with
      | None => Garbage
      | Some m =>
          let (ids, m') := triple_ids m lt in
          bind (part_triples (set_nth j m' maps) lts') (fun r => Ok (ids ++ fst r, snd r))
      end
  end.

(* ---- writeNextPartialVocabulary, Index.cpp:1542-1576 ---- *)
(* 1543-1547 *)
Definition identicalPred (loc : icu) (a b : word * N) : bool :=
  before_transformed (extractAndTransformComparable loc (fst a) IDENTICAL)
    (extractAndTransformComparable loc (fst b) IDENTICAL) TOTAL.
(* createInternalMapping, VocabularyGeneratorImpl.h:233-250; the map and the changed vector *)
Fixpoint mapping_loop (first : bool) (lastWord : word) (next : N) (res : list (N * N)) (els : list (word * N))
  : outcome (list (N * N) * list (word * N)) :=
  match els with
  | [] => Ok (res, [])
  | (w, id) :: els' =>
      let new := negb first && negb (word_eqb lastWord w) in
      let next' := if new then next + 1 else next in
      let last' := if new then w else lastWord in
      if existsb (fun p => fst p =? id) res then CheckFailed
      else bind (mapping_loop false last' next' (res ++ [(id, next')]) els')
             (fun r => Ok (fst r, (w, next') :: snd r))
  end.
Definition createInternalMapping (els : list (word * N)) := mapping_loop true [] 0 [] els.
(* writeMappedIdsToExtVec, 253-270 *)
Definition map_triple (m : list (N * N)) (t : @triple N) : outcome (@triple N) :=
  let '(s, p, o) := t in
  match lookup N.eqb m s, lookup N.eqb m p, lookup N.eqb m o with
  | Some s', Some p', Some o' => Ok (s', p', o')
  | _, _, _ => CheckFailed
  end.
Fixpoint map_triples (m : list (N * N)) (ts : list (@triple N)) : outcome (list (@triple N)) :=
  match ts with
  | [] => Ok []
  | t :: ts' => bind (map_triple m t) (fun t' => bind (map_triples m ts') (fun r => Ok (t' :: r)))
  end.
(* writePartialVocabularyToFile, 273-287 *)
Definition entry_bytes (e : word * N) : list N := le 8 (N.of_nat (length (fst e))) ++ fst e ++ le 8 (snd e).
Definition partial_file (els : list (word * N)) : list N := flat_map entry_bytes els.
(* sorted is what the sort gives, Index.cpp:1550 *)
Definition partial_vocabulary (sorted : list (word * N)) (ts : list (@triple N))
  : outcome (list (word * N) * list (@triple N)) :=
  bind (createInternalMapping sorted) (fun r =>
  bind (map_triples (fst r) ts) (fun ts' =>
  Ok (std_unique (fun a b => snd a =? snd b) (snd r), ts'))).
(* 1566-1576 *)
Definition byte_less (a b : word * N) : bool := less (lex_cmp (fst a) (fst b)).

(* ---- VocabularyMerger ---- *)
(* 63-71: word, number of the file, id in this file *)
Record queue_word := Queued { value : word; file_id : nat; word_id : N }.
(* 60-68 and 107-115: the next entry of a file. If the length cannot be read the file is at its
   end; a shorter word or id leaves uninitialised data. *)
Inductive next_entry := End | Cut | Entry (w : word) (id : N) (rest : list N).
Definition read_entry (file : list N) : next_entry :=
  if Nat.ltb (length file) 8 then End
  else
    let len := N.to_nat (of_le (firstn 8 file)) in
    let rest := skipn 8 file in
    if Nat.ltb (length rest) (len + 8) then Cut
    else Entry (firstn len rest) (of_le (firstn 8 (skipn len rest))) (skipn (len + 8) rest).

Section Merge.
  Variable comp : word -> word -> bool.
  (* std::priority_queue: top is an element that comes before no other one in the order
     queueCompare (32-37), i.e. none is smaller according to comp. Which of several such elements
     is not specified. *)
  Definition is_top (top : queue_word) (queue : list queue_word) : Prop :=
    forall q, In q queue -> comp (value q) (value top) = false.
  (* 77-116: the words in the order in which they are taken from the queue. None: garbage. *)
  Inductive merge_run : list queue_word -> list (list N) -> option (list queue_word) -> Prop :=
  | run_end files : merge_run [] files (Some [])
  | run_last q1 top q2 files f out : is_top top (q1 ++ top :: q2) ->
      nth_error files (file_id top) = Some f -> read_entry f = End ->
      merge_run (q1 ++ q2) files out -> merge_run (q1 ++ top :: q2) files (option_map (cons top) out)
  | run_next q1 top q2 files f w id rest out : is_top top (q1 ++ top :: q2) ->
      nth_error files (file_id top) = Some f -> read_entry f = Entry w id rest ->
      merge_run (q1 ++ q2 ++ [Queued w (file_id top) id]) (set_nth (file_id top) rest files) out ->
      merge_run (q1 ++ top :: q2) files (option_map (cons top) out)
  | run_cut q1 top q2 files f : is_top top (q1 ++ top :: q2) ->
      nth_error files (file_id top) = Some f -> read_entry f = Cut ->
      merge_run (q1 ++ top :: q2) files None.
End Merge.
(* 52-69 *)
Fixpoint open_files (i : nat) (files : list (list N)) : option (list queue_word * list (list N)) :=
  match files with
  | [] => Some ([], [])
  | f :: files' =>
      match open_files (Datatypes.S i) files' with
      | None => None
      | Some (q, fs) =>
          match read_entry f with
          | End => Some (q, f :: fs)
          | Cut => None
          | Entry w id rest => Some (Queued w i id :: q, rest :: fs)
          end
      end
  end.

(* the members, 92-103, and writeBuf. lang_bounds are _langPredLowerBound and
   _langPredUpperBound; _firstLangPredSeen is lang_seen. *)
Record writer := Writer { last_written : word; total : N; outfile : list N; outfile_ext : list N;
  id_vecs : list (list (N * N)); lang_seen : bool; lang_bounds : N * N;
  write_buf : list (nat * (N * N)) }.
Definition new_writer (numFiles : nat) : writer := Writer [] 0 [] [] (repeat [] numFiles) false (0, 0) [].
(* doActualWrite, 225-230 *)
Fixpoint doActualWrite (vecs : list (list (N * N))) (buf : list (nat * (N * N))) : list (list (N * N)) :=
  match buf with
  | [] => vecs
  | (f, v) :: buf' => doActualWrite (set_nth f (nth f vecs [] ++ [v]) vecs) buf'
  end.
Definition flush (w : writer) : writer :=
  Writer (last_written w) (total w) (outfile w) (outfile_ext w)
    (doActualWrite (id_vecs w) (write_buf w)) (lang_seen w) (lang_bounds w) [].
(* 156-175: what becomes of the word; None is the failed check. 34 is the quotation mark, 60 the
   opening angle bracket. *)
Inductive kind := Internal | External (w : word).
Definition word_kind (w : word) : option kind :=
  if less (lex_cmp w [127]) then Some Internal
  else
    match w with
    | c :: r => if c =? 127 then Some (External (34 :: r)) else if c =? 128 then Some (External (60 :: r)) else None
    | [] => None
    end.
(* one round of the loop, 147-211; bufSize is the size of the inner buffer *)
Definition write_word (bufSize : nat) (st : writer) (top : queue_word) : outcome writer :=
  let added :=
    if word_eqb (value top) (last_written st) then
      Ok (Writer (last_written st) (total st) (outfile st) (outfile_ext st) (id_vecs st) (lang_seen st)
            (lang_bounds st)
            (write_buf st ++ [(file_id top, (word_id top, wrap64 (total st + 2 ^ 64 - 1)))]))
    else
      match word_kind (value top) with
      | None => CheckFailed
      | Some k =>
          let last := match k with Internal => value top | External w => w end in
          let is_lang := match value top with c :: _ => c =? 64 | [] => false end in
          Ok (Writer last (wrap64 (total st + 1))
                (match k with Internal => outfile st ++ escaped_line last | External _ => outfile st end)
                (match k with Internal => outfile_ext st | External _ => outfile_ext st ++ escaped_line last end)
                (id_vecs st)
                (lang_seen st || is_lang)
                (if is_lang then (if lang_seen st then fst (lang_bounds st) else total st, wrap64 (total st + 1))
                 else lang_bounds st)
                (write_buf st ++ [(file_id top, (word_id top, total st))]))
      end in
  bind added (fun st' => if Nat.leb bufSize (length (write_buf st')) then Ok (flush st') else Ok st').
Fixpoint write_words (bufSize : nat) (st : writer) (buffer : list queue_word) : outcome writer :=
  match buffer with
  | [] => Ok (flush st)
  | top :: buffer' => bind (write_word bufSize st top) (fun st' => write_words bufSize st' buffer')
  end.
(* 77-126: the words are written in batches of bufferSize; a batch is written only after the one
   before. *)
Fixpoint write_batches (bufferSize : nat) (st : writer) (batch rest : list queue_word) : outcome writer :=
  match rest with
  | [] => match batch with [] => Ok st | _ => write_words (bufferSize / 5) st batch end
  | top :: rest' =>
      let batch' := batch ++ [top] in
      if Nat.leb bufferSize (length batch')
      then bind (write_words (bufferSize / 5) st batch') (fun st' => write_batches bufferSize st' [] rest')
      else write_batches bufferSize st batch' rest'
  end.
(* mergeVocabulary, 27-135: the final state has the written files and the result *)
Definition mergeVocabulary (comp : word -> word -> bool) (bufferSize : nat) (files : list (list N))
  (r : outcome writer) : Prop :=
  match open_files 0 files with
  | None => r = Garbage
  | Some (queue, rests) =>
      exists out, merge_run comp queue rests out /\
        r = match out with Some words => write_batches bufferSize (new_writer (length files)) [] words | None => Garbage end
  end.

(* ---- convertPartialToGlobalIds, Index.cpp:277-325 ---- *)
(* IdMapFromPartialIdMapFile, VocabularyGeneratorImpl.h:341-348: the last entry of an id counts *)
Definition id_map (vec : list (N * N)) : list (N * N) := rev vec.
Fixpoint convert_parts (data : list (@triple N)) (parts : list (nat * list (N * N))) : outcome (list (@triple N)) :=
  match parts with
  | [] => Ok data
  | (n, vec) :: parts' =>
      if Nat.ltb (length data) n then Garbage
      else
        bind (map_triples (id_map vec) (firstn n data)) (fun d =>
        bind (convert_parts (skipn n data) parts') (fun r => Ok (d ++ r)))
  end.

(* ---- tripleToInternalRepresentation, Index.cpp:1394-1419 ---- *)
Section Representation.
  (* LocaleManager::normalizeUtf8, isXsdValue, convertValueLiteralToIndexWord, and
     Vocabulary::shouldBeExternalized together with _onDiskLiterals *)
  Variable normalize : word -> word.
  Variable is_value : word -> bool.
  Variable convert_value : word -> word.
  Variable externalize : word -> bool.
  (* 1409-1416 *)
  Definition internal_word (w : word) : outcome word :=
    if externalize w then
      match w with
      | c :: r => if c =? 34 then Ok (127 :: r) else if c =? 60 then Ok (128 :: r) else CheckFailed
      | [] => CheckFailed
      end
    else Ok w.
  Definition tripleToInternalRepresentation (t : @triple word) : outcome (word * @triple word) :=
    let '(s, p, o) := t in
    let '(s, p, o) := (normalize s, normalize p, normalize o) in
    bind (internal_word s) (fun s' =>
    bind (internal_word p) (fun p' =>
    if is_value o then Ok ([], (s', p', convert_value o))
    else
      bind (internal_word o) (fun o' =>
      Ok (if isLiteral o then getLanguage o else [], (s', p', o'))))).
End Representation.

(* ---- passFileForVocabulary, Index.cpp:139-274, on the internal representations ---- *)
(* A part: for each triple the number of its map. The outcome of a part is what is written to its
   file and its triples with the ids of this file. *)
Definition part_result (loc : icu) (numMaps : nat) (linesPerPartial : N) (lts : list (nat * (word * @triple word)))
  (r : outcome (list (word * N) * list (@triple N))) : Prop :=
  match part_triples (init_maps numMaps linesPerPartial) lts with
  | Ok (ts, maps) =>
      exists sorted, sort_result (identicalPred loc) (flat_map items maps) sorted /\
        r = partial_vocabulary sorted ts
  | CheckFailed => r = CheckFailed
  | Garbage => r = Garbage
  end.
(* all parts; the triples of the parts are written in the order of the parts *)
Inductive parts_result (loc : icu) (numMaps : nat) (linesPerPartial : N)
  : list (list (nat * (word * @triple word))) -> list (list (word * N) * list (@triple N)) -> Prop :=
| parts_none : parts_result loc numMaps linesPerPartial [] []
| parts_more lts ps els ts rs : part_result loc numMaps linesPerPartial lts (Ok (els, ts)) ->
    parts_result loc numMaps linesPerPartial ps rs ->
    parts_result loc numMaps linesPerPartial (lts :: ps) ((els, ts) :: rs).
(* mergeVocabulary with the order of the vocabulary, then convertPartialToGlobalIds *)
Definition first_pass (loc : icu) (numMaps : nat) (linesPerPartial : N) (bufferSize : nat)
  (parts : list (list (nat * (word * @triple word)))) (w : writer) (ts : outcome (list (@triple N))) : Prop :=
  exists rs, parts_result loc numMaps linesPerPartial parts rs /\
    mergeVocabulary (fun a b => before loc a b TOTAL) bufferSize (map (fun r => partial_file (fst r)) rs) (Ok w) /\
    ts = convert_parts (concat (map snd rs)) (combine (map (fun r => length (snd r)) rs) (id_vecs w)).
