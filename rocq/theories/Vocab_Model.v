(* Model of the vocabulary of the knowledge base: index/Vocabulary.cpp, index/Vocabulary.h,
   index/ExternalVocabulary.cpp, index/ExternalVocabulary.h, and its use in index/Index.cpp
   (createFromFile, readConfiguration). Files and words are lists of bytes. *)
From Coq Require Import List NArith Arith Bool.
From Verif Require Import Bytes Ops_Spec Strings_Model Collate_Model.
Import ListNotations.
Open Scope N_scope.

(* std::getline until the end of the file: the lines; an empty last line is no line *)
Fixpoint lines_loop (acc s : list N) : list (list N) :=
  match s with
  | [] => match acc with [] => [] | _ => [acc] end
  | c :: s' => if c =? 10 then acc :: lines_loop [] s' else lines_loop (acc ++ [c]) s'
  end.
Definition lines (s : list N) : list (list N) := lines_loop [] s.

(* ---- prefixes ---- *)
(* global/Constants.h:101-106 *)
Definition MIN_COMPRESSION_PREFIX : N := 129.
Definition NUM_COMPRESSION_PREFIXES : nat := 126.
Definition NO_PREFIX_CHAR : N := 255.

(* Vocabulary.cpp:250-265: _prefixMap (an array of NUM_COMPRESSION_PREFIXES strings) and
   _prefixVec before it is sorted *)
Definition prefix_map (prefixes : list (list N)) : list (list N) :=
  let p := firstn NUM_COMPRESSION_PREFIXES prefixes in
  p ++ repeat [] (NUM_COMPRESSION_PREFIXES - length p).
Fixpoint codes (i : N) (prefixes : list (list N)) : list (N * list N) :=
  match prefixes with
  | [] => []
  | p :: prefixes' => (i, p) :: codes (i + 1) prefixes'
  end.
Definition prefix_vec (prefixes : list (list N)) : list (N * list N) :=
  codes MIN_COMPRESSION_PREFIX (firstn NUM_COMPRESSION_PREFIXES prefixes).
(* 271-274: std::sort, the longest first *)
Definition longer (a b : N * list N) : bool := Nat.ltb (length (snd b)) (length (snd a)).
Definition initializePrefixes (prefixes : list (list N)) (map : list (list N)) (vec : list (N * list N)) : Prop :=
  map = prefix_map prefixes /\ sort_result longer (prefix_vec prefixes) vec.

(* 222-230; None: the assertion on an empty word *)
Definition expandPrefix (map : list (list N)) (word : list N) : option (list N) :=
  match word with
  | [] => None
  | c :: rest =>
      if (MIN_COMPRESSION_PREFIX <=? c) && (c - MIN_COMPRESSION_PREFIX <? N.of_nat NUM_COMPRESSION_PREFIXES)
      then Some (nth (N.to_nat (c - MIN_COMPRESSION_PREFIX)) map [] ++ rest)
      else Some rest
  end.
(* 235-245 *)
Fixpoint compressPrefix (vec : list (N * list N)) (word : list N) : list N :=
  match vec with
  | [] => NO_PREFIX_CHAR :: word
  | (code, text) :: vec' =>
      if startsWith word text then code :: skipn (length text) word else compressPrefix vec' word
  end.
(* 298-310, with the prefixes already initialized *)
Definition prefixCompressFile (vec : list (N * list N)) (infile : list N) : list N :=
  flat_map (fun w => compressPrefix vec w ++ [10]) (lines infile).

(* readFromFile, 23-53: the compressed words in memory. The comparison with the last word only
   writes to the log. *)
Fixpoint read_words (map : list (list N)) (vec : list (N * list N)) (ls : list (list N)) : result (list (list N)) :=
  match ls with
  | [] => Val []
  | line :: ls' =>
      match expandPrefix map line with
      | None => Undefined
      | Some e =>
          match unescapeNewlinesAndBackslashes e with
          | Val w =>
              match read_words map vec ls' with
              | Val ws => Val (compressPrefix vec w :: ws)
              | r => r
              end
          | Check => Check | Runtime => Runtime | Undefined => Undefined | NotHex => NotHex
          end
      end
  end.
Definition readFromFile map vec (file : list N) : result (list (list N)) := read_words map vec (lines file).
(* 360-366; None: outside of the vector *)
Definition at_word (map : list (list N)) (words : list (list N)) (i : nat) : option (list N) :=
  match nth_error words i with Some w => expandPrefix map w | None => None end.
(* 403-409 *)
Definition push_back vec (words : list (list N)) (w : list N) : list (list N) := words ++ [compressPrefix vec w].

(* The vocabulary file as written by the merger (VocabularyGeneratorImpl.h:157), one escaped word
   per line. That escaping gives a result is part of C33_escape. *)
Definition escaped_line (w : list N) : list N :=
  match escapeNewlinesAndBackslashes w with Some e => e ++ [10] | None => [] end.
Definition vocabulary_file (words : list (list N)) : list N := flat_map escaped_line words.
(* Index.cpp:108-112 *)
Definition prefix_file (prefixes : list (list N)) : list N := flat_map (fun p => p ++ [10]) prefixes.
(* Index.cpp:97-117 and 1347-1355: the index is built and loaded again. vec1 and vec2 are the
   sorted prefixes in both processes. *)
Definition rebuilt (words prefixes : list (list N)) (map2 : list (list N)) (vec1 vec2 : list (N * list N))
  (r : result (list (list N))) : Prop :=
  (exists map1, initializePrefixes prefixes map1 vec1) /\
  initializePrefixes (lines (prefix_file prefixes)) map2 vec2 /\
  r = readFromFile map2 vec2 (prefixCompressFile vec1 (vocabulary_file words)).

(* The text vocabulary is not compressed: writeToFile, 74-86, and readFromFile, 50-52 *)
Definition writeToFile (words : list (list N)) : list N := join words [10].
Definition readFromFile_text (file : list N) : list (list N) := lines file.

(* ---- externalization ---- *)
(* 208-217 *)
Definition rfind (c : N) (s : list N) : option nat :=
  option_map (fun i => (length s - 1 - i)%nat) (find_char (N.eqb c) (rev s)).
Definition getLanguage (literal : list N) : list N :=
  match rfind 64 literal with
  | Some lioAt =>
      match rfind 34 literal with
      | Some lioQ => if Nat.ltb lioQ lioAt then skipn (lioAt + 1) literal else []
      | None => []
      end
  | None => []
  end.
(* 155-157 *)
Definition isLiteral (word : list N) : bool := match word with c :: _ => c =? 34 | [] => false end.
(* MAX_INTERNAL_LITERAL_BYTES, index/ConstantsIndexCreation.h *)
Section Externalized.
  Variable max_bytes : nat.
  Variables externalizedPrefixes internalizedLangs : list (list N).
  (* 178-185 *)
  Definition shouldEntityBeExternalized (word : list N) : bool :=
    existsb (startsWith word) externalizedPrefixes.
  (* 189-205 *)
  Definition shouldLiteralBeExternalized (word : list N) : bool :=
    if Nat.ltb max_bytes (length word) then true
    else
      let lang := getLanguage word in
      match lang with
      | [] => false
      | _ => negb (existsb (fun p => if list_eq_dec N.eq_dec lang p then true else false) internalizedLangs)
      end.
  (* 168-174 *)
  Definition shouldBeExternalized (word : list N) : bool :=
    if isLiteral word then shouldLiteralBeExternalized word else shouldEntityBeExternalized word.
End Externalized.

(* ---- ExternalVocabulary ---- *)
(* buildFromVector, 50-64, and buildFromTextFile, 69-90: the words, then the offsets of their
   starts and of the end *)
Fixpoint offsets (from : N) (words : list (list N)) : list N :=
  match words with
  | [] => [from]
  | w :: words' => from :: offsets (from + N.of_nat (length w)) words'
  end.
Definition external_file (words : list (list N)) : list N := concat words ++ Bytes.words 8 (offsets 0 words).
Fixpoint unescape_all (ls : list (list N)) : result (list (list N)) :=
  match ls with
  | [] => Val []
  | l :: ls' =>
      match unescapeNewlinesAndBackslashes l with
      | Val w => match unescape_all ls' with Val ws => Val (w :: ws) | r => r end
      | Check => Check | Runtime => Runtime | Undefined => Undefined | NotHex => NotHex
      end
  end.
Definition buildFromTextFile (text : list N) : result (list N) :=
  match unescape_all (lines text) with
  | Val ws => Val (external_file ws)
  | Check => Check | Runtime => Runtime | Undefined => Undefined | NotHex => NotHex
  end.

Record external := Ext { ext_file : list N; startOfOffsets : N; ext_size : N }.
(* initFromFile, 96-106, with File::getLastOffset (util/File.h:245-252); None: the read fails or
   the offset is behind its own position (the difference is converted to a huge size). *)
Definition initFromFile (file : list N) : option external :=
  match file with
  | [] => Some (Ext file 0 0)
  | _ =>
      if Nat.ltb (length file) 8 then None
      else
        match load_word file (length file - 8) 8 with
        | Some start =>
            let posLastOfft := N.of_nat (length file - 8) in
            if start <=? posLastOfft then Some (Ext file start ((posLastOfft - start) / 8)) else None
        | None => None
        end
  end.
(* operator[], 15-26; None: outside of the file *)
Definition ext_at (e : external) (id : N) : option (list N) :=
  let at_ := startOfOffsets e + id * 8 in
  if at_ + 16 <=? N.of_nat (length (ext_file e)) then
    match load_words (ext_file e) (N.to_nat at_) 8 2 with
    | Some [from; to] =>
        if (from <=? to) && (to <=? N.of_nat (length (ext_file e)))
        then load (ext_file e) (N.to_nat from) (N.to_nat (to - from)) else None
    | _ => None
    end
  else None.

(* binarySearchInVocab, 30-46: `upper = i - 1` is computed modulo 2^64. Outside: a word outside of
   the file is read; Loop: out of fuel. *)
Inductive search := At (i : N) | Outside | Loop.
Definition wrap64 (n : N) : N := n mod 2 ^ 64.
Section Search.
  Variable cmp : list N -> list N -> comparison.
  Fixpoint binarySearch (fuel : nat) (e : external) (word : list N) (lower upper : N) : search :=
    if lower <? upper then
      match fuel with
      | O => Loop
      | S fuel' =>
          let i := wrap64 (lower + upper) / 2 in
          match ext_at e i with
          | None => Outside
          | Some w =>
              match cmp w word with
              | Lt => binarySearch fuel' e word (i + 1) upper
              | Gt => binarySearch fuel' e word lower (wrap64 (i + 2 ^ 64 - 1))
              | Eq => At i
              end
          end
      end
    else At lower.
  Definition binarySearchInVocab (e : external) (word : list N) : search :=
    binarySearch (S (length (ext_file e))) e word 0 (ext_size e).
  (* ExternalVocabulary.h:46-49: the id if the word was found *)
  Inductive lookup := Found (id : N) | NotFound | Broken.
  Definition ext_getId (e : external) (word : list N) : lookup :=
    match binarySearchInVocab e word with
    | At i =>
        if i <? ext_size e then
          match ext_at e i with
          | Some w => if list_eq_dec N.eq_dec w word then Found i else NotFound
          | None => Broken
          end
        else NotFound
    | _ => Broken
    end.
End Search.

(* Vocabulary::getId, 370-381, on the expanded words; externalize is shouldBeExternalized *)
Definition getId (loc : icu) (externalize : list N -> bool) (words : list (list N)) (e : external) (word : list N) : lookup :=
  if externalize word then
    match ext_getId (fun a b => compare loc a b TOTAL) e word with
    | Found id => Found (id + N.of_nat (length words))
    | r => r
    end
  else
    match vocab_lower_bound words (fun w => before loc w word TOTAL) with
    | Some i =>
        if Nat.ltb i (length words) && (if list_eq_dec N.eq_dec (word_at words i) word then true else false)
        then Found (N.of_nat i) else NotFound
    | None => Broken
    end.
(* idToOptionalString, 427-439: an unbound value, a failed check, or a word. ID_NO_VALUE is
   global/Id.h:14 *)
Definition ID_NO_VALUE : N := 2 ^ 64 - 3.
Inductive text := NoValue | CheckFails | OutOfFile | Word (w : list N).
Definition idToOptionalString (words : list (list N)) (e : external) (id : N) : text :=
  if id <? N.of_nat (length words) then Word (word_at words (N.to_nat id))
  else if id =? ID_NO_VALUE then NoValue
  else
    let id' := id - N.of_nat (length words) in
    if id' <? ext_size e then
      match ext_at e id' with Some w => Word w | None => OutOfFile end
    else CheckFails.
