(* Model of the tool that converts old indices: MetaDataConverterMain.cpp and index/MetaDataConverter.cpp, with the
   reading of metadata in all formats (index/IndexMetaDataImpl.h:42-114 and 284-346). Meta_Model.v models the
   reading of the current format only. Not modelled: messages, the file of a memory-mapped vector (Mmap_Model.v; here
   it is the list of its entries), and the compression of the vocabulary (Vocab_Model.v). *)
From Coq Require Import List NArith Arith Bool.
From Verif Require Import Bytes Std_Model Meta_Model Vocab_Model.
Import ListNotations.
Open Scope N_scope.

(* WrongFormat: a WrongFormatException. Fails: any other exception. Exits: exit(1). *)
Inductive result (A : Type) := Done (a : A) | WrongFormat | Fails | Exits | Undefined.
Arguments Done {A}. Arguments WrongFormat {A}. Arguments Fails {A}. Arguments Exits {A}. Arguments Undefined {A}.
Definition andThen {A B} (x : result A) (f : A -> result B) : result B :=
  match x with Done a => f a | WrongFormat => WrongFormat | Fails => Fails | Exits => Exits | Undefined => Undefined end.
Definition lift {A} (x : Meta_Model.outcome A) : result A := match x with Ok a => Done a | Throw => Fails | UB => Undefined end.

(* ---------- reading metadata of any version ---------- *)
(* IndexMetaDataImpl.h:284-346: version and rest of the buffer *)
Definition V_NO_VERSION : N := 0.
Definition parseMagicNumberAndVersioning (mmap : bool) (buf : list N) : result (N * list N) :=
  andThen (lift (of_option (take_word buf))) (fun p =>
  let magic := fst p in
  let versioned :=
    andThen (lift (of_option (take_word (snd p)))) (fun q => if V_CURRENT <? fst q then Fails else Done q) in
  if mmap then
    if magic =? MAGIC_MMAP then Done (V_NO_VERSION, snd p)
    else if magic =? MAGIC_MMAP_VERSION then versioned
    else WrongFormat
  else
    if (magic =? MAGIC_MMAP) || (magic =? MAGIC_MMAP_VERSION) then WrongFormat
    else if magic =? MAGIC_SPARSE then Done (V_NO_VERSION, snd p)
    else if magic =? MAGIC_SPARSE_VERSION then versioned
    else Done (V_NO_VERSION, buf)).

(* 78-90: the blocks of an old dense permutation, in the order of the relations *)
Fixpoint read_old_blocks (es : list (N * full)) (buf : list N) (m : imd) : Meta_Model.outcome (imd * list N) :=
  match es with
  | [] => Ok (m, buf)
  | (_, f) :: es' =>
    if has_blocks (f_word f) then
      bind (of_option (take_block_data buf)) (fun q => read_old_blocks es' (snd q) (add_blocks f (fst q) m))
    else read_old_blocks es' buf (add_blocks f no_blocks m)
  end.
(* 49-113: what follows the version *)
Definition read_rest (data : rmap) (v : N * list N) : Meta_Model.outcome imd :=
  bind (of_option (take_word (snd v))) (fun p =>
  bind (of_option (load (snd p) 0 (N.to_nat (fst p)))) (fun name =>
  let buf := skipn (N.to_nat (fst p)) (snd p) in
  bind (of_option (take_word buf)) (fun n =>
  bind (of_option (take_word (snd n))) (fun a =>
  let data' := match data with Hmap _ => data | Dense _ vec => Dense (fst n) vec end in
  let m := {| i_after := fst a; i_name := name; i_data := data'; i_blocks := []; i_elements := 0; i_bytes := 0;
              i_nblocks := 0; i_version := fst v |} in
  bind (match data with
        | Hmap _ => read_relations (N.to_nat (fst n)) (snd a) m
        | Dense _ vec =>
            if fst v <? V_CURRENT then
              bind (read_old_blocks (dense_entries 0 vec) (snd a) m) (fun r => Ok (statistics (fst r), snd r))
            else bind (of_option (take_word (snd a))) (fun k => read_block_list (N.to_nat (fst k)) (snd k) m)
        end) (fun r =>
  if fst v <? V_CURRENT then Ok (statistics (fst r))
  else
    bind (of_option (take_word (snd r))) (fun e =>
    bind (of_option (take_word (snd e))) (fun b =>
    bind (of_option (take_word (snd b))) (fun k =>
    let m := fst r in
    Ok {| i_after := i_after m; i_name := i_name m; i_data := i_data m; i_blocks := i_blocks m;
          i_elements := fst e; i_bytes := fst b; i_nblocks := fst k; i_version := i_version m |})))))))).
(* 42-47 *)
Definition createFromByteBuffer (data : rmap) (buf : list N) : result imd :=
  andThen (parseMagicNumberAndVersioning (is_mmap data) buf) (fun v => lift (read_rest data v)).
(* 205-212 with File::getLastOffset (util/File.h:245-252): where the metadata begins, and where it ends *)
Definition getLastOffset (file : list N) : result (N * nat) :=
  let size := length file in
  if Nat.ltb size 8 then Undefined
  else andThen (lift (of_option (load_word file (size - 8) 8))) (fun from => Done (from, (size - 8)%nat)).
Definition readFromFile (data : rmap) (file : list N) : result imd :=
  andThen (getLastOffset file) (fun p =>
  if N.of_nat (snd p) <? fst p then Undefined
  else andThen (lift (of_option (load file (N.to_nat (fst p)) (snd p - N.to_nat (fst p))))) (createFromByteBuffer data)).

(* ---------- conversion of the metadata ---------- *)
(* MetaDataConverter.cpp:21-27 *)
Definition max_id (l : list (N * full)) : N := fold_left (fun acc e => if acc <? fst e then fst e else acc) l 0.
(* 19-37; the sum wraps *)
Definition convertHmapHandlerToMmap (l : list (N * full)) : Meta_Model.outcome rmap :=
  fold_left (fun d e => bind d (rmap_set (fst e) (snd e))) l
    (Ok (Dense 0 (repeat empty_full (N.to_nat ((max_id l + 1) mod 2 ^ 64))))).
(* 40-46 *)
Definition convertMmapHandlerToHmap (d : rmap) : list (N * full) :=
  fold_left (fun l e => amap_set (fst e) (snd e) l) (rmap_entries d) [].
(* 61-66, 67-72, 89-94, 95-100: all entries of a are also in b *)
Fixpoint verify_entries (es : list (N * full)) (b : rmap) : result unit :=
  match es with
  | [] => Done tt
  | (k, f) :: es' => andThen (lift (rmap_get k b)) (fun g => if full_eqb g f then verify_entries es' b else Exits)
  end.
(* 49-75 and 78-104: the metadata with another map; _totalBytes, _totalBlocks and _version keep the values of new
   metadata *)
Definition converted (m : imd) (d : rmap) : imd :=
  {| i_after := i_after m; i_name := i_name m; i_data := d; i_blocks := i_blocks m; i_elements := i_elements m;
     i_bytes := 0; i_nblocks := 0; i_version := V_CURRENT |}.
Definition verified (verify : bool) (m : imd) (d : rmap) : result imd :=
  if verify then
    andThen (verify_entries (rmap_entries d) (i_data m)) (fun _ =>
    andThen (verify_entries (rmap_entries (i_data m)) d) (fun _ => Done (converted m d)))
  else Done (converted m d).
Definition convertHmapMetaDataToMmap (verify : bool) (m : imd) : result imd :=
  andThen (lift (convertHmapHandlerToMmap (rmap_entries (i_data m)))) (verified verify m).
Definition convertMmapMetaDataToHmap (verify : bool) (m : imd) : result imd :=
  verified verify m (Hmap (convertMmapHandlerToHmap (i_data m))).

(* ---------- conversion of a permutation ---------- *)
(* 149 *)
Definition BufferSize : N := 2 ^ 30.
(* 159-168: rest is what follows the position in the old file. Fewer bytes read than written: the rest of the buffer
   is not initialized. *)
Definition chunk (rest : list N) (n : N) : result (list N) :=
  if N.of_nat (length rest) <? n then Undefined else Done (firstn (N.to_nat n) rest).
Fixpoint copy_chunks (fuel : nat) (size : N) (rest : list N) (remaining : N) : result (list N) :=
  match fuel with
  | S fuel' =>
      if size <=? remaining then
        andThen (chunk rest size) (fun x =>
        andThen (copy_chunks fuel' size (skipn (N.to_nat size) rest) (remaining - size)) (fun xs => Done (x ++ xs)))
      else chunk rest remaining
  | O => if size <=? remaining then Undefined else chunk rest remaining
  end.
(* 141-172; the loop runs remaining / BufferSize times *)
Definition writeNewPermutation (old : list N) (m : imd) : result (list N) :=
  andThen (getLastOffset old) (fun p =>
  andThen (copy_chunks (N.to_nat (fst p / BufferSize)) BufferSize old (fst p)) (fun data =>
  lift (append_to_file data m))).

(* 107-122: the new file and the new vector, if they are written. A vector that is not set up is empty. *)
Definition convertPermutationToMmap (verify : bool) (old : list N) : result (option (list N) * option rmap) :=
  match readFromFile (Hmap []) old with
  | WrongFormat =>
      andThen (readFromFile (Dense 0 []) old) (fun m =>
      if i_version m <? V_CURRENT then andThen (writeNewPermutation old m) (fun new => Done (Some new, None))
      else Done (None, None))
  | r =>
      andThen r (fun h =>
      andThen (convertHmapMetaDataToMmap verify h) (fun m =>
      andThen (writeNewPermutation old m) (fun new => Done (Some new, Some (i_data m)))))
  end.
(* 125-138 *)
Definition convertPermutationToHmap (verify : bool) (old : list N) : result (list N) :=
  match readFromFile (Hmap []) old with
  | WrongFormat =>
      andThen (readFromFile (Dense 0 []) old) (fun m =>
      andThen (convertMmapMetaDataToHmap verify m) (writeNewPermutation old))
  | r => andThen r (writeNewPermutation old)
  end.

(* ---------- the configuration ---------- *)
(* the entry prefixes of the configuration: a boolean, a list of words, or anything else *)
Inductive entry := Flag (b : bool) | Words (ws : list (list N)) | Other.
(* c_locale, c_ignore_case: whether there is such an entry; a locale is well-formed. Other entries do not matter here *)
Record config := { c_external : option bool; c_prefixes : option entry; c_locale : bool; c_ignore_case : bool }.
(* 175-233: the configuration that is written, if any, and the file of the prefixes afterwards. `prefixes` is what
   calculatePrefixes gives, and `literals` whether there is a file of external literals *)
Definition CompressVocabAndCreateConfigurationFile (prefixes : list (list N)) (literals : bool)
    (conf : option config) (prefix_file : option (list N)) : result (option config * option (list N)) :=
  match conf with
  | Some c =>
      match c_prefixes c, prefix_file with
      | None, _ => Fails
      | Some (Flag _), Some f => Done (None, Some f)
      | Some (Words ws), _ => Done (Some c, Some (flat_map (fun w => w ++ [10]) ws))
      | _, _ => Fails
      end
  | None => Done (Some {| c_external := Some literals; c_prefixes := Some (Words prefixes); c_locale := false; c_ignore_case := false |}, prefix_file)
  end.
(* Index.cpp:1338-1389: whether an index with this configuration can be loaded, and with which prefixes. Converting
   a Json array to bool (1348) throws. *)
Definition readConfiguration (c : config) (prefix_file : option (list N)) : result (list (list N)) :=
  andThen (match c_prefixes c, prefix_file with
           | None, _ => Done []
           | Some (Flag true), Some f => Done (lines f)
           | Some (Flag true), None => Fails
           | Some (Flag false), _ => Done []
           | Some _, _ => Fails
           end) (fun ps =>
  if c_ignore_case c then Fails else if c_locale c then Done ps else Fails).
