(* Model of the text posting lists on disk: src/index/Index.Text.cpp 309-387 (writePostings),
   446-519 (writeList, createCodebooks, writeCodebook) and 878-935 (readGapComprList,
   readFreqComprList).
   - A posting is a triple (context, word or entity, score) as in Fts_Model.
   - The file is a list of bytes. writePostings appends to the file; `off` is _currentoff_t,
     which starts at 0 with the empty file (createTextIndex, lines 239-240).
   - fwrite is assumed to write everything. Positions and sizes are natural numbers.
   - ad_utility::File::read(buf, n, off) (util/File.h:196-218) loops until n bytes have been
     read: it does not return when the file ends before (`Hang`). *)
From Coq Require Import List NArith Arith Bool Permutation.
From Verif Require Import Bytes Simple8b_Model Ops_Spec Fts_Model.
Import ListNotations.
Open Scope N_scope.

(* Id is uint64_t: subtraction and addition wrap *)
Definition sub64 (a b : N) : N := (a + 2 ^ 64 - b) mod 2 ^ 64.
Definition add64 (a b : N) : N := (a + b) mod 2 ^ 64.

(* TextMetaData.h:14-37, ContextListMetaData. _lastByte is represented by l_end = _lastByte + 1:
   for an empty list at position 0 the member itself is -1. *)
Record list_meta := mk_list_meta
  { l_count : nat; l_contexts : nat; l_words : nat; l_scores : nat; l_end : nat }.
Definition hasMultipleWords (m : list_meta) : bool := Nat.ltb (l_words m) (l_scores m).

(* Lines 466-475: the frequencies of the distinct values *)
Definition frequency (l : list N) (x : N) : N := N.of_nat (length (filter (N.eqb x) l)).
(* Lines 476-508, createCodebooks for one of the two lists: the hash map is copied to a vector
   in an unknown order and sorted by descending frequency. *)
Definition more_frequent (a b : N * N) : bool := snd b <? snd a.
Definition codebook (l : list N) (cb : list N) : Prop :=
  exists vec sorted,
    Permutation (map (fun x => (x, frequency l x)) (nodup N.eq_dec l)) vec /\
    sort_result more_frequent vec sorted /\ cb = map fst sorted.
(* Lines 501-508: code j for the j-th value; `ty` is 2^64 for words and 2^16 for scores
   (`static_cast<Score>(j)`). operator[] of a hash map: the last assignment wins, a missing
   value is 0. *)
Definition code_map (ty : N) (cb : list N) : list (N * N) :=
  combine cb (map (fun j => N.of_nat j mod ty) (seq 0 (length cb))).
Definition code_of (m : list (N * N)) (x : N) : N :=
  fold_left (fun acc e => if fst e =? x then snd e else acc) m 0.

(* Lines 338-351: the first context and the gaps *)
Fixpoint gaps (last : N) (cids : list N) : list N :=
  match cids with [] => [] | c :: cids' => sub64 c last :: gaps c cids' end.
Definition gap_list (cids : list N) : list N :=
  match cids with [] => [] | c :: cids' => c :: gaps c cids' end.

(* Lines 446-458, writeList: the bytes of the code words; None: see Simple8b_Model.encode *)
Definition writeList (l : list N) : option (list N) :=
  match l with [] => Some [] | _ => option_map (words 8) (encode l) end.
(* Lines 513-519, writeCodebook; `width` is sizeof(T) *)
Definition writeCodebook (width : nat) (cb : list N) : list N :=
  le 8 (N.of_nat (width * length cb)) ++ words width cb.

(* Lines 309-387, writePostings. `wcb` and `scb` are the codebooks chosen by createCodebooks.
   Result: the bytes appended to the file and the metadata. *)
Definition writePostings (off : nat) (ps : list posting) (skip : bool) (wcb scb : list N)
  : option (list N * list_meta) :=
  match ps with
  | [] => Some ([], mk_list_meta 0 off off off off)
  | _ =>
      match writeList (gap_list (map p_cid ps)),
            writeList (map (code_of (code_map (2 ^ 64) wcb)) (map p_eid ps)),
            writeList (map (code_of (code_map (2 ^ 16) scb)) (map p_score ps)) with
      | Some cl, Some wl, Some sl =>
          let wpart := if negb skip || Nat.ltb 1 (length wcb) then writeCodebook 8 wcb ++ wl else [] in
          let spart := writeCodebook 2 scb ++ sl in
          let startw := (off + length cl)%nat in
          let starts := (startw + length wpart)%nat in
          Some (cl ++ wpart ++ spart,
                mk_list_meta (length ps) off startw starts (starts + length spart))
      | _, _, _ => None
      end
  end.

(* Throw: AD_CHECK fails. Overrun: access outside of a buffer, or use of memory that was not
   filled (undefined behaviour). *)
Inductive result (A : Type) := Done (a : A) | Throw | Overrun | Hang.
Arguments Done {A} _. Arguments Throw {A}. Arguments Overrun {A}. Arguments Hang {A}.

(* Simple8bCode::decode into a buffer of `cap` values of a type with 2^bits values; the words
   come from a buffer of which `ws` have been filled. Result: the first n values. *)
Definition decode_into (ws : list N) (n cap : nat) (ty : N) : result (list N) :=
  match decode ws n with
  | None => Overrun
  | Some buf => if Nat.leb (length buf) cap then Done (map (fun v => v mod ty) (firstn n buf)) else Overrun
  end.

(* Lines 889-893 *)
Fixpoint prefix_sums (id : N) (l : list N) : list N :=
  match l with [] => [] | x :: l' => add64 id x :: prefix_sums (add64 id x) l' end.

(* Lines 878-898. The elements behind the first n of the result vector are cut off again. *)
Definition readGapComprList (file : list N) (n from nbytes : nat) : result (list N) :=
  if negb (Nat.eqb (nbytes mod 8) 0) then Overrun else
  match load_words file from 8 (nbytes / 8) with
  | None => Hang
  | Some ws =>
      match decode_into ws n (n + 250) (2 ^ 64) with
      | Done l => Done (prefix_sums 0 l)
      | Throw => Throw | Overrun => Overrun | Hang => Hang
      end
  end.

(* Line 929: codebook[result[i]] *)
Fixpoint lookup_all (cb : list N) (codes : list N) : result (list N) :=
  match codes with
  | [] => Done []
  | c :: codes' =>
      match nth_error cb (N.to_nat c), lookup_all cb codes' with
      | Some x, Done l => Done (x :: l)
      | _, _ => Overrun
      end
  end.

(* Lines 902-935; `width` is sizeof(T). `encoded` has room for n words; a number of bytes to read
   that is negative is a huge size_t. *)
Definition readFreqComprList (width : nat) (file : list N) (n from nbytes : nat) : result (list N) :=
  if Nat.eqb nbytes 0 then Throw else
  match load_word file from 8 with
  | None => Hang
  | Some cbytes =>
      let cb := N.to_nat cbytes in
      if negb (Nat.eqb (cb mod width) 0) then Overrun else
      match load_words file (from + 8) width (cb / width) with
      | None => Hang
      | Some book =>
          if Nat.ltb nbytes (8 + cb) then Overrun else
          let rest := (nbytes - (8 + cb))%nat in
          if Nat.ltb (8 * n) rest then Overrun else
          if negb (Nat.eqb (rest mod 8) 0) then Overrun else
          match load_words file (from + 8 + cb) 8 (rest / 8) with
          | None => Hang
          | Some ws =>
              match decode_into ws n (n + 250) (2 ^ (8 * N.of_nat width)) with
              | Done codes => lookup_all book codes
              | Throw => Throw | Overrun => Overrun | Hang => Hang
              end
          end
      end
  end.

(* The calls of lines 609-620, 624-631, 829-843 and 856-870 *)
Definition read_contexts (file : list N) (m : list_meta) : result (list N) :=
  readGapComprList file (l_count m) (l_contexts m) (l_words m - l_contexts m).
Definition read_word_ids (file : list N) (m : list_meta) : result (list N) :=
  readFreqComprList 8 file (l_count m) (l_words m) (l_scores m - l_words m).
Definition read_scores (file : list N) (m : list_meta) : result (list N) :=
  readFreqComprList 2 file (l_count m) (l_scores m) (l_end m - l_scores m).
