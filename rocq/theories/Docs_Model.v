(* Model of the document database: src/index/Index.Text.cpp 31-68 (buildDocsDB),
   src/index/DocsDB.cpp (init, getTextExcerpt), src/util/File.h 132-148 (readLine), 196-218 (read),
   245-252 (getLastOffset). Files are lists of bytes, writing does not fail; off_t and Id have
   8 bytes. Context ids in a request are below 2^60 (line 25 of DocsDB.cpp wraps above). *)
From Coq Require Import List NArith ZArith Arith Bool.
From Verif Require Import Bytes Postings_Model.
Import ListNotations.
Open Scope N_scope.

Definition NL : N := 10.
Definition TAB : N := 9.
(* Constants.h:31 *)
Definition BUFFER_SIZE_DOCSFILE_LINE : N := 1024 * 1024 * 100.

(* C library: atol. The value is assumed to fit into a long. *)
Definition isspace (c : N) : bool := (c =? 32) || ((9 <=? c) && (c <=? 13)).
Definition isdigit (c : N) : bool := (48 <=? c) && (c <=? 57).
Fixpoint skip_space (l : list N) : list N :=
  match l with c :: l' => if isspace c then skip_space l' else l | [] => [] end.
Fixpoint take_digits (acc : Z) (l : list N) : Z :=
  match l with
  | c :: l' => if isdigit c then take_digits (acc * 10 + (Z.of_N c - 48)) l' else acc
  | [] => acc
  end.
Definition atol (l : list N) : Z :=
  match skip_space l with
  | 45 :: l' => (- take_digits 0 l')%Z
  | 43 :: l' => take_digits 0 l'
  | l' => take_digits 0 l'
  end.
(* static_cast<Id> *)
Definition to_id (z : Z) : N := Z.to_N (z mod 2 ^ 64).

(* File.h:132-148 in a loop: the lines of a file, without the newlines. A line that does not fit
   into the buffer or has a 0 byte throws (a 0 byte in the last line would only cut it). *)
Fixpoint read_lines (line : list N) (bytes : list N) : result (list (list N)) :=
  let ok := (N.of_nat (length line) <? BUFFER_SIZE_DOCSFILE_LINE - 1) && forallb (fun c => negb (c =? 0)) line in
  match bytes with
  | [] => match line with [] => Done [] | _ => if ok then Done [line] else Throw end
  | b :: bytes' =>
      if b =? NL then
        if ok then match read_lines [] bytes' with Done ls => Done (line :: ls) | r => r end else Throw
      else read_lines (line ++ [b]) bytes'
  end.

Fixpoint find_tab (l : list N) : option nat :=
  match l with
  | [] => None
  | c :: l' => if c =? TAB then Some 0%nat else option_map S (find_tab l')
  end.
(* Index.Text.cpp:44-46. Without a tab, substr(0, npos) and substr(npos + 1) are the whole line. *)
Definition doc_of_line (line : list N) : N * list N :=
  match find_tab line with
  | Some t => (to_id (atol (firstn t line)), skipn (S t) line)
  | None => (to_id (atol line), line)
  end.
(* 43-56: the text written and the offsets. If contextId is smaller than currentContextId the while
   loop does nothing. *)
Fixpoint docs_loop (lines : list (list N)) (cur : N) (off : N) (text offsets : list N) : list N * list N :=
  match lines with
  | [] => (text, offsets ++ [off])
  | line :: lines' =>
      let '(cid, t) := doc_of_line line in
      docs_loop lines' (N.max cur cid + 1) (off + N.of_nat (length t)) (text ++ t)
        (offsets ++ repeat off (N.to_nat (cid - cur)) ++ [off])
  end.
Definition buildDocsDB (docsfile : list N) : result (list N) :=
  match read_lines [] docsfile with
  | Done lines => let '(text, offsets) := docs_loop lines 0 0 [] [] in Done (text ++ words 8 offsets)
  | Throw => Throw | Overrun => Overrun | Hang => Hang
  end.

(* DocsDB.cpp:27-29. Reading past the end of the file does not return (File.h:204-216). *)
Fixpoint excerpt_loop (fuel : nat) (file : list N) (at_ : nat) (from to : N) : result N :=
  match fuel with
  | O => Overrun
  | S fuel' =>
      if to =? from then
        match load_word file at_ 8 with
        | Some to' => excerpt_loop fuel' file (at_ + 8) from to'
        | None => Hang
        end
      else Done to
  end.
(* DocsDB.cpp:10-35. If to < from, allocating the string throws. *)
Definition getTextExcerpt (file : list N) (cid : N) : result (list N) :=
  match load_word file (length file - 8) 8 with
  | None => Hang
  | Some start =>
      let pos := N.to_nat (start + cid * 8) in
      match load_word file pos 8, load_word file (pos + 8) 8 with
      | Some from, Some to =>
          match excerpt_loop (S (length file)) file (pos + 16) from to with
          | Done to =>
              if to <? from then Throw else
              match load file (N.to_nat from) (N.to_nat (to - from)) with
              | Some t => Done t
              | None => Hang
              end
          | Throw => Throw | Overrun => Overrun | Hang => Hang
          end
      | _, _ => Hang
      end
  end.
