(* Model of the parsers that read one record per line: parser/NTriplesParser.cpp 20-107,
   parser/TsvParser.cpp 17-32, parser/ContextFileParser.cpp 20-44.
   - A file is a list of bytes. Positions in a line are numbers below 2^64; std::string::npos is
     2^64 - 1 and size_t arithmetic wraps.
   - asserts are checked in debug builds only: the parameter `debug`. *)
From Coq Require Import List NArith ZArith Arith Bool.
From Verif Require Import Strings_Model.
From Verif Require Docs_Model.
Import ListNotations.
Open Scope N_scope.

Notation text := (list N).
Notation triple := (text * text * text)%type.

(* std::getline until it fails: the lines, and what is behind the last newline unless it is empty *)
Fixpoint lines_of (line : text) (file : text) : list text :=
  match file with
  | [] => match line with [] => [] | _ => [line] end
  | c :: file' => if c =? 10 then line :: lines_of [] file' else lines_of (line ++ [c]) file'
  end.
(* a caller: getLine until it returns false. None if one of the calls throws. *)
Fixpoint all_lines {A} (getLine : text -> option A) (ls : list text) : option (list A) :=
  match ls with
  | [] => Some []
  | l :: ls' =>
    match getLine l with
    | Some r => option_map (cons r) (all_lines getLine ls')
    | None => None
    end
  end.

(* ---- NTriplesParser.cpp ---- *)

Definition blank (c : N) : bool := (c =? 32) || (c =? 9).
Fixpoint span (p : N -> bool) (l : text) : nat :=
  match l with c :: l' => if p c then S (span p l') else O | [] => O end.
(* 24-26, 42-44, 53-55 *)
Definition skip_blanks (line : text) (i : nat) : nat := (i + span blank (skipn i line))%nat.
(* 32-34, 46-48, 73-75, 96-98 *)
Definition to_blank (line : text) (j : nat) : nat := (j + span (fun c => negb (blank c)) (skipn j line))%nat.
(* 80-90: the position where the loop ends; `rest` is the line from position j *)
Fixpoint scan_literal (escape : bool) (j : nat) (rest : text) : nat :=
  match rest with
  | [] => j
  | c :: rest' =>
    if negb escape && (c =? 92) then scan_literal true (S j) rest'
    else if negb escape && (c =? 34) then j
    else scan_literal false (S j) rest'
  end.
(* 60-101: the end of the object that starts at i *)
Definition nt_object_end (line : text) (i : nat) : option nat :=
  if at_ line i =? 60 then option_map S (find_from (N.eqb 62) line (S i))
  else if (at_ line i =? 95) && Nat.ltb (S i) (length line) && (at_ line (S i) =? 58) then
    Some (to_blank line (S i))
  else
    match find_from (N.eqb 34) line (S i) with
    | Some j =>
      let j := scan_literal false j (skipn j line) in
      if Nat.eqb j (length line) then None else Some (to_blank line (S j))
    | None => Some (to_blank line 0) (* j = npos, ++j is 0 *)
    end.
(* 21-104 *)
Definition nt_line (line : text) : option triple :=
  let i := skip_blanks line 0 in
  if Nat.leb (length line) i then None
  else
    let j := to_blank line (S i) in
    if Nat.leb (length line) j
       || negb ((at_ line i =? 60) && (at_ line (j - 1) =? 62)
                || Nat.ltb (S i) (length line) && (at_ line i =? 95) && (at_ line (S i) =? 58))
    then None
    else
      let res0 := substr line i (j - i) in
      let i := skip_blanks line j in
      let j := to_blank line (S i) in
      if Nat.leb (length line) j || negb ((at_ line i =? 60) && (at_ line (j - 1) =? 62)) then None
      else
        let res1 := substr line i (j - i) in
        let i := skip_blanks line j in
        if Nat.leb (length line) i then None
        else
          match nt_object_end line i with
          | None => None
          | Some j =>
            if Nat.leb (length line) j || negb (blank (at_ line j)) then None
            else
              (* j - i wraps around if j < i: the rest of the line *)
              let res2 := if Nat.ltb j i then skipn i line else substr line i (j - i) in
              Some (res0, res1, res2)
          end.
Definition nt_all (file : text) : option (list triple) := all_lines nt_line (lines_of [] file).

(* ---- size_t positions ---- *)

Definition npos : N := 2 ^ 64 - 1.
Definition add (a b : N) : N := (a + b) mod 2 ^ 64.
Definition sub (a b : N) : N := (a + 2 ^ 64 - b) mod 2 ^ 64.
Definition size (l : text) : N := N.of_nat (length l).
Definition find_tab (l : text) (from : N) : N :=
  if size l <? from then npos
  else match find_from (N.eqb 9) l (N.to_nat from) with Some i => N.of_nat i | None => npos end.
(* None: std::out_of_range *)
Definition substr_ (l : text) (pos n : N) : option text :=
  if size l <? pos then None else Some (firstn (N.to_nat (N.min n (size l))) (skipn (N.to_nat pos) l)).
Definition assert_ {A} (debug : bool) (c : bool) (x : option A) : option A := if debug && negb c then None else x.
Definition bind {A B} (x : option A) (f : A -> option B) : option B := match x with Some a => f a | None => None end.

(* ---- TsvParser.cpp 20-28 ---- *)
Definition tsv_line (debug : bool) (line : text) : option triple :=
  let i := find_tab line 0 in
  assert_ debug (negb (i =? npos)) (
  let j := find_tab line (add i 1) in
  assert_ debug (negb (j =? npos)) (
  let k := find_tab line (add j 1) in
  assert_ debug (negb (k =? npos)) (
  bind (substr_ line 0 i) (fun a =>
  bind (substr_ line (add i 1) (sub j (add i 1))) (fun b =>
  bind (substr_ line (add j 1) (sub k (add j 1))) (fun c => Some (a, b, c))))))).
Definition tsv_all (debug : bool) (file : text) : option (list triple) := all_lines (tsv_line debug) (lines_of [] file).

(* ---- ContextFileParser.cpp 23-42 ---- *)

(* ContextFileParser.h 17-22 *)
Record line := L { word : text; isEntity : bool; contextId : N; score : N }.
Section Context.
  Variable lowercase : text -> text. (* LocaleManager::getLowercaseUtf8 *)
  (* Id.h:10 Score has 16 bits. A read of l behind its end is not a value: None. *)
  Definition context_line (debug : bool) (l : text) : option line :=
    let i := find_tab l 0 in
    assert_ debug (negb (i =? npos)) (
    let j := add i 2 in
    assert_ debug (add j 3 <? size l) (
    let k := find_tab l (add j 2) in
    assert_ debug (negb (k =? npos)) (
    bind (if add i 1 <? size l then Some (at_ l (N.to_nat (add i 1)) =? 49) else None) (fun ent =>
    bind (substr_ l 0 i) (fun w =>
    bind (substr_ l (add j 1) (sub (sub k j) 1)) (fun cid =>
    bind (substr_ l (add k 1) npos) (fun sc =>
    Some (L (if ent then w else lowercase w) ent (Docs_Model.to_id (Docs_Model.atol cid))
            (Docs_Model.to_id (Docs_Model.atol sc) mod 2 ^ 16))))))))).
  (* 36-42: in debug builds the contexts must be in order *)
  Fixpoint context_loop (debug : bool) (lastCId : N) (ls : list text) : option (list line) :=
    match ls with
    | [] => Some []
    | l :: ls' =>
      bind (context_line debug l) (fun r =>
        if debug && (contextId r <? lastCId) then None
        else option_map (cons r) (context_loop debug (contextId r) ls'))
    end.
  Definition context_all (debug : bool) (file : text) : option (list line) := context_loop debug 0 (lines_of [] file).
End Context.
