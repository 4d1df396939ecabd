(* Model of the output of results: src/engine/QueryExecutionTree.cpp 87-144 (writeResultToStream,
   writeResultAsJson), 199-313 (writeJsonTable, writeTable), src/engine/Server.cpp 184-188, 389-402
   (composeResponseJson, the array of rows) and 411-427 (composeResponseSepValues). size_t has 64
   bits. Json values are null (None) or strings; escaping them is left to the Json library. *)
From Coq Require Import String List NArith ZArith Arith Bool.
From Verif Require Import Strings_Model Conv_Model.
From Verif Require Docs_Model.
Import ListNotations.
Open Scope N_scope.

Notation text := (list N).
Definition size_t (n : N) : N := n mod 2 ^ 64.
Definition max_size_t : N := 2 ^ 64 - 1.
(* Constants.h:18 *)
Definition MAX_NOF_ROWS_IN_RESULT : N := 100000.
(* Constants.h:56 *)
Definition VALUE_PREFIX : text := bytes ":v:".

(* ResultTable.h 29-41 *)
Inductive type := KB | VERBATIM | TEXT | FLOAT | LOCAL_VOCAB.

(* What is outside of the functions: Index::idToOptionalString, Index::getTextExcerpt, the text
   that operator<< writes for the float in the first four bytes, ResultTable::_localVocab. *)
Record world := World { word_of : N -> option text; excerpt_of : N -> text; float_text : N -> text; local_vocab : list text }.
(* The result of the tree and _variableColumnMap *)
Record result := Result { data : list (list N); types : list type; columns : list (text * N) }.

(* ResultTable.h:96-101 *)
Definition getResultType (r : result) (c : N) : type := nth (N.to_nat c) (types r) KB.
(* ResultTable.h:80-87 *)
Definition local_word (w : world) (id : N) : option text :=
  if id <? N.of_nat (length (local_vocab w)) then Some (nth (N.to_nat id) (local_vocab w) []) else None.

Fixpoint find_column (m : list (text * N)) (v : text) : option N :=
  match m with
  | [] => None
  | (k, c) :: m' => if list_eq_dec N.eq_dec k v then Some c else find_column m' v
  end.

(* QueryExecutionTree.cpp 97-99, 127-129. rfind without a match is npos, and npos - 5 is more than
   there is; a bracket before position 5 gives a wrapped number, which is also more. *)
Definition selected_name (var : text) : text :=
  if startsWith var (bytes "TEXT(") then
    match rfind 41 var with
    | Some i => if Nat.ltb i 5 then skipn 5 var else substr var 5 (i - 5)
    | None => skipn 5 var
    end
  else var.
(* 95-107, 125-137 *)
Definition validIndices (r : result) (selectVars : list text) : list (option (N * type)) :=
  map (fun var => match find_column (columns r) (selected_name var) with
                  | Some c => Some (c, getResultType r c)
                  | None => None
                  end) selectVars.

(* data(i, c); a cell outside of the table is undefined behaviour *)
Definition at_cell (r : result) (i c : N) : outcome N :=
  match nth_error (data r) (N.to_nat i) with
  | Some row => match nth_error row (N.to_nat c) with Some id => Ok id | None => Undef end
  | None => Undef
  end.

(* 225-260 *)
Definition json_cell (w : world) (ty : type) (id : N) : outcome (option text) :=
  match ty with
  | KB => match word_of w id with
          | Some e => if startsWith e VALUE_PREFIX then bind (convertIndexWordToValueLiteral e) (fun l => Ok (Some l)) else Ok (Some e)
          | None => Ok None
          end
  | VERBATIM => Ok (Some (decimal id))
  | TEXT => Ok (Some (excerpt_of w id))
  | FLOAT => Ok (Some (float_text w id))
  | LOCAL_VOCAB => Ok (local_word w id)
  end.
(* 277-308 *)
Definition stream_cell (w : world) (ty : type) (id : N) : outcome text :=
  match ty with
  | KB => let entity := match word_of w id with Some e => e | None => [] end in
          if startsWith entity VALUE_PREFIX then convertIndexWordToValueLiteral entity else Ok entity
  | VERBATIM => Ok (decimal id)
  | TEXT => Ok (excerpt_of w id)
  | FLOAT => Ok (float_text w id)
  | LOCAL_VOCAB => Ok (match local_word w id with Some e => e | None => [] end)
  end.

(* 218-261 *)
Fixpoint json_row (w : world) (r : result) (i : N) (vs : list (option (N * type))) : outcome (list (option text)) :=
  match vs with
  | [] => Ok []
  | v :: vs' =>
    bind (match v with
          | None => Ok None
          | Some (c, ty) => bind (at_cell r i c) (json_cell w ty)
          end) (fun x => bind (json_row w r i vs') (fun l => Ok (x :: l)))
  end.
(* 274-311 *)
Fixpoint stream_row (w : world) (r : result) (i : N) (sep : N) (vs : list (option (N * type))) : outcome text :=
  match vs with
  | [] => Ok []
  | v :: vs' =>
    bind (match v with
          | None => Ok []
          | Some (c, ty) => bind (at_cell r i c) (stream_cell w ty)
          end) (fun x => bind (stream_row w r i sep vs') (fun l =>
    Ok (x ++ (match vs' with [] => 10 | _ => sep end) :: l)))
  end.
(* The loops of lines 215 and 273: n passes, from i on. *)
Fixpoint row_loop {A} (row : N -> outcome A) (n : nat) (i : N) : outcome (list A) :=
  match n with
  | O => Ok []
  | S n' => bind (row i) (fun x => bind (row_loop row n' (i + 1)) (fun l => Ok (x :: l)))
  end.
Definition rows_between {A} (row : N -> outcome A) (from upperBound : N) : outcome (list A) :=
  row_loop row (N.to_nat (upperBound - from)) from.

(* 199-264 *)
Definition writeJsonTable (w : world) (r : result) (from limit : N) (vs : list (option (N * type))) : outcome (list (list (option text))) :=
  let upperBound := N.min (N.of_nat (length (data r))) (size_t (limit + from)) in
  rows_between (fun i => json_row w r i vs) from upperBound.
(* 119-144 *)
Definition writeResultAsJson (w : world) (r : result) (selectVars : list text) (limit offset : N) : outcome (list (list (option text))) :=
  match validIndices r selectVars with
  | [] => Ok []
  | vs => writeJsonTable w r offset limit vs
  end.
(* 87-117 *)
Definition writeResultToStream (w : world) (r : result) (selectVars : list text) (limit offset : N) (sep : N) : outcome text :=
  match validIndices r selectVars with
  | [] => Ok []
  | vs =>
    let upperBound := N.min (size_t (offset + limit)) (N.of_nat (length (data r))) in
    bind (rows_between (fun i => stream_row w r i sep vs) offset upperBound) (fun rows => Ok (concat rows))
  end.

(* static_cast<size_t>(atol(s)); a number that does not fit into a long gives the nearest one *)
Definition atol_size (s : text) : N :=
  Docs_Model.to_id (Z.max (- 2 ^ 63) (Z.min (2 ^ 63 - 1) (Docs_Model.atol s))).
(* Server.cpp 391-397, 417-423: _limit and _offset are empty if they are not in the query *)
Definition number_or (default : N) (s : text) : N := match s with [] => default | _ => atol_size s end.
(* Server.cpp 184-188, 389-402; send is the parameter of the request *)
Definition responseJson (w : world) (r : result) (selectVars : list text) (limit offset : text) (send : option text) : outcome (list (list (option text))) :=
  let maxSend := match send with Some s => atol_size s | None => MAX_NOF_ROWS_IN_RESULT end in
  writeResultAsJson w r selectVars (N.min (number_or MAX_NOF_ROWS_IN_RESULT limit) maxSend) (number_or 0 offset).
(* Server.cpp 411-427 *)
Definition responseSepValues (w : world) (r : result) (selectVars : list text) (limit offset : text) (sep : N) : outcome text :=
  writeResultToStream w r selectVars (number_or max_size_t limit) (number_or 0 offset) sep.
