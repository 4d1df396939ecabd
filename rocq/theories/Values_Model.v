(* Model of VALUES: src/engine/Values.cpp 12-15 (constructor), 77-84 (getVariableColumns), 126-136
   (computeResult), 138-184 (sanitizeValues), 186-219 (writeValues). Words are texts (lists of
   bytes), the lookup of a word in the vocabulary is a function. Warnings are left out. *)
From Coq Require Import String List NArith Arith Bool.
From Verif Require Import Conv_Model(bytes).
Import ListNotations.
Open Scope N_scope.

Notation text := (list N).
Definition text_eqb (a b : text) : bool := if list_eq_dec N.eq_dec a b then true else false.
Definition UNDEF : text := bytes "UNDEF".
(* ParsedQuery.h 211-219 *)
Record sparql_values := SparqlValues { variables : list text; values : list (list text) }.

(* vector::erase(begin() + i) *)
Definition erase {A} (i : nat) (l : list A) : list A := firstn i l ++ skipn (S i) l.
(* 146-157: the rows with a wrong number of values (an exception), the positions of the rows without
   a value, and for every column whether it has a value; bound is variableBound *)
Fixpoint scan (n : nat) (i : nat) (rows : list (list text)) (emptyValues : list nat) (bound : list bool) : option (list nat * list bool) :=
  match rows with
  | [] => Some (emptyValues, bound)
  | v :: rows' =>
    if negb (Nat.eqb (length v) n) then None else
    let emptyValues := if forallb (fun s => text_eqb s UNDEF) v then emptyValues ++ [i] else emptyValues in
    let bound := map (fun p => fst p || negb (text_eqb (snd p) UNDEF)) (combine bound v) in
    scan n (S i) rows' emptyValues bound
  end.
(* 167-176: the columns, from the last to the first *)
Fixpoint erase_columns (its : list (nat * bool)) (v : sparql_values) : sparql_values :=
  match its with
  | [] => v
  | (k, b) :: its' => erase_columns its' (if b then v else SparqlValues (erase k (variables v)) (map (erase k) (values v)))
  end.
(* Values.cpp 138-184; None is an exception *)
Definition sanitizeValues (v : sparql_values) : option sparql_values :=
  let n := length (variables v) in
  match scan n 0 (values v) [] (map (fun _ => false) (variables v)) with
  | None => None
  | Some (emptyValues, bound) =>
    let rows := fold_left (fun rows it => erase it rows) (rev emptyValues) (values v) in
    let v := erase_columns (rev (combine (seq 0 n) bound)) (SparqlValues (variables v) rows) in
    match values v, variables v with
    | [], _ | _, [] => None
    | _, _ => Some v
    end
  end.

(* 194-206: the ids of the first cols values of a row; None when one is not in the vocabulary *)
Fixpoint write_row (getId : text -> option N) (row : list text) : option (list N) :=
  match row with
  | [] => Some []
  | w :: row' =>
    match getId w with
    | None => None
    | Some id => match write_row getId row' with None => None | Some ids => Some (id :: ids) end
    end
  end.
(* Values.cpp 186-219; the rows are as long as the result is wide (line 146 and 174) *)
Fixpoint writeValues (getId : text -> option N) (rows : list (list text)) : list (list N) :=
  match rows with
  | [] => []
  | row :: rows' =>
    match write_row getId row with
    | Some ids => ids :: writeValues getId rows'
    | None => writeValues getId rows'
    end
  end.

Record table := Table { columns : list (text * nat); data : list (list N) }.
(* Values.cpp 77-84: a later assignment replaces an earlier one, so the last column is the first to
   be found *)
Fixpoint columns_from (i : nat) (vars : list text) (m : list (text * nat)) : list (text * nat) :=
  match vars with
  | [] => m
  | v :: vars' => columns_from (S i) vars' ((v, i) :: m)
  end.
Definition getVariableColumns (v : sparql_values) : list (text * nat) := columns_from 0 (variables v) [].
(* Values.cpp 12-15, 126-136 *)
Definition computeResult (getId : text -> option N) (v : sparql_values) : option table :=
  match sanitizeValues v with
  | None => None
  | Some v => Some (Table (getVariableColumns v) (writeValues getId (values v)))
  end.
