(* The rows for a text record, without indices: every posting with every choice of one matching row of each sub result. *)
From Coq Require Import List NArith.
Import ListNotations.

(* a posting: entity, score, record *)
Definition posting : Type := N * N * N.
Definition entity (p : posting) : N := fst (fst p).
Definition head_of (p : posting) : list N := [entity p; snd (fst p); snd p].
(* the entities of the postings, each once, in the order of their first postings *)
Fixpoint firsts (seen es : list N) : list N :=
  match es with
  | [] => []
  | e :: r => if in_dec N.eq_dec e seen then firsts seen r else e :: firsts (e :: seen) r
  end.
Definition entities (ps : list posting) : list N := firsts [] (map entity ps).
(* all choices of one element of each list *)
Fixpoint choices {A} (ls : list (list A)) : list (list A) :=
  match ls with
  | [] => [[]]
  | l :: r => flat_map (fun c => map (fun a => a :: c) l) (choices r)
  end.
Definition rows_of (m : N -> option (list (list N))) (e : N) : list (list N) := match m e with Some l => l | None => [] end.
Definition matching (ps : list posting) (m : N -> option (list (list N))) : list (list N) := flat_map (rows_of m) (entities ps).
Definition product (ps : list posting) (maps : list (N -> option (list (list N)))) : list (list N) :=
  flat_map (fun p => map (fun c => head_of p ++ concat c) (choices (map (matching ps) maps))) ps.
(* how many choices there are *)
Definition number_of_choices (ps : list posting) (maps : list (N -> option (list (list N)))) : N :=
  fold_right (fun m n => N.of_nat (length (matching ps m)) * n)%N 1%N maps.
