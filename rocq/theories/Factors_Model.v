(* Model of QueryPlanningCostFactors: the factors with their defaults, read from a file and looked up by the planner.
   double is a type with a value 0, atof a function on bytes, the hash map an association list whose first entry for a key
   counts. *)
From Coq Require Import String List NArith Bool.
From Verif Require Strings_Model Lines_Model Conv_Model.
Import ListNotations.
Local Open Scope string_scope.
Local Open Scope N_scope.

Inductive outcome (A : Type) := Ok (a : A) | Throw | UB.
Arguments Ok {A}. Arguments Throw {A}. Arguments UB {A}.

Definition factors (D : Type) : Type := list (list N * D).
Definition same (a b : list N) : bool := if list_eq_dec N.eq_dec a b then true else false.
Definition find {D} (key : list N) (f : factors D) : option D :=
  match List.find (fun e => same key (fst e)) f with Some e => Some (snd e) | None => None end.
(* operator[] on the left of an assignment *)
Definition assign {D} (f : factors D) (key : list N) (d : D) : factors D := (key, d) :: f.
(* operator[] for reading: an absent key gets 0 *)
Definition touch {D} (zero : D) (f : factors D) (key : list N) : factors D :=
  match find key f with Some _ => f | None => assign f key zero end.

(* engine/QueryPlanningCostFactors.cpp:12-21; number: a literal with one decimal *)
Definition initial {D} (number : N -> N -> D) : factors D :=
  fold_left (fun f e => assign f (Conv_Model.bytes (fst e)) (snd e))
    [("FILTER_PUNISH", number 2 0); ("NO_FILTER_PUNISH", number 1 0); ("FILTER_SELECTIVITY", number 0 1);
     ("HASH_MAP_OPERATION_COST", number 50 0); ("JOIN_SIZE_ESTIMATE_CORRECTION_FACTOR", number 0 7);
     ("DUMMY_JOIN_SIZE_ESTIMATE_CORRECTION_FACTOR", number 1000 0); ("DISK_RANDOM_ACCESS_COST", number 1000 0)] [].

(* QueryPlanningCostFactors.cpp:27-33; split cannot run out of fuel (C39) *)
Fixpoint read_lines {D} (zero : D) (atof : list N -> D) (ls : list (list N)) (f : factors D) : outcome (factors D) :=
  match ls with
  | [] => Ok f
  | line :: ls' =>
      match Strings_Model.split line 9 with
      | Some [k; v] => read_lines zero atof ls' (assign (touch zero f k) k (atof v))
      | _ => Throw
      end
  end.
(* QueryPlanningCostFactors.cpp:24-34; None: the file cannot be opened, getline fails at once *)
Definition readFromFile {D} (zero : D) (atof : list N -> D) (file : option (list N)) (f : factors D) : outcome (factors D) :=
  match file with
  | None => Ok f
  | Some bytes => read_lines zero atof (Lines_Model.lines_of [] bytes) f
  end.
(* QueryPlanningCostFactors.cpp:37-39: end() is dereferenced if there is no such key *)
Definition getCostFactor {D} (f : factors D) (key : list N) : outcome D :=
  match find key f with Some d => Ok d | None => UB end.
(* the keys that occur in the code: TextOperationWithFilter.cpp:187, 204, 207, Join.cpp:217, 433, 435,
   TextOperationWithoutFilter.cpp:131 *)
Definition used_keys : list (list N) :=
  map Conv_Model.bytes ["JOIN_SIZE_ESTIMATE_CORRECTION_FACTOR"; "FILTER_PUNISH"; "HASH_MAP_OPERATION_COST"; "DISK_RANDOM_ACCESS_COST";
    "DUMMY_JOIN_SIZE_ESTIMATE_CORRECTION_FACTOR"; "NO_FILTER_PUNISH"].
