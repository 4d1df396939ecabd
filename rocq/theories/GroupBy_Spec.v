(* Specification of GROUP BY. *)
From Coq Require Import String List NArith ZArith Bool.
From Verif Require Import Table_Spec Ops_Spec Float32.
Import ListNotations.
Open Scope N_scope.

Inductive aggregate_type :=
  COUNT | GROUP_CONCAT | FIRST | LAST | SAMPLE | MIN | MAX | SUM | AVG.

(* What is taken from the index: the number a vocabulary id stands for (if any), and the
   printed form of an entry of a column. *)
Record environment := {
  kb_number : N -> option float32;
  show : result_type -> N -> string }.

(* the rows having the key k in the columns cs *)
Definition key_is (cs : list nat) (k : list N) (r : row) : bool :=
  if list_eq_dec N.eq_dec (cols cs r) k then true else false.
Definition group (cs : list nat) (k : list N) (t : table) : table := filter (key_is cs k) t.

(* the values without repetitions, in order of first occurrence *)
Fixpoint uniq (l : list N) : list N :=
  match l with [] => [] | x :: l' => x :: filter (fun y => negb (y =? x)) (uniq l') end.

Definition numbers (env : environment) (t : result_type) (vs : list N) : list (option float32) :=
  map (fun v => match t with
                | KB => kb_number env v
                | VERBATIM => Some (float_of_N v)
                | FLOAT => Some (float_of_bits v)
                | TEXT | LOCAL_VOCAB => None
                end) vs.

(* the sum in single precision, from left to right; NaN as soon as some value is no number *)
Definition float_sum (xs : list (option float32)) : float32 :=
  if forallb (fun x => match x with Some _ => true | None => false end) xs
  then fold_left (fun s x => match x with Some y => float_add s y | None => s end) xs float_zero
  else float_nan.

Definition is_least (t : result_type) (vs : list N) (v : N) : Prop :=
  (exists w, In w vs /\ entry_value t v = entry_value t w) /\
  forall w x y, In w vs -> entry_value t v = Some x -> entry_value t w = Some y -> (x <= y)%Z.
Definition is_greatest (t : result_type) (vs : list N) (v : N) : Prop :=
  (exists w, In w vs /\ entry_value t v = entry_value t w) /\
  forall w x y, In w vs -> entry_value t v = Some x -> entry_value t w = Some y -> (y <= x)%Z.

(* `id` is the right value of an aggregate over the values `all` of a column of type t.
   `vocab` are the strings the result refers to. *)
Definition aggregate_ok (env : environment) (vocab : list string)
    (a : aggregate_type) (distinct : bool) (delim : string) (t : result_type)
    (all : list N) (id : N) : Prop :=
  let vs := if distinct then uniq all else all in
  match a with
  | COUNT => id = N.of_nat (length vs)
  | SUM => id = float_bits (float_sum (numbers env t vs))
  | AVG => id = float_bits (float_div (float_sum (numbers env t vs))
                                      (float_of_N (N.of_nat (length vs))))
  | MIN => match t with TEXT | LOCAL_VOCAB => id = UNBOUND | _ => is_least t all id end
  | MAX => match t with TEXT | LOCAL_VOCAB => id = UNBOUND | _ => is_greatest t all id end
  | SAMPLE => In id all
  | FIRST => nth_error all 0 = Some id
  | LAST => nth_error (rev all) 0 = Some id
  | GROUP_CONCAT =>
      nth_error vocab (N.to_nat id) = Some (String.concat delim (map (show env t) vs))
  end.

(* the values are numbers in the range of finite floats *)
Definition finite_float (v : N) : Prop :=
  exists x, float_value v = Some x /\ (-2139095039 <= x <= 2139095039)%Z.

(* The inputs for which an aggregate is implemented correctly. *)
Definition supported (a : aggregate_type) (distinct : bool) (t : result_type) (vs : list N) : Prop :=
  match a with
  | AVG => distinct = false
  | GROUP_CONCAT => distinct = true -> t <> VERBATIM /\ ~ In (last vs 0) (removelast vs)
  | MIN | MAX => match t with
                 | FLOAT => Forall finite_float vs
                 | _ => Forall (fun v => v < 2 ^ 64) vs
                 end
  | _ => True
  end.

(* ---- with variables ---- *)

(* the type of the column holding a variable *)
Definition type_of_variable (types : list result_type) (vars : list (string * nat)) (v : string)
  : result_type :=
  match find (fun p => String.eqb (fst p) v) vars with
  | Some p => nth (snd p) types KB
  | None => KB
  end.

(* An alias (aggregate AS out): type, input variable, output variable, DISTINCT, delimiter. *)
Record alias := { al_type : aggregate_type; al_in : string; al_out : string;
                  al_distinct : bool; al_delim : string }.

(* What an output row for the group g with key k must be: the grouping variables are bound to
   the key, the aliases to the aggregates over the group. *)
Definition group_row_ok (env : environment) (types : list result_type)
    (sub outv : list (string * nat)) (groupVars : list string) (aliases : list alias)
    (vocab : list string) (k : list N) (g : table) (r : row) : Prop :=
  map (fun v => binding String.eqb outv r v) groupVars = k /\
  Forall (fun al => aggregate_ok env vocab (al_type al) (al_distinct al) (al_delim al)
            (type_of_variable types sub (al_in al))
            (map (fun s => binding String.eqb sub s (al_in al)) g)
            (binding String.eqb outv r (al_out al))) aliases.

Definition aliases_supported (types : list result_type) (sub : list (string * nat))
    (aliases : list alias) (g : table) : Prop :=
  Forall (fun al => supported (al_type al) (al_distinct al) (type_of_variable types sub (al_in al))
            (map (fun s => binding String.eqb sub s (al_in al)) g)) aliases.
