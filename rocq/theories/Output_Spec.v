(* What the output of a query is: the rows that LIMIT and OFFSET select, with the values of the
   selected variables. *)
From Coq Require Import String List NArith Bool.
From Verif Require Import Conv_Model Output_Model.
Import ListNotations.
Open Scope N_scope.

(* The rows number offset, offset + 1, ... of a table, at most limit of them; None is no limit. *)
Definition window {A} (limit : option N) (offset : N) (rows out : list A) : Prop :=
  forall k : nat, nth_error out k =
    match limit with
    | Some l => if N.of_nat k <? l then nth_error rows (N.to_nat offset + k) else None
    | None => nth_error rows (N.to_nat offset + k)
    end.

(* ?x and TEXT(?x) select the variable ?x. *)
Inductive selects : text -> text -> Prop :=
| se_plain v : (forall t, v <> bytes "TEXT(" ++ t) -> selects v v
| se_text v : selects (bytes "TEXT(" ++ v ++ bytes ")") v.

(* What is shown for an entry of a column, None for an unbound one. Words of the index that encode
   numbers and dates begin with :v: and are shown as literals. *)
Inductive shown (w : world) : type -> N -> option text -> Prop :=
| sh_unbound id : word_of w id = None -> shown w KB id None
| sh_word id e : word_of w id = Some e -> (forall t, e <> bytes ":v:" ++ t) -> shown w KB id (Some e)
| sh_value id t l : word_of w id = Some (bytes ":v:" ++ t) -> convertIndexWordToValueLiteral (bytes ":v:" ++ t) = Ok l -> shown w KB id (Some l)
| sh_number id : shown w VERBATIM id (Some (decimal id))
| sh_excerpt id : shown w TEXT id (Some (excerpt_of w id))
| sh_float id : shown w FLOAT id (Some (float_text w id))
| sh_local id e : nth_error (local_vocab w) (N.to_nat id) = Some e -> shown w LOCAL_VOCAB id (Some e)
| sh_local_unbound id : nth_error (local_vocab w) (N.to_nat id) = None -> shown w LOCAL_VOCAB id None.

(* The output of a row for a selected variable. A variable without a column is unbound. *)
Inductive cell (w : world) (r : result) (row : list N) : text -> option text -> Prop :=
| ce_column s v a b c ty id x : selects s v -> columns r = a ++ (v, c) :: b -> ~ In v (map fst a) ->
    nth_error (types r) (N.to_nat c) = Some ty -> nth_error row (N.to_nat c) = Some id -> shown w ty id x -> cell w r row s x
| ce_none s v : selects s v -> ~ In v (map fst (columns r)) -> cell w r row s None.

(* lines of values with separators, an unbound value is empty *)
Definition field (x : option text) : text := match x with Some t => t | None => [] end.
Fixpoint line (sep : N) (xs : list (option text)) : text :=
  match xs with
  | [] => []
  | [x] => field x ++ [10]
  | x :: xs' => field x ++ sep :: line sep xs'
  end.

(* LIMIT and OFFSET in a query: nothing or a number that fits into 63 bits *)
Inductive number_given : text -> option N -> Prop :=
| ng_none : number_given [] None
| ng_some n : n < 2 ^ 63 -> number_given (decimal n) (Some n).
