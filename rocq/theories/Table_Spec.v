(* Specification vocabulary for query results: tables of ids. *)
From Coq Require Import List NArith Sorted.
Import ListNotations.
Open Scope N_scope.

Definition row := list N.
Definition table := list row.

(* value of column c of a row *)
Definition col (c : nat) (r : row) : N := nth c r 0.

(* the rows are sorted by column c *)
Definition sorted_on (c : nat) (t : table) : Prop :=
  Sorted (fun r s => col c r <= col c s) t.

(* all rows have w columns *)
Definition width (w : nat) (t : table) : Prop := Forall (fun r => length r = w) t.

(* a row without column c *)
Definition drop_col (c : nat) (r : row) : row := firstn c r ++ skipn (S c) r.

(* The relational join on a.jc1 = b.jc2: all combinations of a row of a and a row of b
   agreeing on the join column, each written as the row of a followed by the row of b
   without its join column. *)
Definition relational_join (a : table) (jc1 : nat) (b : table) (jc2 : nat) : table :=
  flat_map (fun ra => map (fun rb => ra ++ drop_col jc2 rb)
                          (filter (fun rb => col jc1 ra =? col jc2 rb) b)) a.

(* ---- several columns ---- *)

(* the unbound value, global/Id.h: ID_NO_VALUE = 2^64 - 1 - 2 *)
Definition UNBOUND : N := 18446744073709551613.

(* the values of the columns cs of a row *)
Definition cols (cs : list nat) (r : row) : list N := map (fun c => col c r) cs.

(* lexicographic comparison *)
Fixpoint lex_cmp (x y : list N) : comparison :=
  match x, y with
  | [], [] => Eq
  | [], _ :: _ => Lt
  | _ :: _, [] => Gt
  | a :: x', b :: y' => match a ?= b with Eq => lex_cmp x' y' | c => c end
  end.
Definition lex_le (x y : list N) : Prop := lex_cmp x y <> Gt.

(* the rows are sorted lexicographically by the columns cs *)
Definition sorted_lex (cs : list nat) (t : table) : Prop :=
  Sorted (fun r s => lex_le (cols cs r) (cols cs s)) t.

(* Join columns are pairs (column of a, column of b). Two rows agree on them: *)
Definition agree (jcs : list (nat * nat)) (ra rb : row) : bool :=
  forallb (fun p => col (fst p) ra =? col (snd p) rb) jcs.

(* the row without the columns cs *)
Definition drop_cols (cs : list nat) (r : row) : row :=
  cols (filter (fun c => negb (existsb (Nat.eqb c) cs)) (seq 0 (length r))) r.

(* All combinations of rows agreeing on the join columns. *)
Definition multi_join (a b : table) (jcs : list (nat * nat)) : table :=
  flat_map (fun ra => map (fun rb => ra ++ drop_cols (map snd jcs) rb)
                          (filter (agree jcs ra) b)) a.

(* Left outer join: rows of a without partner are padded with n unbound values. *)
Definition left_outer_join (a b : table) (jcs : list (nat * nat)) (n : nat) : table :=
  flat_map (fun ra => match filter (agree jcs ra) b with
                      | [] => [ra ++ repeat UNBOUND n]
                      | ms => map (fun rb => ra ++ drop_cols (map snd jcs) rb) ms
                      end) a.

(* The rows of b without partner in a. *)
Definition unmatched_right (a b : table) (jcs : list (nat * nat)) : table :=
  filter (fun rb => negb (existsb (fun ra => agree jcs ra rb) a)) b.

(* A row of b without partner, as a row of the outer join where a has w columns: the join
   columns get their values from b, the other columns of a are unbound. *)
Definition right_only_row (w : nat) (jcs : list (nat * nat)) (rb : row) : row :=
  map (fun c => match find (fun p => Nat.eqb (fst p) c) jcs with
                | Some p => col (snd p) rb
                | None => UNBOUND
                end) (seq 0 w)
  ++ drop_cols (map snd jcs) rb.

(* The rows of a without partner in b. *)
Definition table_minus (a b : table) (jcs : list (nat * nat)) : table :=
  filter (fun ra => negb (existsb (agree jcs ra) b)) a.

(* Join columns as the planner produces them: at least one, existing, no column twice. *)
Definition join_columns_ok (wa wb : nat) (jcs : list (nat * nat)) : Prop :=
  jcs <> [] /\ NoDup (map fst jcs) /\ NoDup (map snd jcs) /\
  Forall (fun p => (fst p < wa)%nat /\ (snd p < wb)%nat) jcs.
