(* Specifications for UNION, DISTINCT, ORDER BY and FILTER. *)
From Coq Require Import List NArith ZArith Arith Sorted Permutation.
From Verif Require Import Table_Spec.
Import ListNotations.
Open Scope N_scope.

(* ---- library sorting: any result std::sort may give ---- *)

(* out is a sorted rearrangement of inp: no element is preceded by one it is less than *)
Definition sort_result {A} (lt : A -> A -> bool) (inp out : list A) : Prop :=
  Permutation inp out /\ StronglySorted (fun x y => lt y x = false) out.

(* the requirement of std::sort on its comparator *)
Record strict_weak_order {A} (lt : A -> A -> bool) : Prop :=
  { swo_irrefl : forall x, lt x x = false;
    swo_trans : forall x y z, lt x y = true -> lt y z = true -> lt x z = true;
    swo_incomp : forall x y z, lt x y = false -> lt y z = false -> lt x z = false }.

(* ---- UNION ---- *)

(* column origins: for each result column the column of the left and of the right input *)
Definition origin := (option nat * option nat)%type.

Definition union_row (side : origin -> option nat) (os : list origin) (r : row) : row :=
  map (fun o => match side o with Some c => col c r | None => UNBOUND end) os.

Definition table_union (os : list origin) (a b : table) : table :=
  map (union_row fst os) a ++ map (union_row snd os) b.

(* the value a row gives to a variable *)
Definition binding {V} (eqb : V -> V -> bool) (vars : list (V * nat)) (r : row) (v : V) : N :=
  match find (fun p => eqb (fst p) v) vars with
  | Some p => col (snd p) r
  | None => UNBOUND
  end.

(* ---- DISTINCT ---- *)

(* keep a row iff no earlier row has the same values in the columns ks *)
Fixpoint first_of_each (ks : list nat) (seen : list row) (t : table) : table :=
  match t with
  | [] => []
  | r :: t' =>
      if existsb (fun s => forallb (fun c => col c s =? col c r) ks) seen
      then first_of_each ks (r :: seen) t'
      else r :: first_of_each ks (r :: seen) t'
  end.

(* ---- ORDER BY ---- *)

(* r must not come after s: lexicographically by the given columns, true = descending *)
Fixpoint order_le (key : list (nat * bool)) (r s : row) : Prop :=
  match key with
  | [] => True
  | (c, desc) :: key' =>
      (if desc : bool then col c s < col c r else col c r < col c s) \/
      (col c r = col c s /\ order_le key' r s)
  end.
Definition ordered (key : list (nat * bool)) (t : table) : Prop :=
  forall i j r s, (i < j)%nat -> nth_error t i = Some r -> nth_error t j = Some s ->
  order_le key r s.

(* ---- FILTER ---- *)

Inductive result_type := KB | VERBATIM | TEXT | FLOAT | LOCAL_VOCAB.

(* The value represented by an entry of a column of the given type: for FLOAT the IEEE single
   precision number whose bits are the lower 32 bits (None: not a number); here represented
   by its position in the order of numbers, which is what comparisons depend on. *)
Definition float_value (id : N) : option Z :=
  let bits := id mod 2 ^ 32 in
  let magnitude := bits mod 2 ^ 31 in
  if 2139095040 <? magnitude then None
  else if bits <? 2 ^ 31 then Some (Z.of_N magnitude) else Some (- Z.of_N magnitude)%Z.
Definition entry_value (t : result_type) (id : N) : option Z :=
  match t with FLOAT => float_value id | _ => Some (Z.of_N id) end.

Inductive comparison_op := EQ | NE | LT | LE | GT | GE.

Definition holds (op : comparison_op) (x y : option Z) : bool :=
  match x, y with
  | Some a, Some b =>
      match op with
      | EQ => (a =? b)%Z | NE => negb (a =? b)%Z | LT => (a <? b)%Z
      | LE => (a <=? b)%Z | GT => (b <? a)%Z | GE => (b <=? a)%Z
      end
  | _, _ => match op with NE => true | _ => false end
  end.

Definition filter_rows (t : result_type) (op : comparison_op) (c : nat) (rhs : N) (tab : table)
  : table := filter (fun r => holds op (entry_value t (col c r)) (entry_value t rhs)) tab.

(* rows with lo <= value < hi in some of the given columns *)
Definition in_range (r : row) (d : nat * (N * N)) : bool :=
  (fst (snd d) <=? col (fst d) r) && (col (fst d) r <? snd (snd d)).
Definition filter_ranges (ds : list (nat * (N * N))) (tab : table) : table :=
  filter (fun r => existsb (in_range r) ds) tab.

(* comparison with a word: the word of an id against the searched word *)
Definition word_holds {W} (lt : W -> W -> bool) (op : comparison_op) (x y : W) : bool :=
  match op with
  | EQ => negb (lt x y) && negb (lt y x)
  | NE => lt x y || lt y x
  | LT => lt x y
  | LE => negb (lt y x)
  | GT => lt y x
  | GE => negb (lt x y)
  end.
