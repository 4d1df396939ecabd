(* VALUES (?x ?y) { (a b) (c UNDEF) } as solutions: every row gives values to the variables. *)
From Coq Require Import String List NArith Bool.
From Verif Require Import Conv_Model(bytes).
Import ListNotations.
Open Scope N_scope.

Notation text := (list N).
Definition UNDEF_word : text := bytes "UNDEF".
(* The row gives the value w to the variable v. *)
Inductive gives : list text -> list text -> text -> text -> Prop :=
| gv_here v w vars row : w <> UNDEF_word -> gives (v :: vars) (w :: row) v w
| gv_later u x vars row v w : gives vars row v w -> gives (u :: vars) (x :: row) v w.
(* Some row of the clause has a value for the variable. *)
Definition bound_in (vars : list text) (rows : list (list text)) (v : text) : Prop := exists row w, In row rows /\ gives vars row v w.
(* The value of a variable in a row of a table *)
Inductive cell_is (columns : list (text * nat)) (out : list N) (v : text) (id : N) : Prop :=
| ci_cell c : In (v, c) columns -> nth_error out c = Some id -> cell_is columns out v id.
(* An output row has exactly the values that a row of the clause gives. *)
Definition agrees (getId : text -> option N) (vars : list text) (columns : list (text * nat)) (row : list text) (out : list N) : Prop :=
  forall v id, cell_is columns out v id <-> exists w, gives vars row v w /\ getId w = Some id.
(* The elements with P, in order and as often as they are there *)
Inductive picks {A} (P : A -> Prop) : list A -> list A -> Prop :=
| pk_nil : picks P [] []
| pk_take x l l' : P x -> picks P l l' -> picks P (x :: l) (x :: l')
| pk_leave x l l' : ~ P x -> picks P l l' -> picks P (x :: l) l'.
