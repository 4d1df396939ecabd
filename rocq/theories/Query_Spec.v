(* What GROUP BY, HAVING, DISTINCT and ORDER BY make of the solutions of a WHERE clause. *)
From Coq Require Import String List NArith Bool Sorted Permutation.
From Verif Require Import Table_Spec Ops_Spec Float32 GroupBy_Spec.
Import ListNotations.
Open Scope N_scope.

(* a solution gives every variable a value, UNBOUND if it has none *)
Definition sol := string -> N.

Record query := Query {
  q_select : list string;
  q_distinct : bool;
  q_order : list (string * bool);  (* true: descending *)
  q_having : list (sol -> bool);
  q_group : list string;
  q_aliases : list alias }.

(* TEXT(?t) shows the variable ?t *)
Definition shown_variable (v : string) : string :=
  if prefix "TEXT(" v then substring 5 (String.length v - 6) v else v.
Definition shown (sel : list string) (s : sol) : list N := map (fun v => s (shown_variable v)) sel.

(* GROUP BY: one solution for every key. The order of the solutions within a group is not determined. *)
Definition key_of (vs : list string) (s : sol) : list N := map s vs.
Definition members (vs : list string) (k : list N) (sols : list sol) : list sol :=
  filter (fun s => if list_eq_dec N.eq_dec (key_of vs s) k then true else false) sols.
Definition grouped (env : environment) (vocab : list string) (ty : string -> result_type)
    (vs : list string) (als : list alias) (sols out : list sol) : Prop :=
  exists sols' ks, Permutation sols sols' /\ NoDup ks /\ (forall k, In k ks <-> exists s, In s sols /\ key_of vs s = k) /\
    Forall2 (fun k s => key_of vs s = k /\
      Forall (fun a => aggregate_ok env vocab (al_type a) (al_distinct a) (al_delim a) (ty (al_in a))
                (map (fun t : sol => t (al_in a)) (members vs k sols')) (s (al_out a))) als) ks out.

(* HAVING: all conditions hold *)
Definition holding (conds : list (sol -> bool)) (sols : list sol) : list sol :=
  filter (fun s => forallb (fun f => f s) conds) sols.

(* DISTINCT: what is shown is different for any two solutions, and nothing is lost *)
Definition made_distinct (sel : list string) (sols out : list sol) : Prop :=
  NoDup (map (shown sel) out) /\ (forall s, In s out -> In s sols) /\
  (forall s, In s sols -> exists t, In t out /\ shown sel t = shown sel s).

(* ORDER BY: no solution comes after one that must follow it *)
Fixpoint may_precede (key : list (string * bool)) (s t : sol) : Prop :=
  match key with
  | [] => True
  | (v, desc) :: key' => (if desc : bool then t v < s v else s v < t v) \/ (s v = t v /\ may_precede key' s t)
  end.
Definition in_order (key : list (string * bool)) (out : list sol) : Prop := StronglySorted (may_precede key) out.

Definition grouping (q : query) : Prop := q_group q <> [] \/ q_aliases q <> [].

(* The answer to a query, a sequence of solutions. With neither GROUP BY nor aliases there are no groups. *)
Definition answer (env : environment) (vocab : list string) (ty : string -> result_type) (q : query) (sols out : list sol) : Prop :=
  exists g d,
    (grouping q -> grouped env vocab ty (q_group q) (q_aliases q) sols g) /\ (~ grouping q -> Permutation sols g) /\
    (if q_distinct q then made_distinct (q_select q) (holding (q_having q) g) d else Permutation (holding (q_having q) g) d) /\
    Permutation d out /\ in_order (q_order q) out.
