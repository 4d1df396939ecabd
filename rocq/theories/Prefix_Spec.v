(* Prefixes for compression, without reference to the code. *)
From Coq Require Import List NArith Arith Bool.
Import ListNotations.
Open Scope N_scope.

Definition prefix_of (p w : list N) : Prop := exists s, w = p ++ s.
(* a common prefix of two words that follow each other *)
Definition common_to_neighbours (p : list N) (words : list (list N)) : Prop :=
  exists a x y b, words = a ++ x :: y :: b /\ prefix_of p x /\ prefix_of p y.

Fixpoint is_prefix (p w : list N) : bool :=
  match p, w with
  | [], _ => true
  | x :: p', y :: w' => (x =? y) && is_prefix p' w'
  | _ :: _, [] => false
  end.
(* the longest common prefixes of neighbours, if they have the minimal length *)
Fixpoint longest_common (a b : list N) : list N :=
  match a, b with
  | x :: a', y :: b' => if x =? y then x :: longest_common a' b' else []
  | _, _ => []
  end.
Fixpoint candidates (min : nat) (last : list N) (words : list (list N)) : list (list N) :=
  match words with
  | [] => []
  | w :: words' =>
      let p := longest_common last w in
      (if Nat.leb min (length p) then [p] else []) ++ candidates min w words'
  end.

(* The bytes saved by compressing with x in addition to the prefixes chosen so far: by the
   candidates that start with x and not with a longer chosen prefix, the bytes of x that are not
   in a shorter chosen prefix and exceed the code. *)
Definition covered (chosen : list (list N)) (x v : list N) : bool :=
  existsb (fun q => is_prefix x q && is_prefix q v) chosen.
Definition occurrences (cands chosen : list (list N)) (x : list N) : nat :=
  length (filter (fun v => is_prefix x v && negb (covered chosen x v)) cands).
Definition used (chosen : list (list N)) (x : list N) : nat :=
  fold_right Nat.max 0%nat (map (@length N) (filter (fun q => is_prefix q x) chosen)).
Definition gain (k : nat) (cands chosen : list (list N)) (x : list N) : nat :=
  (occurrences cands chosen x * (length x - used chosen x - k))%nat.
(* choosing the best candidate again and again *)
Inductive greedy (k : nat) (cands : list (list N)) : nat -> list (list N) -> list (list N) -> Prop :=
| greedy_enough chosen : greedy k cands 0 chosen []
| greedy_useless n chosen : (forall x, In x cands -> gain k cands chosen x = 0%nat) -> greedy k cands (S n) chosen []
| greedy_best n chosen p ps : In p cands -> (0 < gain k cands chosen p)%nat ->
    (forall x, In x cands -> (gain k cands chosen x <= gain k cands chosen p)%nat) ->
    greedy k cands n (p :: chosen) ps -> greedy k cands (S n) chosen (p :: ps).
