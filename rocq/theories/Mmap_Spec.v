(* Lists with the operations of a vector, without reference to the code. *)
From Coq Require Import List NArith Arith.
From Verif Require Import Mmap_Model.
Import ListNotations.
Open Scope N_scope.

Definition replaced (i : nat) (e : elem) (l : list elem) : list elem := firstn i l ++ e :: skipn (i + 1) l.
(* s is the number of bytes of an element; new elements of a longer vector are not specified *)
Inductive step (s : N) : list elem -> op -> list elem -> Prop :=
| s_push l e : length e = N.to_nat s -> step s l (Push e) (l ++ [e])
| s_put l i e : length e = N.to_nat s -> i < N.of_nat (length l) -> step s l (Put i e) (replaced (N.to_nat i) e l)
| s_shrink l n : n <= N.of_nat (length l) -> step s l (Resize n) (firstn (N.to_nat n) l)
| s_extend l n more : N.of_nat (length l) <= n -> length (l ++ more) = N.to_nat n ->
    Forall (fun e => length e = N.to_nat s) more -> step s l (Resize n) (l ++ more)
| s_clear l : step s l Clear []
| s_reserve l n : step s l (Reserve n) l
| s_reopen l : step s l Reopen l.
Inductive steps (s : N) : list elem -> list op -> list elem -> Prop :=
| steps_none l : steps s l [] l
| steps_more l o l1 ops l2 : step s l o l1 -> steps s l1 ops l2 -> steps s l (o :: ops) l2.

(* which histories are allowed: valid indices, elements of the right size, at most m elements *)
Fixpoint allowed (s m : N) (n : N) (ops : list op) : Prop :=
  match ops with
  | [] => True
  | Push e :: ops' => length e = N.to_nat s /\ n + 1 <= m /\ allowed s m (n + 1) ops'
  | Put i e :: ops' => length e = N.to_nat s /\ i < n /\ allowed s m n ops'
  | Resize k :: ops' => k <= m /\ allowed s m k ops'
  | Clear :: ops' => allowed s m 0 ops'
  | Reserve k :: ops' => k <= m /\ allowed s m n ops'
  | Reopen :: ops' => allowed s m n ops'
  end.

Fixpoint ballowed (s m : N) (n : N) (ops : list bop) : Prop :=
  match ops with
  | [] => True
  | BPush e :: ops' => length e = N.to_nat s /\ n + 1 <= m /\ ballowed s m (n + 1) ops'
  | BPut i e :: ops' => length e = N.to_nat s /\ i < n /\ ballowed s m n ops'
  | BClear :: ops' => ballowed s m 0 ops'
  end.
Fixpoint bsteps (l : list elem) (ops : list bop) : list elem :=
  match ops with
  | [] => l
  | BPush e :: ops' => bsteps (l ++ [e]) ops'
  | BPut i e :: ops' => bsteps (replaced (N.to_nat i) e l) ops'
  | BClear :: ops' => bsteps [] ops'
  end.

(* what a caller sees: the size, and with at() every element and nothing behind the last *)
Definition elements (s : N) (w : world) (v : vec) (l : list elem) : Prop :=
  size v = N.of_nat (length l) /\
  forall i, at_ s w v i = match nth_error l (N.to_nat i) with Some e => Done e | None => Throws end.
Definition belements (s : N) (w : world) (b : buffered) (l : list elem) : Prop :=
  b_size b = N.of_nat (length l) /\
  (forall i, b_at s w b i = match nth_error l (N.to_nat i) with Some e => Done e | None => Throws end) /\
  (forall i e, nth_error l (N.to_nat i) = Some e -> b_get s w b i = Done e).
(* elements are at most half a page and m of them can be addressed *)
Definition sizes (s page m : N) : Prop := 0 < s /\ 2 * s <= page /\ 2 * (m + 100) * s + page < 2 ^ 64.
