(* What a pipeline must deliver, without batches, threads and futures. *)
From Coq Require Import List Arith.
From Verif Require Import Pipe_Model.
Import ListNotations.

Section Spec.
  Context {V C S : Type}.
  Variable next : C -> made V C.
  Notation transformer := (S -> V -> option (V * S)).

  (* the creator delivers the values l one after another *)
  Inductive yields : C -> list V -> C -> Prop :=
  | y_none c : yields c [] c
  | y_more c v c1 l c2 : next c = Value v c1 -> yields c1 l c2 -> yields c (v :: l) c2.

  (* the transformer that is responsible for the element number k *)
  Definition part (batchSize n k : nat) : nat :=
    let size := batchSize / n in
    let r := k mod batchSize in
    if size =? 0 then n - 1 else Nat.min (r / size) (n - 1).
  Definition responsible (batchSize n : nat) (fs : list transformer) (k : nat) : nat :=
    if n =? length fs then part batchSize n k else 0.
  (* the elements, from number k on, are transformed one after another *)
  Fixpoint transformed (who : nat -> nat) (fs : list transformer) (ss : list S) (k : nat) (l : list V) : option (list V * list S) :=
    match l with
    | [] => Some ([], ss)
    | v :: l' =>
        match nth_error fs (who k), nth_error ss (who k) with
        | Some f, Some s =>
            match f s v with
            | Some (v', s') =>
                match transformed who fs (set_nth (who k) s' ss) (Datatypes.S k) l' with
                | Some (r, ss') => Some (v' :: r, ss')
                | None => None
                end
            | None => None
            end
        | _, _ => None
        end
    end.
  (* all stages *)
  Fixpoint through (batchSize : nat) (ts : stages V S) (l : list V) : option (list V) :=
    match ts with
    | [] => Some l
    | (n, fs, ss) :: ts' =>
        match transformed (responsible batchSize n fs) fs ss 0 l with
        | Some (r, _) => through batchSize ts' r
        | None => None
        end
    end.
  (* BatchedPipeline.h:151-154; a transformer that is shared by several threads must be threadsafe
     and its results must not depend on its state *)
  Definition stateless (f : transformer) : Prop := forall s s' v, option_map fst (f s v) = option_map fst (f s' v).
  Definition stage_ok (t : nat * list transformer * list S) : Prop :=
    let '(n, fs, ss) := t in
    0 < n /\ length ss = length fs /\ (length fs = n \/ (length fs = 1 /\ Forall stateless fs)).

  (* what a consumer may see *)
  Inductive correct (batchSize : nat) (c : C) (ts : stages V S) : list (event V) -> Prop :=
  (* values that are a prefix of the right ones *)
  | c_values l c' vs rest : yields c l c' -> through batchSize ts l = Some (vs ++ rest) -> correct batchSize c ts (map (Got V) vs)
  (* all values, and then nothing *)
  | c_all l c' c'' vs j : yields c l c' -> next c' = End c'' -> through batchSize ts l = Some vs ->
      correct batchSize c ts (map (Got V) vs ++ repeat (Nothing V) (j + 1))
  (* values and then an exception if there was one, for one of the next elements *)
  | c_thrown l c1 vs more c2 j : yields c l c1 -> through batchSize ts l = Some vs ->
      yields c1 more c2 -> length more <= batchSize -> next c2 = Raise \/ through batchSize ts (l ++ more) = None ->
      correct batchSize c ts (map (Got V) vs ++ Thrown V :: repeat (Undefined V) j).
End Spec.
