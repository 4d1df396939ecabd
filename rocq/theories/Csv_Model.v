(* Model of CompactStringVector (global/Pattern.h:88-193). *)
From Coq Require Import List NArith Arith Bool.
From Verif Require Import Bytes.
Import ListNotations.
Open Scope N_scope.

(* Pattern.h:188-192. The memory is a list of bytes; positions in it are nat, i.e. sums and
   products of sizes are assumed not to wrap (the memory was allocated). *)
Record csv := { c_data : list N; c_size : nat; c_index_end : nat; c_data_size : nat }.

(* Pattern.h:131-141: the loop of build. iw, dw: sizeof(IndexT), sizeof(DataT). *)
Fixpoint csv_fill (iw dw : nat) (mem : list N) (indexEnd currentLength indPos : nat)
    (data : list (list N)) : option (list N) :=
  match data with
  | [] => store mem (indPos * iw) (le iw (N.of_nat currentLength))
  | d :: data' =>
      match store mem (indPos * iw) (le iw (N.of_nat currentLength)) with
      | None => None
      | Some mem1 =>
          match store mem1 (indexEnd + currentLength * dw) (words dw d) with
          | None => None
          | Some mem2 => csv_fill iw dw mem2 indexEnd (currentLength + length d) (indPos + 1) data'
          end
      end
  end.

(* Pattern.h:113-145 build; `blank` is the allocated memory. None: the exception of line 121 or
   a write out of bounds. *)
Definition csv_build (iw dw : nat) (blank : nat -> list N) (data : list (list N)) : option csv :=
  let size := length data in
  let indexEnd := ((size + 1) * iw)%nat in
  let dataCount := fold_left (fun c d => c + length d)%nat data 0%nat in
  if 256 ^ N.of_nat iw - 1 <? N.of_nat dataCount then None
  else
    let dataSize := (indexEnd + dw * dataCount)%nat in
    match csv_fill iw dw (blank dataSize) indexEnd 0 0 data with
    | None => None
    | Some mem => Some {| c_data := mem; c_size := size; c_index_end := indexEnd; c_data_size := dataSize |}
    end.

(* Pattern.h:162-167 write: the bytes appended to the file. *)
Definition csv_write (c : csv) : list N :=
  le 8 (N.of_nat (c_size c)) ++ le 8 (N.of_nat (c_data_size c)) ++ c_data c.

(* Pattern.h:147-153 load *)
Definition csv_load (iw : nat) (file : list N) (offset : nat) : option csv :=
  match load_word file offset 8, load_word file (offset + 8) 8 with
  | Some size, Some dataSize =>
      match load file (offset + 16) (N.to_nat dataSize) with
      | Some mem => Some {| c_data := mem; c_size := N.to_nat size;
                            c_index_end := (N.to_nat size + 1) * iw; c_data_size := N.to_nat dataSize |}
      | None => None
      end
  | _, _ => None
  end.

(* Pattern.h:177-184 operator[] followed by reading the elements. None: out of bounds. *)
Definition csv_get (iw dw : nat) (c : csv) (i : nat) : option (list N) :=
  match load_word (c_data c) (i * iw) iw, load_word (c_data c) ((i + 1) * iw) iw with
  | Some ind, Some nextInd =>
      load_words (c_data c) (c_index_end c + dw * N.to_nat ind) dw (N.to_nat nextInd - N.to_nat ind)
  | _, _ => None
  end.
