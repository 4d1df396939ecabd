(* The documents file and the text a record belongs to. *)
From Coq Require Import List NArith.
From Verif Require Import Fts_Spec.
Import ListNotations.
Open Scope N_scope.

(* a document: the digits of the id of its last record, and its text *)
Definition doc : Type := (list N * list N).
Definition value (ds : list N) : N := fold_left (fun a d => a * 10 + (d - 48)) ds 0.
Definition doc_id (d : doc) : N := value (fst d).
Definition doc_text (d : doc) : list N := snd d.

(* the file: one line per document *)
Definition docs_file (docs : list doc) : list N :=
  flat_map (fun d => fst d ++ [9] ++ snd d ++ [10]) docs.
Record documents (docs : list doc) : Prop := {
  do_digits : forall d, In d docs -> fst d <> [] /\ Forall (fun c => 48 <= c <= 57) (fst d);
  do_ids : strictly_ascending (map doc_id docs);
  do_range : forall d, In d docs -> doc_id d < 2 ^ 63;
  (* no newline and no 0 byte, and the line fits into the buffer of 100 MiB *)
  do_text : forall d, In d docs -> Forall (fun c => c <> 10 /\ c <> 0) (snd d);
  do_length : forall d, In d docs -> N.of_nat (length (fst d) + length (snd d)) + 3 <= 1024 * 1024 * 100;
  do_size : N.of_nat (length (flat_map doc_text docs)) < 2 ^ 63
}.

(* the document of a record: the first one whose last record is not smaller *)
Fixpoint document_of (docs : list doc) (cid : N) : option doc :=
  match docs with
  | [] => None
  | d :: docs' => if cid <=? doc_id d then Some d else document_of docs' cid
  end.
(* the same without the documents that have no text *)
Definition next_text (docs : list doc) (cid : N) : option (list N) :=
  option_map doc_text
    (document_of (filter (fun d => match doc_text d with [] => false | _ => true end) docs) cid).
