(* C01, C02: the Simple8b codec. *)
From Coq Require Import List NArith.
From Verif Require Import Simple8b_Model Simple8b_Proof.
Import ListNotations.
Open Scope N_scope.

(* C01. For every list of numbers below 2^60, encoding succeeds and decoding the words for the
   same number of elements gives a buffer that starts with the list. *)
Theorem C01_simple8b_roundtrip : forall l : list N,
  Forall (fun x => x < 2 ^ 60) l ->
  exists ws buf, encode l = Some ws /\ decode ws (length l) = Some buf /\
                 firstn (length l) buf = l.
Proof. exact roundtrip. Qed.
Print Assumptions C01_simple8b_roundtrip.

(* C01, for a decoder that finds further words after the encoded ones in its buffer. *)
Theorem C01_simple8b_roundtrip_trailing : forall (l ws ws' : list N),
  Forall (fun x => x < 2 ^ 60) l -> encode l = Some ws ->
  exists buf, decode (ws ++ ws') (length l) = Some buf /\ firstn (length l) buf = l.
Proof.
  intros l ws ws' H He. destruct (roundtrip l H) as [ws2 [buf [H1 [H2 H3]]]].
  exists buf. split; [|exact H3]. replace ws with ws2 by congruence.
  apply decode_loop_app. exact H2.
Qed.
Print Assumptions C01_simple8b_roundtrip_trailing.

(* C02. At most as many words as elements (the size of the buffer allocated by
   Index::writeList), every word fits 64 bits, and the decoder writes fewer than
   length + 240 elements (the readers allocate length + 250). *)
Theorem C02_simple8b_buffers : forall l : list N,
  Forall (fun x => x < 2 ^ 60) l ->
  exists ws buf, encode l = Some ws /\ Forall (fun w => w < 2 ^ 64) ws /\
                 (length ws <= length l)%nat /\
                 decode ws (length l) = Some buf /\ (length buf < length l + 240)%nat.
Proof. exact buffers. Qed.
Print Assumptions C02_simple8b_buffers.

(* The hypotheses are met by a list using both zero-run selectors, narrow and wide fields. *)
Definition sample : list N :=
  repeat 0 500 ++ [7; 2 ^ 59; 1; 0] ++ repeat 0 130 ++ [5; 6; 7; 300] ++ repeat 0 3.
Example sample_ok : Forall (fun x => x < 2 ^ 60) sample.
Proof. unfold sample. repeat (apply Forall_app; split); repeat constructor. Qed.
Example sample_encoding : option_map (@length N) (encode sample) = Some 9%nat.
Proof. vm_compute. reflexivity. Qed.
