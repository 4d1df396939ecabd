(* C40: CompactStringVector. *)
From Coq Require Import List NArith Arith Bool Lia.
From Verif Require Import Bytes Csv_Model Csv_Proof.
Import ListNotations.
Open Scope N_scope.

(* Every element is read back, whatever was in the allocated memory. *)
Theorem C40_build_get : forall (iw dw : nat) (blank : nat -> list N) (data : list (list N)),
  (forall n, length (blank n) = n) ->
  N.of_nat (length (concat data)) < 256 ^ N.of_nat iw ->
  Forall (Forall (fun v => v < 256 ^ N.of_nat dw)) data ->
  exists c, csv_build iw dw blank data = Some c /\ c_size c = length data /\
    forall i, (i < length data)%nat -> csv_get iw dw c i = nth_error data i.
Proof.
  intros iw dw blank data Hb Hc Hv. exists (csv_of iw dw data).
  split; [now apply csv_build_spec|]. split; [reflexivity|]. intros i Hi. now apply csv_get_spec.
Qed.

(* Too much data for the index type is rejected. *)
Theorem C40_too_much_data : forall (iw dw : nat) (blank : nat -> list N) (data : list (list N)),
  256 ^ N.of_nat iw <= N.of_nat (length (concat data)) -> csv_build iw dw blank data = None.
Proof.
  intros iw dw blank data H. unfold csv_build. rewrite fold_count. cbn [Nat.add].
  pose proof (N.pow_nonzero 256 (N.of_nat iw)) as Hp.
  replace (256 ^ N.of_nat iw - 1 <? N.of_nat (length (concat data))) with true; [reflexivity|].
  symmetry. apply N.ltb_lt. lia.
Qed.

(* Written at any position of a file and loaded from there. *)
Theorem C40_write_load : forall (iw dw : nat) (blank : nat -> list N) (data : list (list N)) (pre post : list N),
  (forall n, length (blank n) = n) ->
  N.of_nat (length (concat data)) < 256 ^ N.of_nat iw ->
  Forall (Forall (fun v => v < 256 ^ N.of_nat dw)) data ->
  N.of_nat (length data) < 2 ^ 64 ->
  N.of_nat ((length data + 1) * iw + dw * length (concat data)) < 2 ^ 64 ->
  exists c c', csv_build iw dw blank data = Some c /\
    csv_load iw (pre ++ csv_write c ++ post) (length pre) = Some c' /\ c_size c' = length data /\
    forall i, (i < length data)%nat -> csv_get iw dw c' i = nth_error data i.
Proof.
  intros iw dw blank data pre post Hb Hc Hv H1 H2. exists (csv_of iw dw data), (csv_of iw dw data).
  split; [now apply csv_build_spec|]. split; [now apply csv_write_load|]. split; [reflexivity|].
  intros i Hi. now apply csv_get_spec.
Qed.

Example C40_example : exists c, csv_build 8 8 (fun n => repeat 7 n) [[1; 2]; []; [300; 5; 6]] = Some c /\
  csv_get 8 8 c 0 = Some [1; 2] /\ csv_get 8 8 c 1 = Some [] /\ csv_get 8 8 c 2 = Some [300; 5; 6].
Proof. eexists. split; [vm_compute; reflexivity|]. split; [|split]; vm_compute; reflexivity. Qed.
Example C40_example_hyp : (forall n, length (repeat 7 n) = n) /\
  Forall (Forall (fun v => v < 256 ^ N.of_nat 8)) [[1; 2]; []; [300; 5; 6]].
Proof. split; [intros; apply repeat_length|]. repeat constructor; vm_compute; reflexivity. Qed.

Print Assumptions C40_build_get.
Print Assumptions C40_too_much_data.
Print Assumptions C40_write_load.
