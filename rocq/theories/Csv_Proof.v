From Coq Require Import List NArith Arith Bool Lia ZifyBool ZifyN ZifyNat.
From Verif Require Import Bytes ListAux Csv_Model.
Import ListNotations.
Open Scope N_scope.

(* start positions of the elements and the end of the last one *)
Fixpoint starts (acc : nat) (data : list (list N)) : list nat :=
  match data with [] => [acc] | d :: data' => acc :: starts (acc + length d) data' end.

Lemma starts_length data : forall acc, length (starts acc data) = S (length data).
Proof. induction data; intros; simpl; auto. Qed.

Definition iwords (iw : nat) (ns : list nat) : list N := words iw (map N.of_nat ns).

Lemma iwords_length iw ns : length (iwords iw ns) = (iw * length ns)%nat.
Proof. unfold iwords. now rewrite words_length, map_length. Qed.

Lemma fold_count (data : list (list N)) : forall a, fold_left (fun c d => c + length d)%nat data a = (a + length (concat data))%nat.
Proof.
  induction data as [|d data IH]; intros a; simpl; [lia|]. rewrite IH, app_length. lia.
Qed.

Lemma split_len {A} (l : list A) a b : length l = (a + b)%nat -> exists l1 l2,
  l = l1 ++ l2 /\ length l1 = a /\ length l2 = b.
Proof.
  intros H. exists (firstn a l), (skipn a l). rewrite firstn_skipn, firstn_length, skipn_length. split; [reflexivity|lia].
Qed.

Lemma csv_fill_spec iw dw : forall data pre ri dpre rd cl,
  length ri = (iw * S (length data))%nat -> length rd = (dw * length (concat data))%nat ->
  length dpre = (dw * cl)%nat -> forall indPos, length pre = (indPos * iw)%nat ->
  csv_fill iw dw (pre ++ ri ++ dpre ++ rd) (length pre + length ri) cl indPos data =
  Some (pre ++ iwords iw (starts cl data) ++ dpre ++ words dw (concat data)).
Proof.
  induction data as [|d data IH]; intros pre ri dpre rd cl Hi Hd Hdp indPos Hp; cbn [csv_fill].
  - rewrite (store_at' _ _ pre ri (dpre ++ rd)); auto.
    + f_equal. cbn [starts concat]. unfold iwords. cbn [map words flat_map].
      rewrite app_nil_r. simpl in Hd. rewrite Nat.mul_0_r in Hd.
      destruct rd; [|discriminate]. reflexivity.
    + rewrite le_length. simpl in Hi. lia.
  - cbn [length] in Hi. destruct (split_len ri iw (iw * S (length data))) as (r1 & r2 & -> & H1 & H2); [lia|].
    rewrite (store_at' _ _ pre r1 (r2 ++ dpre ++ rd)); [|now rewrite <- app_assoc|lia|now rewrite le_length].
    cbn [concat] in Hd. rewrite app_length in Hd.
    destruct (split_len rd (dw * length d) (dw * length (concat data))) as (d1 & d2 & -> & H3 & H4); [lia|].
    rewrite (store_at' _ _ (pre ++ le iw (N.of_nat cl) ++ r2 ++ dpre) d1 d2).
    + replace ((pre ++ le iw (N.of_nat cl) ++ r2 ++ dpre) ++ words dw d ++ d2)
        with ((pre ++ le iw (N.of_nat cl)) ++ r2 ++ (dpre ++ words dw d) ++ d2) by now rewrite <- !app_assoc.
      replace (length pre + length (r1 ++ r2))%nat with (length (pre ++ le iw (N.of_nat cl)) + length r2)%nat
        by (rewrite !app_length, le_length; lia).
      rewrite IH; auto.
      * f_equal. cbn [starts concat]. unfold iwords. cbn [map]. unfold words. cbn [flat_map].
        rewrite flat_map_app. rewrite <- !app_assoc. reflexivity.
      * rewrite app_length, words_length. lia.
      * rewrite app_length, le_length. lia.
    + now rewrite <- !app_assoc.
    + rewrite !app_length, le_length. lia.
    + rewrite words_length. lia.
Qed.

Definition csv_bytes (iw dw : nat) (data : list (list N)) : list N :=
  iwords iw (starts 0 data) ++ words dw (concat data).

Definition csv_of (iw dw : nat) (data : list (list N)) : csv :=
  {| c_data := csv_bytes iw dw data; c_size := length data;
     c_index_end := (length data + 1) * iw;
     c_data_size := ((length data + 1) * iw + dw * length (concat data))%nat |}.

Lemma csv_build_spec iw dw blank data :
  (forall n, length (blank n) = n) -> N.of_nat (length (concat data)) < 256 ^ N.of_nat iw ->
  csv_build iw dw blank data = Some (csv_of iw dw data).
Proof.
  intros Hb Hc. unfold csv_build. rewrite fold_count. cbn [Nat.add].
  destruct (256 ^ N.of_nat iw - 1 <? N.of_nat (length (concat data))) eqn:E; [lia|].
  set (ds := ((length data + 1) * iw + dw * length (concat data))%nat).
  destruct (split_len (blank ds) ((length data + 1) * iw) (dw * length (concat data))) as (b1 & b2 & Eb & H1 & H2).
  { apply Hb. }
  rewrite Eb. pose proof (csv_fill_spec iw dw data [] b1 [] b2 0) as H.
  cbn [app length Nat.add] in H. rewrite H1 in H. rewrite H by lia. reflexivity.
Qed.

Lemma nth_starts data : forall acc i d, (i < length data)%nat ->
  nth i (starts acc data) d = (acc + length (concat (firstn i data)))%nat /\
  nth (S i) (starts acc data) d = (acc + length (concat (firstn i data)) + length (nth i data []))%nat.
Proof.
  induction data as [|x data IH]; intros acc i d Hi; simpl in Hi; [lia|].
  destruct i as [|i].
  - simpl. destruct data; simpl; lia.
  - cbn [starts nth firstn concat]. destruct (IH (acc + length x)%nat i d) as [H1 H2]; [lia|].
    cbn [nth] in H2. rewrite H1, H2, app_length. lia.
Qed.

Lemma starts_bound data : forall acc n, In n (starts acc data) -> (n <= acc + length (concat data))%nat.
Proof.
  induction data as [|x data IH]; intros acc n; simpl.
  - intros [<-|[]]. lia.
  - intros [<-|H]; [lia|]. apply IH in H. rewrite app_length. lia.
Qed.

Lemma nth_word iw ns rest i d : (i < length ns)%nat ->
  (forall n, In n ns -> N.of_nat n < 256 ^ N.of_nat iw) ->
  load_word (iwords iw ns ++ rest) (i * iw) iw = Some (N.of_nat (nth i ns d)).
Proof.
  intros Hi Hb. pose proof (firstn_skipn i ns) as E. rewrite (skipn_nth_cons i ns d Hi) in E.
  apply (load_word_at _ _ iw _ (iwords iw (firstn i ns)) (iwords iw (skipn (S i) ns) ++ rest)).
  - rewrite <- E at 1. unfold iwords. rewrite map_app. cbn [map]. rewrite words_app.
    unfold words. cbn [flat_map]. now rewrite <- !app_assoc.
  - rewrite iwords_length, firstn_length. lia.
  - apply Hb. apply nth_In. auto.
Qed.

Lemma csv_get_spec iw dw data i : (i < length data)%nat ->
  N.of_nat (length (concat data)) < 256 ^ N.of_nat iw ->
  Forall (Forall (fun v => v < 256 ^ N.of_nat dw)) data ->
  csv_get iw dw (csv_of iw dw data) i = nth_error data i.
Proof.
  intros Hi Hc Hv. unfold csv_get, csv_of, csv_bytes. cbn [c_data c_index_end].
  assert (Hb : forall n, In n (starts 0 data) -> N.of_nat n < 256 ^ N.of_nat iw).
  { intros n Hn. apply starts_bound in Hn. lia. }
  pose proof (starts_length data 0) as Hsl.
  rewrite (nth_word iw _ _ i 0%nat), (nth_word iw _ _ (i + 1) 0%nat) by (auto; lia).
  destruct (nth_starts data 0 i 0%nat Hi) as [H1 H2]. rewrite (Nat.add_1_r i), H1, H2, !Nat2N.id.
  rewrite (nth_error_nth' data [] Hi). cbn [Nat.add].
  replace (length (concat (firstn i data)) + length (nth i data []) - length (concat (firstn i data)))%nat
    with (length (nth i data [])) by lia.
  pose proof (firstn_skipn i data) as E. rewrite (skipn_nth_cons i data [] Hi) in E.
  apply (load_words_at dw _ _ _ (iwords iw (starts 0 data) ++ words dw (concat (firstn i data)))
           (words dw (concat (skipn (S i) data)))).
  - rewrite <- E at 2. rewrite concat_app. cbn [concat]. rewrite !words_app. now rewrite <- !app_assoc.
  - rewrite app_length, iwords_length, words_length, Hsl. lia.
  - rewrite Forall_forall in Hv. apply Hv, nth_In. auto.
Qed.

Lemma csv_bytes_length iw dw data : length (csv_bytes iw dw data) =
  ((length data + 1) * iw + dw * length (concat data))%nat.
Proof. unfold csv_bytes. rewrite app_length, iwords_length, words_length, starts_length. lia. Qed.

Lemma csv_write_load iw dw data pre post :
  N.of_nat (length data) < 2 ^ 64 ->
  N.of_nat ((length data + 1) * iw + dw * length (concat data)) < 2 ^ 64 ->
  csv_load iw (pre ++ csv_write (csv_of iw dw data) ++ post) (length pre) = Some (csv_of iw dw data).
Proof.
  intros H1 H2. unfold csv_load, csv_write. set (c := csv_of iw dw data).
  rewrite (load_word_at _ _ 8 (N.of_nat (c_size c)) pre (le 8 (N.of_nat (c_data_size c)) ++ c_data c ++ post));
    [|now rewrite <- !app_assoc|reflexivity|exact H1].
  rewrite (load_word_at _ _ 8 (N.of_nat (c_data_size c)) (pre ++ le 8 (N.of_nat (c_size c))) (c_data c ++ post));
    [|now rewrite <- !app_assoc|rewrite app_length, le_length; lia|exact H2].
  rewrite !Nat2N.id.
  rewrite (load_at' _ _ _ (pre ++ le 8 (N.of_nat (c_size c)) ++ le 8 (N.of_nat (c_data_size c))) (c_data c) post).
  - reflexivity.
  - now rewrite <- !app_assoc.
  - rewrite !app_length, !le_length. lia.
  - symmetry. apply csv_bytes_length.
Qed.
