(* Property C03: stored text postings are read back unchanged. *)
From Coq Require Import List NArith Arith Bool Lia ZifyBool ZifyN ZifyNat Sorted Permutation.
From Verif Require Import Bytes Simple8b_Model Ops_Spec Base ListAux Fts_Model Fts_Spec Postings_Model Postings_Proof.
Import ListNotations.
Open Scope N_scope.

(* A non-empty list of postings with ascending contexts, written behind `pre`, whatever follows
   in the file and whatever order the codebooks have. With `skip` the word ids are only stored
   when there are several. *)
Theorem C03_round_trip ps skip wcb scb pre post : ps <> [] ->
  ascending (map p_cid ps) ->
  Forall (fun p => p_cid p < 2 ^ 60 /\ p_eid p < 2 ^ 64 /\ p_score p < 2 ^ 16) ps ->
  N.of_nat (length ps) < 2 ^ 60 ->
  codebook (map p_eid ps) wcb -> codebook (map p_score ps) scb ->
  exists bytes m, writePostings (length pre) ps skip wcb scb = Some (bytes, m) /\
    l_end m = length (pre ++ bytes) /\
    read_contexts (pre ++ bytes ++ post) m = Done (map p_cid ps) /\
    read_scores (pre ++ bytes ++ post) m = Done (map p_score ps) /\
    (hasMultipleWords m = true -> read_word_ids (pre ++ bytes ++ post) m = Done (map p_eid ps)) /\
    (hasMultipleWords m = false -> skip = true /\ forall p q, In p ps -> In q ps -> p_eid p = p_eid q).
Proof.
  intros Hne Ha Hb Hl Hw Hs.
  destruct (write_read ps skip wcb scb pre post Hne (conj Ha (conj Hb Hl)) Hw Hs)
    as [bytes [m [H1 [H2 [H3 [H4 [H5 [H6 [H7 [H8 H9]]]]]]]]]].
  exists bytes, m. repeat (split; auto).
  - rewrite H in H5. destruct skip; auto.
  - intros p q Hp Hq. rewrite H in H5. symmetry in H5. apply orb_false_elim in H5. destruct H5 as [_ H5].
    apply Nat.ltb_ge in H5. destruct (codebook_nodup _ _ Hw) as [_ Hin].
    assert (Ip : In (p_eid p) wcb) by (apply Hin; now apply in_map).
    assert (Iq : In (p_eid q) wcb) by (apply Hin; now apply in_map).
    destruct wcb as [|x [|y wcb]]; simpl in *; try lia; intuition congruence.
Qed.
Print Assumptions C03_round_trip.

(* the codebooks assumed above exist *)
Theorem C03_codebook_exists l : exists cb, codebook l cb.
Proof. apply codebook_exists. Qed.

Example round_trip_example :
  let ps := [(3, 7, 1); (3, 9, 1); (8, 7, 5); (1000000, 9, 1); (1000000, 11, 65535)] in
  match writePostings 4 ps true [9; 7; 11] [1; 65535; 5] with
  | Some (bytes, m) =>
      let file := [1; 2; 3; 4] ++ bytes ++ [5; 6] in
      hasMultipleWords m = true /\
      read_contexts file m = Done (map p_cid ps) /\ read_word_ids file m = Done (map p_eid ps) /\
      read_scores file m = Done (map p_score ps)
  | None => False
  end.
Proof. vm_compute. repeat split; reflexivity. Qed.
Example round_trip_codebooks :
  codebook [7; 9; 7; 9; 11] [9; 7; 11] /\ codebook [1; 1; 5; 1; 65535] [1; 65535; 5].
Proof.
  split.
  - exists [(9, 2); (7, 2); (11, 1)], [(9, 2); (7, 2); (11, 1)]. split; [vm_compute; apply perm_swap|].
    split; [|reflexivity]. split; [apply Permutation_refl|]. repeat constructor.
  - exists [(1, 3); (65535, 1); (5, 1)], [(1, 3); (65535, 1); (5, 1)].
    split; [vm_compute|split; [split; [apply Permutation_refl|repeat constructor]|reflexivity]].
    apply perm_trans with [(1, 3); (5, 1); (65535, 1)]; [|apply perm_skip, perm_swap].
    apply Permutation_refl || apply perm_swap.
Qed.

(* An empty posting list cannot be read: the check of readFreqComprList throws. This happens for
   the entity list of a block that has no entities in its contexts. *)
Theorem C03_empty_list_refuted : forall off skip wcb scb file,
  exists m, writePostings off [] skip wcb scb = Some ([], m) /\
    read_contexts file m = Done [] /\
    read_word_ids file m = Throw /\ read_scores file m = Throw.
Proof.
  intros. exists (mk_list_meta 0 off off off off). split; [reflexivity|].
  unfold read_contexts, read_word_ids, read_scores. cbn [l_count l_contexts l_words l_scores l_end].
  rewrite Nat.sub_diag. repeat split; reflexivity.
Qed.
Print Assumptions C03_empty_list_refuted.

(* Contexts from 2^60 on cannot be stored. *)
Theorem C03_large_context_refuted : exists ps wcb scb, ascending (map p_cid ps) /\
  Forall (fun p => p_cid p < 2 ^ 64) ps /\
  codebook (map p_eid ps) wcb /\ codebook (map p_score ps) scb /\
  writePostings 0 ps true wcb scb = None.
Proof.
  exists [(2 ^ 60, 1, 1)], [1], [1]. split; [repeat constructor|]. split; [repeat constructor|].
  assert (C : codebook [1] [1]).
  { exists [(1, 1)], [(1, 1)]. split; [apply Permutation_refl|]. split; [|reflexivity].
    split; [apply Permutation_refl|]. repeat constructor. }
  split; [exact C|]. split; [exact C|]. vm_compute. reflexivity.
Qed.

Print Assumptions C03_codebook_exists.
Print Assumptions C03_large_context_refuted.
