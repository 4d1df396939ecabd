(* C34: the batched parallel pipeline. *)
From Coq Require Import List Arith Bool Lia.
From Verif Require Import Pipe_Model Pipe_Spec Pipe_Proof Pipe_Proof2 Pipe_Proof3 Pipe_Proof4 Pipe_Proof5.
Import ListNotations.

(* Whatever the threads do, the consumer sees the transformed values in order, then the end; or an
   exception if the creator or a transformer throws for one of the elements that follow. *)
Theorem C34_order {V C S} (next : C -> made V C) (batchSize : nat) (c : C) (ts : stages V S) tr y :
  0 < batchSize -> Forall stage_ok ts ->
  execution V C S next batchSize (setupParallelPipeline V C S batchSize c ts) tr y -> correct next batchSize c ts tr.
Proof. intros BS. exact (order next batchSize BS c ts tr y). Qed.

(* Without exceptions the consumer sees exactly the transformed values, once each and in order, and
   then only nullopt. *)
Theorem C34_complete {V C S} (next : C -> made V C) (batchSize : nat) (c : C) (ts : stages V S) l c' c'' vs tr y :
  0 < batchSize -> Forall stage_ok ts -> yields next c l c' -> next c' = End c'' -> through batchSize ts l = Some vs ->
  execution V C S next batchSize (setupParallelPipeline V C S batchSize c ts) tr y ->
  tr = firstn (length tr) (map (Got V) vs ++ repeat (Nothing V) (length tr)).
Proof. intros BS. exact (complete next batchSize BS c ts l c' c'' vs tr y). Qed.

(* With transformers that compute functions the result depends neither on the batch size nor on the
   numbers of threads. *)
Theorem C34_pure {V C S} (next : C -> made V C) (batchSize : nat) (c : C) (ts : stages V S) (gs : list (V -> V)) l c' c'' tr y :
  0 < batchSize -> Forall stage_ok ts ->
  Forall2 (fun (t : nat * list (S -> V -> option (V * S)) * list S) g => Forall (fun f => forall s v, exists s', f s v = Some (g v, s')) (snd (fst t))) ts gs ->
  yields next c l c' -> next c' = End c'' ->
  execution V C S next batchSize (setupParallelPipeline V C S batchSize c ts) tr y ->
  tr = firstn (length tr) (map (Got V) (map (fun v => fold_left (fun v g => g v) gs v) l) ++ repeat (Nothing V) (length tr)).
Proof.
  intros BS OK F Y E X. apply (complete next batchSize BS c ts l c' c'' _ tr y OK Y E); [|exact X].
  rewrite <- fold_map. now apply pure_through.
Qed.

(* No task waits forever: a consumer that has to wait waits for a task that can make a step, ... *)
Theorem C34_progress {V C S} (next : C -> made V C) (batchSize : nat) (c : C) (ts : stages V S) tr y :
  Forall stage_ok ts -> execution V C S next batchSize (setupParallelPipeline V C S batchSize c ts) tr y ->
  getNextValue V C S y = None -> exists z, internal V C S next batchSize y z.
Proof. intros OK X G. apply (waiting_progress next batchSize y); [|exact G]. exact (execution_alive next batchSize c ts tr y OK X). Qed.
(* ... and the tasks make only finitely many steps between two calls. *)
Theorem C34_terminates {V C S} (next : C -> made V C) (batchSize : nat) (x : extractor V C S) :
  Acc (fun z y => internal V C S next batchSize y z) x.
Proof. apply internal_acc. Qed.
(* So a consumer may go on as long as it wants. *)
Theorem C34_continues {V C S} (next : C -> made V C) (batchSize : nat) (c : C) (ts : stages V S) (k : nat) :
  0 < batchSize -> Forall stage_ok ts -> exists tr y, execution V C S next batchSize (setupParallelPipeline V C S batchSize c ts) tr y /\ length tr = k.
Proof. intros BS. exact (executions next batchSize BS c ts k). Qed.

(* The first pass of the index build: when a round ends, exactly linesPerPartial triples have been
   taken from the parser although the pipeline asks for more after the end, and they all went through
   the pipeline; the parser is reported as exhausted if there were fewer triples. *)
Theorem C34_round {V S} (batchSize linesPerPartial : nat) (ts : stages V S) triples vs rest exhausted :
  0 < batchSize -> Forall stage_ok ts -> round batchSize linesPerPartial ts triples vs rest exhausted ->
  through batchSize ts (firstn linesPerPartial triples) = Some vs /\ rest = skipn linesPerPartial triples /\ exhausted = (length triples <? linesPerPartial).
Proof. intros BS. exact (round_result batchSize linesPerPartial BS triples ts vs rest exhausted). Qed.
(* All rounds together take every triple exactly once, at most linesPerPartial in a round. *)
Theorem C34_rounds {V S} (batchSize linesPerPartial : nat) (ts : stages V S) triples vss rest :
  0 < batchSize -> Forall stage_ok ts -> rounds batchSize linesPerPartial ts triples vss rest ->
  rest = [] /\ exists chunks, concat chunks = triples /\ Forall (fun ch => length ch <= linesPerPartial) chunks /\
    Forall2 (fun ch vs => through batchSize ts ch = Some vs) chunks vss /\ length vss = length triples / linesPerPartial + 1.
Proof. intros BS. exact (rounds_result batchSize linesPerPartial BS ts triples vss rest). Qed.
(* The rounds come to an end if no transformer throws. *)
Theorem C34_rounds_end {V S} (batchSize linesPerPartial : nat) (ts : stages V S) triples :
  0 < batchSize -> 0 < linesPerPartial -> Forall stage_ok ts -> (forall l, through batchSize ts l <> None) ->
  exists vss, rounds batchSize linesPerPartial ts triples vss [].
Proof. intros BS M OK T. exact (rounds_exist batchSize linesPerPartial BS ts M OK T triples). Qed.

(* ---- an example: 5 values, batches of 4, 2 threads with a shared doubling function, then 3 threads,
        each of which adds the number of its calls so far times 100 ---- *)
Definition from_list (l : list nat) : made nat (list nat) := match l with [] => End [] | v :: l' => Value v l' end.
Definition double : nat -> nat -> option (nat * nat) := fun s v => Some (2 * v, s).
Definition count : nat -> nat -> option (nat * nat) := fun s v => Some (v + 100 * s, s + 1).
Definition example_stages : stages nat nat := [(2, [double], [0]); (3, [count; count; count], [0; 0; 0])].
Example example_stages_ok : Forall stage_ok example_stages.
Proof.
  constructor; [|constructor; [|constructor]].
  - split; [lia|]. split; [reflexivity|]. right. split; [reflexivity|]. constructor; [|constructor]. intros s s' v. reflexivity.
  - split; [lia|]. split; [reflexivity|]. now left.
Qed.
Example C34_example : exists y,
  execution nat (list nat) nat from_list 4 (setupParallelPipeline nat (list nat) nat 4 [1; 2; 3; 4; 5] example_stages)
    [Got nat 2; Got nat 4; Got nat 6; Got nat 108; Got nat 110; Nothing nat] y /\
  yields from_list [1; 2; 3; 4; 5] [1; 2; 3; 4; 5] [] /\ from_list [] = End [] /\
  through 4 example_stages [1; 2; 3; 4; 5] = Some [2; 4; 6; 108; 110].
Proof.
  assert (Y : yields from_list [1; 2; 3; 4; 5] [1; 2; 3; 4; 5] []) by (repeat (econstructor; [reflexivity|]); constructor).
  assert (T : through 4 example_stages [1; 2; 3; 4; 5] = Some [2; 4; 6; 108; 110]) by (vm_compute; reflexivity).
  destruct (C34_continues from_list 4 [1; 2; 3; 4; 5] example_stages 6 ltac:(lia) example_stages_ok) as (tr & y & X & L).
  pose proof (C34_complete from_list 4 [1; 2; 3; 4; 5] example_stages _ _ _ _ tr y ltac:(lia) example_stages_ok Y eq_refl T X) as E.
  rewrite L in E. cbn in E. exists y. rewrite <- E. auto.
Qed.
Example C34_round_example : round 4 3 example_stages [1; 2; 3; 4; 5] [2; 4; 6] [4; 5] false.
Proof. apply (round_exists 4 3 ltac:(lia) [1; 2; 3; 4; 5] example_stages [2; 4; 6] example_stages_ok). reflexivity. Qed.
Example C34_rounds_example : rounds 4 3 example_stages [1; 2; 3; 4; 5] [[2; 4; 6]; [8; 10]] [].
Proof.
  apply r_more with [4; 5]; [exact C34_round_example|]. apply r_last.
  apply (round_exists 4 3 ltac:(lia) [4; 5] example_stages [8; 10] example_stages_ok). reflexivity.
Qed.
(* the parser ends exactly at the end of a round: one more round, with nothing in it *)
Example C34_rounds_exact : rounds 4 3 example_stages [1; 2; 3] [[2; 4; 6]; []] [].
Proof.
  apply r_more with []; [apply (round_exists 4 3 ltac:(lia) [1; 2; 3] example_stages [2; 4; 6] example_stages_ok); reflexivity|]. apply r_last.
  apply (round_exists 4 3 ltac:(lia) [] example_stages [] example_stages_ok). reflexivity.
Qed.

(* ---- what is not true ---- *)
(* one internal step, and one call of getNextValue *)
Ltac step_pipe H t := let H' := fresh in eassert (H' : execution _ _ _ _ _ _ _ _) by (eapply e_internal; [exact H|eapply i_pipe; exact t]); clear H; rename H' into H; cbn in H.
Ltac step_start H := let H' := fresh in eassert (H' : execution _ _ _ _ _ _ _ _) by (eapply e_internal; [exact H|eapply i_pipe; eapply s_start; reflexivity]); clear H; rename H' into H; cbn in H.
Ltac step_finish H := let H' := fresh in eassert (H' : execution _ _ _ _ _ _ _ _) by (eapply e_internal; [exact H|eapply i_pipe; eapply s_finish; repeat constructor]); clear H; rename H' into H; cbn in H.
Ltac step_take H := let H' := fresh in eassert (H' : execution _ _ _ _ _ _ _ _) by (eapply e_internal; [exact H|eapply i_take; reflexivity]); clear H; rename H' into H; cbn in H.
Ltac step_next H := let H' := fresh in eassert (H' : execution _ _ _ _ _ _ _ _) by (eapply e_call; [exact H|reflexivity]); clear H; rename H' into H; cbn in H.

(* A batch size of zero: the consumer is told that there is nothing although there are values. *)
Theorem C34_batch_size_zero_refuted : exists (y : extractor nat (list nat) nat),
  execution nat (list nat) nat from_list 0 (setupParallelPipeline nat (list nat) nat 0 [1; 2] []) [Nothing nat] y /\ ~ correct from_list 0 [1; 2] ([] : stages nat nat) [Nothing nat].
Proof.
  pose proof (e_none nat (list nat) nat from_list 0 (setupParallelPipeline nat (list nat) nat 0 [1; 2] [])) as H. unfold setupParallelPipeline in H at 2. cbn in H.
  step_pipe H (b_full nat (list nat) nat from_list 0 [1; 2] []). step_take H. step_next H. eexists. split; [exact H|].
  intros K. inversion K as [l c' vs rest Y T M|l c' c'' vs j Y E T M|l c1 vs more c2 j Y T Y2 L R M].
  - destruct vs; discriminate.
  - destruct vs as [|v vs]; [|discriminate]. cbn in T. injection T as ->. inversion Y; subst. discriminate.
  - destruct vs; discriminate.
Qed.
(* The first pass of the index build does not end if linesPerPartial is zero. *)
Theorem C34_no_lines_refuted {V S} (batchSize : nat) (ts : stages V S) triples vss rest :
  0 < batchSize -> Forall stage_ok ts -> ~ rounds batchSize 0 ts triples vss rest.
Proof. intros BS OK R. pose proof (rounds_positive batchSize 0 BS ts triples vss rest OK R). lia. Qed.

(* The creator is called again after it has returned nullopt (BatchedPipeline.h:31-38 says that
   the batcher stops then). This creator counts its calls. *)
Theorem C34_called_again_refuted : exists (y : extractor nat nat nat),
  execution nat nat nat (fun c => End (c + 1)) 2 (setupParallelPipeline nat nat nat 2 0 [(1, [double], [0])]) [Nothing nat] y /\
  pipe_creator (pipeline nat nat nat y) = 3.
Proof.
  pose proof (e_none nat nat nat (fun c => End (c + 1)) 2 (setupParallelPipeline nat nat nat 2 0 [(1, [double], [0])])) as H. unfold setupParallelPipeline in H at 2. cbn in H.
  step_pipe H (s_inner nat nat nat _ 2 _ _ 1 [double] [0] (SWaiting nat) (b_end nat nat nat (fun c => End (c + 1)) 2 0 1 1 [] eq_refl)).
  step_start H.
  step_pipe H (s_inner nat nat nat _ 2 _ _ 1 [double] [0] (SWorking nat false [Worker nat [] (Some [])]) (b_end nat nat nat (fun c => End (c + 1)) 2 1 2 1 [] eq_refl)).
  step_finish H.
  step_take H. step_start H.
  step_pipe H (s_inner nat nat nat _ 2 _ _ 1 [double] [0] (SWorking nat false [Worker nat [] (Some [])]) (b_end nat nat nat (fun c => End (c + 1)) 2 2 3 1 [] eq_refl)).
  step_next H. eexists. split; [exact H|reflexivity].
Qed.

(* Values that were created before an exception are lost, and a call after the exception is undefined
   (get() on a future without state). *)
Definition one_then_raise (c : bool) : made nat bool := if c then Value 1 false else Raise.
Theorem C34_exception_refuted : exists (y : extractor nat bool nat),
  execution nat bool nat one_then_raise 2 (setupParallelPipeline nat bool nat 2 true []) [Thrown nat; Undefined nat] y.
Proof.
  pose proof (e_none nat bool nat one_then_raise 2 (setupParallelPipeline nat bool nat 2 true [])) as H. unfold setupParallelPipeline in H at 2. cbn in H.
  step_pipe H (b_value nat bool nat one_then_raise 2 true 1 false 1 [] eq_refl).
  step_pipe H (b_raise nat bool nat one_then_raise 2 false 0 [1] eq_refl). step_take H. step_next H. step_next H. eexists. exact H.
Qed.

(* A transformer with a state that is shared by two threads: the result depends on the schedule. *)
Theorem C34_shared_state_refuted : exists (y1 y2 : extractor nat (list nat) nat),
  execution nat (list nat) nat from_list 2 (setupParallelPipeline nat (list nat) nat 2 [1; 2] [(2, [count], [0])]) [Got nat 1; Got nat 102] y1 /\
  execution nat (list nat) nat from_list 2 (setupParallelPipeline nat (list nat) nat 2 [1; 2] [(2, [count], [0])]) [Got nat 101; Got nat 2] y2.
Proof.
  pose proof (e_none nat (list nat) nat from_list 2 (setupParallelPipeline nat (list nat) nat 2 [1; 2] [(2, [count], [0])])) as H. unfold setupParallelPipeline in H at 2. cbn in H.
  step_pipe H (s_inner nat (list nat) nat _ 2 _ _ 2 [count] [0] (SWaiting nat) (b_value nat (list nat) nat from_list 2 [1; 2] 1 [2] 1 [] eq_refl)).
  step_pipe H (s_inner nat (list nat) nat _ 2 _ _ 2 [count] [0] (SWaiting nat) (b_value nat (list nat) nat from_list 2 [2] 2 [] 0 [1] eq_refl)).
  step_pipe H (s_inner nat (list nat) nat _ 2 _ _ 2 [count] [0] (SWaiting nat) (b_full nat (list nat) nat from_list 2 [] [1; 2])).
  step_start H.
  pose proof H as G.
  step_pipe H (s_call nat (list nat) nat from_list 2 (Batcher nat (list nat) nat [] (BRunning nat 2 [])) 2 [count] [0] true [Worker nat [1] (Some []); Worker nat [2] (Some [])] 0 1 [] [] count 0 1 1 eq_refl eq_refl eq_refl eq_refl).
  step_pipe H (s_call nat (list nat) nat from_list 2 (Batcher nat (list nat) nat [] (BRunning nat 2 [])) 2 [count] [1] true [Worker nat [] (Some [1]); Worker nat [2] (Some [])] 1 2 [] [] count 1 102 2 eq_refl eq_refl eq_refl eq_refl).
  step_finish H.
  step_take H. step_next H. step_next H.
  step_pipe G (s_call nat (list nat) nat from_list 2 (Batcher nat (list nat) nat [] (BRunning nat 2 [])) 2 [count] [0] true [Worker nat [1] (Some []); Worker nat [2] (Some [])] 1 2 [] [] count 0 2 1 eq_refl eq_refl eq_refl eq_refl).
  step_pipe G (s_call nat (list nat) nat from_list 2 (Batcher nat (list nat) nat [] (BRunning nat 2 [])) 2 [count] [1] true [Worker nat [1] (Some []); Worker nat [] (Some [2])] 0 1 [] [] count 1 101 2 eq_refl eq_refl eq_refl eq_refl).
  step_finish G.
  step_take G. step_next G. step_next G. eexists. eexists. split; [exact H|exact G].
Qed.

Print Assumptions C34_order.
Print Assumptions C34_complete.
Print Assumptions C34_pure.
Print Assumptions C34_progress.
Print Assumptions C34_terminates.
Print Assumptions C34_continues.
Print Assumptions C34_round.
Print Assumptions C34_rounds.
Print Assumptions C34_rounds_end.
Print Assumptions C34_batch_size_zero_refuted.
Print Assumptions C34_no_lines_refuted.
Print Assumptions C34_called_again_refuted.
Print Assumptions C34_exception_refuted.
Print Assumptions C34_shared_state_refuted.
