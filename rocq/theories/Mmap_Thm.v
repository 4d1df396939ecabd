(* C35: disk-backed vectors behave like ordinary vectors and persist. *)
From Coq Require Import List NArith Arith Bool Lia ZifyN ZifyNat ZifyBool.
From Coq Require Floats.SpecFloat.
From Coq Require Import ZArith.
From Verif Require Float32.
From Verif Require Import ListAux Bytes Mmap_Model Mmap_Spec Mmap_Proof Mmap_Proof2 Mmap_Proof3.
Import ListNotations.
Open Scope N_scope.

Section Thm.
  Variables (s page m : N).
  Hypothesis HS : sizes s page m.

  (* Every history of valid operations on a new vector succeeds and gives the elements that a list
     would have; no other file is touched. *)
  Theorem C35_history w n f ops : f <> 0 -> n <= m -> allowed s m n ops ->
    exists w0 v0 l0 w1 v1 l1,
      open_size s page w n f = Done (w0, v0) /\ elements s w0 v0 l0 /\ length l0 = N.to_nat n /\
      run_ops s page w0 v0 ops = Done (w1, v1) /\ elements s w1 v1 l1 /\ steps s l0 ops l1 /\
      (forall g, g <> f -> file w1 g = file w g).
  Proof.
    intros F M A. destruct HS as (SP & PS & HB). destruct (open_ok s page m SP PS HB w n f F M) as (w0 & v0 & l0 & E & R & L & FN & O).
    destruct (history s page m SP PS HB ops w0 v0 l0 R) as (w1 & v1 & l1 & E1 & R1 & ST & FN1 & O1); [rewrite L, N2Nat.id; exact A|].
    exists w0, v0, l0, w1, v1, l1. split; [exact E|]. split; [now apply (rep_elements s page m SP PS HB)|]. split; [exact L|]. split; [exact E1|].
    split; [now apply (rep_elements s page m SP PS HB)|]. split; [exact ST|]. intros g G. rewrite O1 by congruence. now apply O.
  Qed.
  (* The same for a vector that is made from a range of elements, *)
  Theorem C35_range w es f ops : f <> 0 -> N.of_nat (length es) <= m -> Forall (fun e => length e = N.to_nat s) es -> allowed s m (N.of_nat (length es)) ops ->
    exists w0 v0 w1 v1 l1,
      open_range s page w es f = Done (w0, v0) /\ elements s w0 v0 es /\
      run_ops s page w0 v0 ops = Done (w1, v1) /\ elements s w1 v1 l1 /\ steps s es ops l1 /\
      (forall g, g <> f -> file w1 g = file w g).
  Proof.
    intros F M E A. destruct HS as (SP & PS & HB). destruct (range_ok s page m SP PS HB w es f F M E) as (w0 & v0 & E0 & R & FN & O).
    destruct (history s page m SP PS HB ops w0 v0 es R A) as (w1 & v1 & l1 & E1 & R1 & ST & FN1 & O1).
    exists w0, v0, w1, v1, l1. split; [exact E0|]. split; [now apply (rep_elements s page m SP PS HB)|]. split; [exact E1|].
    split; [now apply (rep_elements s page m SP PS HB)|]. split; [exact ST|]. intros g G. rewrite O1 by congruence. now apply O.
  Qed.
  (* or that is filled with a default value. *)
  Theorem C35_default w n e f : f <> 0 -> n <= m -> length e = N.to_nat s ->
    exists w0 v0, open_default s page w n e f = Done (w0, v0) /\ elements s w0 v0 (repeat e (N.to_nat n)).
  Proof.
    intros F M E. destruct HS as (SP & PS & HB). rewrite default_range.
    destruct (range_ok s page m SP PS HB w (repeat e (N.to_nat n)) f F) as (w0 & v0 & E0 & R & FN & O).
    - rewrite repeat_length. lia.
    - apply Forall_forall. intros x X. apply repeat_spec in X. now subst.
    - exists w0, v0. split; [exact E0|]. now apply (rep_elements s page m SP PS HB).
  Qed.

  (* After every history, closing the vector and opening its file again, later and possibly in a
     different world, gives the same elements. *)
  Theorem C35_persist w n f ops w0 v0 w1 v1 : f <> 0 -> n <= m -> allowed s m n ops ->
    open_size s page w n f = Done (w0, v0) -> run_ops s page w0 v0 ops = Done (w1, v1) ->
    exists w2 l, elements s w1 v1 l /\ close w1 v1 = Done (w2, uninitialized) /\
      forall w3, file w3 f = file w2 f -> exists v3, open_reuse w3 f = Done v3 /\ elements s w3 v3 l.
  Proof.
    intros F M A E E1. destruct HS as (SP & PS & HB). destruct (open_ok s page m SP PS HB w n f F M) as (w0' & v0' & l0 & E' & R & L & FN & O).
    rewrite E in E'. injection E' as <- <-.
    destruct (history s page m SP PS HB ops w0 v0 l0 R) as (w1' & v1' & l1 & E1' & R1 & ST & FN1 & O1); [rewrite L, N2Nat.id; exact A|].
    rewrite E1 in E1'. injection E1' as <- <-.
    destruct (close_ok s page m SP PS HB w1 v1 l1 R1) as (w2 & C & OR & R2 & O2).
    exists w2, l1. split; [now apply (rep_elements s page m SP PS HB)|]. split; [exact C|].
    intros w3 W. assert (FV : filename v1 = f) by congruence. rewrite FV in OR. exists v1. split.
    - unfold open_reuse, readMetaDataFromEnd, map_file in *. rewrite W. destruct (file w2 f) as [c|] eqn:FC; [|exact OR].
      destruct (Nat.ltb (length c) 32); [exact OR|]. cbv zeta in *.
      match goal with |- context [if ?b then _ else _] => destruct b end; [|exact OR]. cbn [andThen filename] in *. rewrite W. rewrite FC in OR. exact OR.
    - apply (rep_elements s page m SP PS HB). destruct R2 as [a b c d e f' g h (rest & j & k)]. constructor; auto. exists rest. split; [|exact k]. rewrite FV, W, <- FV. exact j.
  Qed.

  (* BufferedVector behaves like the list for every history and threshold. *)
  Theorem C35_buffered w t f ops : f <> 0 -> ballowed s m 0 ops ->
    exists w0 b0 w1 b1, new_buffered s page w t f = Done (w0, b0) /\ belements s w0 b0 [] /\
      run_bops s page w0 b0 ops = Done (w1, b1) /\ belements s w1 b1 (bsteps [] ops) /\
      (forall g, g <> f -> file w1 g = file w g).
  Proof.
    intros F A. destruct HS as (SP & PS & HB). unfold new_buffered. destruct (open_ok s page m SP PS HB w 0 f F) as (w0 & v0 & l0 & -> & R & L & FN & O); [lia|].
    cbn [andThen fst snd]. set (b0 := Buffered t true [] v0).
    assert (BR : brep s w0 b0 []) by (exists l0; cbn; auto).
    destruct (bhistory s page m SP PS HB ops w0 b0 [] BR A) as (w1 & b1 & E1 & R1 & FN1 & O1).
    exists w0, b0, w1, b1. split; [reflexivity|]. split; [now apply (brep_elements s page m SP PS HB)|]. split; [exact E1|].
    split; [now apply (brep_elements s page m SP PS HB)|]. intros g G. rewrite O1 by (unfold b0; cbn [ext]; congruence). now apply O.
  Qed.
End Thm.

(* The hypotheses can be met: six kinds of operations on a vector of ids. *)
Example C35_example : sizes 8 4096 1000000 /\
  allowed 8 1000000 2 [Push (le 8 7); Put 0 (le 8 5); Reopen; Resize 300; Resize 1; Reserve 900; Push (le 8 9); Clear; Push (le 8 3)] /\
  ballowed 8 1000000 0 [BPush (le 8 7); BPut 0 (le 8 8); BClear; BPush (le 8 9)].
Proof. vm_compute. repeat split; discriminate || reflexivity. Qed.

(* An uninitialized vector throws. *)
Theorem C35_uninitialized s page w i e : page <> 0 ->
  get s w uninitialized i = Throws /\ put s w uninitialized i e = Throws /\ at_ s w uninitialized i = Throws /\ push_back s page w uninitialized e = Throws.
Proof. intros P. repeat split. Qed.
(* back() gives the last element. *)
Theorem C35_back s w v l e : elements s w v (l ++ [e]) -> size v < 2 ^ 64 -> back s w v = Done e.
Proof.
  intros (Sz & H) L. unfold back, wrap. rewrite app_length in Sz. cbn [length] in Sz. set (k := size v) in *.
  replace (k + 2 ^ 64 - 1) with ((k - 1) + 1 * 2 ^ 64) by lia. rewrite N.mod_add by discriminate. rewrite N.mod_small by lia.
  specialize (H (k - 1)). rewrite nth_error_app2 in H by lia. replace (N.to_nat (k - 1) - length l)%nat with 0%nat in H by lia.
  cbn [nth_error] in H. unfold at_, throwIfUninitialized in H. destruct (ptr v); [|discriminate].
  destruct (size v <=? k - 1) eqn:Q; [discriminate | exact H].
Qed.
(* A file that is too short or has a different magic number or version is not opened. *)
Theorem C35_invalid_file w f c : file w f = Some c ->
  (length c < 32)%nat \/ of_le (firstn 4 (skipn (length c - 8) c)) <> 7601577 \/ of_le (firstn 4 (skipn (length c - 4) c)) <> 0 ->
  open_reuse w f = Throws.
Proof.
  intros F H. unfold open_reuse, readMetaDataFromEnd. rewrite F. destruct (Nat.ltb_spec (length c) 32) as [L|L]; [reflexivity|]. cbv zeta.
  rewrite <- !skipn_add. replace (length c - 32 + 24)%nat with (length c - 8)%nat by lia. replace (length c - 32 + 28)%nat with (length c - 4)%nat by lia.
  unfold MagicNumber, Version. destruct H as [H|[H|H]]; [lia| |]; apply N.eqb_neq in H; rewrite H; [|rewrite Bool.andb_false_r]; reflexivity.
Qed.
Example C35_invalid_example : open_reuse [(1, le 8 3)] 1 = Throws /\ open_reuse [(1, repeat 0 4096)] 1 = Throws.
Proof. now vm_compute. Qed.

(* ---- findings ---- *)
(* push_back(const T&) of an own element reads a dangling reference whenever the vector is full and
   mremap moves the mapping. *)
Theorem C35_push_own_refuted s page m w v l i : sizes s page m -> rep s w v l -> size v + 1 <= m -> size v = capacity v -> i < size v ->
  push_back_own s page true w v i = Fault.
Proof.
  intros (SP & PS & HB) R M C I. unfold push_back_own. destruct (grow_ok s page m SP PS HB w v l R M) as (w' & v' & -> & _). cbn [andThen].
  rewrite C, N.eqb_refl. reflexivity.
Qed.
Definition after {A} (x : outcome A) (P : A -> Prop) : Prop := match x with Done a => P a | _ => False end.
Example C35_push_own_example :
  after (open_size 8 16 [] 0 1) (fun wv => after (run_ops 8 16 (fst wv) (snd wv) (map (fun k => Push (le 8 k)) (repeat 5 102))) (fun wv' =>
    size (snd wv') = capacity (snd wv') /\ push_back_own 8 16 true (fst wv') (snd wv') 0 = Fault /\
    after (push_back_own 8 16 false (fst wv') (snd wv') 0) (fun wv2 => size (snd wv2) = 103))).
Proof. vm_compute. repeat split. Qed.
(* With elements of more than half a page (and not exactly a page) push_back fails after clear. *)
Theorem C35_large_elements_refuted :
  (after (open_size 24 16 [] 0 1) (fun wv => run_ops 24 16 (fst wv) (snd wv) [Clear; Push (repeat 7 24)] = CheckFails)) /\
  (after (open_size 12 16 [] 0 1) (fun wv => run_ops 12 16 (fst wv) (snd wv) [Clear; Push (repeat 7 12); Push (repeat 7 12)] = CheckFails)).
Proof. vm_compute. split; reflexivity. Qed.
(* open() on a vector that is open does not save it: the file keeps the size it had when it was
   created or last grew. *)
Theorem C35_open_twice_refuted :
  after (open_size 8 4096 [] 0 1) (fun wv => after (push_back 8 4096 (fst wv) (snd wv) (le 8 5)) (fun wv1 =>
    after (open_size 8 4096 (fst wv1) 0 2) (fun wv2 => after (open_reuse (fst wv2) 1) (fun v => size (snd wv1) = 1 /\ size v = 0)))).
Proof. vm_compute. split; reflexivity. Qed.
(* A vector that was moved from keeps its size and capacity without a mapping: push_back writes
   through a null pointer. *)
Theorem C35_moved_from_refuted s page w v e : size v < capacity v -> push_back s page w (snd (move v)) e = Fault /\ size (snd (move v)) = size v.
Proof.
  intros H. split; [|reflexivity]. unfold push_back, grow, move. cbn [snd size capacity].
  replace (size v =? capacity v) with false by lia. reflexivity.
Qed.
(* Assigning a view to itself loses the mapping; the vector has a test for this. *)
Theorem C35_view_self_assign_refuted s w v i : at_ s w (fst (view_move_assign true v v)) i = Throws /\ move_assign w true v v = Done (w, v, v).
Proof. split; reflexivity. Qed.

(* times_one_and_a_half is the float multiplication of IEEE 754, truncated. *)
Definition as_float (n : N) : Floats.SpecFloat.spec_float := Float32.float_of_N n.
Definition truncate (x : Floats.SpecFloat.spec_float) : N :=
  match x with
  | Floats.SpecFloat.S754_finite false mant (Zpos e) => N.pos mant * 2 ^ N.pos e
  | Floats.SpecFloat.S754_finite false mant Z0 => N.pos mant
  | Floats.SpecFloat.S754_finite false mant (Zneg e) => N.pos mant / 2 ^ N.pos e
  | _ => 0
  end.
Definition one_and_a_half : Floats.SpecFloat.spec_float := Floats.SpecFloat.binary_normalize 24 128 3 (-1) false.
Example times_one_and_a_half_float :
  forallb (fun n => times_one_and_a_half n =? truncate (Floats.SpecFloat.SFmul 24 128 (as_float n) one_and_a_half))
    ([0; 1; 2; 3; 100; 511; 16777215; 16777216; 16777217; 16777219; 11184811; 22369621; 22369622; 22369623; 33554431; 33554433; 123456789123;
      2 ^ 40 + 1; 2 ^ 40 + 2 ^ 16; 2 ^ 40 + 2 ^ 16 + 1; 2 ^ 62 - 1; 2 ^ 63 + 2 ^ 39; 2 ^ 63 + 3 * 2 ^ 39]
     ++ map (fun k => N.of_nat k * 7919 + 16770000) (seq 0 300)) = true.
Proof. vm_compute. reflexivity. Qed.

Print Assumptions C35_history.
Print Assumptions C35_range.
Print Assumptions C35_default.
Print Assumptions C35_persist.
Print Assumptions C35_buffered.
Print Assumptions C35_uninitialized.
Print Assumptions C35_invalid_file.
Print Assumptions C35_push_own_refuted.
Print Assumptions C35_large_elements_refuted.
Print Assumptions C35_open_twice_refuted.
Print Assumptions C35_moved_from_refuted.
Print Assumptions C35_view_self_assign_refuted.
Example C35_back_example : after (open_size 8 4096 [] 0 1) (fun wv => after (push_back 8 4096 (fst wv) (snd wv) (le 8 5)) (fun wv1 =>
  back 8 (fst wv1) (snd wv1) = Done (le 8 5))).
Proof. now vm_compute. Qed.
Print Assumptions C35_back.
