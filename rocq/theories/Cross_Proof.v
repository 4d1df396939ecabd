From Coq Require Import List NArith Arith Bool Lia.
From Verif Require Import Cross_Spec Cross_Model.
Import ListNotations.

Lemma shift a n c : seq (c + a) n = map (fun x => c + x) (seq a n).
Proof. revert a. induction n as [|n IH]; intros a; [reflexivity|]. cbn. f_equal. rewrite <- IH. f_equal. lia. Qed.
Lemma seq_mul a b : seq 0 (a * b) = flat_map (fun q => map (fun x => q * a + x) (seq 0 a)) (seq 0 b).
Proof.
  induction b as [|b IH]; [now rewrite Nat.mul_0_r|]. rewrite seq_S, flat_map_app, <- IH. cbn [flat_map]. rewrite app_nil_r, Nat.add_0_l, <- shift, Nat.add_0_r.
  rewrite Nat.mul_succ_r, seq_app, Nat.add_0_l. f_equal. f_equal. lia.
Qed.
Lemma map_nth_seq {A} (l : list A) d : map (fun x => nth x l d) (seq 0 (length l)) = l.
Proof.
  induction l as [|a l IH]; [reflexivity|]. cbn [length seq map nth]. f_equal. rewrite <- IH at 2. rewrite <- seq_shift, map_map. reflexivity.
Qed.
(* the number of choices *)
Fixpoint total (ls : list (list row)) : nat := match ls with [] => 1 | l :: r => length l * total r end.
(* the choice with number q *)
Fixpoint digits (q : nat) (ls : list (list row)) : row :=
  match ls with [] => [] | l :: r => nth (q mod length l) l [] ++ digits (q / length l) r end.
Lemma digits_choices ls : map (fun q => digits q ls) (seq 0 (total ls)) = map (@concat N) (choices ls).
Proof.
  induction ls as [|l r IH]; [reflexivity|]. cbn [total choices]. rewrite seq_mul.
  assert (E : forall qs, map (fun q => digits q (l :: r)) (flat_map (fun q => map (fun x => q * length l + x) (seq 0 (length l))) qs) =
    flat_map (fun q => map (fun a => a ++ digits q r) l) qs).
  { induction qs as [|q qs IQ]; [reflexivity|]. cbn [flat_map]. rewrite map_app, IQ. f_equal. rewrite map_map.
    transitivity (map (fun a => a ++ digits q r) (map (fun x => nth x l []) (seq 0 (length l)))); [|now rewrite map_nth_seq]. rewrite map_map. apply map_ext_in. intros x Hx. apply in_seq in Hx. cbn [digits].
    assert (L : length l <> 0) by lia. rewrite (Nat.add_comm (q * length l)), Nat.mod_add, Nat.div_add, Nat.mod_small, Nat.div_small by lia. reflexivity. }
  rewrite E. clear E.
  assert (G : forall A (h : A -> row) cs qs, map h qs = map (@concat N) cs ->
    flat_map (fun q => map (fun a => a ++ h q) l) qs = map (@concat N) (flat_map (fun c => map (fun a => a :: c) l) cs)).
  { intros A h. induction cs as [|c cs IC]; intros [|q qs] X; try discriminate; [reflexivity|]. cbn [map] in X. injection X as X1 X2.
    cbn [flat_map]. rewrite map_app, map_map, (IC qs X2). f_equal. apply map_ext. intros a. cbn [concat]. now rewrite X1. }
  apply G. exact IH.
Qed.
Lemma nth_error_nth' {A} (l : list A) n d : n < length l -> nth_error l n = Some (nth n l d).
Proof. intros H. now apply nth_error_nth'. Qed.
Lemma fill_digits rest : forall before n resRow, Forall (fun l => length l <> 0) rest ->
  fill before rest n resRow = Some (resRow ++ digits (fold_left (fun idx k => idx / length k) before n) rest).
Proof.
  induction rest as [|l r IH]; intros before n resRow F; cbn [fill digits]; [now rewrite app_nil_r|]. inversion F as [|? ? L F']; subst.
  destruct (Nat.eqb_spec (length l) 0); [contradiction|]. rewrite (nth_error_nth' l _ []) by (apply Nat.mod_upper_bound; auto).
  rewrite IH by exact F'. rewrite fold_left_app. cbn [fold_left]. now rewrite app_assoc.
Qed.
Lemma total_pos ls : total ls <> 0 -> Forall (fun l => length l <> 0) ls.
Proof. induction ls as [|l r IH]; intros H; constructor; cbn [total] in H; [intros X; rewrite X in H; lia|apply IH; intros X; rewrite X in H; lia]. Qed.
Lemma fill_all_ok ls head : Forall (fun l => length l <> 0) ls -> forall ns res, fill_all ls head ns res = Some (res ++ map (fun n => head ++ digits n ls) ns).
Proof.
  intros F. induction ns as [|n ns IH]; intros res; cbn [fill_all map]; [now rewrite app_nil_r|].
  rewrite fill_digits by exact F. cbn [fold_left]. rewrite IH, <- app_assoc. reflexivity.
Qed.
Lemma fill_all_choices ls head res : fill_all ls head (seq 0 (total ls)) res = Some (res ++ map (fun c => head ++ concat c) (choices ls)).
Proof.
  destruct (Nat.eq_dec (total ls) 0) as [Z|Z].
  - assert (D := digits_choices ls). rewrite Z in *. cbn [seq map] in *. destruct (choices ls); [|discriminate]. cbn. now rewrite app_nil_r.
  - rewrite fill_all_ok by now apply total_pos. do 2 f_equal. rewrite <- (map_map (fun n => digits n ls) (fun r => head ++ r)), digits_choices, map_map. reflexivity.
Qed.
Lemma rows_small ls : forall acc, (acc * N.of_nat (total ls) < two64)%N -> (acc < two64)%N ->
  fold_left (fun acc l => (acc * N.of_nat (length l)) mod two64)%N ls acc = (acc * N.of_nat (total ls))%N.
Proof.
  induction ls as [|l r IH]; intros acc H A; cbn [fold_left total] in *; [cbn; lia|]. rewrite Nat2N.inj_mul in *.
  destruct (N.eq_dec (acc * N.of_nat (length l)) 0) as [Z|Z].
  - rewrite N.mul_assoc, Z, N.mod_0_l, N.mul_0_l by discriminate. clear. induction r as [|x r IH]; [reflexivity|]. cbn [fold_left]. now rewrite N.mul_0_l, N.mod_0_l by discriminate.
  - destruct (N.eq_dec (N.of_nat (total r)) 0) as [Z'|Z'].
    + rewrite Z', !N.mul_0_r. assert (ZT : total r = 0) by lia. clear - ZT. generalize ((acc * N.of_nat (length l)) mod two64)%N as b.
      induction r as [|x r IH]; intros b; [discriminate|]. cbn [total fold_left] in *. apply Nat.mul_eq_0 in ZT as [X|X]; [|now apply IH].
      rewrite X, N.mul_0_r, N.mod_0_l by discriminate. clear. induction r as [|y r IH]; [reflexivity|]. cbn [fold_left]. now rewrite N.mul_0_l, N.mod_0_l by discriminate.
    + assert (B : (acc * N.of_nat (length l) < two64)%N) by (rewrite N.mul_assoc in H; nia). rewrite N.mod_small by exact B. rewrite IH; [lia| |exact B]. now rewrite <- N.mul_assoc.
Qed.

(* ---- the postings of a context ---- *)
Definition window {A} (l : list A) (i n : nat) : list A := firstn n (skipn i l).
Lemma nth_skip {A} (l : list A) i : nth_error l i = match skipn i l with [] => None | a :: _ => Some a end.
Proof. revert l. induction i as [|i IH]; intros [|a l]; cbn; auto. Qed.
Lemma skip_S {A} (l : list A) i a r : skipn i l = a :: r -> skipn (S i) l = r.
Proof. revert l. induction i as [|i IH]; intros [|b l]; cbn; try congruence. intros H. apply IH in H. destruct l; exact H || (cbn in *; exact H). Qed.
Lemma window_S {A} (l : list A) i n : i + S n <= length l -> exists a, nth_error l i = Some a /\ window l i (S n) = a :: window l (S i) n.
Proof.
  intros H. unfold window. rewrite nth_skip. destruct (skipn i l) as [|a r] eqn:E.
  - apply (f_equal (@length A)) in E. rewrite skipn_length in E. cbn in E. lia.
  - exists a. split; [reflexivity|]. cbn [firstn]. f_equal. now rewrite (skip_S l i a r E).
Qed.
Lemma in_existsb e l : existsb (N.eqb e) l = if in_dec N.eq_dec e l then true else false.
Proof.
  destruct (in_dec N.eq_dec e l) as [I|I].
  - apply existsb_exists. exists e. split; auto. apply N.eqb_refl.
  - destruct (existsb (N.eqb e) l) eqn:E; [|reflexivity]. apply existsb_exists in E as (x & Hx & X). apply N.eqb_eq in X. subst. contradiction.
Qed.
Lemma push_one maps e (g : (N -> option (list row)) -> list row) :
  push_matches maps e (map g maps) = map (fun m => g m ++ rows_of m e) maps.
Proof.
  unfold push_matches. induction maps as [|m maps IH]; [reflexivity|]. cbn [map combine fst snd]. rewrite IH. f_equal. unfold rows_of.
  destruct (m e); [reflexivity|now rewrite app_nil_r].
Qed.
Lemma collect_ok maps eids n : forall i seen g, i + n <= length eids ->
  collect maps eids n i seen (map g maps) = Some (map (fun m => g m ++ flat_map (rows_of m) (firsts seen (window eids i n))) maps).
Proof.
  induction n as [|n IH]; intros i seen g H; cbn [collect].
  - f_equal. apply map_ext. intros m. cbn. now rewrite app_nil_r.
  - destruct (window_S eids i n H) as (e & E & W). rewrite E, W, in_existsb. cbn [firsts]. destruct (in_dec N.eq_dec e seen).
    + apply IH. lia.
    + rewrite push_one, IH by lia. f_equal. apply map_ext. intros m. cbn [flat_map]. now rewrite app_assoc.
Qed.
Lemma collect_two_ok s1 s2 eids n : forall i seen r1 r2, i + n <= length eids ->
  collect_two s1 s2 eids n i seen r1 r2 = Some (r1 ++ filter s1 (firsts seen (window eids i n)), r2 ++ filter s2 (firsts seen (window eids i n))).
Proof.
  induction n as [|n IH]; intros i seen r1 r2 H; cbn [collect_two].
  - cbn. now rewrite !app_nil_r.
  - destruct (window_S eids i n H) as (e & E & W). rewrite E, W, in_existsb. cbn [firsts]. destruct (in_dec N.eq_dec e seen).
    + apply IH. lia.
    + rewrite IH by lia. cbn [filter]. destruct (s1 e), (s2 e); now rewrite <- ?app_assoc.
Qed.
(* the postings between two positions *)
Definition postings (cids eids scores : list N) (i n : nat) : list posting := combine (combine (window eids i n) (window scores i n)) (window cids i n).
Lemma postings_S cids eids scores i n : i + S n <= length cids -> i + S n <= length eids -> i + S n <= length scores ->
  exists e s c, nth_error eids i = Some e /\ nth_error scores i = Some s /\ nth_error cids i = Some c /\
  postings cids eids scores i (S n) = (e, s, c) :: postings cids eids scores (S i) n.
Proof.
  intros H1 H2 H3. destruct (window_S cids i n H1) as (c & C & WC). destruct (window_S eids i n H2) as (e & E & WE). destruct (window_S scores i n H3) as (s & S & WS).
  exists e, s, c. repeat split; auto. unfold postings. now rewrite WC, WE, WS.
Qed.
Lemma postings_entities cids eids scores n : forall i, i + n <= length cids -> i + n <= length eids -> i + n <= length scores ->
  map entity (postings cids eids scores i n) = window eids i n.
Proof.
  induction n as [|n IH]; intros i H1 H2 H3; [reflexivity|]. destruct (postings_S cids eids scores i n H1 H2 H3) as (e & s & c & E & _ & _ & ->).
  destruct (window_S eids i n H2) as (e' & E' & ->). cbn [map entity fst]. rewrite E in E'. injection E' as <-. f_equal. apply IH; lia.
Qed.
Lemma append_rows_ok ls cids eids scores n : N.to_nat (nofResultRows ls) = total ls -> forall i res,
  i + n <= length cids -> i + n <= length eids -> i + n <= length scores ->
  append_rows ls cids eids scores n i res = Some (res ++ flat_map (fun p => map (fun c => head_of p ++ concat c) (choices ls)) (postings cids eids scores i n)).
Proof.
  intros T. induction n as [|n IH]; intros i res H1 H2 H3; cbn [append_rows]; [cbn; now rewrite app_nil_r|].
  destruct (postings_S cids eids scores i n H1 H2 H3) as (e & s & c & -> & -> & -> & ->). rewrite T, fill_all_choices, IH by lia.
  cbn [flat_map]. now rewrite app_assoc.
Qed.
Lemma append_two_ok r1 r2 cids eids scores n : forall i res,
  i + n <= length cids -> i + n <= length eids -> i + n <= length scores ->
  append_two r1 r2 cids eids scores n i res =
  Some (res ++ flat_map (fun p => flat_map (fun a => map (fun b => head_of p ++ [a; b]) r2) r1) (postings cids eids scores i n)).
Proof.
  induction n as [|n IH]; intros i res H1 H2 H3; cbn [append_two]; [cbn; now rewrite app_nil_r|].
  destruct (postings_S cids eids scores i n H1 H2 H3) as (e & s & c & -> & -> & -> & ->).
  destruct r1 as [|a r1]; [rewrite IH by lia; reflexivity|]. destruct r2 as [|b r2].
  - rewrite IH by lia. do 2 f_equal. assert (Z : forall l ps, flat_map (fun p : posting => flat_map (fun x => map (fun y => head_of p ++ [x; y]) []) l) ps = []).
    { clear. intros l. assert (Q : forall q : posting, flat_map (fun x => map (fun y => head_of q ++ [x; y]) []) l = []) by (intros q; induction l as [|y l I]; auto).
      induction ps as [|q ps I]; [reflexivity|]. change (flat_map (fun x => map (fun y => head_of q ++ [x; y]) []) l ++
        flat_map (fun p : posting => flat_map (fun x => map (fun y => head_of p ++ [x; y]) []) l) ps = []). now rewrite Q, I. }
    now rewrite !Z.
  - rewrite IH by lia. cbn [flat_map]. rewrite <- !app_assoc. reflexivity.
Qed.
Lemma total_spec ps maps : N.of_nat (total (map (matching ps) maps)) = number_of_choices ps maps.
Proof. unfold number_of_choices. induction maps as [|m maps IH]; [reflexivity|]. cbn [map total fold_right]. now rewrite Nat2N.inj_mul, IH. Qed.
