(* The operations. *)
From Coq Require Import List NArith Arith Bool Lia ZifyN ZifyNat ZifyBool.
From Verif Require Import ListAux Bytes Mmap_Model Mmap_Spec Mmap_Proof.
Import ListNotations.
Open Scope N_scope.

Section Vector.
  Variables (s page m : N).
  Hypothesis SP : 0 < s.
  Hypothesis PS : 2 * s <= page.
  Hypothesis HB : 2 * (m + 100) * s + page < 2 ^ 64.
  Let sn := N.to_nat s.
  Notation rep := (rep s).
  Notation others w w' f := (forall g, g <> f -> file w' g = file w g).

  (* writing behind the last element *)
  Lemma append_ok w v l e : rep w v l -> size v < capacity v -> length e = sn ->
    exists w', write_at s w v (size v) e = Done w' /\ rep w' (set_size v (size v + 1)) (l ++ [e]) /\ others w w' (filename v).
  Proof.
    intros R C LE. pose proof (rep_fits s page m SP PS HB w v l R) as RF. destruct R as [a b c d e' f g h (rest & j & k)]. unfold write_at. rewrite a, j.
    assert (IL : (size v + 1) * s <= bytesize v) by nia. pose proof IL as IL2. apply N.leb_le in IL2. rewrite IL2.
    assert (LC : length (concat l) = (length l * sn)%nat) by now apply concat_length.
    assert (LR : (sn <= length rest)%nat).
    { rewrite app_length in k. unfold sn in *. nia. }
    rewrite (store_at' _ _ (concat l) (firstn sn rest) (skipn sn rest));
      [|now rewrite firstn_skipn | rewrite LC; unfold sn; nia | rewrite firstn_length; lia].
    eexists. split; [reflexivity|]. split; [|intros g' G; apply file_other; congruence].
    constructor; cbn [ptr filename size capacity bytesize set_size]; auto; try lia.
    - rewrite app_length. cbn [length]. lia.
    - apply Forall_app. split; auto.
    - exists (skipn sn rest). rewrite file_set by exact b. rewrite concat_app. cbn [concat]. rewrite app_nil_r, <- !app_assoc. split; [reflexivity|].
      rewrite !app_length in *. rewrite skipn_length. lia.
  Qed.
  Lemma grow_ok w v l : rep w v l -> size v + 1 <= m ->
    exists w' v', grow s page w v = Done (w', v') /\ rep w' v' l /\ size v' < capacity v' /\ filename v' = filename v /\ others w w' (filename v).
  Proof.
    intros R M. unfold grow. destruct (N.eqb_spec (size v) (capacity v)) as [E|E].
    - pose proof R as [a b c d e f g h (rest & j & k)].
      destruct (grows_enough (capacity v) f) as [G1 G2].
      destruct (adapt_rep s page m SP PS HB w v (times_one_and_a_half (capacity v)) l rest (bytesize v)) as (w' & v' & A & B & C & D & O); auto; try lia.
      rewrite A. cbn [andThen fst snd]. exists w', v'. pose proof (r_size _ _ _ _ B) as SV.
      assert (LT : size v' < capacity v') by lia. apply N.ltb_lt in LT. rewrite LT. apply N.ltb_lt in LT. auto.
    - exists w, v. pose proof (r_cap _ _ _ _ R). repeat split; auto; try lia; apply R.
  Qed.
  Lemma push_ok w v l e : rep w v l -> size v + 1 <= m -> length e = sn ->
    exists w' v', push_back s page w v e = Done (w', v') /\ rep w' v' (l ++ [e]) /\ filename v' = filename v /\ others w w' (filename v).
  Proof.
    intros R M LE. unfold push_back. destruct (grow_ok w v l R M) as (w1 & v1 & -> & R1 & C1 & F1 & O1). cbn [andThen].
    destruct (append_ok w1 v1 l e R1 C1 LE) as (w2 & -> & R2 & O2). cbn [andThen]. do 2 eexists. split; [reflexivity|]. split; [exact R2|]. split; [exact F1|].
    intros g G. rewrite O2 by congruence. now apply O1.
  Qed.
  Lemma put_ok w v l i e : rep w v l -> i < N.of_nat (length l) -> length e = sn ->
    exists w', put s w v i e = Done w' /\ rep w' v (replaced (N.to_nat i) e l) /\ others w w' (filename v).
  Proof.
    intros R I LE. unfold put, throwIfUninitialized. rewrite (r_ptr _ _ _ _ R). now apply (write_ok s page m SP PS HB).
  Qed.
  Lemma get_ok w v l i : rep w v l -> i < N.of_nat (length l) -> get s w v i = Done (nth (N.to_nat i) l []).
  Proof. intros R I. unfold get, throwIfUninitialized. rewrite (r_ptr _ _ _ _ R). now apply (read_ok s page m SP PS HB). Qed.
  Lemma at_ok w v l i : rep w v l -> at_ s w v i = match nth_error l (N.to_nat i) with Some e => Done e | None => Throws end.
  Proof.
    intros R. unfold at_, throwIfUninitialized. rewrite (r_ptr _ _ _ _ R), (r_size _ _ _ _ R). destruct (N.leb_spec (N.of_nat (length l)) i) as [H|H].
    - replace (nth_error l (N.to_nat i)) with (@None elem) by (symmetry; apply nth_error_None; lia). reflexivity.
    - rewrite (read_ok s page m SP PS HB w v l) by (try exact R; lia). rewrite (nth_error_nth' l []) by lia. reflexivity.
  Qed.

  (* resizing *)
  Lemma shrink_ok w v l n : rep w v l -> n <= m -> n <= N.of_nat (length l) ->
    exists w' v', resize s page w v n = Done (w', v') /\ rep w' v' (firstn (N.to_nat n) l) /\ filename v' = filename v /\ others w w' (filename v).
  Proof.
    intros R M L. pose proof R as [a b c d e f g h (rest & j & k)]. unfold resize.
    destruct (adapt_rep s page m SP PS HB w (Vec (ptr v) n (capacity v) (bytesize v) (filename v)) n (firstn (N.to_nat n) l) (concat (skipn (N.to_nat n) l) ++ rest) (bytesize v))
      as (w' & v' & A & B & C & D & O); cbn [ptr filename size]; auto; try lia.
    - rewrite j. f_equal. rewrite app_assoc, <- concat_app, firstn_skipn. reflexivity.
    - rewrite firstn_length. lia.
    - rewrite <- (firstn_skipn (N.to_nat n) l) in h. apply Forall_app in h as [h _]. exact h.
    - exists w', v'. auto.
  Qed.
  Lemma extend_ok w v l n : rep w v l -> n <= m -> N.of_nat (length l) <= n ->
    exists w' v' more, resize s page w v n = Done (w', v') /\ rep w' v' (l ++ more) /\ length (l ++ more) = N.to_nat n /\
      Forall (fun e => length e = sn) more /\ filename v' = filename v /\ others w w' (filename v).
  Proof.
    intros R M L. pose proof R as [a b c d e f g h (rest & j & k)]. unfold resize.
    destruct (adapt_ok s page m SP PS HB w (Vec (ptr v) n (capacity v) (bytesize v) (filename v)) n _ (bytesize v) a b j) as (w' & v' & A & B & C & D & G & H & I & J & K & LL & O); cbn [size]; try lia.
    cbn [size filename ptr] in *.
    assert (LC : length (concat l) = (length l * sn)%nat) by now apply concat_length.
    assert (NB : (N.to_nat n * sn <= N.to_nat (bytesize v'))%nat) by (unfold sn; nia).
    assert (LT : (length (concat l) <= N.to_nat (bytesize v'))%nat) by (rewrite LC; nia).
    destruct (truncated_prefix (concat l) rest _ LT) as [r' T].
    assert (LR : (length (concat l) + length r' = N.to_nat (bytesize v'))%nat) by (rewrite <- app_length, <- T; apply truncated_length).
    assert (KL : ((N.to_nat n - length l) * sn <= length r')%nat) by (rewrite Nat.mul_sub_distr_r; lia).
    destruct (chunks sn (N.to_nat n - length l) (firstn ((N.to_nat n - length l) * sn) r')) as (more & M1 & M2 & M3); [rewrite firstn_length; lia|].
    exists w', v', more. split; [exact A|].
    assert (LM : length (l ++ more) = N.to_nat n) by (rewrite app_length; lia).
    split; [|auto]. constructor; auto; try lia; try congruence.
    - apply Forall_app. auto.
    - exists (skipn ((N.to_nat n - length l) * sn) r' ++ meta_data v'). rewrite LL, T. rewrite concat_app, M3.
      split.
      + f_equal. rewrite <- !app_assoc. f_equal. rewrite app_assoc. f_equal. symmetry. apply firstn_skipn.
      + rewrite !app_length, meta_length. rewrite <- M3 at 1. rewrite (concat_length sn more M2). rewrite M1, skipn_length. lia.
  Qed.
  Lemma resize_ok w v l n : rep w v l -> n <= m ->
    exists w' v' l', resize s page w v n = Done (w', v') /\ rep w' v' l' /\ step s l (Resize n) l' /\ length l' = N.to_nat n /\ filename v' = filename v /\ others w w' (filename v).
  Proof.
    intros R M. destruct (N.le_gt_cases n (N.of_nat (length l))) as [H|H].
    - destruct (shrink_ok w v l n R M H) as (w' & v' & A & B & C & D). exists w', v', (firstn (N.to_nat n) l).
      split; [exact A|]. split; [exact B|]. split; [now constructor|]. split; [rewrite firstn_length; lia|auto].
    - destruct (extend_ok w v l n R M) as (w' & v' & more & A & B & C & D & E & F); [lia|]. exists w', v', (l ++ more).
      split; [exact A|]. split; [exact B|]. split; [constructor; auto; lia|auto].
  Qed.
  Lemma reserve_ok w v l n : rep w v l -> n <= m ->
    exists w' v', reserve s page w v n = Done (w', v') /\ rep w' v' l /\ filename v' = filename v /\ n <= capacity v' /\ others w w' (filename v).
  Proof.
    intros R M. unfold reserve. destruct (N.ltb_spec (capacity v) n) as [H|H].
    - pose proof R as [a b c d e f g h (rest & j & k)].
      destruct (adapt_rep s page m SP PS HB w v n l rest (bytesize v)) as (w' & v' & A & B & C & D & O); auto; try lia. exists w', v'. auto.
    - exists w, v. auto.
  Qed.

  (* closing and opening *)
  Lemma meta_words v : size v < 2 ^ 64 -> capacity v < 2 ^ 64 -> bytesize v < 2 ^ 64 ->
    of_le (firstn 8 (skipn 0 (meta_data v))) = size v /\ of_le (firstn 8 (skipn 8 (meta_data v))) = capacity v /\
    of_le (firstn 8 (skipn 16 (meta_data v))) = bytesize v /\
    of_le (firstn 4 (skipn 24 (meta_data v))) = MagicNumber /\ of_le (firstn 4 (skipn 28 (meta_data v))) = Version.
  Proof.
    intros A B C. unfold meta_data.
    assert (G : forall p x q : list N, firstn (length x) (skipn (length p) (p ++ x ++ q)) = x).
    { intros p x q. rewrite skipn_app, skipn_all, Nat.sub_diag. cbn [skipn app]. rewrite firstn_app, firstn_all, Nat.sub_diag. cbn [firstn]. apply app_nil_r. }
    assert (H : forall p k x q mm, mm = p ++ le k x ++ q -> x < 256 ^ N.of_nat k -> of_le (firstn k (skipn (length p) mm)) = x).
    { intros p k x q mm -> L. pose proof (G p (le k x) q) as E. rewrite le_length in E. rewrite E. now apply of_le_le. }
    repeat split.
    - apply (H [] 8%nat _ (le 8 (capacity v) ++ le 8 (bytesize v) ++ le 4 MagicNumber ++ le 4 Version)); [reflexivity|exact A].
    - apply (H (le 8 (size v)) 8%nat _ (le 8 (bytesize v) ++ le 4 MagicNumber ++ le 4 Version)); [reflexivity|exact B].
    - apply (H (le 8 (size v) ++ le 8 (capacity v)) 8%nat _ (le 4 MagicNumber ++ le 4 Version)); [now rewrite <- app_assoc|exact C].
  Qed.
  Lemma close_ok w v l : rep w v l -> exists w', close w v = Done (w', uninitialized) /\
    open_reuse w' (filename v) = Done v /\ rep w' v l /\ others w w' (filename v).
  Proof.
    intros R. pose proof (rep_fits s page m SP PS HB w v l R) as RF. pose proof R as [a b c d e f g h (rest & j & k)]. unfold close. rewrite a. unfold writeMetaDataToEnd. rewrite j. cbn [andThen].
    eexists. split; [reflexivity|].
    assert (LC : length (concat l) = (length l * sn)%nat) by now apply concat_length.
    assert (LT : (length (concat l) <= N.to_nat (bytesize v))%nat) by (rewrite LC; exact RF).
    destruct (truncated_prefix (concat l) rest _ LT) as [r' T].
    split; [|split].
    - unfold open_reuse, readMetaDataFromEnd. rewrite file_set by exact b. rewrite app_length, truncated_length, meta_length.
      destruct (Nat.ltb_spec (N.to_nat (bytesize v) + 32) 32); [lia|].
      replace (N.to_nat (bytesize v) + 32 - 32)%nat with (length (truncated (concat l ++ rest) (N.to_nat (bytesize v)))) by (rewrite truncated_length; lia).
      assert (SK : forall a c : list N, skipn (length a) (a ++ c) = c) by (intros a' c'; rewrite skipn_app, skipn_all, Nat.sub_diag; reflexivity).
      rewrite SK.
      destruct (meta_words v) as (M1 & M2 & M3 & M4 & M5); try lia.
      rewrite M1, M2, M3, M4, M5. cbn [N.eqb andb]. rewrite !N.eqb_refl. cbn [andb andThen].
      unfold map_file. cbn [filename bytesize]. rewrite file_set by exact b. replace (bytesize v =? 0) with false by nia.
      cbn [size capacity]. destruct v; cbn in *. now rewrite a.
    - constructor; auto. exists (r' ++ meta_data v). rewrite file_set by exact b. rewrite T, <- app_assoc. split; [reflexivity|].
      rewrite app_assoc, <- T, app_length, truncated_length, meta_length. reflexivity.
    - intros g' G. apply file_other. congruence.
  Qed.
  Lemma open_ok w n f : f <> 0 -> n <= m -> exists w' v l, open_size s page w n f = Done (w', v) /\ rep w' v l /\
    length l = N.to_nat n /\ filename v = f /\ others w w' f.
  Proof.
    intros F M. unfold open_size. replace (f =? 0) with false by lia.
    destruct (convert_ok s page m SP PS HB (N.max n MinCapacity)) as (c & b & -> & B & C1 & C2 & C3 & C4); [unfold MinCapacity; lia|].
    unfold writeMetaDataToEnd. cbn [filename bytesize]. rewrite file_set by exact F. cbn [andThen]. unfold map_file. cbn [filename bytesize].
    rewrite file_set by exact F. replace (b =? 0) with false by lia. cbn [andThen size capacity].
    assert (BM : b < 2 ^ 64).
    { assert (N.max n MinCapacity * s <= 2 * (m + 100) * s) by (apply N.mul_le_mono_r; unfold MinCapacity; lia). lia. }
    set (tr := truncated [] (N.to_nat b)).
    assert (TL : length tr = N.to_nat b) by apply truncated_length.
    assert (NS : (N.to_nat n * sn <= N.to_nat b)%nat) by (unfold sn, MinCapacity in *; nia).
    destruct (chunks sn (N.to_nat n) (firstn (N.to_nat n * sn) tr)) as (l & L1 & L2 & L3); [rewrite firstn_length; lia|].
    do 2 eexists. exists l. split; [reflexivity|]. split; [|split; [exact L1|split; [reflexivity|]]].
    - constructor; cbn [ptr filename size capacity bytesize]; auto; try (unfold MinCapacity in *; lia).
      exists (skipn (N.to_nat n * sn) tr ++ meta_data (Vec None n c b f)). rewrite file_set by exact F. rewrite L3, app_assoc, firstn_skipn.
      split; [reflexivity|]. rewrite app_length, meta_length, TL. reflexivity.
    - intros g G. rewrite file_other by congruence. apply file_other. congruence.
  Qed.
  Lemma replaced_length i e l : (i < length l)%nat -> length (replaced i e l) = length l.
  Proof. intros H. unfold replaced. rewrite app_length, firstn_length. cbn [length]. rewrite skipn_length. lia. Qed.
  Lemma fill_ok es : forall w v a b, rep w v (a ++ b) -> length b = length es -> Forall (fun e => length e = sn) es ->
    exists w', fill s w v (N.of_nat (length a)) es = Done w' /\ rep w' v (a ++ es) /\ others w w' (filename v).
  Proof.
    induction es as [|e es IH]; intros w v a b R LB F.
    - destruct b; [|discriminate]. exists w. auto.
    - destruct b as [|x b]; [discriminate|]. cbn in LB. inversion F; subst. cbn [fill].
      destruct (write_ok s page m SP PS HB w v (a ++ x :: b) (N.of_nat (length a)) e R) as (w1 & -> & R1 & O1); [rewrite app_length; cbn [length]; lia | assumption|].
      cbn [andThen]. replace (N.of_nat (length a) + 1) with (N.of_nat (length (a ++ [e]))) by (rewrite app_length; cbn [length]; lia).
      assert (E : replaced (N.to_nat (N.of_nat (length a))) e (a ++ x :: b) = (a ++ [e]) ++ b).
      { unfold replaced. rewrite Nat2N.id, firstn_app, Nat.sub_diag, firstn_all, skipn_app, (skipn_all2 a) by lia.
        replace (length a + 1 - length a)%nat with 1%nat by lia. cbn [firstn skipn app]. rewrite app_nil_r, <- app_assoc. reflexivity. }
      rewrite E in R1. destruct (IH w1 v (a ++ [e]) b R1) as (w2 & -> & R2 & O2); [lia | assumption|].
      exists w2. split; [reflexivity|]. rewrite <- app_assoc in R2. split; [exact R2|]. intros g G. rewrite O2 by exact G. now apply O1.
  Qed.
  Lemma put_all_fill es : forall w v i, ptr v <> None -> put_all s w v i es = fill s w v i es.
  Proof.
    induction es as [|e es IH]; intros w v i P; [reflexivity|]. cbn [put_all fill]. unfold put, throwIfUninitialized. destruct (ptr v) eqn:E; [|contradiction].
    destruct (write_at s w v i e); cbn [andThen]; auto. apply IH. congruence.
  Qed.
End Vector.
