(* Growth, files and mappings. *)
From Coq Require Import List NArith Arith Bool Lia ZifyN ZifyNat ZifyBool.
From Verif Require Import ListAux Bytes Mmap_Model Mmap_Spec.
Import ListNotations.
Open Scope N_scope.

(* ---- times 1.5 ---- *)
Lemma round24_small n : n < 2 ^ 24 -> round24 n = n.
Proof.
  intros H. unfold round24.
  assert (K : N.log2 n - 23 = 0).
  { destruct (N.eq_dec n 0) as [->|Z]; [reflexivity|]. assert (N.log2 n < 24) by (apply N.log2_lt_pow2; lia). lia. }
  rewrite K. cbn [N.eqb orb]. change (2 ^ 0) with 1. rewrite N.div_1_r. lia.
Qed.
Lemma round24_bounds n q r h : n = 2 * h * q + r -> r < 2 * h -> 2 ^ 24 * h <= n ->
  forall b : bool, (b = true -> r <= h) -> (b = false -> h <= r) ->
  let x := (if b then q else q + 1) * (2 * h) in 2 ^ 24 * (x - n) <= n /\ 2 ^ 24 * (n - x) <= n.
Proof. intros E L B b T F. cbv zeta. destruct b; [specialize (T eq_refl) | specialize (F eq_refl)]; nia. Qed.
Lemma round24_error n : 2 ^ 24 * (round24 n - n) <= n /\ 2 ^ 24 * (n - round24 n) <= n.
Proof.
  destruct (N.lt_ge_cases n (2 ^ 24)) as [H|H]; [rewrite round24_small by exact H; lia|].
  unfold round24. set (k := N.log2 n - 23).
  assert (L24 : 24 <= N.log2 n) by (apply N.log2_le_pow2; lia).
  assert (KP : 1 <= k) by (unfold k; lia).
  assert (LN : 2 ^ (23 + k) <= n) by (replace (23 + k) with (N.log2 n) by (unfold k; lia); apply N.log2_spec; lia).
  assert (PK : 2 ^ k = 2 * 2 ^ (k - 1)) by (rewrite <- N.pow_succ_r'; f_equal; lia).
  assert (P23 : 2 ^ (23 + k) = 2 ^ 24 * 2 ^ (k - 1)) by (rewrite <- N.pow_add_r; f_equal; lia).
  assert (HALF : 2 ^ k / 2 = 2 ^ (k - 1)) by (rewrite PK, N.mul_comm; apply N.div_mul; discriminate).
  assert (P0 : 0 < 2 ^ (k - 1)) by (apply N.neq_0_lt_0, N.pow_nonzero; discriminate).
  pose proof (N.div_mod n (2 ^ k) ltac:(lia)) as DM. pose proof (N.mod_lt n (2 ^ k) ltac:(lia)) as ML.
  rewrite HALF. assert (k =? 0 = false) as -> by lia. cbn [orb].
  rewrite PK in DM at 1. rewrite PK in ML at 2. rewrite P23 in LN.
  pose proof (round24_bounds n _ _ _ DM ML LN) as B. specialize (B ((n mod 2 ^ k <? 2 ^ (k - 1)) || (n mod 2 ^ k =? 2 ^ (k - 1)) && N.even (n / 2 ^ k))).
  cbv zeta in B. rewrite <- PK in B. apply B.
  - intros T. apply orb_true_iff in T as [T|T]; [apply N.ltb_lt in T; lia|]. apply andb_true_iff in T as [T _]. apply N.eqb_eq in T. lia.
  - intros F. apply orb_false_iff in F as [F _]. apply N.ltb_ge in F. exact F.
Qed.
Lemma grows_enough n : 2 <= n -> n + 1 <= times_one_and_a_half n <= 2 * n.
Proof.
  intros H. unfold times_one_and_a_half. destruct (N.lt_ge_cases n (2 ^ 22)) as [L|L].
  - rewrite (round24_small n) by lia. rewrite round24_small by lia. pose proof (N.div_mod (3 * n) 2 ltac:(lia)). pose proof (N.mod_lt (3 * n) 2 ltac:(lia)). lia.
  - destruct (round24_error n) as [A1 A2]. destruct (round24_error (3 * round24 n)) as [B1 B2].
    set (a := round24 n) in *. set (b := round24 (3 * a)) in *. clearbody a b.
    assert (2 * (n + 1) <= b <= 4 * n) by lia.
    pose proof (N.div_mod b 2 ltac:(lia)). pose proof (N.mod_lt b 2 ltac:(lia)). lia.
Qed.

(* ---- files ---- *)
Lemma file_set w f c : f <> 0 -> file (set_file w f c) f = Some c.
Proof. intros H. unfold file, set_file. replace (f =? 0) with false by lia. cbn. now rewrite N.eqb_refl. Qed.
Lemma file_other w f c g : f <> g -> file (set_file w f c) g = file w g.
Proof. intros H. unfold file, set_file. destruct (g =? 0); [reflexivity|]. cbn [find fst]. replace (f =? g) with false by lia. reflexivity. Qed.
Lemma meta_length v : length (meta_data v) = 32%nat.
Proof. unfold meta_data. rewrite !app_length, !le_length. reflexivity. Qed.
Lemma truncated_length c n : length (truncated c n) = n.
Proof. unfold truncated. rewrite app_length, firstn_length, repeat_length. lia. Qed.
Lemma truncated_prefix a r n : (length a <= n)%nat -> exists r', truncated (a ++ r) n = a ++ r'.
Proof.
  intros H. unfold truncated. rewrite firstn_app. rewrite (firstn_all2 a) by exact H. rewrite <- app_assoc. eauto.
Qed.

(* ---- elements ---- *)
Lemma concat_length s (l : list elem) : Forall (fun e => length e = s) l -> length (concat l) = (length l * s)%nat.
Proof. induction 1 as [|e l E F IH]; [reflexivity|]. cbn [concat length]. rewrite app_length, E, IH. lia. Qed.
Lemma chunks s n : forall bytes : list N, length bytes = (n * s)%nat ->
  exists l, length l = n /\ Forall (fun e => length e = s) l /\ concat l = bytes.
Proof.
  induction n as [|n IH]; intros bytes E.
  - exists []. destruct bytes; [auto | discriminate].
  - destruct (IH (skipn s bytes)) as (l & L & F & C); [rewrite skipn_length; lia|].
    exists (firstn s bytes :: l). cbn [length concat]. rewrite C, firstn_skipn. repeat split; auto.
    constructor; [rewrite firstn_length; lia | exact F].
Qed.
Lemma concat_split s (l : list elem) i : Forall (fun e => length e = s) l -> (i < length l)%nat ->
  exists a x b, l = a ++ x :: b /\ length a = i /\ length x = s /\ length (concat a) = (i * s)%nat.
Proof.
  intros F H. exists (firstn i l). destruct (nth_error l i) as [x|] eqn:E; [|apply nth_error_None in E; lia].
  exists x, (skipn (i + 1) l). apply nth_error_split in E as (a & b & -> & <-).
  rewrite firstn_app, Nat.sub_diag, firstn_all. cbn [firstn]. rewrite app_nil_r. apply Forall_app in F as [F1 F2]. inversion F2; subst.
  repeat split; auto.
  - f_equal. f_equal. rewrite Nat.add_comm. rewrite skipn_app. rewrite skipn_all2 by lia. replace (1 + length a - length a)%nat with 1%nat by lia. reflexivity.
  - now apply concat_length.
Qed.

Section Vector.
  Variables (s page m : N).
  Hypothesis SP : 0 < s.
  Hypothesis PS : 2 * s <= page.
  Hypothesis HB : 2 * (m + 100) * s + page < 2 ^ 64.
  Let sn := N.to_nat s.

  Lemma convert_ok t : t <= 2 * (m + 100) ->
    exists c b, convertArraySizeToFileSize s page t = (c, b) /\ t * s < b <= t * s + page /\ t <= c /\ c * s <= b /\ 2 <= c /\ c < 2 ^ 64.
  Proof.
    intros T. unfold convertArraySizeToFileSize, wrap.
    assert (TS : t * s <= 2 * (m + 100) * s) by (apply N.mul_le_mono_r; exact T).
    assert (P0 : page <> 0) by lia.
    pose proof (N.div_mod (t * s) page P0) as DM. pose proof (N.mod_lt (t * s) page P0) as ML.
    set (q := t * s / page) in *.
    assert (Q1 : q <= t * s) by nia.
    rewrite (N.mod_small (t * s)) by lia. fold q. rewrite (N.mod_small (q + 1)) by lia.
    assert (B : (q + 1) * page <= t * s + page) by lia. rewrite (N.mod_small ((q + 1) * page)) by lia.
    do 2 eexists. split; [reflexivity|]. set (b := (q + 1) * page) in *.
    assert (BL : t * s < b) by lia.
    assert (S0 : s <> 0) by lia. pose proof (N.div_mod b s S0) as DM2. pose proof (N.mod_lt b s S0) as ML2.
    split; [lia|]. split; [apply N.div_le_lower_bound; [exact S0|lia]|]. split; [lia|].
    split; [apply N.div_le_lower_bound; [exact S0|]; unfold b; nia|].
    assert (b / s <= b) by nia. lia.
  Qed.

  (* the vector v has the elements l *)
  Record rep (w : world) (v : vec) (l : list elem) : Prop :=
    { r_ptr : ptr v = Some (filename v, bytesize v);
      r_name : filename v <> 0;
      r_size : size v = N.of_nat (length l);
      r_cap : size v <= capacity v;
      r_bytes : capacity v * s <= bytesize v;
      r_two : 2 <= capacity v;
      r_max : bytesize v < 2 ^ 64 /\ capacity v < 2 ^ 64;
      r_elems : Forall (fun e => length e = sn) l;
      r_file : exists rest, file w (filename v) = Some (concat l ++ rest) /\ length (concat l ++ rest) = (N.to_nat (bytesize v) + 32)%nat }.

  Lemma rep_fits w v l : rep w v l -> (length l * sn <= N.to_nat (bytesize v))%nat.
  Proof.
    intros R. pose proof (r_size _ _ _ R). pose proof (r_cap _ _ _ R). pose proof (r_bytes _ _ _ R).
    assert (N.of_nat (length l) * s <= bytesize v) by nia. unfold sn. nia.
  Qed.

  (* a new capacity *)
  Lemma adapt_ok w v t c len : ptr v = Some (filename v, len) -> filename v <> 0 -> file w (filename v) = Some c ->
    size v <= t -> t <= 2 * (m + 100) ->
    exists w' v', adaptCapacity s page w v t = Done (w', v') /\ size v' = size v /\ filename v' = filename v /\
      ptr v' = Some (filename v', bytesize v') /\ t <= capacity v' /\ capacity v' * s <= bytesize v' /\ 2 <= capacity v' /\
      bytesize v' < 2 ^ 64 /\ capacity v' < 2 ^ 64 /\
      file w' (filename v') = Some (truncated c (N.to_nat (bytesize v')) ++ meta_data v') /\
      (forall g, g <> filename v -> file w' g = file w g).
  Proof.
    intros P NM F ST T. unfold adaptCapacity. destruct (convert_ok t T) as (c' & b & -> & B & C1 & C2 & C3 & C4).
    unfold writeMetaDataToEnd, remapLinux. cbn [filename ptr bytesize]. rewrite F, P. cbn [andThen].
    replace (b =? 0) with false by lia. do 2 eexists. split; [reflexivity|]. cbn [size capacity bytesize filename ptr].
    assert (TS : t * s <= 2 * (m + 100) * s) by (apply N.mul_le_mono_r; exact T).
    repeat (split; [first [reflexivity | lia]|]). split; [rewrite file_set by exact NM; reflexivity|].
    intros g G. apply file_other; congruence.
  Qed.
  Lemma adapt_rep w v t l rest len : ptr v = Some (filename v, len) -> filename v <> 0 -> file w (filename v) = Some (concat l ++ rest) ->
    size v = N.of_nat (length l) -> Forall (fun e => length e = sn) l -> size v <= t -> t <= 2 * (m + 100) ->
    exists w' v', adaptCapacity s page w v t = Done (w', v') /\ rep w' v' l /\ filename v' = filename v /\ t <= capacity v' /\
      (forall g, g <> filename v -> file w' g = file w g).
  Proof.
    intros P NM F SZ E ST T. destruct (adapt_ok w v t _ len P NM F ST T) as (w' & v' & A & B & C & D & G & H & I & J & K & L & M).
    exists w', v'. split; [exact A|]. split; [|auto]. constructor; try lia; auto; try congruence.
    assert (LB : (length (concat l) <= N.to_nat (bytesize v'))%nat) by (rewrite (concat_length sn) by exact E; unfold sn; nia).
    destruct (truncated_prefix (concat l) rest _ LB) as [r' T'].
    exists (r' ++ meta_data v'). rewrite L, T'. rewrite <- app_assoc. split; [reflexivity|].
    rewrite app_assoc, <- T', app_length, truncated_length, meta_length. reflexivity.
  Qed.

  (* reading and writing *)
  Lemma read_ok w v l i : rep w v l -> i < N.of_nat (length l) -> read_at s w v i = Done (nth (N.to_nat i) l []).
  Proof.
    intros R H. pose proof (rep_fits w v l R) as RF. destruct R as [a b c d e f g h (rest & j & k)]. unfold read_at. rewrite a, j.
    assert (IL : (i + 1) * s <= bytesize v) by nia. apply N.leb_le in IL. rewrite IL.
    destruct (concat_split sn l (N.to_nat i) h) as (x & y & z & -> & E1 & E2 & E3); [lia|].
    rewrite (load_at' _ _ _ (concat x) y (concat z ++ rest)); [|rewrite concat_app; cbn [concat]; now rewrite <- !app_assoc | unfold sn in E3; lia | unfold sn in E2; lia].
    rewrite <- E1. rewrite app_nth2, Nat.sub_diag by lia. reflexivity.
  Qed.
  Lemma write_ok w v l i e : rep w v l -> i < N.of_nat (length l) -> length e = sn ->
    exists w', write_at s w v i e = Done w' /\ rep w' v (replaced (N.to_nat i) e l) /\ (forall g, g <> filename v -> file w' g = file w g).
  Proof.
    intros R H LE. pose proof (rep_fits w v l R) as RF. destruct R as [a b c d e' f g h (rest & j & k)]. unfold write_at. rewrite a, j.
    assert (IL : (i + 1) * s <= bytesize v) by nia. apply N.leb_le in IL. rewrite IL.
    destruct (concat_split sn l (N.to_nat i) h) as (x & y & z & -> & E1 & E2 & E3); [lia|].
    rewrite (store_at' _ _ (concat x) y (concat z ++ rest)); [|rewrite concat_app; cbn [concat]; now rewrite <- !app_assoc | unfold sn in E3; lia | lia].
    assert (RP : replaced (N.to_nat i) e (x ++ y :: z) = x ++ e :: z).
    { unfold replaced. rewrite <- E1. rewrite firstn_app, Nat.sub_diag, firstn_all, skipn_app, (skipn_all2 x) by lia.
      replace (length x + 1 - length x)%nat with 1%nat by lia. cbn [firstn skipn app]. now rewrite app_nil_r. }
    apply Forall_app in h as [h1 h2]. inversion h2; subst.
    eexists. split; [reflexivity|]. split; [|intros g' G; apply file_other; congruence]. constructor; auto.
    - rewrite RP, !app_length in *. cbn [length] in *. lia.
    - rewrite RP. apply Forall_app. split; auto.
    - exists rest. rewrite file_set by exact b. rewrite RP, !concat_app in *. cbn [concat] in *. rewrite <- !app_assoc in *. split; [reflexivity|].
      rewrite !app_length in *. lia.
  Qed.
End Vector.
