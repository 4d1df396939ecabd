(* Lemmas about single precision floats: operations with a result that fits are exact. *)
From Coq Require Import ZArith NArith List Bool Lia.
From Coq Require Import Floats.SpecFloat.
From Verif Require Import Bind_Model Bind_Spec.
Open Scope Z_scope.

Notation dig p := (Zpos (digits2_pos p)).
Lemma digits_log p : dig p = Z.log2 (Zpos p) + 1.
Proof.
  induction p as [p IH|p IH|]; cbn [digits2_pos]; [| |reflexivity].
  - rewrite Pos2Z.inj_succ, IH. change (Zpos p~1) with (2 * Zpos p + 1). rewrite Z.log2_succ_double by lia. lia.
  - rewrite Pos2Z.inj_succ, IH. change (Zpos p~0) with (2 * Zpos p). rewrite Z.log2_double by lia. lia.
Qed.
Lemma digits_bound p : 2 ^ (dig p - 1) <= Zpos p < 2 ^ dig p.
Proof. rewrite digits_log. pose proof (Z.log2_spec (Zpos p) ltac:(lia)). replace (Z.log2 (Z.pos p) + 1 - 1) with (Z.log2 (Z.pos p)) by lia. exact H. Qed.
Lemma digits_small p n : 0 <= n -> Zpos p < 2 ^ n -> dig p <= n.
Proof. intros H L. rewrite digits_log. assert (Z.log2 (Zpos p) < n) by (apply Z.log2_lt_pow2; lia). lia. Qed.
(* The same number with another exponent *)
Lemma digits_same p a q b : 0 <= a -> 0 <= b -> Zpos p * 2 ^ a = Zpos q * 2 ^ b -> dig p + a = dig q + b.
Proof.
  intros Ha Hb E. rewrite !digits_log. pose proof (Z.log2_mul_pow2 (Zpos p) a ltac:(lia) Ha). pose proof (Z.log2_mul_pow2 (Zpos q) b ltac:(lia) Hb). rewrite E in H. lia.
Qed.

Lemma iter_pos_iter {A} (f : A -> A) n x : iter_pos f n x = Nat.iter (Pos.to_nat n) f x.
Proof.
  assert (P : forall k j y, Nat.iter (k + j) f y = Nat.iter k f (Nat.iter j f y)) by (intros k j y; induction k as [|k IH]; [reflexivity|]; change (f (Nat.iter (k + j) f y) = f (Nat.iter k f (Nat.iter j f y))); now rewrite IH).
  revert x. induction n as [n IH|n IH|]; intros x; cbn [iter_pos].
  - rewrite !IH, Pos2Nat.inj_xI, <- P. replace (S (2 * Pos.to_nat n)) with ((Pos.to_nat n + Pos.to_nat n) + 1)%nat by lia. now rewrite (P _ 1%nat).
  - rewrite !IH, Pos2Nat.inj_xO, <- P. f_equal. lia.
  - reflexivity.
Qed.
Definition exact (m : Z) : shr_record := {| shr_m := m; shr_r := false; shr_s := false |}.
Lemma shr_1_exact p : shr_1 (exact (Zpos p~0)) = exact (Zpos p).
Proof. reflexivity. Qed.
Lemma shr_exact p n : iter_pos shr_1 n (exact (Zpos p * 2 ^ Zpos n)) = exact (Zpos p).
Proof.
  rewrite iter_pos_iter. rewrite <- (positive_nat_Z n). generalize (Pos.to_nat n). clear n. intros n. induction n as [|n IH].
  - cbn [Nat.iter nat_rect]. f_equal. change (Z.of_nat 0) with 0. lia.
  - assert (C : forall k y, Nat.iter (S k) shr_1 y = Nat.iter k shr_1 (shr_1 y)) by (induction k as [|k IHk]; intros y; [reflexivity|]; change (Nat.iter (S (S k)) shr_1 y) with (shr_1 (Nat.iter (S k) shr_1 y)); rewrite IHk; reflexivity).
    rewrite C. replace (Zpos p * 2 ^ Z.of_nat (S n)) with (2 * (Zpos p * 2 ^ Z.of_nat n)) by (rewrite Nat2Z.inj_succ, Z.pow_succ_r by lia; ring).
    assert (0 < Zpos p * 2 ^ Z.of_nat n) by (apply Z.mul_pos_pos; [lia|apply Z.pow_pos_nonneg; lia]). destruct (Zpos p * 2 ^ Z.of_nat n) as [|q|q] eqn:E; try lia. exact IH.
Qed.

Definition fexp' : Z -> Z := fexp prec emax.
Lemma fexp_eq e : fexp' e = Z.max (e - 24) (-149).
Proof. reflexivity. Qed.
(* A finite float in the form it is stored in *)
Definition stored (m : positive) (e : Z) : Prop := fexp' (dig m + e) = e /\ e <= 104.
Lemma pow_split a b : 0 <= a -> 0 <= b -> 2 ^ (a + b) = 2 ^ a * 2 ^ b.
Proof. apply Z.pow_add_r. Qed.

Lemma aux_exact s m e p0 e0 lo : lo <= e -> lo <= e0 -> Zpos m * 2 ^ (e - lo) = Zpos p0 * 2 ^ (e0 - lo) -> Zpos p0 < 2 ^ 24 -> -149 <= e0 <= 104 ->
  e <= fexp' (dig m + e) ->
  exists p1 e1, binary_round_aux prec emax s (Zpos m) e loc_Exact = S754_finite s p1 e1 /\ stored p1 e1 /\ lo <= e1 /\ Zpos p1 * 2 ^ (e1 - lo) = Zpos m * 2 ^ (e - lo).
Proof.
  intros Hlo Hlo0 E P0 E0 Hf. assert (D : dig m + (e - lo) = dig p0 + (e0 - lo)) by (apply digits_same; lia || auto).
  assert (D0 : dig p0 <= 24) by (apply digits_small; [lia|exact P0]).
  set (f := fexp' (dig m + e)) in *. assert (F : f = Z.max (dig m + e - 24) (-149)) by reflexivity. assert (Fe : f <= e0) by lia. assert (F104 : f <= 104) by lia.
  (* the number at exponent f *)
  assert (exists p1, Zpos p1 = Zpos p0 * 2 ^ (e0 - f)) as [p1 P1].
  { assert (0 < Zpos p0 * 2 ^ (e0 - f)) by (apply Z.mul_pos_pos; [lia|apply Z.pow_pos_nonneg; lia]). destruct (Zpos p0 * 2 ^ (e0 - f)) as [|q|q]; try lia. now exists q. }
  assert (Em : Zpos m = Zpos p1 * 2 ^ (f - e)).
  { apply (Z.mul_cancel_r _ _ (2 ^ (e - lo))). { assert (0 < 2 ^ (e - lo)) by (apply Z.pow_pos_nonneg; lia). lia. }
    rewrite E, P1, <- Z.mul_assoc, <- Z.mul_assoc, <- !pow_split by lia. f_equal. f_equal. lia. }
  assert (D1 : dig p1 + f = dig m + e). { assert (dig m + 0 = dig p1 + (f - e)) by (apply digits_same; [lia|lia|]; rewrite Z.pow_0_r; lia). lia. }
  exists p1, f. split; [|split; [|split; [lia|]]].
  - unfold binary_round_aux. unfold shr_fexp. cbn [Zdigits2 shr_record_of_loc]. change (fexp prec emax (dig m + e)) with f.
    assert (S1 : shr {| shr_m := Z.pos m; shr_r := false; shr_s := false |} e (f - e) = (exact (Zpos p1), f)).
    { unfold shr. destruct (f - e) as [|n|n] eqn:Ef; [|f_equal; [|lia]|lia].
      - f_equal; [|lia]. unfold exact. f_equal. rewrite Em. change (2 ^ 0) with 1. lia.
      - rewrite Em. apply shr_exact. }
    rewrite S1. cbn [exact shr_m loc_of_shr_record round_nearest_even]. cbn [Zdigits2 shr_record_of_loc].
    assert (F1 : fexp prec emax (dig p1 + f) - f = 0). { change (fexp' (dig p1 + f) - f = 0). rewrite D1. unfold f. lia. }
    rewrite F1. cbn [shr shr_m]. replace (Zle_bool f (emax - prec)) with true; [reflexivity|]. symmetry. apply Zle_imp_le_bool. change (emax - prec) with 104. lia.
  - split; [|auto]. rewrite D1. reflexivity.
  - rewrite Em, <- Z.mul_assoc, <- pow_split by lia. f_equal. f_equal. lia.
Qed.

Lemma shift_pos_eq d m : Zpos (shift_pos d m) = Zpos m * 2 ^ Zpos d.
Proof. rewrite shift_pos_correct, Zpower_pos_nat, Zpower_nat_Z, positive_nat_Z. ring. Qed.
Lemma shl_align_ok m e e' : let '(mz, ez) := shl_align m e e' in ez = Z.min e e' /\ Zpos mz = Zpos m * 2 ^ (e - ez).
Proof.
  unfold shl_align. destruct (e' - e) as [|d|d] eqn:E.
  - split; [lia|]. rewrite Z.sub_diag. change (2 ^ 0) with 1. lia.
  - split; [lia|]. rewrite Z.sub_diag. change (2 ^ 0) with 1. lia.
  - split; [lia|]. rewrite shift_pos_eq. f_equal. f_equal. lia.
Qed.
Lemma round_exact s m e p0 e0 : -149 <= e -> Zpos m * 2 ^ (e + 149) = Zpos p0 * 2 ^ (e0 + 149) -> Zpos p0 < 2 ^ 24 -> -149 <= e0 <= 104 ->
  exists p1 e1, binary_round prec emax s m e = S754_finite s p1 e1 /\ stored p1 e1 /\ Zpos p1 * 2 ^ (e1 + 149) = Zpos m * 2 ^ (e + 149).
Proof.
  intros He E P0 E0. unfold binary_round. pose proof (shl_align_ok m e (fexp prec emax (dig m + e))) as A. destruct (shl_align m e (fexp prec emax (dig m + e))) as [mz ez].
  destruct A as [Ez Mz]. change (fexp prec emax (dig m + e)) with (fexp' (dig m + e)) in Ez. rewrite fexp_eq in Ez.
  assert (Dz : dig mz + ez = dig m + e). { assert (dig mz + 0 = dig m + (e - ez)) by (apply digits_same; [lia|lia|]; rewrite Z.pow_0_r; lia). lia. }
  assert (V : Zpos mz * 2 ^ (ez + 149) = Zpos m * 2 ^ (e + 149)). { rewrite Mz, <- Z.mul_assoc, <- pow_split by lia. f_equal. f_equal. lia. }
  destruct (aux_exact s mz ez p0 e0 (-149)) as (p1 & e1 & B & St & L & V1); try lia.
  - replace (ez - -149) with (ez + 149) by lia. replace (e0 - -149) with (e0 + 149) by lia. congruence.
  - rewrite fexp_eq. lia.
  - exists p1, e1. split; auto. split; auto. replace (e1 - -149) with (e1 + 149) in V1 by lia. replace (ez - -149) with (ez + 149) in V1 by lia. congruence.
Qed.

(* The value of a float in units of 2^-149 *)
Definition signed (s : bool) (z : Z) : Z := if s then - z else z.
Inductive is_value : float -> Z -> Prop :=
| iv_zero s : is_value (S754_zero s) 0
| iv_finite s m e z : stored m e -> z = signed s (Zpos m * 2 ^ (e + 149)) -> is_value (S754_finite s m e) z.
Lemma stored_low m e : stored m e -> -149 <= e.
Proof. intros [H _]. rewrite fexp_eq in H. lia. Qed.

(* What fits, as a positive mantissa and exponent *)
Lemma fits_pos z s a : fits z -> z = signed s a -> 0 < a -> exists p0 e0, a = Zpos p0 * 2 ^ (e0 + 149) /\ Zpos p0 < 2 ^ 24 /\ -149 <= e0 <= 104.
Proof.
  intros (m & e & E & B & R) Es Ha. assert (P : 0 < 2 ^ e) by (apply Z.pow_pos_nonneg; lia).
  assert (A : a = Z.abs m * 2 ^ e). { rewrite <- (Z.abs_eq (2 ^ e)), <- Z.abs_mul, <- E, Es by lia. unfold signed. destruct s; lia. }
  destruct (Z.abs m) as [|p|p] eqn:M; [lia| |lia]. exists p, (e - 149). replace (e - 149 + 149) with e by lia. repeat split; auto; lia.
Qed.

Lemma normalize_exact z e s x : -149 <= e -> x = z * 2 ^ (e + 149) -> fits x -> is_value (binary_normalize prec emax z e s) x.
Proof.
  intros He -> F. destruct z as [|m|m]; cbn [binary_normalize].
  - replace (0 * 2 ^ (e + 149)) with 0 by lia. constructor.
  - assert (0 < Zpos m * 2 ^ (e + 149)) by (apply Z.mul_pos_pos; [lia|apply Z.pow_pos_nonneg; lia]).
    destruct (fits_pos _ false _ F eq_refl H) as (p0 & e0 & E & P & R). destruct (round_exact false m e p0 e0) as (p1 & e1 & B & St & V); auto. rewrite B. constructor; auto.
  - assert (0 < Zpos m * 2 ^ (e + 149)) by (apply Z.mul_pos_pos; [lia|apply Z.pow_pos_nonneg; lia]). assert (Eq : Zneg m * 2 ^ (e + 149) = signed true (Zpos m * 2 ^ (e + 149))) by (unfold signed; lia).
    destruct (fits_pos _ true _ F Eq H) as (p0 & e0 & E & P & R). destruct (round_exact true m e p0 e0) as (p1 & e1 & B & St & V); auto. rewrite B. constructor; auto. now rewrite V.
Qed.

Lemma aligned s m e ez : ez <= e -> -149 <= ez -> cond_Zopp s (Zpos (fst (shl_align m e ez))) * 2 ^ (ez + 149) = signed s (Zpos m * 2 ^ (e + 149)).
Proof.
  intros H L. pose proof (shl_align_ok m e ez) as A. destruct (shl_align m e ez) as [mz e']. destruct A as [-> Mz]. replace (Z.min e ez) with ez in Mz by lia. cbn [fst].
  assert (V : Zpos mz * 2 ^ (ez + 149) = Zpos m * 2 ^ (e + 149)). { rewrite Mz, <- Z.mul_assoc, <- pow_split by lia. f_equal. f_equal. lia. }
  unfold cond_Zopp, signed. destruct s; lia.
Qed.
Lemma add_exact f g x y : is_value f x -> is_value g y -> fits (x + y) -> is_value (SFadd prec emax f g) (x + y).
Proof.
  intros Hf Hg F. destruct Hf as [s|s m e x St E], Hg as [s'|s' m' e' y St' E']; cbn [SFadd].
  - destruct (Bool.eqb s s'); constructor.
  - constructor; auto.
  - rewrite Z.add_0_r. constructor; auto.
  - pose proof (stored_low _ _ St). pose proof (stored_low _ _ St'). apply normalize_exact; [lia| |exact F].
    rewrite Z.mul_add_distr_r, !aligned by lia. congruence.
Qed.
Lemma sub_exact f g x y : is_value f x -> is_value g y -> fits (x - y) -> is_value (SFsub prec emax f g) (x - y).
Proof.
  intros Hf Hg F. destruct Hf as [s|s m e x St E], Hg as [s'|s' m' e' y St' E']; cbn [SFsub].
  - destruct (Bool.eqb s (negb s')); constructor.
  - constructor; auto. subst y. unfold signed. destruct s'; cbn [negb]; lia.
  - rewrite Z.sub_0_r. constructor; auto.
  - pose proof (stored_low _ _ St). pose proof (stored_low _ _ St'). apply normalize_exact; [lia| |exact F].
    rewrite Z.mul_sub_distr_r, !aligned by lia. congruence.
Qed.

(* Products and quotients: values with the sign taken off *)
Lemma signed_mul s s' a b : signed s a * signed s' b = signed (xorb s s') (a * b).
Proof. unfold signed. destruct s, s'; cbn [xorb]; lia. Qed.
Lemma signed_inj s a z : z = signed s a -> signed s z = a.
Proof. unfold signed. destruct s; lia. Qed.
Lemma mul_exact f g x y z : is_value f x -> is_value g y -> z * unit = x * y -> fits z -> is_value (SFmul prec emax f g) z.
Proof.
  intros Hf Hg Ez F. assert (U : 0 < unit) by (vm_compute; reflexivity).
  assert (Zero : x * y = 0 -> z = 0) by (intros H; rewrite H in Ez; apply Z.eq_mul_0 in Ez as [E|E]; auto; lia).
  destruct Hf as [s|s m e x St E], Hg as [s'|s' m' e' y St' E']; cbn [SFmul]; try (rewrite Zero by lia; constructor).
  pose proof (stored_low _ _ St) as L. pose proof (stored_low _ _ St') as L'. subst x y. rewrite signed_mul in Ez.
  set (s2 := xorb s s') in *. assert (Ea : signed s2 z * unit = Zpos (m * m') * 2 ^ (e + e' + 298)).
  { assert (signed s2 z * unit = signed s2 (z * unit)) by (unfold signed; destruct s2; lia). rewrite H, Ez.
    rewrite Pos2Z.inj_mul. replace (e + e' + 298) with ((e + 149) + (e' + 149)) by lia. rewrite (pow_split (e + 149) (e' + 149)) by lia. unfold signed. destruct s2; ring. }
  assert (Pa : 0 < signed s2 z). { assert (0 < Zpos (m * m') * 2 ^ (e + e' + 298)) by (apply Z.mul_pos_pos; [lia|apply Z.pow_pos_nonneg; lia]). rewrite <- Ea in H. now apply Z.mul_pos_cancel_r in H. }
  destruct (fits_pos z s2 (signed s2 z) F) as (p0 & e0 & E0 & P0 & R0); [unfold signed; destruct s2; lia|auto|].
  destruct (aux_exact s2 (m * m') (e + e') p0 e0 (-298)) as (p1 & e1 & B & Sd & Lo & V); auto; try lia.
  - replace (e + e' - -298) with (e + e' + 298) by lia. rewrite <- Ea, E0. unfold unit. rewrite <- Z.mul_assoc, <- pow_split by lia. f_equal. f_equal. lia.
  - rewrite fexp_eq. destruct St as [St _], St' as [St' _]. rewrite fexp_eq in St, St'.
    assert (dig m <= dig (m * m')). { rewrite !digits_log. assert (Z.log2 (Zpos m) <= Z.log2 (Zpos (m * m'))) by (apply Z.log2_le_mono; nia). lia. }
    assert (dig m' <= dig (m * m')). { rewrite !digits_log. assert (Z.log2 (Zpos m') <= Z.log2 (Zpos (m * m'))) by (apply Z.log2_le_mono; nia). lia. }
    lia.
  - rewrite B. constructor; auto. pose proof (stored_low _ _ Sd) as L1.
    assert (Zpos p1 * 2 ^ (e1 + 149) = signed s2 z).
    { apply (Z.mul_cancel_r _ _ unit); [lia|]. rewrite Ea. replace (e + e' - -298) with (e + e' + 298) in V by lia. rewrite <- V. unfold unit. rewrite <- Z.mul_assoc, <- pow_split by lia. f_equal. f_equal. lia. }
    rewrite H. unfold signed. destruct s2; lia.
Qed.

Lemma digits_mul p q : dig (p * q) <= dig p + dig q.
Proof. apply digits_small; [lia|]. rewrite pow_split, Pos2Z.inj_mul by lia. pose proof (digits_bound p). pose proof (digits_bound q). nia. Qed.
Lemma div_eucl_mult q m : 0 < m -> Z.div_eucl (q * m) m = (q, 0).
Proof.
  intros H. pose proof (Z.div_mul q m ltac:(lia)) as D. pose proof (Z.mod_mul q m ltac:(lia)) as M. unfold Z.div in D. unfold Z.modulo in M. destruct (Z.div_eucl (q * m) m). congruence.
Qed.
Lemma div_exact f g x y z : is_value f x -> is_value g y -> y <> 0 -> z * y = x * unit -> fits z -> is_value (SFdiv prec emax f g) z.
Proof.
  intros Hf Hg Ny Ez F. assert (U : 0 < unit) by (vm_compute; reflexivity).
  destruct Hg as [s'|s' m' e' y St' E']; [congruence|]. destruct Hf as [s|s m e x St E]; cbn [SFdiv].
  { replace z with 0; [constructor|]. rewrite Z.mul_0_l in Ez. apply Z.eq_mul_0 in Ez as [H|H]; congruence. }
  pose proof (stored_low _ _ St) as L. pose proof (stored_low _ _ St') as L'. destruct St as [St H104], St' as [St' H104']. rewrite fexp_eq in St, St'.
  set (s2 := xorb s s'). assert (Ea : signed s2 z * (Zpos m' * 2 ^ (e' + 149)) = Zpos m * 2 ^ (e + 298)).
  { assert (signed s2 z * (Zpos m' * 2 ^ (e' + 149)) = signed s (z * y)) by (subst y s2; unfold signed; destruct s, s'; cbn [xorb]; lia).
    rewrite H, Ez, E. unfold unit. replace (e + 298) with ((e + 149) + 149) by lia. rewrite (pow_split (e + 149) 149) by lia. unfold signed. destruct s; ring. }
  assert (Pa : 0 < signed s2 z).
  { assert (0 < Zpos m * 2 ^ (e + 298)) by (apply Z.mul_pos_pos; [lia|apply Z.pow_pos_nonneg; lia]). rewrite <- Ea in H. apply Z.mul_pos_cancel_r in H; auto. apply Z.mul_pos_pos; [lia|apply Z.pow_pos_nonneg; lia]. }
  destruct (fits_pos z s2 (signed s2 z) F) as (p0 & e0 & E0 & P0 & R0); [unfold signed; destruct s2; lia|auto|].
  assert (Eq : Zpos (p0 * m') * 2 ^ (e0 + e' + 600) = Zpos m * 2 ^ (e + 600)).
  { replace (e + 600) with ((e + 298) + 302) by lia. rewrite (pow_split (e + 298) 302), Z.mul_assoc, <- Ea, E0, Pos2Z.inj_mul by lia.
    replace (e0 + e' + 600) with ((e0 + 149) + (e' + 149) + 302) by lia. rewrite (pow_split (e0 + 149 + (e' + 149)) 302), (pow_split (e0 + 149) (e' + 149)) by lia. ring. }
  assert (Dq : dig (p0 * m') + (e0 + e' + 600) = dig m + (e + 600)) by (apply digits_same; lia || auto).
  pose proof (digits_mul p0 m') as Dm. assert (D0 : dig p0 <= 24) by (apply digits_small; [lia|exact P0]).
  unfold SFdiv_core_binary. cbn [Zdigits2]. set (e2 := Z.min (fexp prec emax (dig m + e - (dig m' + e'))) (e - e')).
  assert (E2 : e2 = Z.min (Z.max (dig m + e - (dig m' + e') - 24) (-149)) (e - e')) by reflexivity. clearbody e2.
  assert (Le : e2 <= e0) by lia.
  assert (exists q, Zpos q = Zpos p0 * 2 ^ (e0 - e2)) as [q Q].
  { assert (0 < Zpos p0 * 2 ^ (e0 - e2)) by (apply Z.mul_pos_pos; [lia|apply Z.pow_pos_nonneg; lia]). destruct (Zpos p0 * 2 ^ (e0 - e2)) as [|q|q]; try lia. now exists q. }
  assert (M : Zpos m * 2 ^ (e - e' - e2) = Zpos q * Zpos m').
  { apply (Z.mul_cancel_r _ _ (2 ^ (e' + e2 + 600))). { assert (0 < 2 ^ (e' + e2 + 600)) by (apply Z.pow_pos_nonneg; lia). lia. }
    rewrite <- Z.mul_assoc, <- pow_split by lia. replace (e - e' - e2 + (e' + e2 + 600)) with (e + 600) by lia. rewrite <- Eq, Q, Pos2Z.inj_mul.
    replace (e0 + e' + 600) with ((e0 - e2) + (e' + e2 + 600)) by lia. rewrite (pow_split (e0 - e2) (e' + e2 + 600)) by lia. ring. }
  replace (match e - e' - e2 with 0 => Z.pos m | Z.pos _ => Z.shiftl (Z.pos m) (e - e' - e2) | Z.neg _ => 0 end) with (Zpos q * Zpos m').
  2: { rewrite <- M. destruct (e - e' - e2) as [|d|d] eqn:Ed; [change (2 ^ 0) with 1; lia|now rewrite Z.shiftl_mul_pow2 by lia|lia]. }
  rewrite div_eucl_mult by lia. replace (new_location (Zpos m') 0) with loc_Exact by (unfold new_location; destruct (Z.even (Zpos m')); reflexivity).
  assert (Dqq : dig q + e2 = dig p0 + e0). { assert (dig q + 0 = dig p0 + (e0 - e2)) by (apply digits_same; [lia|lia|]; rewrite Z.pow_0_r; lia). lia. }
  destruct (aux_exact s2 q e2 p0 e0 (-300)) as (p1 & e1 & B & Sd & Lo & V); auto; try lia.
  - rewrite Q, <- Z.mul_assoc, <- pow_split by lia. f_equal. f_equal. lia.
  - rewrite fexp_eq. lia.
  - rewrite B. constructor; auto. pose proof (stored_low _ _ Sd) as L1.
    assert (Zpos p1 * 2 ^ (e1 + 149) = signed s2 z).
    { apply (Z.mul_cancel_r _ _ (2 ^ 151)); [lia|]. rewrite E0, <- !Z.mul_assoc, <- !pow_split by lia. replace (e1 + 149 + 151) with (e1 - -300) by lia. rewrite V, Q, <- Z.mul_assoc, <- pow_split by lia. f_equal. f_equal. lia. }
    rewrite H. unfold signed. destruct s2; lia.
Qed.

(* Bits *)
Lemma testbit_31 b : N.testbit b 31 = ((Z.of_N b / 2 ^ 31) mod 2 =? 1).
Proof. rewrite <- Z.testbit_of_N. rewrite Z.testbit_eqb by lia. reflexivity. Qed.
Lemma some_inj {A} (a b : A) : Some a = Some b -> a = b.
Proof. congruence. Qed.
Lemma of_bits_ok b x : float_value b = Some x -> is_value (of_bits b) x.
Proof.
  unfold float_value, of_bits. rewrite testbit_31. set (sg := (Z.of_N b / 2 ^ 31) mod 2 =? 1).
  assert (Ee : Z.of_N ((b / 2 ^ 23) mod 2 ^ 8) = (Z.of_N b / 2 ^ 23) mod 256) by (rewrite N2Z.inj_mod, N2Z.inj_div; reflexivity).
  assert (Em : Z.of_N (b mod 2 ^ 23) = Z.of_N b mod 2 ^ 23) by (rewrite N2Z.inj_mod; reflexivity).
  rewrite <- Ee, <- Em. assert (He : ((b / 2 ^ 23) mod 2 ^ 8 < 2 ^ 8)%N) by (apply N.mod_lt; discriminate). assert (Hm : (b mod 2 ^ 23 < 2 ^ 23)%N) by (apply N.mod_lt; discriminate).
  change (2 ^ 8)%N with 256%N in *. change (2 ^ 23)%N with 8388608%N in *. change (2 ^ 23) with 8388608 in *. set (e := ((b / 8388608) mod 256)%N) in *. set (m := (b mod 8388608)%N) in *. clearbody e m sg. clear Ee Em b.
  destruct (N.eqb_spec e 255) as [->|N1]; [discriminate|]. destruct (Z.eqb_spec (Z.of_N e) 255); [lia|].
  destruct (N.eqb_spec e 0) as [->|N0].
  - cbn [Z.of_N Z.eqb]. intros E. apply some_inj in E. subst x. destruct m as [|p].
    + replace ((if sg then -1 else 1) * Z.of_N 0) with 0 by (destruct sg; reflexivity). constructor.
    + constructor; [|unfold signed; destruct sg; cbn [Z.of_N]; change (2 ^ (-149 + 149)) with 1; lia]. split; [|lia]. rewrite fexp_eq.
      assert (dig p <= 23) by (apply digits_small; [lia|]; change (2 ^ 23) with 8388608; lia). lia.
  - destruct (Z.eqb_spec (Z.of_N e) 0); [lia|]. intros E. apply some_inj in E. subst x. destruct (8388608 + m)%N as [|p] eqn:P; [lia|].
    constructor.
    + assert (D : dig p = 24).
      { assert (dig p <= 24) by (apply digits_small; [lia|]; change (2 ^ 24) with 16777216; lia). pose proof (digits_bound p) as B. destruct (Z.eq_dec (dig p) 24); auto.
        assert (2 ^ dig p <= 2 ^ 23) by (apply Z.pow_le_mono_r; lia). change (2 ^ 23) with 8388608 in *. lia. }
      split; [|lia]. rewrite fexp_eq, D. lia.
    + replace (8388608 + Z.of_N m) with (Zpos p) by lia. replace (Z.of_N e - 150 + 149) with (Z.of_N e - 1) by lia. unfold signed. destruct sg; ring.
Qed.

Lemma fields s e m : (e < 256)%N -> (m < 2 ^ 23)%N -> let b := Z.of_N (sign_bit s + (e * 2 ^ 23 + m)) in
  (b / 2 ^ 23) mod 256 = Z.of_N e /\ b mod 2 ^ 23 = Z.of_N m /\ ((b / 2 ^ 31) mod 2 =? 1) = s.
Proof.
  intros He Hm b. change (2 ^ 23)%N with 8388608%N in *. change (2 ^ 23) with 8388608. change (2 ^ 31) with 2147483648.
  assert (B : b = (if s then 2147483648 else 0) + (Z.of_N e * 8388608 + Z.of_N m)) by (subst b; unfold sign_bit; destruct s; change (2 ^ 31)%N with 2147483648%N; lia). clearbody b. subst b.
  split; [|split].
  - destruct s; Z.div_mod_to_equations; lia.
  - destruct s; Z.div_mod_to_equations; lia.
  - destruct s; [apply Z.eqb_eq|apply Z.eqb_neq]; Z.div_mod_to_equations; lia.
Qed.
Lemma to_bits_ok f x : is_value f x -> float_value (to_bits f) = Some x.
Proof.
  intros [s|s m e x' St Ex].
  - cbn [to_bits]. replace (sign_bit s) with (sign_bit s + (0 * 2 ^ 23 + 0))%N by (destruct s; reflexivity). unfold float_value. destruct (fields s 0 0 ltac:(lia) ltac:(lia)) as (-> & -> & ->). destruct s; reflexivity.
  - cbn [to_bits]. pose proof (stored_low _ _ St) as L. destruct St as [St H104]. rewrite fexp_eq in St. assert (D : dig m <= 24) by lia. pose proof (digits_bound m) as B.
    assert (B24 : Zpos m < 2 ^ 24). { assert (2 ^ dig m <= 2 ^ 24) by (apply Z.pow_le_mono_r; lia). lia. }
    change (2 ^ 24) with 16777216 in B24. change (2 ^ 23)%N with 8388608%N. destruct (N.ltb_spec (Npos m) 8388608) as [Sm|Lm].
    + assert (e = -149).
      { destruct (Z.eq_dec e (-149)); auto. assert (dig m = 24) by lia. exfalso. rewrite H in B. change (2 ^ (24 - 1)) with 8388608 in B. lia. }
      subst e. replace (sign_bit s + N.pos m)%N with (sign_bit s + (0 * 2 ^ 23 + N.pos m))%N by lia. unfold float_value.
      destruct (fields s 0 (Npos m) ltac:(lia) Sm) as (-> & -> & ->). cbn [Z.of_N Z.eqb]. rewrite Ex. change (2 ^ (-149 + 149)) with 1. unfold signed. f_equal. destruct s; lia.
    + assert (D24 : dig m = 24).
      { destruct (Z.eq_dec (dig m) 24); auto. assert (2 ^ dig m <= 2 ^ 23) by (apply Z.pow_le_mono_r; lia). change (2 ^ 23) with 8388608 in *. lia. }
      unfold float_value. change 8388608%N with (2 ^ 23)%N. destruct (fields s (Z.to_N (e + 150)) (Npos m - 2 ^ 23)) as (-> & -> & ->); [lia|change (2 ^ 23)%N with 8388608%N; lia|].
      rewrite Z2N.id by lia. destruct (Z.eqb_spec (e + 150) 255); [lia|]. destruct (Z.eqb_spec (e + 150) 0); [lia|]. rewrite Ex.
      change (2 ^ 23)%N with 8388608%N. change (2 ^ 23) with 8388608. replace (8388608 + Z.of_N (Npos m - 8388608)) with (Zpos m) by lia. replace (e + 150 - 1) with (e + 149) by lia. unfold signed. f_equal. destruct s; ring.
Qed.
Lemma nan_bits : float_nan (to_bits S754_nan).
Proof. split; vm_compute; congruence. Qed.
Lemma not_nan f x : is_value f x -> f <> S754_nan.
Proof. intros [|]; discriminate. Qed.
