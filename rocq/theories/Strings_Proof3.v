(* Brackets, ends of literals, escaping. *)
From Coq Require Import List NArith ZArith Arith Bool Lia ZifyBool ZifyN ZifyNat.
From Verif Require Import ListAux Strings_Model Strings_Spec Strings_Proof Strings_Proof2.
Import ListNotations.
Open Scope N_scope.

(* ---- findClosingBracket ---- *)
Section Brackets.
  Variables open close : N.
  Hypothesis Hne : open <> close.
  (* balanced texts with n closing brackets between them *)
  Inductive nested : nat -> list N -> Prop :=
  | nest_0 s : balanced open close s -> nested 0 s
  | nest_S n s t : balanced open close s -> nested n t -> nested (S n) (s ++ close :: t).
  Lemma nested_char n c s : c <> open -> c <> close -> nested n s -> nested n (c :: s).
  Proof.
    intros A B H. inversion H; subst.
    - constructor. now constructor.
    - rewrite app_comm_cons. constructor; auto. now constructor.
  Qed.
  Lemma nested_group n s t : balanced open close s -> nested n t -> nested n (open :: s ++ close :: t).
  Proof.
    intros B H. inversion H; subst.
    - constructor. now constructor.
    - replace (open :: s ++ close :: s0 ++ close :: t0) with ((open :: s ++ close :: s0) ++ close :: t0)
        by (cbn; rewrite <- app_assoc; reflexivity).
      constructor; auto. now constructor.
  Qed.
  Lemma closing_sound rest : forall i d j, closing_loop rest i open close d = Some j ->
    exists inner post, rest = inner ++ close :: post /\ nested d inner /\ j = (i + length inner)%nat.
  Proof.
    induction rest as [|c rest IH]; intros i d j H; cbn [closing_loop] in H; [discriminate|].
    destruct (N.eqb_spec c open) as [->|O].
    - rewrite (proj2 (N.eqb_neq _ _) Hne) in H. apply IH in H as (inner & post & -> & Q & ->).
      inversion Q as [|n s t B T E1 E2]; subst. exists (open :: s ++ close :: t), post.
      split; [cbn; now rewrite <- app_assoc|]. split; [now apply nested_group|]. cbn [length]. lia.
    - destruct (N.eqb_spec c close) as [->|C].
      + destruct d as [|d].
        * injection H as <-. exists [], rest. split; [reflexivity|]. split; [repeat constructor | cbn; lia].
        * apply IH in H as (inner & post & -> & Q & ->). exists (close :: inner), post.
          split; [reflexivity|]. split; [|cbn [length]; lia]. apply (nest_S d []); auto. constructor.
      + apply IH in H as (inner & post & -> & Q & ->). exists (c :: inner), post.
        split; [reflexivity|]. split; [now apply nested_char | cbn [length]; lia].
  Qed.
  Lemma closing_balanced s : balanced open close s -> forall rest i d,
    closing_loop (s ++ rest) i open close d = closing_loop rest (i + length s) open close d.
  Proof.
    induction 1 as [|c s A B H IH|s t B1 IH1 B2 IH2]; intros rest i d.
    - cbn. now rewrite Nat.add_0_r.
    - cbn [app closing_loop]. rewrite (proj2 (N.eqb_neq _ _) A), (proj2 (N.eqb_neq _ _) B), IH. cbn [length].
      f_equal; lia.
    - cbn [app closing_loop]. rewrite N.eqb_refl, (proj2 (N.eqb_neq _ _) Hne).
      rewrite <- app_assoc, IH1. cbn [app closing_loop]. rewrite N.eqb_refl.
      rewrite (proj2 (N.eqb_neq _ _)) by auto. rewrite IH2. cbn [length]. rewrite app_length. cbn [length].
      f_equal; lia.
  Qed.
  Lemma closing_complete d inner : nested d inner -> forall post i,
    closing_loop (inner ++ close :: post) i open close d = Some (i + length inner)%nat.
  Proof.
    induction 1 as [s B|n s t B T IH]; intros post i.
    - rewrite closing_balanced by auto. cbn [closing_loop].
      rewrite (proj2 (N.eqb_neq close open)) by auto. now rewrite N.eqb_refl.
    - rewrite <- app_assoc, closing_balanced by auto. cbn [app closing_loop].
      rewrite (proj2 (N.eqb_neq close open)) by auto. rewrite N.eqb_refl, IH, app_length. cbn [length].
      f_equal; lia.
  Qed.
  Lemma closing_ok s start i : findClosingBracket s start open close = Some i <->
    exists pre inner post, s = pre ++ open :: inner ++ close :: post /\ length pre = start /\
      balanced open close inner /\ i = (start + 1 + length inner)%nat.
  Proof.
    unfold findClosingBracket. split.
    - destruct (N.eqb_spec (at_ s start) open) as [E|]; [|discriminate]. intros H.
      apply closing_sound in H as (inner & post & R & Q & ->). inversion Q as [t B|]; subst.
      assert (L : (start < length s)%nat).
      { destruct (le_lt_dec (length s) start); auto. rewrite skipn_all2 in R by lia. destruct inner; discriminate. }
      exists (firstn start s), inner, post. split; [|split; [apply firstn_length_le; lia | auto]].
      rewrite <- R. rewrite Nat.add_1_r. rewrite <- E at 1. unfold at_. rewrite <- (skipn_nth_cons start s 0) by auto.
      symmetry. apply firstn_skipn.
    - intros (pre & inner & post & -> & <- & B & ->). rewrite at_app, N.eqb_refl.
      replace (skipn _ _) with (inner ++ close :: post).
      + apply closing_complete. now constructor.
      + rewrite Nat.add_1_r. change (S (length pre)) with (1 + length pre)%nat.
        rewrite Nat.add_comm, skipn_add, skipn_len. reflexivity.
  Qed.
End Brackets.

(* ---- findLiteralEnd ---- *)
Lemma startsWith_iff s p : startsWith s p = true <-> exists b, s = p ++ b.
Proof.
  revert s; induction p as [|c p IH]; intros s.
  - split; [intros _; now exists s | intros _; now destruct s].
  - destruct s as [|x s]; cbn [startsWith].
    + split; [discriminate | intros [b B]; discriminate].
    + rewrite andb_true_iff, IH, N.eqb_eq. split.
      * intros [-> [b ->]]. now exists b.
      * intros [b B]. injection B as -> ->. eauto.
Qed.
Definition occurs (pat s : list N) (p : nat) : Prop := exists a b, s = a ++ pat ++ b /\ length a = p.
Lemma find_str_some pat s p : find_str pat s = Some p ->
  occurs pat s p /\ forall q, (q < p)%nat -> ~ occurs pat s q.
Proof.
  revert p; induction s as [|c s IH]; intros p; cbn [find_str].
  - destruct (startsWith [] pat) eqn:E; [|discriminate]. intros H; injection H as <-.
    apply startsWith_iff in E as [b B]. split; [exists [], b; auto | lia].
  - destruct (startsWith (c :: s) pat) eqn:E.
    + intros H; injection H as <-. apply startsWith_iff in E as [b B]. split; [exists [], b; auto | lia].
    + destruct (find_str pat s) as [q|]; [|discriminate]. intros H; injection H as <-.
      destruct (IH q eq_refl) as [(a & b & -> & <-) F]. split; [exists (c :: a), b; auto|].
      intros r R (a' & b' & Q & <-). destruct a' as [|x a'].
      * assert (startsWith (c :: a ++ pat ++ b) pat = true) by (apply startsWith_iff; eauto). congruence.
      * injection Q as -> Q. apply (F (length a')); [cbn [length] in R; lia|]. exists a', b'. auto.
Qed.
Lemma find_str_none pat s : find_str pat s = None -> forall q, ~ occurs pat s q.
Proof.
  induction s as [|c s IH]; cbn [find_str].
  - destruct (startsWith [] pat) eqn:E; [discriminate|]. intros _ q (a & b & Q & L).
    destruct a; [|discriminate]. assert (startsWith [] pat = true) by (apply startsWith_iff; eauto). congruence.
  - destruct (startsWith (c :: s) pat) eqn:E; [discriminate|]. destruct (find_str pat s); [discriminate|].
    intros _ q (a & b & Q & L). destruct a as [|x a].
    + assert (startsWith (c :: s) pat = true) by (apply startsWith_iff; eauto). congruence.
    + injection Q as -> Q. apply (IH eq_refl (length a)). exists a, b. auto.
Qed.
Lemma occurs_skip pat s n q : (n <= length s)%nat ->
  occurs pat (skipn n s) q <-> occurs pat s (n + q).
Proof.
  intros L. split.
  - intros (a & b & E & <-). exists (firstn n s ++ a), b. rewrite <- app_assoc, <- E, firstn_skipn.
    split; auto. rewrite app_length, firstn_length_le; lia.
  - intros (a & b & -> & E). exists (skipn n a), b. rewrite skipn_app. rewrite skipn_length.
    replace (n - length a)%nat with 0%nat by lia. split; [reflexivity | lia].
Qed.
Lemma occurs_le pat s p : occurs pat s p -> (p <= length s)%nat.
Proof. intros (a & b & -> & <-). rewrite app_length. lia. Qed.
Lemma find_from_some pat s from p : find_str_from pat s from = Some p ->
  (from <= p)%nat /\ occurs pat s p /\ forall q, (from <= q < p)%nat -> ~ occurs pat s q.
Proof.
  unfold find_str_from. destruct (Nat.ltb_spec (length s) from) as [|L]; [discriminate|].
  destruct (find_str pat (skipn from s)) as [q|] eqn:E; [|discriminate]. intros H; injection H as <-.
  apply find_str_some in E as [O F]. apply occurs_skip in O; auto. split; [lia|]. split; auto.
  intros r R Q. apply (F (r - from)%nat); [lia|]. apply occurs_skip; auto.
  replace (from + (r - from))%nat with r by lia. auto.
Qed.
Lemma find_from_none pat s from : find_str_from pat s from = None ->
  forall q, (from <= q)%nat -> ~ occurs pat s q.
Proof.
  unfold find_str_from. destruct (Nat.ltb_spec (length s) from) as [G|L]; intros H q Q O.
  - apply occurs_le in O. lia.
  - destruct (find_str pat (skipn from s)) as [r|] eqn:E; [discriminate|].
    apply (find_str_none _ _ E (q - from)%nat). apply occurs_skip; auto.
    replace (from + (q - from))%nat with q by lia. auto.
Qed.
Lemma count_backslashes_ok s p : (p <= length s)%nat ->
  exists a, firstn p s = a ++ repeat 92 (count_backslashes s p) /\ ends_outside (eq 92) a.
Proof.
  induction p as [|p IH]; intros L; cbn [count_backslashes].
  - exists []. split; auto. now left.
  - assert (E : firstn (S p) s = firstn p s ++ [at_ s p]).
    { replace (S p) with (p + 1)%nat by lia. rewrite firstn_add. f_equal.
      rewrite (skipn_nth_cons p s 0) by lia. reflexivity. }
    rewrite E. destruct (N.eqb_spec (at_ s p) 92) as [Q|Q].
    + destruct IH as (a & IH & O); [lia|]. exists a. split; auto. rewrite IH, Q, <- app_assoc. f_equal.
      cbn [repeat]. now rewrite (repeat_cons _ 92).
    + exists (firstn p s ++ [at_ s p]). rewrite app_nil_r. split; auto. right. exists (at_ s p).
      split; [congruence | eauto].
Qed.
Lemma repeat_unique a k a' k' : ends_outside (eq 92) a -> ends_outside (eq 92) a' ->
  a ++ repeat 92 k = a' ++ repeat 92 k' -> k = k'.
Proof.
  revert k'; induction k as [|k IH]; intros [|k'] O O' E; auto.
  - cbn [repeat] in E. rewrite (repeat_cons _ 92), app_nil_r, app_assoc in E. subst a.
    destruct O as [O|(c & C & t & O)]; [destruct (a' ++ repeat 92 k'); discriminate|].
    apply app_inj_tail in O as [_ O]. congruence.
  - cbn [repeat] in E. rewrite (repeat_cons _ 92), app_nil_r, app_assoc in E. subst a'.
    destruct O' as [O'|(c & C & t & O')]; [destruct (a ++ repeat 92 k); discriminate|].
    apply app_inj_tail in O' as [_ O']. congruence.
  - cbn [repeat] in E. rewrite !(repeat_cons _ 92), !app_assoc in E. apply app_inj_tail in E as [E _].
    f_equal. now apply IH.
Qed.
Lemma unescaped_iff pat s p : unescaped_at pat s p <->
  occurs pat s p /\ Nat.even (count_backslashes s p) = true.
Proof.
  split.
  - intros (a & k & b & -> & O & K & ->). split.
    + exists (a ++ repeat 92 k), b. rewrite <- app_assoc. split; auto. now rewrite app_length, repeat_length.
    + assert (E : firstn (length a + k) (a ++ repeat 92 k ++ pat ++ b) = a ++ repeat 92 k).
      { rewrite app_assoc. replace (length a + k)%nat with (length (a ++ repeat 92 k))
          by now rewrite app_length, repeat_length. apply firstn_len. }
      destruct (count_backslashes_ok (a ++ repeat 92 k ++ pat ++ b) (length a + k)) as (a' & Q & O').
      { rewrite !app_length, repeat_length. lia. }
      rewrite E in Q. apply repeat_unique in Q; auto. rewrite <- Q. now apply Nat.even_spec.
  - intros [(a & b & -> & <-) E].
    destruct (count_backslashes_ok (a ++ pat ++ b) (length a)) as (a' & Q & O); [rewrite app_length; lia|].
    rewrite firstn_len in Q. set (k := count_backslashes _ _) in *. exists a', k, b.
    split; [rewrite Q at 1; now rewrite <- app_assoc|]. split; auto. split; [now apply Nat.even_spec|].
    rewrite Q at 1. now rewrite app_length, repeat_length.
Qed.
Lemma literal_loop_ok pat s fuel : forall from,
  (forall q, (q < from)%nat -> ~ unescaped_at pat s q) -> (length s + 1 < fuel + from)%nat -> (0 < fuel)%nat ->
  exists r, literal_loop fuel s pat (find_str_from pat s from) = Some r /\
  match r with
  | Some p => unescaped_at pat s p /\ forall q, (q < p)%nat -> ~ unescaped_at pat s q
  | None => forall q, ~ unescaped_at pat s q
  end.
Proof.
  induction fuel as [|fuel IH]; intros from F L P; [lia|]. cbn [literal_loop].
  destruct (find_str_from pat s from) as [p|] eqn:E.
  - apply find_from_some in E as (G & O & Q).
    assert (B : forall q, (q < p)%nat -> ~ unescaped_at pat s q).
    { intros q H U. destruct (le_lt_dec from q); [|exact (F q l U)]. apply (Q q); [lia|].
      now apply unescaped_iff in U. }
    assert (PL := occurs_le _ _ _ O).
    destruct (Nat.ltb 0 p && (at_ s (p - 1) =? 92)) eqn:C.
    + destruct (Nat.even (count_backslashes s p)) eqn:V.
      * exists (Some p). split; auto. split; auto. now apply unescaped_iff.
      * apply IH; [|lia|lia]. intros q H U. destruct (Nat.eq_dec q p) as [->|]; [|apply (B q); [lia | exact U]].
        apply unescaped_iff in U as [_ U]. congruence.
    + exists (Some p). split; auto. split; auto. apply unescaped_iff. split; auto.
      destruct p as [|p]; [reflexivity|]. cbn [count_backslashes].
      replace (S p - 1)%nat with p in C by lia. cbn [Nat.ltb Nat.leb andb] in C. now rewrite C.
  - exists None. split; auto. intros q U. destruct (le_lt_dec from q).
    + apply (find_from_none _ _ _ E q); auto. now apply unescaped_iff in U.
    + exact (F q l U).
Qed.

(* ---- UTF-8 and hexadecimal numbers ---- *)
Lemma hex_value_snoc acc h c : hex_value acc (h ++ [c]) =
  match hex_value acc h with
  | Some x => match hex_digit c with Some d => Some (x * 16 + d) | None => None end
  | None => None
  end.
Proof.
  revert acc; induction h as [|a h IH]; intros acc; cbn [app hex_value].
  - reflexivity.
  - destruct (hex_digit a); auto.
Qed.
Lemma hex_value_iff h x : hex_value 0 h = Some x <-> hex_number h x.
Proof.
  split.
  - revert x; induction h as [|c h IH] using rev_ind; intros x.
    + cbn. intros H; injection H as <-. constructor.
    + rewrite hex_value_snoc. destruct (hex_value 0 h) as [y|]; [|discriminate].
      destruct (hex_digit c) as [d|] eqn:D; [|discriminate]. intros H; injection H as <-.
      replace (y * 16 + d) with (16 * y + d) by lia. constructor; auto. now apply hex_digit_iff.
  - induction 1 as [|h x c d H IH D]; [reflexivity|].
    rewrite hex_value_snoc, IH. apply hex_digit_iff in D. rewrite D. f_equal; lia.
Qed.
Lemma divmod64 a b : b < 64 -> (a * 64 + b) / 64 = a /\ (a * 64 + b) mod 64 = b.
Proof.
  intros H. rewrite (N.add_comm _ b), N.div_add, N.mod_add, N.div_small, N.mod_small by lia. split; lia.
Qed.
Lemma utf8_of_eq x bs : utf8_of x bs -> bs = utf8 x.
Proof.
  assert (P7 : 2 ^ 7 = 128) by reflexivity. assert (P11 : 2 ^ 11 = 2048) by reflexivity.
  assert (P16 : 2 ^ 16 = 65536) by reflexivity.
  intros [y H|a b A B|a b c A B C M Q|a b c d A B C D M Q]; unfold utf8; rewrite P7, P11, P16.
  - now replace (y <? 128) with true by lia.
  - replace (_ <? 128) with false by lia. replace (_ <? 2048) with true by lia.
    destruct (divmod64 a b B) as [-> ->]. reflexivity.
  - replace (_ <? 128) with false by nia. replace (_ <? 2048) with false by nia.
    replace ((55296 <=? _) && _) with false by nia. replace (_ <? 65536) with true by nia.
    replace 4096 with (64 * 64) by reflexivity. rewrite <- N.div_div by lia.
    destruct (divmod64 (a * 64 + b) c C) as [-> ->]. destruct (divmod64 a b B) as [-> ->]. reflexivity.
  - replace (_ <? 128) with false by nia. replace (_ <? 2048) with false by nia.
    replace ((55296 <=? _) && _) with false by nia. replace (_ <? 65536) with false by nia.
    replace (_ <? 1114112) with true by nia.
    replace 262144 with (64 * (64 * 64)) by reflexivity. replace 4096 with (64 * 64) by reflexivity.
    rewrite <- !N.div_div by lia.
    destruct (divmod64 ((a * 64 + b) * 64 + c) d D) as [-> ->].
    destruct (divmod64 (a * 64 + b) c C) as [-> ->]. destruct (divmod64 a b B) as [-> ->]. reflexivity.
Qed.
Lemma utf8_bytes x : bytes_of x (utf8 x).
Proof.
  assert (P7 : 2 ^ 7 = 128) by reflexivity. assert (P11 : 2 ^ 11 = 2048) by reflexivity.
  assert (P16 : 2 ^ 16 = 65536) by reflexivity.
  unfold utf8, bytes_of, surrogate. rewrite P7, P11, P16.
  destruct (N.ltb_spec x 128); [left; now constructor|].
  assert (M0 := N.mod_lt x 64). assert (D0 := N.div_mod x 64).
  destruct (N.ltb_spec x 2048).
  { left. replace x with (x / 64 * 64 + x mod 64) at 1 by lia. constructor; lia. }
  destruct ((55296 <=? x) && (x <=? 57343)) eqn:S; [right; left; split; [lia | auto]|].
  replace 4096 with (64 * 64) by reflexivity. rewrite <- N.div_div by lia.
  assert (M1 := N.mod_lt (x / 64) 64). assert (D1 := N.div_mod (x / 64) 64).
  destruct (N.ltb_spec x 65536).
  { left. replace x with ((x / 64 / 64 * 64 + x / 64 mod 64) * 64 + x mod 64) at 1 by lia. constructor; lia. }
  destruct (N.ltb_spec x 1114112); [|right; right; split; auto].
  replace 262144 with (64 * 64 * 64) by reflexivity. rewrite <- !N.div_div by lia.
  assert (M2 := N.mod_lt (x / 64 / 64) 64). assert (D2 := N.div_mod (x / 64 / 64) 64).
  left. replace x with (((x / 64 / 64 / 64 * 64 + x / 64 / 64 mod 64) * 64 + x / 64 mod 64) * 64 + x mod 64)
    at 1 by lia. constructor; lia.
Qed.
Lemma bytes_of_iff x bs : bytes_of x bs <-> bs = utf8 x.
Proof.
  assert (P7 : 2 ^ 7 = 128) by reflexivity. assert (P11 : 2 ^ 11 = 2048) by reflexivity.
  assert (P16 : 2 ^ 16 = 65536) by reflexivity.
  split; [|intros ->; apply utf8_bytes].
  intros [H|[[S ->]|[S ->]]].
  - now apply utf8_of_eq.
  - unfold utf8, surrogate in *. rewrite P7, P11. replace (x <? 128) with false by lia.
    replace (x <? 2048) with false by lia. now replace ((55296 <=? x) && _) with true by lia.
  - unfold utf8. rewrite P7, P11, P16. replace (x <? 128) with false by lia. replace (x <? 2048) with false by lia.
    replace ((55296 <=? x) && _) with false by lia. replace (x <? 65536) with false by lia.
    now replace (x <? 1114112) with false by lia.
Qed.
