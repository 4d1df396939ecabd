(* Unescaping. *)
From Coq Require Import List NArith ZArith Arith Bool Lia ZifyBool ZifyN ZifyNat.
From Verif Require Import ListAux Strings_Model Strings_Spec Strings_Proof Strings_Proof2 Strings_Proof3.
Import ListNotations.
Open Scope N_scope.

Lemma prepend_val o r s : prepend o r = Val s <-> exists t, r = Val t /\ s = o ++ t.
Proof.
  destruct r; cbn; split; try discriminate; try (intros (t & E & _); discriminate).
  - intros H; injection H as <-. eauto.
  - intros (t & E & ->). injection E as <-. reflexivity.
Qed.
Lemma prepend_nil r : prepend [] r = r.
Proof. now destruct r. Qed.
Lemma prepend_app a b r : prepend (a ++ b) r = prepend a (prepend b r).
Proof. destruct r; cbn; auto. now rewrite app_assoc. Qed.

Ltac esc := unfold string_escape, line_escape; cbn [In]; repeat (first [left; reflexivity | right]).

Section Unescape.
  Variables nu nl : bool.
  Hypothesis Hflags : nu && nl = false.
  Definition esc_ok (c d : N) : Prop :=
    if nu then False else if nl then line_escape c d else string_escape c d.
  Notation loop := (unescape_loop nu nl).

  (* what happens at a backslash *)
  Definition at_escape (fuel : nat) (u : list N) : result (list N) :=
    match u with
    | [] => Check
    | c :: rest =>
        let continue (out : result (list N)) (n : nat) :=
          match out with Val o => prepend o (loop fuel (skipn n rest)) | r => r end in
        if c =? 116 then continue (pushOtherStringEscape nu nl 9) 0%nat
        else if c =? 110 then continue (pushNewlineOrBackslash nu nl 10) 0%nat
        else if c =? 114 then continue (pushOtherStringEscape nu nl 13) 0%nat
        else if c =? 98 then continue (pushOtherStringEscape nu nl 8) 0%nat
        else if c =? 102 then continue (pushOtherStringEscape nu nl 12) 0%nat
        else if c =? 34 then continue (pushOtherStringEscape nu nl 34) 0%nat
        else if c =? 39 then continue (pushOtherStringEscape nu nl 39) 0%nat
        else if c =? 92 then continue (pushNewlineOrBackslash nu nl 92) 0%nat
        else if c =? 117 then continue (pushNumericEscape nl rest 4) 4%nat
        else if c =? 85 then continue (pushNumericEscape nl rest 8) 8%nat
        else Check
    end.
  Lemma loop_nil fuel : loop (S fuel) [] = Val [].
  Proof. reflexivity. Qed.
  Lemma loop_escape fuel u : loop (S fuel) (92 :: u) = at_escape fuel u.
  Proof.
    cbn [unescape_loop find_char N.eqb Pos.eqb firstn skipn Nat.add].
    rewrite prepend_nil. destruct u; reflexivity.
  Qed.
  Lemma loop_char fuel c u : c <> 92 -> loop (S fuel) (c :: u) = prepend [c] (loop (S fuel) u).
  Proof.
    intros H. cbn [unescape_loop find_char]. rewrite (proj2 (N.eqb_neq 92 c)) by auto.
    destruct (find_char (N.eqb 92) u) as [i|]; cbn [option_map].
    - cbn [firstn skipn Nat.add]. rewrite <- prepend_app. reflexivity.
    - reflexivity.
  Qed.

  Lemma hex_utf8 h bs : hexadecimalCharactersToUtf8 h = Val bs <-> exists x, hex_number h x /\ bytes_of x bs.
  Proof.
    unfold hexadecimalCharactersToUtf8. split.
    - destruct (hex_value 0 h) as [x|] eqn:E; [|discriminate]. intros H; injection H as <-.
      exists x. split; [now apply hex_value_iff | apply utf8_bytes].
    - intros (x & H & B). apply hex_value_iff in H. rewrite H. apply bytes_of_iff in B. now subst.
  Qed.
  Lemma numeric_val rest n bs : (0 < n)%nat -> pushNumericEscape nl rest n = Val bs <->
    nl = false /\ exists h u x, rest = h ++ u /\ length h = n /\ u <> [] /\ hex_number h x /\ bytes_of x bs.
  Proof.
    intros Hn. unfold pushNumericEscape. destruct nl; [split; [discriminate | intros [? _]; discriminate]|].
    destruct (Nat.ltb_spec n (length rest)) as [L|L].
    - rewrite hex_utf8. split.
      + intros (x & X & B). split; auto. exists (firstn n rest), (skipn n rest), x.
        rewrite firstn_skipn. split; auto. split; [apply firstn_length_le; lia|]. split; auto.
        intros E. apply (f_equal (@length N)) in E. rewrite skipn_length in E. cbn in E. lia.
      + intros (_ & h & u & x & -> & <- & _ & X & B). rewrite firstn_len. eauto.
    - split; [discriminate|]. intros (_ & h & u & x & -> & <- & N & _). exfalso.
      rewrite app_length in L. destruct u; [congruence | cbn in L; lia].
  Qed.

  Lemma other_val c d : pushOtherStringEscape nu nl c = Val d <-> nu = false /\ nl = false /\ d = [c].
  Proof.
    unfold pushOtherStringEscape. destruct nu, nl; cbn; split; try discriminate; try (intros (?&?&?); discriminate).
    - intros H; injection H as <-. auto.
    - intros (_ & _ & ->). auto.
  Qed.
  Lemma newline_val c d : pushNewlineOrBackslash nu nl c = Val d <-> nu = false /\ d = [c].
  Proof.
    unfold pushNewlineOrBackslash. destruct nu, nl; cbn in *; split; try discriminate;
      try (intros (?&?); discriminate); try (intros H; injection H as <-; auto); intros (_ & ->); auto.
  Qed.

  Lemma loop_sound fuel : forall u s, (length u < fuel)%nat -> loop fuel u = Val s ->
    escaped esc_ok (nl = false) False u s.
  Proof.
    induction fuel as [|fuel IH]; intros u s L H; [lia|].
    revert s H; induction u as [|c u IHu]; intros s H.
    - cbn in H. injection H as <-. constructor.
    - cbn [length] in L. destruct (N.eq_dec c 92) as [->|C].
      2:{ rewrite loop_char in H by auto. apply prepend_val in H as (t & T & ->). cbn [app].
          constructor; auto. apply IHu; auto; lia. }
      rewrite loop_escape in H. destruct u as [|c u]; [discriminate|]. cbn [length] in L.
      cbn beta iota zeta delta [at_escape] in H.
      assert (O : forall d, string_escape c d -> match pushOtherStringEscape nu nl d with
          | Val o => prepend o (loop fuel (skipn 0 u)) | _ => pushOtherStringEscape nu nl d end = Val s ->
          escaped esc_ok (nl = false) False (92 :: c :: u) s).
      { intros d D. destruct (pushOtherStringEscape nu nl d) as [o| | | |] eqn:E; try discriminate.
        apply other_val in E as (E1 & E2 & ->). intros Q. apply prepend_val in Q as (t & T & ->).
        cbn [app skipn] in *. apply es_letter; [unfold esc_ok; now rewrite E1, E2|]. apply IH; auto; lia. }
      assert (W : forall d, line_escape c d -> string_escape c d -> match pushNewlineOrBackslash nu nl d with
          | Val o => prepend o (loop fuel (skipn 0 u)) | _ => pushNewlineOrBackslash nu nl d end = Val s ->
          escaped esc_ok (nl = false) False (92 :: c :: u) s).
      { intros d D D'. destruct (pushNewlineOrBackslash nu nl d) as [o| | | |] eqn:E; try discriminate.
        apply newline_val in E as (E1 & ->). intros Q. apply prepend_val in Q as (t & T & ->).
        cbn [app skipn] in *. apply es_letter; [unfold esc_ok; rewrite E1; now destruct nl|]. apply IH; auto; lia. }
      assert (M : forall n, (0 < n)%nat -> match pushNumericEscape nl u n with
          | Val o => prepend o (loop fuel (skipn n u)) | _ => pushNumericEscape nl u n end = Val s ->
          exists h x bs v t, nl = false /\ u = h ++ v /\ length h = n /\ v <> [] /\ hex_number h x /\
            bytes_of x bs /\ s = bs ++ t /\ escaped esc_ok (nl = false) False v t).
      { intros n Hn. destruct (pushNumericEscape nl u n) as [o| | | |] eqn:E; try discriminate.
        apply numeric_val in E as (E1 & h & v & x & -> & E2 & V & X & B); auto.
        rewrite <- E2, skipn_len. intros Q. apply prepend_val in Q as (t & T & ->).
        exists h, x, o, v, t. repeat (split; auto). apply IH; auto. rewrite app_length in L. lia. }
      destruct (N.eqb_spec c 116) as [->|]; [apply (O 9); [esc | exact H]|].
      destruct (N.eqb_spec c 110) as [->|]; [apply (W 10); [esc | esc | exact H]|].
      destruct (N.eqb_spec c 114) as [->|]; [apply (O 13); [esc | exact H]|].
      destruct (N.eqb_spec c 98) as [->|]; [apply (O 8); [esc | exact H]|].
      destruct (N.eqb_spec c 102) as [->|]; [apply (O 12); [esc | exact H]|].
      destruct (N.eqb_spec c 34) as [->|]; [apply (O 34); [esc | exact H]|].
      destruct (N.eqb_spec c 39) as [->|]; [apply (O 39); [esc | exact H]|].
      destruct (N.eqb_spec c 92) as [->|]; [apply (W 92); [esc | esc | exact H]|].
      destruct (N.eqb_spec c 117) as [->|].
      { apply M in H as (h & x & bs & v & t & E & -> & E2 & V & X & B & -> & Q); [|lia]. eapply es_u; eauto. }
      destruct (N.eqb_spec c 85) as [->|]; [|discriminate].
      apply M in H as (h & x & bs & v & t & E & -> & E2 & V & X & B & -> & Q); [|lia]. eapply es_U; eauto.
  Qed.
  Lemma loop_complete u s : escaped esc_ok (nl = false) False u s -> forall fuel, (length u < fuel)%nat ->
    loop fuel u = Val s.
  Proof.
    induction 1 as [|c u s C E IH|c d u s D E IH|h x bs u s NUM LEN X B V E IH|h x bs u s NUM LEN X B V E IH];
      intros fuel L; (destruct fuel as [|fuel]; [lia|]); cbn [length] in L.
    - reflexivity.
    - rewrite loop_char, IH by (auto; lia). reflexivity.
    - rewrite loop_escape. unfold at_escape. unfold esc_ok in D. destruct nu; [contradiction|].
      destruct nl; cbn [line_escape string_escape In] in D;
        repeat (destruct D as [D|D]; [injection D as <- <-; cbn; rewrite IH by lia; reflexivity|]); contradiction.
    - rewrite loop_escape. cbn [at_escape N.eqb Pos.eqb].
      destruct V as [[]|V]. pose proof (numeric_val (h ++ u) 4 bs ltac:(lia)) as Q.
      rewrite (proj2 Q). 2:{ split; auto. exists h, u, x. auto. }
      rewrite <- LEN, skipn_len, IH; [reflexivity|]. rewrite app_length in L. lia.
    - rewrite loop_escape. cbn [at_escape N.eqb Pos.eqb].
      destruct V as [[]|V]. pose proof (numeric_val (h ++ u) 8 bs ltac:(lia)) as Q.
      rewrite (proj2 Q). 2:{ split; auto. exists h, u, x. auto. }
      rewrite <- LEN, skipn_len, IH; [reflexivity|]. rewrite app_length in L. lia.
  Qed.
  Lemma unescape_iff u s : unescapeStringAndNumericEscapes nu nl u = Val s <->
    escaped esc_ok (nl = false) False u s.
  Proof.
    split; [apply loop_sound; lia | intros E; apply loop_complete; auto; lia].
  Qed.
  Lemma prepend_undefined o r : prepend o r = Undefined -> r = Undefined.
  Proof. destruct r; cbn; auto; discriminate. Qed.
  Lemma loop_defined fuel : forall u, (length u < fuel)%nat -> loop fuel u <> Undefined.
  Proof.
    induction fuel as [|fuel IH]; intros u L; [lia|].
    induction u as [|c u IHu]; [discriminate|]. cbn [length] in L.
    destruct (N.eq_dec c 92) as [->|C].
    2:{ rewrite loop_char by auto. intros Q. apply prepend_undefined in Q. apply IHu; auto; lia. }
    rewrite loop_escape. destruct u as [|c u]; [discriminate|]. cbn [length] in L.
    cbn beta iota zeta delta [at_escape].
    assert (S : forall n, (length (skipn n u) <= length u)%nat) by (intros n; rewrite skipn_length; lia).
    assert (M : forall o n, o <> Undefined -> match o with
          | Val o => prepend o (loop fuel (skipn n u)) | r => r end <> Undefined).
    { intros [o| | | |] n O; try congruence. intros Q. apply prepend_undefined in Q.
      apply IH in Q; auto. specialize (S n). lia. }
    repeat (match goal with |- (if ?b then _ else _) <> _ => destruct b end;
      [apply M; unfold pushOtherStringEscape, pushNewlineOrBackslash, pushNumericEscape, hexadecimalCharactersToUtf8;
       repeat match goal with |- context [if ?b then _ else _] => destruct b end;
       try discriminate; destruct (hex_value _ _); discriminate|]).
    discriminate.
  Qed.
  (* a numeric escape at the end is rejected *)
  Lemma numeric_at_end u s n : escaped esc_ok (nl = false) False u s -> nl = false ->
    forall fuel c h, (length u < fuel)%nat -> (c = 117 /\ n = 4 \/ c = 85 /\ n = 8)%nat -> length h = n ->
    loop fuel (u ++ 92 :: N.of_nat c :: h) = Check.
  Proof.
    intros E NL. assert (N1 : (117 =? 117) = true) by reflexivity.
    induction E as [|c u s C E IH|c d u s D E IH|h x bs u s NUM LEN X B V E IH|h x bs u s NUM LEN X B V E IH];
      intros fuel k g L K G; (destruct fuel as [|fuel]; [lia|]); cbn [length app] in *.
    - rewrite loop_escape. unfold at_escape, pushNumericEscape. rewrite NL.
      destruct K as [[-> ->]|[-> ->]]; cbn [N.eqb N.of_nat Pos.of_succ_nat Pos.succ Pos.eqb]; rewrite G; reflexivity.
    - rewrite loop_char by auto. rewrite IH; auto. lia.
    - rewrite loop_escape. unfold at_escape. unfold esc_ok in D. destruct nu; [contradiction|]. rewrite NL in *.
      cbn [string_escape In] in D.
      repeat (destruct D as [D|D]; [injection D as <- <-; cbn [N.eqb Pos.eqb pushOtherStringEscape
        pushNewlineOrBackslash negb andb orb skipn]; rewrite IH by (auto; lia); reflexivity|]); contradiction.
    - rewrite loop_escape. cbn [at_escape N.eqb Pos.eqb]. rewrite <- app_assoc.
      pose proof (numeric_val (h ++ u ++ 92 :: N.of_nat k :: g) 4 bs ltac:(lia)) as Q.
      rewrite (proj2 Q). 2:{ split; auto. exists h, (u ++ 92 :: N.of_nat k :: g), x. repeat (split; auto).
        destruct u; discriminate. }
      rewrite <- LEN, skipn_len, IH; auto. rewrite app_length in L. lia.
    - rewrite loop_escape. cbn [at_escape N.eqb Pos.eqb]. rewrite <- app_assoc.
      pose proof (numeric_val (h ++ u ++ 92 :: N.of_nat k :: g) 8 bs ltac:(lia)) as Q.
      rewrite (proj2 Q). 2:{ split; auto. exists h, (u ++ 92 :: N.of_nat k :: g), x. repeat (split; auto).
        destruct u; discriminate. }
      rewrite <- LEN, skipn_len, IH; auto. rewrite app_length in L. lia.
  Qed.
End Unescape.

(* ---- escaping newlines and backslashes ---- *)
Definition escape_char (c : N) : list N := if c =? 10 then [92; 110] else if c =? 92 then [92; 92] else [c].
Lemma escape_plain a : Forall (fun x => (x =? 10) || (x =? 92) = false) a -> flat_map escape_char a = a.
Proof.
  induction 1 as [|x a X A IH]; [reflexivity|]. cbn. rewrite IH. apply orb_false_iff in X as [X Y].
  unfold escape_char. now rewrite X, Y.
Qed.
Lemma escape_loop_eq fuel : forall s, (length s < fuel)%nat -> escape_loop fuel s = Some (flat_map escape_char s).
Proof.
  induction fuel as [|fuel IH]; intros s L; [lia|]. cbn [escape_loop].
  destruct (find_char _ s) as [i|] eqn:F.
  - apply find_char_some in F as (a & c & b & -> & <- & C & A).
    rewrite firstn_len, at_app. rewrite Nat.add_1_r. change (S (length a)) with (1 + length a)%nat.
    rewrite Nat.add_comm, skipn_add, skipn_len. cbn [skipn]. rewrite app_length in L. cbn [length] in L.
    rewrite IH by lia. cbn [option_map]. f_equal. rewrite flat_map_app, (escape_plain a) by exact A. f_equal.
    cbn [flat_map]. f_equal. unfold escape_char. destruct (N.eqb_spec c 10); auto.
    destruct (N.eqb_spec c 92); auto. discriminate.
  - apply find_char_none in F. now rewrite escape_plain by exact F.
Qed.
Lemma escape_no_newline s : ~ In 10 (flat_map escape_char s).
Proof.
  rewrite in_flat_map. intros (x & _ & H). unfold escape_char in H.
  destruct (N.eqb_spec x 10); [cbn in H; intuition discriminate|].
  destruct (N.eqb_spec x 92); cbn in H; intuition congruence.
Qed.
Lemma escape_escaped s num fin : escaped line_escape num fin (flat_map escape_char s) s.
Proof.
  induction s as [|c s IH]; [constructor|]. cbn [flat_map]. unfold escape_char at 1.
  destruct (N.eqb_spec c 10) as [->|]; [cbn [app]; apply es_letter; auto; esc|].
  destruct (N.eqb_spec c 92) as [->|]; [cbn [app]; apply es_letter; auto; esc|].
  cbn [app]. now apply es_char.
Qed.

(* ---- literals and IRIs ---- *)
Lemma escaped_ext e e' n n' f u s : (forall c d, e c d <-> e' c d) -> (n <-> n') ->
  escaped e n f u s -> escaped e' n' f u s.
Proof.
  intros H N. induction 1; [constructor| | | |].
  - now constructor.
  - apply es_letter; auto. now apply H.
  - eapply es_u; eauto. now apply N.
  - eapply es_U; eauto. now apply N.
Qed.
Lemma startsWith_app p s : startsWith (p ++ s) p = true.
Proof. apply startsWith_iff. eauto. Qed.
Lemma endsWith_iff s p : endsWith s p = true <-> exists a, s = a ++ p.
Proof.
  unfold endsWith. rewrite startsWith_iff. split.
  - intros [b B]. exists (rev b). apply (f_equal (@rev N)) in B.
    rewrite rev_involutive, rev_app_distr, rev_involutive in B. auto.
  - intros [a ->]. exists (rev a). apply rev_app_distr.
Qed.
Lemma remove_ends_ok n a s b : length a = n -> length b = n -> remove_ends n (a ++ s ++ b) = Val s.
Proof.
  intros A B. unfold remove_ends. rewrite !app_length.
  replace (Nat.ltb _ _) with false by (symmetry; apply Nat.ltb_ge; lia). f_equal.
  rewrite <- A at 2. rewrite skipn_len. replace (_ - _)%nat with (length s) by lia. apply firstn_len.
Qed.
Definition quotes (q : list N) : Prop :=
  q = [34] \/ q = [39] \/ q = [34; 34; 34] \/ q = [39; 39; 39].
Lemma normalize_quotes q u : quotes q -> (forall c, q = [c] -> hd_error u <> Some c) ->
  normalizeRDFLiteral (q ++ u ++ q) =
  match unescapeStringAndNumericEscapes false false u with
  | Val r => Val ([34] ++ r ++ [34])
  | r => r
  end.
Proof.
  intros Q H. unfold normalizeRDFLiteral.
  assert (E : endsWith (q ++ u ++ q) q = true).
  { apply endsWith_iff. exists (q ++ u). now rewrite app_assoc. }
  assert (Short : forall c, q = [c] -> startsWith (q ++ u ++ q) [c; c; c] = false).
  { intros c ->. specialize (H c eq_refl). destruct u as [|x u]; cbn [app startsWith].
    - now rewrite !andb_false_r.
    - cbn in H. rewrite (proj2 (N.eqb_neq x c)) by congruence. now rewrite andb_false_r. }
  assert (Three : forall c, q = [c; c; c] -> startsWith (q ++ u ++ q) [c; c; c] = true).
  { intros c ->. apply startsWith_app. }
  assert (One : forall c, q = [c] -> startsWith (q ++ u ++ q) [c] = true).
  { intros c ->. apply startsWith_app. }
  destruct Q as [Q|[Q|[Q|Q]]]; pose proof Q as Q'; subst q.
  - rewrite (Short 34), (One 34) by auto.
    replace (startsWith ([34] ++ u ++ [34]) [39; 39; 39]) with false by reflexivity. cbn [orb].
    change (firstn 1 ([34] ++ u ++ [34])) with [34]. rewrite E.
    now rewrite (remove_ends_ok 1 [34] u [34]).
  - rewrite (Short 39), (One 39) by auto.
    replace (startsWith ([39] ++ u ++ [39]) [34; 34; 34]) with false by reflexivity.
    rewrite orb_true_r. cbn [orb].
    change (firstn 1 ([39] ++ u ++ [39])) with [39]. rewrite E.
    now rewrite (remove_ends_ok 1 [39] u [39]).
  - rewrite (Three 34) by auto. cbn [orb].
    change (firstn 3 ([34; 34; 34] ++ u ++ [34; 34; 34])) with [34; 34; 34]. rewrite E.
    now rewrite (remove_ends_ok 3 [34; 34; 34] u [34; 34; 34]).
  - rewrite (Three 39) by auto. rewrite orb_true_r.
    change (firstn 3 ([39; 39; 39] ++ u ++ [39; 39; 39])) with [39; 39; 39]. rewrite E.
    now rewrite (remove_ends_ok 3 [39; 39; 39] u [39; 39; 39]).
Qed.

Lemma prefixed_nil fuel : prefixed_loop (S fuel) [] = Val [].
Proof. reflexivity. Qed.
Lemma prefixed_char fuel c u : c <> 92 -> prefixed_loop (S fuel) (c :: u) = prepend [c] (prefixed_loop (S fuel) u).
Proof.
  intros H. cbn [prefixed_loop find_char]. rewrite (proj2 (N.eqb_neq 92 c)) by auto.
  destruct (find_char (N.eqb 92) u) as [i|]; cbn [option_map]; [|reflexivity].
  cbn [firstn skipn Nat.add]. destruct (skipn (i + 1) u) as [|x r]; [reflexivity|].
  destruct (existsb (N.eqb x) local_escapes); [|reflexivity]. now rewrite <- prepend_app.
Qed.
Lemma local_iff c : existsb (N.eqb c) local_escapes = true <-> local_escape c c.
Proof.
  rewrite existsb_exists. unfold local_escape. split.
  - intros (x & I & E). apply N.eqb_eq in E. subst x. auto.
  - intros [_ I]. exists c. split; auto. apply N.eqb_refl.
Qed.
Lemma prefixed_sound fuel : forall u s, (length u < fuel)%nat -> prefixed_loop fuel u = Val s ->
  escaped local_escape False False u s.
Proof.
  induction fuel as [|fuel IH]; intros u s L H; [lia|].
  revert s H; induction u as [|c u IHu]; intros s H.
  - cbn in H. injection H as <-. constructor.
  - cbn [length] in L. destruct (N.eq_dec c 92) as [->|C].
    2:{ rewrite prefixed_char in H by auto. apply prepend_val in H as (t & T & ->). cbn [app].
        constructor; auto. apply IHu; auto; lia. }
    cbn [prefixed_loop find_char N.eqb Pos.eqb firstn skipn Nat.add app] in H.
    destruct u as [|c u]; [discriminate|]. cbn [length] in L.
    destruct (existsb (N.eqb c) local_escapes) eqn:E; [|discriminate].
    apply prepend_val in H as (t & T & ->). apply es_letter; [now apply local_iff|]. apply IH; auto; lia.
Qed.
Lemma prefixed_complete u s : escaped local_escape False False u s -> forall fuel, (length u < fuel)%nat ->
  prefixed_loop fuel u = Val s.
Proof.
  induction 1 as [|c u s C E IH|c d u s D E IH|h x bs u s NUM|h x bs u s NUM];
    intros fuel L; try contradiction; (destruct fuel as [|fuel]; [lia|]); cbn [length] in L.
  - reflexivity.
  - rewrite prefixed_char, IH by (auto; lia). reflexivity.
  - cbn [prefixed_loop find_char N.eqb Pos.eqb firstn skipn Nat.add app].
    assert (c = d) by apply D. subst d. rewrite (proj2 (local_iff c)) by auto. rewrite IH by lia. reflexivity.
Qed.
