(* splitWsWithEscape, stripping, normalizing spaces, decodeUrl. *)
From Coq Require Import List NArith ZArith Arith Bool Lia ZifyBool ZifyN ZifyNat.
From Verif Require Import ListAux Strings_Model Strings_Spec Strings_Proof.
Import ListNotations.
Open Scope N_scope.

Section Marks.
  Variables left right : N.
  Fixpoint mark (depth : Z) (s : list N) : list (N * Z) :=
    match s with [] => [] | c :: s' => (c, depth) :: mark (bracket left right depth c) s' end.
  Lemma count_snoc c s x : count c (s ++ [x]) = (count c s + if N.eqb x c then 1 else 0)%Z.
  Proof.
    unfold count. rewrite count_occ_app. cbn [count_occ].
    destruct (N.eq_dec x c) as [->|n]; [rewrite N.eqb_refl | rewrite (proj2 (N.eqb_neq _ _) n)]; lia.
  Qed.
  Lemma open_step s i : (i < length s)%nat ->
    open_brackets left right s (S i) = bracket left right (open_brackets left right s i) (at_ s i).
  Proof.
    intros H. unfold open_brackets, bracket.
    assert (E : firstn (S i) s = firstn i s ++ [at_ s i]).
    { replace (S i) with (i + 1)%nat by lia. rewrite firstn_add. f_equal.
      rewrite (skipn_nth_cons i s 0) by auto. reflexivity. }
    rewrite E, !count_snoc. unfold count. destruct (N.eqb_spec left right) as [<-|n].
    - destruct (N.eqb_spec (at_ s i) left); [|now rewrite Z.add_0_r].
      rewrite Z.rem_mod_nonneg by (try apply Z.add_nonneg_nonneg; try apply Z.mod_pos_bound; lia).
      now rewrite Zplus_mod_idemp_l.
    - destruct (N.eqb_spec (at_ s i) left), (N.eqb_spec (at_ s i) right); lia.
  Qed.
  Lemma mark_depths s : forall a, combine s (map (open_brackets left right (a ++ s)) (seq (length a) (length s)))
    = mark (open_brackets left right (a ++ s) (length a)) s.
  Proof.
    induction s as [|c s IH]; intros a; [reflexivity|]. cbn [length seq map combine mark]. f_equal.
    specialize (IH (a ++ [c])). rewrite <- app_assoc, app_length in IH. cbn [app length] in IH.
    rewrite Nat.add_1_r in IH. rewrite IH, open_step, at_app; auto. rewrite app_length; cbn; lia.
  Qed.
  Lemma with_depth_mark s : with_depth left right s = mark 0 s.
  Proof.
    unfold with_depth. pose proof (mark_depths s []) as H. cbn [app length] in H. rewrite H. f_equal. unfold open_brackets. cbn.
    now destruct (left =? right).
  Qed.
  Definition wsep (x : N * Z) : Prop := whitespace (fst x) /\ (snd x <= 0)%Z.
  Lemma wsep_dec x : {wsep x} + {~ wsep x}.
  Proof.
    unfold wsep. destruct (ws_dec (fst x)); [|right; tauto].
    destruct (Z_le_dec (snd x) 0); [left | right]; tauto.
  Qed.
  Hypothesis Hl : ~ whitespace left.
  Hypothesis Hr : ~ whitespace right.
  Lemma bracket_ws d c : whitespace c -> bracket left right d c = d.
  Proof.
    intros W. unfold bracket. destruct (N.eqb_spec c left) as [->|]; [contradiction|].
    destruct (N.eqb_spec c right) as [->|]; [contradiction | auto].
  Qed.
  Lemma mark_ws d b r : Forall whitespace b -> mark d (b ++ r) = map (fun c => (c, d)) b ++ mark d r.
  Proof.
    induction 1 as [|c b C B IH]; cbn; [auto|]. f_equal. now rewrite bracket_ws, IH.
  Qed.
  Lemma map_fst_pair (d : Z) (b : list N) : map fst (map (fun c => (c, d)) b) = b.
  Proof. rewrite map_map. apply map_id. Qed.

  Lemma splitEsc_loop_ok fuel : forall a mw r d out ts,
    Forall (fun x => ~ wsep x) mw -> pieces wsep (mw ++ mark d r) ts -> (length r < fuel)%nat ->
    splitEsc_loop fuel left right (a ++ map fst mw ++ r) (length a) (length a + length mw)%nat d out
    = Some (out ++ map (map fst) ts).
  Proof.
    induction fuel as [|fuel IH]; intros a mw r d out ts F P H; [lia|]. cbn [splitEsc_loop].
    destruct r as [|c r].
    - cbn [mark] in P. rewrite app_nil_r in *. rewrite app_length, map_length, Nat.ltb_irrefl.
      apply pieces_end in P as ->; auto.
      destruct mw as [|x mw]; cbn [length].
      + rewrite Nat.add_0_r, Nat.eqb_refl, app_nil_r. auto.
      + rewrite (proj2 (Nat.eqb_neq _ _)) by lia. now rewrite skipn_len.
    - rewrite (proj2 (Nat.ltb_lt _ _)) by (rewrite !app_length, map_length; cbn; lia).
      assert (AT : at_ (a ++ map fst mw ++ c :: r) (length a + length mw) = c).
      { rewrite app_assoc, <- (map_length fst mw), <- app_length. apply at_app. }
      rewrite AT.
      destruct ((d <=? 0)%Z && isspace c) eqn:C.
      + apply andb_prop in C as [D C].
        assert (W : whitespace c) by now apply isspace_iff.
        destruct (skip_ws_ok (length (a ++ map fst mw ++ c :: r)) (a ++ map fst mw) (c :: r))
          as (b & r' & E & B & R & K); [rewrite !app_length; lia|].
        rewrite <- app_assoc, (app_length a (map fst mw)), map_length in K. rewrite K.
        apply (pieces_head _ wsep_dec) in P as (ts' & P' & ->); auto; [|split; [exact W | cbn; lia]].
        assert (b <> []).
        { intros ->. cbn in E. subst r'. destruct R as [R|(x & ? & R & N)]; [discriminate|].
          injection R as -> ->. contradiction. }
        assert (P2 : pieces wsep (mark d (c :: r)) ts') by exact P'. clear P'. rename P2 into P'.
        rewrite E in P'. rewrite mark_ws in P' by auto. apply pieces_skip in P'.
        2:{ apply Forall_map. apply Forall_impl with (2 := B). intros x X. split; [exact X | cbn; lia]. }
        set (out' := if Nat.eqb _ _ then out else _).
        assert (E' : Some (out ++ map (map fst) match mw with [] => ts' | _ => mw :: ts' end)
                     = Some (out' ++ map (map fst) ts')).
        { f_equal. unfold out'. destruct mw as [|x mw]; cbn [length].
          - now rewrite Nat.add_0_r, Nat.eqb_refl.
          - rewrite (proj2 (Nat.eqb_neq _ _)) by lia. rewrite <- app_assoc. f_equal. cbn [app map]. f_equal.
            unfold substr. rewrite skipn_len.
            replace (_ - _)%nat with (length (fst x :: map fst mw)) by (cbn [length]; rewrite map_length; lia).
            now rewrite app_comm_cons, firstn_len. }
        rewrite E'. clearbody out'.
        assert (L : length (c :: r) = (length b + length r')%nat) by (rewrite E; apply app_length).
        rewrite E. cbn [length] in L, H. destruct b as [|y b]; [congruence|]. cbn [length] in L.
        destruct R as [->|(x & r'' & -> & N)].
        * destruct fuel as [|fuel]; [lia|]. cbn [splitEsc_loop].
          rewrite (proj2 (Nat.ltb_ge _ _)) by (rewrite !app_length, map_length; cbn [length]; lia).
          rewrite (proj2 (Nat.eqb_eq _ _)) by (rewrite !app_length, map_length; cbn [length]; lia).
          assert (ts' = []) by (apply (pieces_unique wsep _ _ _ P'); constructor). subst ts'.
          now rewrite app_nil_r.
        * cbn [length] in L.
          specialize (IH (a ++ map fst mw ++ y :: b) [(x, d)] r'' (bracket left right d x) out' ts').
          cbn [length map fst] in IH.
          replace (length (a ++ map fst mw ++ y :: b)) with (length a + length mw + length (y :: b))%nat in IH
            by (rewrite !app_length, map_length; lia).
          rewrite <- !app_assoc in IH. cbn [app] in IH |- *. rewrite <- ?app_assoc. cbn [app].
          replace (at_ _ _) with x.
          2:{ replace (a ++ map fst mw ++ y :: b ++ x :: r'') with ((a ++ map fst mw ++ y :: b) ++ x :: r'')
                by (rewrite <- !app_assoc; reflexivity).
              replace (_ + _)%nat with (length (a ++ map fst mw ++ y :: b))
                by (rewrite !app_length, map_length; lia).
              now rewrite at_app. }
          apply IH; [|exact P' | lia]. constructor; auto. intros [X _]. contradiction.
      + assert (W : ~ wsep (c, d)).
        { intros [W X]. cbn in W, X. apply isspace_iff in W. rewrite W in C. lia. }
        specialize (IH a (mw ++ [(c, d)]) r (bracket left right d c) out ts).
        rewrite app_length, map_app in IH. cbn [length map fst] in IH.
        rewrite <- !app_assoc in IH. cbn [app] in IH. rewrite <- Nat.add_assoc. apply IH; auto.
        * apply Forall_app; auto.
        * cbn in H. lia.
  Qed.
  Lemma splitEsc_ok s ts : pieces wsep (with_depth left right s) ts ->
    splitWsWithEscape s left right = Some (map (map fst) ts).
  Proof.
    rewrite with_depth_mark. intros P. unfold splitWsWithEscape. destruct s as [|c s].
    - f_equal. assert (ts = []) as -> by (eapply pieces_unique; [exact P | constructor]). reflexivity.
    - apply (splitEsc_loop_ok _ [] [] (c :: s) 0%Z [] ts); auto.
  Qed.
End Marks.

(* ---- stripping ---- *)
Section Strip.
  Variables (set : N -> bool) (P : N -> Prop).
  Hypothesis HP : forall c, set c = true <-> P c.
  Lemma set_neg a : Forall (fun x => negb (set x) = false) a -> Forall P a.
  Proof. apply Forall_impl. intros x X. apply HP. now destruct (set x). Qed.
  Lemma lstrip_ok s : stripped_left P s (lstrip s set).
  Proof.
    unfold lstrip, stripped_left. destruct (find_char _ s) as [i|] eqn:F.
    - apply find_char_some in F as (a & c & b & -> & <- & C & A). rewrite skipn_len.
      exists a. split; auto. split; [now apply set_neg|]. right. exists c. split; [|eauto].
      intros X. apply HP in X. rewrite X in C. discriminate.
    - apply find_char_none, set_neg in F. exists s. rewrite app_nil_r. split; auto. split; auto. now left.
  Qed.
  Lemma find_last_some s i : find_last_not set s = Some i ->
    exists a c b, s = a ++ c :: b /\ i = length a /\ ~ P c /\ Forall P b.
  Proof.
    unfold find_last_not. destruct (find_char _ (rev s)) as [j|] eqn:F; [|discriminate].
    cbn. intros E; injection E as <-. apply find_char_some in F as (a & c & b & R & <- & C & A).
    apply (f_equal (@rev N)) in R. rewrite rev_involutive in R. subst s.
    exists (rev b), c, (rev a). rewrite rev_app_distr. cbn [rev]. rewrite <- app_assoc. split; [reflexivity|].
    rewrite !app_length, !rev_length. cbn [length app]. rewrite ?rev_length.
    split; [lia|]. split.
    - intros X. apply HP in X. rewrite X in C. discriminate.
    - apply Forall_rev. now apply set_neg.
  Qed.
  Lemma find_last_none s : find_last_not set s = None -> Forall P s.
  Proof.
    unfold find_last_not. destruct (find_char _ (rev s)) as [j|] eqn:F; [discriminate|].
    intros _. apply find_char_none, set_neg in F. rewrite <- (rev_involutive s). now apply Forall_rev.
  Qed.
  Lemma rstrip_ok s : stripped_right P s (rstrip s set).
  Proof.
    unfold rstrip, stripped_right. destruct (find_last_not set s) as [i|] eqn:F.
    - apply find_last_some in F as (a & c & b & -> & -> & C & B). exists b. unfold substr. cbn [skipn].
      replace (length a + 1)%nat with (length (a ++ [c])) by (rewrite app_length; reflexivity).
      replace (a ++ c :: b) with ((a ++ [c]) ++ b) by now rewrite <- app_assoc.
      rewrite firstn_len. split; auto. split; auto. right. exists c. split; eauto.
    - apply find_last_none in F. exists s. split; auto. split; auto. now left.
  Qed.
  Lemma strip_ok s : stripped P s (strip s set).
  Proof.
    unfold strip, stripped. destruct (find_char _ s) as [i|] eqn:F.
    - apply find_char_some in F as (a & c & b & E & <- & C & A). apply set_neg in A.
      assert (NC : ~ P c) by (intros X; apply HP in X; rewrite X in C; discriminate).
      destruct (find_last_not set s) as [j|] eqn:G.
      + apply find_last_some in G as (a' & c' & b' & E' & -> & C' & B').
        assert (L : (length a <= length a')%nat).
        { destruct (le_lt_dec (length a) (length a')) as [|X]; auto. exfalso. apply C'.
          assert (at_ s (length a') = c') by (rewrite E'; apply at_app).
          rewrite E in H. unfold at_ in H. rewrite app_nth1 in H by auto. subst c'.
          rewrite Forall_forall in A. apply A, nth_In; auto. }
        assert (E2 : a' = firstn (length a) a' ++ skipn (length a) a') by (symmetry; apply firstn_skipn).
        assert (E3 : firstn (length a) a' = a).
        { transitivity (firstn (length a) s); [|rewrite E; apply firstn_len].
          rewrite E'. rewrite firstn_app. replace (_ - _)%nat with 0%nat by lia. cbn. now rewrite app_nil_r. }
        rewrite E3 in E2. remember (skipn (length a) a') as m. clear Heqm.
        exists a, b'. unfold substr. rewrite E', E2.
        replace ((a ++ m) ++ c' :: b') with (a ++ (m ++ [c']) ++ b') by (now rewrite <- !app_assoc).
        rewrite skipn_len.
        replace (length (a ++ m) - length a + 1)%nat with (length (m ++ [c'])) by (rewrite !app_length; cbn; lia).
        rewrite firstn_len. split; [reflexivity|]. split; auto. split; auto. split.
        * right. exists c. split; auto. exists (tl (m ++ [c'])).
          assert (X : m ++ c' :: b' = c :: b).
          { apply (app_inv_head a). rewrite <- E, E', E2. now rewrite <- app_assoc. }
          destruct m as [|x m]; cbn in X |- *; congruence.
        * right. exists c'. split; eauto.
      + apply find_last_none in G. rewrite E in G. apply Forall_app in G as [_ G]. inversion G; contradiction.
    - apply find_char_none, set_neg in F. exists s, []. rewrite ?app_nil_r. split; auto.
      split; auto. split; auto. split; now left.
  Qed.
End Strip.
Lemma app_first_outside (P : N -> Prop) a t a' t' : Forall P a -> Forall P a' ->
  starts_outside P t -> starts_outside P t' -> a ++ t = a' ++ t' -> t <> [] -> t' <> [] -> a = a' /\ t = t'.
Proof.
  intros A A' [->|(c & C & s & ->)] [->|(c' & C' & s' & ->)] E H H'; try congruence.
  revert a' A' E; induction A as [|x a X A IH]; intros [|x' a'] A' E; cbn in E.
  - auto.
  - injection E as -> ->. inversion A'; contradiction.
  - injection E as -> E. contradiction.
  - injection E as -> E. inversion A'; subst. destruct (IH a') as [-> Q]; auto.
Qed.
Lemma stripped_left_unique P s t t' : stripped_left P s t -> stripped_left P s t' -> t = t'.
Proof.
  intros (a & -> & A & T) (a' & E & A' & T').
  destruct t as [|x t], t' as [|x' t']; auto.
  - rewrite app_nil_r in E. subst a. apply Forall_app in A as [_ A]. destruct T' as [T'|(c & C & s & T')]; [discriminate|].
    injection T' as -> ->. inversion A; contradiction.
  - rewrite app_nil_r in E. subst a'. apply Forall_app in A' as [_ A']. destruct T as [T|(c & C & s & T)]; [discriminate|].
    injection T as -> ->. inversion A'; contradiction.
  - apply (app_first_outside P) in E as [_ E]; auto; discriminate.
Qed.

(* ---- normalizing spaces ---- *)
Lemma normalize_true r s : Forall (fun c => c = 32 \/ c = 9) r ->
  normalize_loop true (r ++ s) = normalize_loop true s.
Proof. induction 1 as [|c r [->| ->] R IH]; cbn; auto. Qed.
Lemma normalize_starts b s : starts_outside (fun c => c = 32 \/ c = 9) s ->
  normalize_loop b s = normalize_loop false s.
Proof.
  intros [->|(c & C & s' & ->)]; [reflexivity|]. cbn.
  destruct (N.eqb_spec c 32); [exfalso; auto|]. destruct (N.eqb_spec c 9); [exfalso; auto|]. reflexivity.
Qed.
Lemma normalize_ok s t : spaces_normalized s t -> normalizeSpaces s = t.
Proof.
  unfold normalizeSpaces. induction 1 as [|c s t A B S IH|r s t R F O S IH]; [reflexivity| |].
  - cbn. rewrite (proj2 (N.eqb_neq _ _) A), (proj2 (N.eqb_neq _ _) B). cbn. now rewrite IH.
  - destruct r as [|c r]; [congruence|]. inversion F as [|? ? C F' E1]; subst. cbn [app normalize_loop].
    replace ((c =? 32) || (c =? 9)) with true by lia. f_equal.
    rewrite normalize_true by auto. now rewrite normalize_starts.
Qed.
Lemma spaces_total s : exists t, spaces_normalized s t.
Proof.
  induction s as [|c s [t IH]]; [exists []; constructor|].
  destruct (N.eq_dec c 32) as [C|C]; [|destruct (N.eq_dec c 9) as [D|D]].
  3:{ exists (c :: t). now constructor. }
  all: inversion IH as [|x s' t' X Y S|r s' t' R F O S]; subst;
    [ exists [32]; change [32] with ([32] ++ []) at 1 || idtac; apply (sn_run [_] [] []) || apply (sn_run [_] []);
      try discriminate; try (repeat constructor; auto); now left
    | eexists; apply (sn_run [_] (x :: s') (x :: t')); [discriminate | auto | right; exists x; split; [tauto | eauto] | exact IH]
    | eexists; rewrite app_comm_cons; apply sn_run; [discriminate | auto | exact O | exact S] ].
Qed.

(* ---- decodeUrl ---- *)
Lemma hex_digit_iff c d : hex_digit c = Some d <-> hex c d.
Proof.
  split.
  - unfold hex_digit, tolower. cbn zeta. intros H.
    destruct ((65 <=? c) && (c <=? 90)) eqn:U.
    + destruct ((48 <=? c + 32) && (c + 32 <=? 57)) eqn:A; [lia|].
      destruct ((97 <=? c + 32) && (c + 32 <=? 102)) eqn:B; [|discriminate].
      injection H as <-. replace c with (55 + (c + 32 - 97 + 10)) at 1 by lia. constructor; lia.
    + destruct ((48 <=? c) && (c <=? 57)) eqn:A.
      * injection H as <-. replace c with (48 + (c - 48)) at 1 by lia. constructor; lia.
      * destruct ((97 <=? c) && (c <=? 102)) eqn:B; [|discriminate].
        injection H as <-. replace c with (87 + (c - 97 + 10)) at 1 by lia. apply hex_lower; lia.
  - unfold hex_digit, tolower. cbn zeta. intros [e E|e E|e E].
    + replace ((65 <=? 48 + e) && _) with false by lia.
      replace ((48 <=? 48 + e) && _) with true by lia. f_equal; lia.
    + replace ((65 <=? 55 + e) && _) with true by lia.
      replace ((48 <=? 55 + e + 32) && _) with false by lia.
      replace ((97 <=? 55 + e + 32) && _) with true by lia. f_equal; lia.
    + replace ((65 <=? 87 + e) && _) with false by lia.
      replace ((48 <=? 87 + e) && _) with false by lia.
      replace ((97 <=? 87 + e) && _) with true by lia. f_equal; lia.
Qed.
Lemma hex_bound c d : hex c d -> d < 16.
Proof. intros [e E|e E|e E]; lia. Qed.
Lemma hex_not37 c d : hex c d -> c <> 37 /\ c <> 43.
Proof. intros [e E|e E|e E]; lia. Qed.
Lemma two_digits_dec u : (exists a b u' x y, u = a :: b :: u' /\ hex_digit a = Some x /\ hex_digit b = Some y)
  \/ ~ two_digits u.
Proof.
  destruct u as [|a [|b u]].
  - right. intros (a & b & u' & x & y & E & _). discriminate.
  - right. intros (? & b & u' & x & y & E & _). discriminate.
  - destruct (hex_digit a) as [x|] eqn:A; [destruct (hex_digit b) as [y|] eqn:B|].
    + left. exists a, b, u, x, y. auto.
    + right. intros (a' & b' & u' & x' & y' & E & HA & HB). injection E as <- <- <-.
      apply hex_digit_iff in HB. congruence.
    + right. intros (a' & b' & u' & x' & y' & E & HA & HB). injection E as <- <- <-.
      apply hex_digit_iff in HA. congruence.
Qed.
Lemma decode_percent u : ~ two_digits u -> decodeUrl (37 :: u) = 37 :: decodeUrl u.
Proof.
  intros H. destruct u as [|a [|b u]]; [reflexivity | reflexivity |].
  change (decodeUrl (37 :: a :: b :: u)) with
    (match hex_digit a, hex_digit b with
     | Some h1, Some h2 => (h1 * 16 + h2) mod 256 :: decodeUrl u
     | _, _ => 37 :: decodeUrl (a :: b :: u) end).
  destruct (hex_digit a) as [x|] eqn:A; [|reflexivity]. destruct (hex_digit b) as [y|] eqn:B; [|reflexivity].
  exfalso. apply H. exists a, b, u, x, y. rewrite <- !hex_digit_iff. auto.
Qed.
Lemma decode_byte a b x y u : hex a x -> hex b y -> decodeUrl (37 :: a :: b :: u) = 16 * x + y :: decodeUrl u.
Proof.
  intros A B. pose proof (hex_bound _ _ A). pose proof (hex_bound _ _ B).
  apply hex_digit_iff in A, B.
  change (decodeUrl (37 :: a :: b :: u)) with
    (match hex_digit a, hex_digit b with
     | Some h1, Some h2 => (h1 * 16 + h2) mod 256 :: decodeUrl u
     | _, _ => 37 :: decodeUrl (a :: b :: u) end).
  rewrite A, B. f_equal. rewrite N.mod_small; lia.
Qed.
Lemma decode_char c u : c <> 37 -> c <> 43 -> decodeUrl (c :: u) = c :: decodeUrl u.
Proof.
  intros A B. cbn [decodeUrl]. now rewrite (proj2 (N.eqb_neq _ _) A), (proj2 (N.eqb_neq _ _) B).
Qed.
Lemma decode_ok u s : url_decodes u s -> decodeUrl u = s.
Proof.
  induction 1 as [|c s u A B D IH|s u D IH|x y a b s u A B D IH|s u T D IH].
  - reflexivity.
  - now rewrite decode_char, IH.
  - cbn. now rewrite IH.
  - now rewrite (decode_byte a b x y), IH.
  - now rewrite decode_percent, IH.
Qed.
Lemma decode_total u : exists s, url_decodes u s.
Proof.
  remember (length u) as n eqn:E. assert (H : (length u <= n)%nat) by lia. clear E.
  revert u H; induction n as [|n IH]; intros u H.
  - destruct u; [exists []; constructor | cbn in H; lia].
  - destruct u as [|c u]; [exists []; constructor|]. cbn [length] in H.
    destruct (N.eq_dec c 37) as [->|A].
    + destruct (two_digits_dec u) as [(a & b & u' & x & y & -> & X & Y)|T].
      * cbn [length] in H. destruct (IH u') as [s S]; [lia|]. exists (16 * x + y :: s).
        apply ud_byte; auto; now apply hex_digit_iff.
      * destruct (IH u) as [s S]; [lia|]. exists (37 :: s). now constructor.
    + destruct (IH u) as [s S]; [lia|]. destruct (N.eq_dec c 43) as [->|B].
      * exists (32 :: s). now constructor.
      * exists (c :: s). now constructor.
Qed.
Lemma encodes_decodes s u : url_encodes s u -> url_decodes u s.
Proof. induction 1; now constructor. Qed.
(* every byte string can be encoded, e.g. each byte by two digits *)
Lemma hex_exists d : d < 16 -> exists c, hex c d.
Proof.
  intros H. destruct (N.lt_ge_cases d 10); [exists (48 + d) | exists (55 + d)]; constructor; lia.
Qed.
Lemma encodes_total s : Forall (fun c => c < 256) s -> exists u, url_encodes s u.
Proof.
  induction 1 as [|c s C F [u IH]]; [exists []; constructor|].
  destruct (hex_exists (c / 16)) as [a A]; [apply N.div_lt_upper_bound; lia|].
  destruct (hex_exists (c mod 16)) as [b B]; [apply N.mod_lt; lia|].
  exists (37 :: a :: b :: u). rewrite (N.div_mod c 16) by lia. now apply ue_byte.
Qed.
