(* Proofs about the Turtle parser: language tags, numbers, strings and nodes without a label,
   complete or cut. *)
From Coq Require Import Ascii String List NArith Arith Bool Lia ZifyBool ZifyN ZifyNat.
From Verif Require Import Strings_Model Strings_Spec Turtle_Model Turtle_Spec Turtle_Proof Turtle_Proof2.
From Verif Require Strings_Proof Strings_Proof3 Strings_Proof4 Strings_Thm.
Import ListNotations.
Open Scope N_scope.
Open Scope list_scope.

(* ---- languages ---- *)
Definition alnum (c : N) : bool := letter c || digit c.
Lemma alnum_stop d : stop d -> forall c r, d = c :: r -> alnum c = false.
Proof. intros H c r ->. cbn [stop In] in H. unfold alnum. classes. lia. Qed.
Lemma lang_head r : lang_rest r -> forall d, stop d -> forall c t, r ++ d = c :: t -> alnum c = false.
Proof.
  intros [|w r' W A R] d D c t E.
  - eapply alnum_stop; eauto.
  - cbn [app] in E. injection E as <- _. reflexivity.
Qed.
Lemma more_unit w d : w <> [] -> Forall (fun c => is_letter c \/ is_digit c) w ->
  (forall c t, d = c :: t -> alnum c = false) -> langtag_more ((45 :: w) ++ d) = Some (length (45 :: w)).
Proof.
  intros W A D. unfold langtag_more. cbn [app]. rewrite plus_app; auto.
  eapply Forall_impl; [|exact A]. intros c [K|K]; [apply letter_ok in K | apply digit_ok in K]; rewrite K; lia.
Qed.
Lemma langtag_more_stop d : stop d -> langtag_more d = None.
Proof.
  destruct d as [|c d]; [reflexivity|]. cbn [stop In]. intros H. assert (K : c <> 45) by lia. clear H.
  unfold langtag_more. not_lit c.
Qed.
Lemma star_next fuel r u d : u <> [] -> r (u ++ d) = Some (length u) ->
  star (S fuel) r (u ++ d) = (length u + star fuel r d)%nat.
Proof.
  intros U R. cbn [star]. rewrite R. destruct u as [|c u]; [contradiction|]. change (length (c :: u)) with (S (length u)).
  cbv iota. change (S (length u)) with (length (c :: u)). now rewrite Strings_Proof.skipn_len.
Qed.
Lemma star_end fuel r d : r d = None -> star fuel r d = O.
Proof. intros R. destruct fuel; [reflexivity|]. cbn. now rewrite R. Qed.
Lemma lang_star r d : lang_rest r -> stop d -> forall fuel, (length r <= fuel)%nat ->
  star fuel langtag_more (r ++ d) = length r.
Proof.
  intros R D. induction R as [|w r W A R IH]; intros fuel F.
  - apply star_end. now apply langtag_more_stop.
  - cbn [app length] in *. rewrite app_length in *. destruct fuel as [|fuel]; [lia|].
    replace (45 :: (w ++ r) ++ d) with ((45 :: w) ++ (r ++ d)) by (cbn [app]; now rewrite app_assoc).
    rewrite star_next; [|discriminate|]; [rewrite IH by lia; cbn [length]; lia|].
    apply more_unit; auto. now apply lang_head.
Qed.
Lemma letter_alnum c : alnum c = false -> letter c = false.
Proof. unfold alnum. lia. Qed.
Lemma langtag_full l d : language l -> stop d -> regex Langtag ([64] ++ l ++ d) = Some (length ([64] ++ l)).
Proof.
  intros (w & r & W & A & R & ->) D. cbn [regex app langtag_re]. rewrite <- app_assoc.
  assert (A' : Forall (fun c => letter c = true) w) by (eapply Forall_impl; [|exact A]; intros; now apply letter_ok).
  rewrite plus_app; auto.
  - rewrite Strings_Proof.skipn_len. unfold many. rewrite lang_star; auto; [|rewrite app_length; lia].
    cbn [length]. now rewrite app_length.
  - intros c t E. apply letter_alnum. eapply lang_head; eauto.
Qed.
Lemma lang_cut_head r x y : lang_rest r -> x ++ y = r -> forall c t, x = c :: t -> alnum c = false.
Proof.
  intros [|w r' W A R] E c t ->; [discriminate|]. cbn [app] in E. injection E as -> _. reflexivity.
Qed.
Lemma forall_alnum w : Forall (fun c => is_letter c \/ is_digit c) w -> Forall (fun c => alnum c = true) w.
Proof.
  apply Forall_impl. intros c [K|K]; [apply letter_ok in K | apply digit_ok in K]; unfold alnum; rewrite K; lia.
Qed.
Lemma lang_star_cut r x y : lang_rest r -> x ++ y = r -> y <> [] -> forall fuel, (length x <= fuel)%nat ->
  exists a z, x = a ++ z /\ (z = [] \/ z = [45]) /\ star fuel langtag_more x = length a.
Proof.
  intros R. revert x. induction R as [|w r W A R IH]; intros x E Y fuel F.
  - apply app_eq_nil in E as [-> ->]. contradiction.
  - destruct x as [|c x]; [exists [], []; repeat split; auto; now rewrite star_end|].
    cbn [app] in E. injection E as -> E. cbn [length] in F. destruct fuel as [|fuel]; [lia|].
    destruct (cut_app _ _ _ _ E Y) as [(x' & -> & E')|(y' & E' & Y' & _)].
    + rewrite app_length in F. destruct (IH x' E' Y fuel) as (a & z & -> & Z & S); [lia|].
      exists (45 :: w ++ a), z. split; [cbn [app]; now rewrite <- app_assoc|]. split; auto.
      change (45 :: w ++ a ++ z) with ((45 :: w) ++ (a ++ z)). rewrite star_next; [|discriminate|].
      * rewrite S. cbn [length]. rewrite app_length. lia.
      * apply more_unit; auto. eapply lang_cut_head; eauto.
    + destruct x as [|c x].
      * exists [], [45]. repeat split; auto.
      * exists (45 :: c :: x), []. rewrite app_nil_r. repeat split; auto.
        rewrite <- (app_nil_r (45 :: c :: x)) at 1.
        assert (A' : Forall (fun c => is_letter c \/ is_digit c) (c :: x)) by (rewrite <- E' in A; now apply Forall_app in A).
        rewrite (star_next fuel langtag_more (45 :: c :: x) []); [rewrite star_end by reflexivity; lia | discriminate|].
        apply more_unit; auto; discriminate.
Qed.
Lemma langtag_cut l x y : language l -> x ++ y = [64] ++ l -> y <> [] ->
  ((x = [] \/ x = [64]) /\ regex Langtag x = None) \/
  exists a z, x = a ++ z /\ (z = [] \/ z = [45]) /\ regex Langtag x = Some (length a).
Proof.
  intros (w & r & W & A & R & ->) E Y. destruct x as [|c x]; [left; auto|].
  cbn [app] in E. injection E as -> E. destruct x as [|c x]; [left; auto|]. right.
  assert (A' : Forall (fun c => letter c = true) w) by (eapply Forall_impl; [|exact A]; intros; now apply letter_ok).
  destruct (cut_app _ _ _ _ E Y) as [(x' & X & E')|(y' & E' & Y' & _)].
  - destruct (lang_star_cut r x' y R E' Y (length x')) as (a & z & -> & Z & S); [lia|].
    rewrite X. exists (64 :: w ++ a), z. split; [cbn [app]; now rewrite <- app_assoc|]. split; auto.
    cbn [regex langtag_re]. rewrite plus_app; auto.
    + rewrite Strings_Proof.skipn_len. unfold many. rewrite S. cbn [length]. now rewrite app_length.
    + intros e t Q. apply letter_alnum. eapply lang_cut_head; eauto.
  - exists (64 :: c :: x), []. rewrite app_nil_r. repeat split; auto.
    assert (B : Forall (fun c => letter c = true) (c :: x)) by (rewrite <- E' in A'; now apply Forall_app in A').
    cbn [regex langtag_re]. rewrite <- (app_nil_r (c :: x)). rewrite plus_app; auto; try discriminate.
    rewrite Strings_Proof.skipn_len. cbn. now rewrite app_nil_r, Nat.add_0_r.
Qed.

(* ---- numbers ---- *)
Lemma digits_ok ds : Forall is_digit ds -> Forall (fun c => digit c = true) ds.
Proof. apply Forall_impl. intros c. apply digit_ok. Qed.
Lemma digit_sign c : digit c = true -> sign c = false.
Proof. unfold sign. classes. lia. Qed.
Lemma integer_match sg ds d : (sg = [] \/ sg = [43] \/ sg = [45]) -> ds <> [] -> Forall is_digit ds ->
  (forall c r, d = c :: r -> digit c = false) -> regex Integer ((sg ++ ds) ++ d) = Some (length (sg ++ ds)).
Proof.
  intros S Ne A D. apply digits_ok in A. cbn [regex]. unfold integer_re. rewrite <- app_assoc.
  destruct S as [->|[->| ->]].
  - cbn [app]. destruct ds as [|e ds]; [contradiction|]. inversion A as [|? ? K _]; subst. cbn [app opt].
    rewrite (digit_sign e K). cbn [skipn]. change (e :: ds ++ d) with ((e :: ds) ++ d). rewrite (plus_app digit (e :: ds) d) by auto. reflexivity.
  - cbn [app opt]. change (sign 43) with true. cbv iota. cbn [skipn]. rewrite plus_app by auto. reflexivity.
  - cbn [app opt]. change (sign 45) with true. cbv iota. cbn [skipn]. rewrite plus_app by auto. reflexivity.
Qed.
Lemma digit_stop d : stop d -> forall c r, d = c :: r -> digit c = false.
Proof. intros H c r ->. cbn [stop In] in H. classes. lia. Qed.
Lemma integer_full t d : number_text t -> stop d -> regex Integer (t ++ d) = Some (length t).
Proof. intros (sg & ds & S & Ne & A & ->) D. apply integer_match; auto. now apply digit_stop. Qed.
Lemma integer_cut t x y : number_text t -> x ++ y = t -> y <> [] ->
  x = [] \/ x = [43] \/ x = [45] \/ regex Integer x = Some (length x).
Proof.
  intros (sg & ds & S & Ne & A & ->) E Y. destruct (cut_app _ _ _ _ E Y) as [(x' & -> & E')|(y' & E' & Y' & _)].
  - destruct x' as [|c x']; [rewrite app_nil_r; intuition|]. right; right; right.
    rewrite <- (app_nil_r (sg ++ c :: x')) at 1. apply integer_match; auto; try discriminate.
    rewrite <- E' in A. now apply Forall_app in A.
  - destruct S as [->|[->| ->]]; destruct x as [|c x]; auto; try discriminate;
      cbn [app] in E'; injection E' as -> E'; apply app_eq_nil in E' as [_ ->]; contradiction.
Qed.
Lemma number_head t : number_text t -> exists c r, t = c :: r /\ (c = 43 \/ c = 45 \/ is_digit c).
Proof.
  intros (sg & ds & S & Ne & A & ->). destruct ds as [|e ds]; [contradiction|]. inversion A; subst.
  destruct S as [->|[->| ->]]; do 2 eexists; (split; [reflexivity|]); auto.
Qed.

(* ---- nodes without a label ---- *)
Lemma skipn_span d : skipn (span blank d) d = skipWhitespace d.
Proof. induction d as [|c d IH]; [reflexivity|]. cbn [span skipWhitespace]. destruct (blank c); [exact IH | reflexivity]. Qed.
Lemma anon_full w d : Forall is_blank w -> regex Anon ([91] ++ w ++ [93] ++ d) = Some (length ([91] ++ w ++ [93])).
Proof.
  intros H. cbn [regex app anon_re]. rewrite span_app.
  - rewrite Strings_Proof.skipn_len. f_equal. cbn [length]. rewrite app_length. cbn. lia.
  - eapply Forall_impl; [|exact H]. intros. now apply blank_iff.
  - intros c r E. injection E as <- _. reflexivity.
Qed.
Lemma anon_none d : heads 93 (skipWhitespace d) = false -> regex Anon (91 :: d) = None.
Proof. intros H. cbn [regex anon_re]. rewrite skipn_span, match_93. now rewrite H. Qed.

(* ---- strings ---- *)
Lemma loop_from pat s from0 fuel : forall from, (from0 <= from)%nat ->
  (forall q, (from0 <= q < from)%nat -> ~ unescaped_at pat s q) -> (length s + 1 < fuel + from)%nat -> (0 < fuel)%nat ->
  exists r, literal_loop fuel s pat (find_str_from pat s from) = Some r /\
  match r with
  | Some p => (from0 <= p)%nat /\ unescaped_at pat s p /\ forall q, (from0 <= q < p)%nat -> ~ unescaped_at pat s q
  | None => forall q, (from0 <= q)%nat -> ~ unescaped_at pat s q
  end.
Proof.
  induction fuel as [|fuel IH]; intros from Fr F L P; [lia|]. cbn [literal_loop].
  destruct (find_str_from pat s from) as [p|] eqn:E.
  - apply Strings_Proof3.find_from_some in E as (G & O & Q).
    assert (B : forall q, (from0 <= q < p)%nat -> ~ unescaped_at pat s q).
    { intros q H U. destruct (le_lt_dec from q) as [l|l]; [|refine (F q _ U); lia]. apply (Q q); [lia|].
      now apply Strings_Proof3.unescaped_iff in U. }
    assert (PL := Strings_Proof3.occurs_le _ _ _ O).
    destruct (Nat.ltb 0 p && (at_ s (p - 1) =? 92)) eqn:C.
    + destruct (Nat.even (count_backslashes s p)) eqn:V.
      * exists (Some p). split; auto. split; [lia|]. split; auto. now apply Strings_Proof3.unescaped_iff.
      * apply IH; [lia| |lia|lia]. intros q H U. destruct (Nat.eq_dec q p) as [->|]; [|apply (B q); [lia | exact U]].
        apply Strings_Proof3.unescaped_iff in U as [_ U]. congruence.
    + exists (Some p). split; auto. split; [lia|]. split; auto. apply Strings_Proof3.unescaped_iff. split; auto.
      destruct p as [|p]; [reflexivity|]. cbn [count_backslashes].
      replace (S p - 1)%nat with p in C by lia. cbn [Nat.ltb Nat.leb andb] in C. now rewrite C.
  - exists None. split; auto. intros q Hq U. destruct (le_lt_dec from q) as [l|l].
    + apply (Strings_Proof3.find_from_none _ _ _ E q); auto. now apply Strings_Proof3.unescaped_iff in U.
    + refine (F q _ U). lia.
Qed.
Definition even_at (s : text) (p : nat) : Prop := Nat.even (count_backslashes s p) = true.
Lemma even_plain s p : at_ s p <> 92 -> even_at s (S p).
Proof. unfold even_at. cbn [count_backslashes]. intros H. now replace (at_ s p =? 92) with false by lia. Qed.
Lemma odd_after s p : at_ s p = 92 -> even_at s p -> ~ even_at s (S p).
Proof.
  unfold even_at. cbn [count_backslashes]. intros -> H. change (92 =? 92) with true. cbv iota. rewrite Nat.even_succ, <- Nat.negb_even, H. discriminate.
Qed.
Lemma even_after s p : at_ s p = 92 -> even_at s p -> even_at s (S (S p)).
Proof.
  unfold even_at. cbn [count_backslashes]. intros -> H. destruct (at_ s (S p) =? 92); [|reflexivity]. exact H.
Qed.
Lemma unescaped_char pat s p c pat' : pat = c :: pat' -> unescaped_at pat s p -> at_ s p = c /\ even_at s p.
Proof.
  intros -> H. apply Strings_Proof3.unescaped_iff in H as [(a & b & -> & <-) E]. split; auto.
  cbn [app]. apply Strings_Proof.at_app.
Qed.
Lemma at_next a c b e r : b = e :: r -> at_ (a ++ c :: b) (S (length a)) = e.
Proof.
  intros ->. change (a ++ c :: e :: r) with (a ++ [c] ++ e :: r). rewrite app_assoc.
  replace (S (length a)) with (length (a ++ [c])) by (rewrite app_length; cbn; lia). apply Strings_Proof.at_app.
Qed.
Lemma short_scan q u : short_body q u -> q <> 92 -> forall a d, even_at (a ++ u ++ d) (length a) ->
  even_at (a ++ u ++ d) (length a + length u) /\
  forall i, (length a <= i < length a + length u)%nat -> ~ unescaped_at [q] (a ++ u ++ d) i.
Proof.
  intros H Q. induction H as [|c u C1 C2 H IH|c u H IH]; intros a d E; cbn [length].
  - rewrite Nat.add_0_r. split; [exact E | intros i K; lia].
  - assert (X : a ++ (c :: u) ++ d = (a ++ [c]) ++ u ++ d) by (now rewrite <- app_assoc).
    assert (Y : at_ (a ++ (c :: u) ++ d) (length a) = c) by apply Strings_Proof.at_app.
    rewrite X in *. destruct (IH (a ++ [c]) d) as [V1 V2].
    { rewrite app_length, Nat.add_1_r. apply even_plain. now rewrite Y. }
    rewrite app_length in *. cbn [length] in *. split; [now replace (length a + S (length u))%nat with (length a + 1 + length u)%nat by lia|].
    intros i K. destruct (Nat.eq_dec i (length a)) as [->|K'].
    + intros U. apply (unescaped_char _ _ _ q []) in U as [U _]; auto. congruence.
    + apply V2. lia.
  - assert (X : a ++ (92 :: c :: u) ++ d = (a ++ [92; c]) ++ u ++ d) by (now rewrite <- app_assoc).
    assert (Y : at_ (a ++ (92 :: c :: u) ++ d) (length a) = 92) by apply Strings_Proof.at_app.
    rewrite X in *. destruct (IH (a ++ [92; c]) d) as [V1 V2].
    { rewrite app_length. cbn [length]. replace (length a + 2)%nat with (S (S (length a))) by lia. now apply even_after. }
    rewrite app_length in *. cbn [length] in *. split; [now replace (length a + S (S (length u)))%nat with (length a + 2 + length u)%nat by lia|].
    intros i K. destruct (Nat.eq_dec i (length a)) as [->|K'].
    + intros U. apply (unescaped_char _ _ _ q []) in U as [U _]; auto. congruence.
    + destruct (Nat.eq_dec i (S (length a))) as [->|K2].
      * intros U. apply (unescaped_char _ _ _ q []) in U as [_ U]; auto. eapply odd_after; eauto.
      * apply V2. lia.
Qed.
Lemma even_repeat q a k d : q <> 92 -> even_at (a ++ repeat q k ++ d) (length a) ->
  even_at (a ++ repeat q k ++ d) (length a + k).
Proof.
  intros Q. revert a; induction k as [|k IH]; intros a E; [now rewrite Nat.add_0_r|].
  assert (X : a ++ repeat q (S k) ++ d = (a ++ [q]) ++ repeat q k ++ d) by (cbn [repeat app]; now rewrite <- app_assoc).
  assert (Y : at_ (a ++ repeat q (S k) ++ d) (length a) = q) by apply Strings_Proof.at_app.
  rewrite X in *. replace (length a + S k)%nat with (length (a ++ [q]) + k)%nat by (rewrite app_length; cbn; lia).
  apply IH. rewrite app_length. cbn [length]. rewrite Nat.add_1_r. apply even_plain. now rewrite Y.
Qed.
(* three quotes at i have no other character at p *)
Lemma three_quotes q s i p : unescaped_at [q; q; q] s i -> (i <= p <= i + 2)%nat -> at_ s p = q.
Proof.
  intros H L. apply Strings_Proof3.unescaped_iff in H as [(a & b & -> & <-) _].
  unfold at_. rewrite app_nth2 by lia. cbn [app]. destruct (p - length a)%nat as [|[|[|k]]] eqn:K; try reflexivity. lia.
Qed.
Lemma long_scan q u : long_body q u -> q <> 92 -> forall a d, even_at (a ++ u ++ d) (length a) ->
  even_at (a ++ u ++ d) (length a + length u) /\
  forall i, (length a <= i < length a + length u)%nat -> ~ unescaped_at [q; q; q] (a ++ u ++ d) i.
Proof.
  intros H Q. induction H as [|k c u K C1 C2 H IH|k c u K H IH]; intros a d E; cbn [length].
  - rewrite Nat.add_0_r. split; [exact E | intros i I; lia].
  - assert (X : a ++ (repeat q k ++ c :: u) ++ d = (a ++ repeat q k ++ [c]) ++ u ++ d) by (rewrite <- !app_assoc; reflexivity).
    assert (Y : at_ (a ++ (repeat q k ++ c :: u) ++ d) (length a + k) = c).
    { rewrite <- !app_assoc. rewrite app_assoc. cbn [app].
      replace (length a + k)%nat with (length (a ++ repeat q k)) by now rewrite app_length, repeat_length.
      apply Strings_Proof.at_app. }
    rewrite X in *. destruct (IH (a ++ repeat q k ++ [c]) d) as [V1 V2].
    { rewrite !app_length, repeat_length. cbn [length]. replace (length a + (k + 1))%nat with (S (length a + k)) by lia.
      apply even_plain. now rewrite Y. }
    rewrite !app_length, repeat_length in *. cbn [length] in *.
    split; [now replace (length a + (k + S (length u)))%nat with (length a + (k + 1) + length u)%nat by lia|].
    intros i I U. destruct (le_lt_dec i (length a + k)) as [L|L].
    + apply (three_quotes q _ i (length a + k)) in U; [congruence | lia].
    + eapply V2; eauto. lia.
  - assert (X : a ++ (repeat q k ++ 92 :: c :: u) ++ d = (a ++ repeat q k ++ [92; c]) ++ u ++ d) by (rewrite <- !app_assoc; reflexivity).
    assert (Y : at_ (a ++ (repeat q k ++ 92 :: c :: u) ++ d) (length a + k) = 92).
    { rewrite <- !app_assoc. rewrite app_assoc. cbn [app].
      replace (length a + k)%nat with (length (a ++ repeat q k)) by now rewrite app_length, repeat_length.
      apply Strings_Proof.at_app. }
    assert (Z : even_at (a ++ (repeat q k ++ 92 :: c :: u) ++ d) (length a + k)).
    { rewrite <- !app_assoc in *. now apply even_repeat. }
    rewrite X in *. destruct (IH (a ++ repeat q k ++ [92; c]) d) as [V1 V2].
    { rewrite !app_length, repeat_length. cbn [length]. replace (length a + (k + 2))%nat with (S (S (length a + k))) by lia.
      now apply even_after. }
    rewrite !app_length, repeat_length in *. cbn [length] in *.
    split; [now replace (length a + (k + S (S (length u))))%nat with (length a + (k + 2) + length u)%nat by lia|].
    intros i I U. destruct (le_lt_dec i (length a + k)) as [L|L].
    + apply (three_quotes q _ i (length a + k)) in U; [congruence | lia].
    + destruct (Nat.eq_dec i (S (length a + k))) as [->|L'].
      * apply (unescaped_char _ _ _ q [q; q]) in U as [_ U]; auto. eapply odd_after; eauto.
      * eapply V2; eauto. lia.
Qed.
Lemma even_start q d n : q <> 92 -> n <> O -> even_at (repeat q n ++ d) n.
Proof.
  intros Q N0. assert (E := even_repeat q [] n d Q). cbn [app length] in E. apply E. reflexivity.
Qed.
(* the first unescaped closing quotes *)
Lemma unique_first pat s from p r : (from <= p)%nat -> unescaped_at pat s p ->
  (forall i, (from <= i < p)%nat -> ~ unescaped_at pat s i) ->
  match r with
  | Some p => (from <= p)%nat /\ unescaped_at pat s p /\ forall q, (from <= q < p)%nat -> ~ unescaped_at pat s q
  | None => forall q, (from <= q)%nat -> ~ unescaped_at pat s q
  end -> r = Some p.
Proof.
  intros L U F H. destruct r as [p'|].
  - destruct H as (L' & U' & F'). f_equal. destruct (lt_eq_lt_dec p p') as [[K|K]|K]; auto; exfalso.
    + apply (F' p); auto.
    + apply (F p'); auto.
  - exfalso. eapply H; eauto.
Qed.

Definition not_quote (d : text) : Prop := forall c r, d = c :: r -> c <> 34 /\ c <> 39.
Definition after_string (s : parser) (t d : text) : parser := set_last t (set_data d s).
Lemma quote_92 q : In q [34; 39] -> q <> 92.
Proof. cbn [In]. lia. Qed.
Lemma short_quotes q u d : In q [34; 39] -> short_body q u -> not_quote d ->
  opening quotes4 ([q] ++ u ++ [q] ++ d) = Some [q].
Proof.
  intros I H D. unfold quotes4. cbn [opening app].
  assert (K : forall k, In k [34; 39] -> startsWith (q :: u ++ q :: d) [k; k; k] = false).
  { intros k Ik. cbn [startsWith]. destruct H as [|c u C1 C2 H|c u H]; cbn [app startsWith].
    - destruct d as [|e d]; [cbn [startsWith]; lia|]. cbn [startsWith]; destruct (D e d eq_refl). cbn [In] in *. lia.
    - cbn [In] in *. lia.
    - cbn [In] in *. lia. }
  rewrite !K by (cbn; auto). destruct I as [<-|[<-|[]]]; destruct u; reflexivity.
Qed.
Lemma long_quotes q r : In q [34; 39] -> opening quotes4 (repeat q 3 ++ r) = Some [q; q; q].
Proof. intros [<-|[<-|[]]]; unfold quotes4; cbn [opening repeat app startsWith N.eqb Pos.eqb andb]; destruct r; reflexivity. Qed.
Lemma string_full t v d s : quoted t v -> not_quote d -> data s = t ++ d -> stringParse s = Yes (after_string s t d).
Proof.
  intros H D E. unfold stringParse. rewrite E. destruct H as [q u v I H V|q u v I H V].
  - rewrite <- !app_assoc. rewrite short_quotes by auto. cbn [length].
    destruct (loop_from [q] ([q] ++ u ++ [q] ++ d) 1 (S (S (length ([q] ++ u ++ [q] ++ d)))) 1) as (r & -> & R); try lia.
    assert (Q := quote_92 q I).
    assert (E1 : even_at ([q] ++ u ++ [q] ++ d) (length [q])) by (apply (even_start q _ 1); auto).
    destruct (short_scan q u H Q [q] ([q] ++ d) E1) as [V1 V2]. cbn [length] in V1, V2.
    rewrite (unique_first [q] ([q] ++ u ++ [q] ++ d) 1 (1 + length u) r); auto; try lia.
    + replace (1 + length u + 1)%nat with (length ([q] ++ u ++ [q])) by (rewrite !app_length; cbn; lia).
      replace ([q] ++ u ++ [q] ++ d) with (([q] ++ u ++ [q]) ++ d) by now rewrite <- !app_assoc.
      now rewrite Strings_Proof.firstn_len, Strings_Proof.skipn_len.
    + apply Strings_Proof3.unescaped_iff. split; [|exact V1]. exists ([q] ++ u), d. split; [now rewrite <- !app_assoc|].
      rewrite app_length. reflexivity.
  - rewrite <- !app_assoc. rewrite long_quotes by auto. change (length [q; q; q]) with 3%nat. change [q; q; q] with (repeat q 3).
    set (txt := repeat q 3 ++ u ++ repeat q 3 ++ d) in *.
    destruct (loop_from (repeat q 3) txt 3 (S (S (length txt))) 3) as (r & -> & R); try lia.
    assert (Q := quote_92 q I).
    assert (E1 : even_at txt (length (repeat q 3))) by (apply (even_start q _ 3); auto).
    destruct (long_scan q u H Q (repeat q 3) (repeat q 3 ++ d) E1) as [V1 V2]. fold txt in V1, V2.
    change (length (repeat q 3)) with 3%nat in V1, V2.
    rewrite (unique_first (repeat q 3) txt 3 (3 + length u) r); auto; try lia.
    + assert (T : txt = (repeat q 3 ++ u ++ repeat q 3) ++ d) by (unfold txt; now rewrite <- !app_assoc).
      replace (3 + length u + 3)%nat with (length (repeat q 3 ++ u ++ repeat q 3)) by (rewrite !app_length, !repeat_length; lia).
      rewrite T. now rewrite Strings_Proof.firstn_len, Strings_Proof.skipn_len.
    + apply Strings_Proof3.unescaped_iff. split; [|exact V1]. exists (repeat q 3 ++ u), d. split; [unfold txt; now rewrite <- !app_assoc|].
      now rewrite app_length, repeat_length.
Qed.
Lemma unescaped_more pat x y i : unescaped_at pat x i -> unescaped_at pat (x ++ y) i.
Proof.
  intros (a & k & b & -> & O & K & ->). exists a, k, (b ++ y). repeat split; auto. now rewrite <- !app_assoc.
Qed.
Lemma unescaped_length pat x i : unescaped_at pat x i -> (i + length pat <= length x)%nat.
Proof. intros (a & k & b & -> & O & K & ->). rewrite !app_length, repeat_length. lia. Qed.
Lemma raise_loop pat x n : (forall i, (n <= i)%nat -> ~ unescaped_at pat x i) -> (0 < n)%nat ->
  literal_loop (S (S (length x))) x pat (find_str_from pat x n) = Some None.
Proof.
  intros H N0. destruct (loop_from pat x n (S (S (length x))) n) as (r & -> & R); try lia.
  destruct r as [p|]; [|reflexivity]. destruct R as (L & U & _). exfalso. eapply H; eauto.
Qed.
Lemma string_cut t v x y s : quoted t v -> x ++ y = t -> y <> [] -> data s = x ->
  (x = [] /\ stringParse s = No s) \/ (exists q r, x = q :: r /\ In q [34; 39]) /\ (stringParse s = Raised s \/
  exists q, In q [34; 39] /\ stringParse s = Yes (after_string s [q; q] [])).
Proof.
  intros H E Y D. destruct x as [|c x]; [left; unfold stringParse; rewrite D; auto|]. right.
  assert (LT : (length (c :: x) < length t)%nat).
  { rewrite <- E, app_length. destruct y; [contradiction | cbn; lia]. }
  unfold stringParse. rewrite D. destruct H as [q u v I H V|q u v I H V].
  - assert (C : c = q) by (cbn [app] in E; injection E as -> _; reflexivity). subst c.
    split; [exists q, x; auto|]. left.
    assert (OP : opening quotes4 (q :: x) = Some [q]).
    { assert (NQ : not_quote []) by discriminate. assert (G := short_quotes q u [] I H NQ).
      replace ([q] ++ u ++ [q] ++ []) with ((q :: x) ++ y) in G by (rewrite E; reflexivity).
      clear - G I. unfold quotes4 in *. cbn [opening app] in *.
      assert (K : forall k, startsWith (q :: x ++ y) [k; k; k] = false -> startsWith (q :: x) [k; k; k] = false).
      { intros k A. destruct (startsWith (q :: x) [k; k; k]) eqn:B; [|reflexivity].
        apply Strings_Proof3.startsWith_iff in B as [b B]. change (q :: x ++ y) with ((q :: x) ++ y) in A.
        rewrite B, <- app_assoc, Strings_Proof4.startsWith_app in A. discriminate. }
      destruct (startsWith (q :: x ++ y) [34; 34; 34]) eqn:A1; [discriminate|]. rewrite (K 34 A1).
      destruct (startsWith (q :: x ++ y) [39; 39; 39]) eqn:A2; [discriminate|]. rewrite (K 39 A2).
      destruct I as [<-|[<-|[]]]; destruct x; reflexivity. }
    rewrite OP. rewrite raise_loop; [reflexivity| |cbn [length]; lia]. cbn [length]. intros i Li U.
    assert (Q := quote_92 q I).
    assert (E1 : even_at ([q] ++ u ++ [q]) (length [q])) by (apply (even_start q _ 1); auto).
    destruct (short_scan q u H Q [q] [q] E1) as [_ V2]. apply (V2 i).
    + apply unescaped_length in U. cbn [length] in *. rewrite !app_length in LT. cbn [length] in *. lia.
    + rewrite <- E. now apply unescaped_more.
  - assert (C : c = q) by (cbn [app repeat] in E; injection E as -> _; reflexivity). subst c.
    split; [exists q, x; auto|].
    destruct x as [|c x].
    { left. destruct I as [<-|[<-|[]]]; reflexivity. }
    assert (C : c = q) by (cbn [app repeat] in E; injection E as -> _; reflexivity). subst c.
    destruct x as [|c x].
    { right. exists q. split; auto. destruct I as [<-|[<-|[]]]; reflexivity. }
    assert (C : c = q) by (cbn [app repeat] in E; injection E as -> _; reflexivity). subst c. left.
    change (q :: q :: q :: x) with (repeat q 3 ++ x) in *. rewrite long_quotes by auto.
    change [q; q; q] with (repeat q 3). change (length (repeat q 3)) with 3%nat.
    rewrite raise_loop; [reflexivity| |lia]. intros i Li U.
    assert (Q := quote_92 q I).
    assert (E1 : even_at (repeat q 3 ++ u ++ repeat q 3) (length (repeat q 3))) by (apply (even_start q _ 3); auto).
    destruct (long_scan q u H Q (repeat q 3) (repeat q 3) E1) as [_ V2]. apply (V2 i).
    + apply unescaped_length in U. rewrite !app_length in LT. rewrite repeat_length in *. rewrite app_length, repeat_length in U. lia.
    + rewrite <- E. now apply unescaped_more.
Qed.
Lemma string_value t v : quoted t v -> normalizeRDFLiteral t = Val ([34] ++ v ++ [34]).
Proof.
  intros [q u w I H V|q u w I H V].
  - apply (Strings_Thm.C51_literal_partial [q] u w); auto.
    + cbn [In] in I. unfold Strings_Proof4.quotes. cbn [In]. intuition (subst; auto).
    + intros c E. injection E as <-. destruct H as [|c u C1 C2 H|c u H]; cbn [hd_error]; try discriminate.
      * congruence.
      * intros K; injection K as <-. cbn [In] in I. lia.
  - apply (Strings_Thm.C51_literal_partial (repeat q 3) u w); auto.
    + cbn [In] in I. unfold Strings_Proof4.quotes. cbn [In repeat]. intuition (subst; auto).
    + discriminate.
Qed.
Lemma quoted_head t v : quoted t v -> exists q r, t = q :: r /\ In q [34; 39].
Proof. intros [q u w I H V|q u w I H V]; do 2 eexists; (split; [reflexivity | exact I]). Qed.
