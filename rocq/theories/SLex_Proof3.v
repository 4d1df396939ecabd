(* Proofs about the SPARQL lexer: every token is read. *)
From Coq Require Import Ascii String List NArith Arith Bool Lia ZifyBool ZifyN ZifyNat.
From Verif Require Import Strings_Model Strings_Spec SLex_Model SLex_Spec SLex_Proof SLex_Proof2.
From Verif Require Strings_Proof Conv_Model Conv_Spec Conv_Proof5 Turtle_Model Turtle_Spec Turtle_Proof Turtle_Proof2 Turtle_Proof3.
Import ListNotations.
Open Scope N_scope.
Open Scope list_scope.
Import Turtle_Proof Turtle_Proof2.
Ltac not_lit c := destruct c as [|?p]; auto; repeat (match goal with p : positive |- _ => destruct p as [p|p|]; auto end); try congruence.

(* ---- the other expressions ---- *)
Lemma variable_other c d : c <> 63 -> variable_re (c :: d) = None.
Proof. intros H. unfold variable_re. not_lit c. Qed.
Lemma or_other c d : c <> 124 -> word [124; 124] (c :: d) = None.
Proof. intros H. unfold Turtle_Model.word. cbn [startsWith]. now replace (c =? 124) with false by lia. Qed.
Lemma pname_unfold t : (forall r, t <> 58 :: r) -> pname_ns_re t =
  match one pn_base t with
  | Some n =>
    let m := many (dots (one pn_chars)) (skipn n t) in
    match skipn (n + m) t with 58 :: _ => Some (n + m + 1)%nat | _ => None end
  | None => None
  end.
Proof. intros H. unfold pname_ns_re. now rewrite pname_58. Qed.
Lemma pname_other c d : c < 128 -> c <> 58 -> ~ is_letter c -> pname_ns_re (c :: d) = None.
Proof.
  intros A B C. rewrite pname_unfold by congruence. rewrite one_low, base_low by lia.
  replace (Turtle_Model.letter c) with false; [reflexivity|]. rewrite letter_ok in C. now destruct (Turtle_Model.letter c).
Qed.
Lemma iri_other c d : c < 128 -> c <> 58 -> c <> 60 -> c <> 64 -> ~ is_letter c -> iri_re (c :: d) = None.
Proof.
  intros A B C D L. rewrite iri_re_head by auto. unfold iri_body_re, Turtle_Model.alt, Turtle_Model.seq2.
  rewrite iriref_other, pname_other by auto. reflexivity.
Qed.
Lemma literal_other c d : c <> 34 -> c <> 39 -> literal_re (c :: d) = None.
Proof. intros A B. unfold literal_re, string_re. now replace ((c =? 34) || (c =? 39)) with false by lia. Qed.
Lemma integer_other c d : c <> 45 -> ~ is_digit c -> integer_re (c :: d) = None.
Proof.
  intros A B. unfold integer_re, Turtle_Model.opt. replace (45 =? c) with false by lia. cbn [skipn]. unfold Turtle_Model.plus.
  cbn [Turtle_Model.span]. replace (Turtle_Model.digit c) with false; [reflexivity|].
  rewrite digit_ok in B. now destruct (Turtle_Model.digit c).
Qed.
Lemma float_other d : integer_re d = None -> float_re d = None.
Proof. intros H. unfold float_re. now rewrite H. Qed.

(* ---- names do not begin with a word ---- *)
Lemma word_some k d n : word_i k d = Some n -> Forall (fun c => low c = true) k -> n = length k /\ exists u r, d = u ++ r /\ length u = n /\ written u k.
Proof.
  revert d n. induction k as [|a k IH]; intros d n H L.
  - injection H as <-. split; auto. exists [], d. repeat split; constructor.
  - destruct d as [|b d]; [discriminate|]. cbn [word_i] in H. destruct (N.eqb_spec (tolower b) a) as [E|E]; [|discriminate].
    destruct (word_i k d) as [m|] eqn:M; [|discriminate]. injection H as <-. inversion_clear L as [|? ? La Lk].
    destruct (IH d m M Lk) as (-> & u & r & -> & U & W). split; auto. exists (b :: u), r. cbn [length]. repeat split; auto.
    constructor; auto. subst a. unfold low, tolower, same_letter, Turtle_Spec.is_letter, Turtle_Spec.range in *.
    destruct ((65 <=? b) && (b <=? 90)) eqn:F; lia.
Qed.
Lemma written_free u k x : written u k -> Forall (fun c => low c = true) k -> ~ is_letter x -> x <> 95 -> ~ In x u.
Proof.
  intros W L A B. induction W as [|c a u k S _ IH]; [easy|]. inversion_clear L as [|? ? La Lk]. intros [->|I]; [|now apply IH].
  unfold low, same_letter, Turtle_Spec.is_letter, Turtle_Spec.range in *. lia.
Qed.
(* a match that does not contain x lies before x *)
Lemma match_before (p d u r : text) x : p ++ x :: d = u ++ r -> ~ In x u -> exists t, p = u ++ t /\ r = t ++ x :: d.
Proof.
  revert p. induction u as [|c u IH]; intros p E H.
  - exists p. auto.
  - destruct p as [|b p]; cbn [app] in E; injection E as -> E.
    + exfalso. apply H. now left.
    + destruct (IH p E) as (t & -> & ->). { intros I; apply H; now right. } exists t; auto.
Qed.
Definition colon_letter : ~ is_letter 58 /\ 58 <> 95.
Proof. unfold Turtle_Spec.is_letter, Turtle_Spec.range. lia. Qed.
Lemma reserved_low : forallb (forallb low) (reserved ++ map bytes ["group"; "order"; "by"]%string) = true.
Proof. vm_compute. reflexivity. Qed.
Lemma low_in k : In k (reserved ++ map bytes ["group"; "order"; "by"]%string) -> Forall (fun c => low c = true) k.
Proof. intros I. assert (H := reserved_low). rewrite forallb_forall in H. specialize (H k I). now apply Forall_forall, forallb_forall. Qed.
Lemma word_none p l k : ~ begins_reserved (p ++ [58] ++ l) -> In k reserved -> forall d, word_i k (p ++ 58 :: d) = None.
Proof.
  intros B I d. destruct (word_i k (p ++ 58 :: d)) as [n|] eqn:E; [exfalso|reflexivity].
  assert (L : Forall (fun c => low c = true) k) by (apply low_in, in_or_app; auto).
  destruct (word_some k _ n E L) as (_ & u & r & F & _ & W).
  destruct (match_before p d u r 58 F) as (t & -> & _). { eapply written_free; eauto; apply colon_letter. }
  apply B. exists k, u, (t ++ [58] ++ l). repeat split; auto. now rewrite <- app_assoc.
Qed.
Lemma first_none p l ks : ~ begins_reserved (p ++ [58] ++ l) -> (forall k, In k ks -> In k reserved) -> forall d,
  first_of ks (p ++ 58 :: d) = None.
Proof.
  intros B I d. induction ks as [|k ks IH]; [reflexivity|]. cbn [first_of].
  rewrite (word_none p l) by (auto; apply I; now left). apply IH. intros; apply I; now right.
Qed.
Lemma prefix_blank p x : prefix p -> re_space x = true -> ~ In x p.
Proof.
  intros [->|(u & r & U & R & ->)] X; [easy|]. assert (L : x < 128) by (unfold re_space in X; lia).
  assert (Nx : ~ name_char x) by (unfold re_space in X; classes; lia).
  intros I. apply in_app_or in I as [I|I].
  - eapply (encoded_free _ u x); eauto. unfold re_space in X. classes. lia.
  - induction R as [|k v r V _ IH]; [easy|]. apply in_app_or in I as [I|I].
    + apply repeat_spec in I. unfold re_space in X. lia.
    + apply in_app_or in I as [I|I]; [|now apply IH]. eapply (encoded_free _ v x); eauto.
Qed.
Lemma by_none p l a : prefix p -> ~ begins_reserved (p ++ [58] ++ l) -> In a (map bytes ["group"; "order"]%string) ->
  forall d, words_by a (p ++ 58 :: d) = None.
Proof.
  intros P B I d. unfold words_by. destruct (word_i a (p ++ 58 :: d)) as [n|] eqn:E; [|reflexivity].
  assert (L : Forall (fun c => low c = true) a). { apply low_in, in_or_app. right. cbn [map In] in I |- *. tauto. }
  destruct (word_some a _ n E L) as (_ & u & r & F & U & W).
  destruct (match_before p d u r 58 F) as (t & -> & ->). { eapply written_free; eauto; apply colon_letter. }
  rewrite F, <- U, Strings_Proof.skipn_len.
  assert (S : span re_space (t ++ 58 :: d) = O).
  { destruct t as [|c t]; [reflexivity|]. cbn [app Turtle_Model.span]. destruct (re_space c) eqn:C; [exfalso|reflexivity].
    apply (prefix_blank _ c P C). apply in_or_app. right. now left. }
  rewrite S, Nat.add_0_r, Strings_Proof.skipn_len.
  destruct (word_i (bytes "by") (t ++ 58 :: d)) as [m|] eqn:M; [exfalso|reflexivity].
  assert (L2 : Forall (fun c => low c = true) (bytes "by")) by (apply low_in, in_or_app; right; cbn [map In]; tauto).
  destruct (word_some _ _ m M L2) as (_ & v & r & F2 & V & W2).
  destruct (match_before t d v r 58 F2) as (t2 & -> & _). { eapply written_free; eauto; apply colon_letter. }
  apply B. exists (a ++ bytes "by"), (u ++ v), (t2 ++ [58] ++ l). split; [|split].
  - unfold reserved. apply in_or_app. right. apply in_or_app. right. cbn [map In] in *.
    destruct I as [<-|[<-|[]]]; [left | right; left]; reflexivity.
  - now apply Forall2_app.
  - now rewrite <- !app_assoc.
Qed.
Lemma name_no_word p l d : prefix p -> ~ begins_reserved (p ++ [58] ++ l) -> no_word ((p ++ [58] ++ l) ++ d).
Proof.
  intros P B. rewrite <- !app_assoc. cbn [app]. repeat split.
  - apply (first_none p l); auto. intros k I. unfold reserved. apply in_or_app. left. cbn [In keywords words map] in *. tauto.
  - apply (by_none p l); auto. cbn [map In]. tauto.
  - apply (by_none p l); auto. cbn [map In]. tauto.
  - apply (first_none p l); auto. intros k I. unfold reserved. apply in_or_app. right. apply in_or_app. left.
    cbn [In aggregates aggregate_words map] in *. tauto.
Qed.
Lemma match_iri i f d : iri_text i f -> ~ begins_reserved i -> f d -> match_token (i ++ d) = Some (IRI, length i).
Proof.
  intros I B D. assert (W : no_word (i ++ d)).
  { destruct I as [u U|p l P L]; [|now apply name_no_word]. apply no_letter_no_word. unfold Turtle_Spec.is_letter, Turtle_Spec.range. lia. }
  rewrite no_word_match by auto. rewrite (iri_ok i f) by auto.
  destruct (iri_head i f d I) as (c & r & -> & C). unfold Turtle_Spec.is_letter, Turtle_Spec.range in C.
  rewrite or_other, variable_other by lia. reflexivity.
Qed.
Lemma match_tagged l i f d : language l -> iri_text i f -> f d ->
  match_token (([64] ++ l ++ [64] ++ i) ++ d) = Some (IRI, length ([64] ++ l ++ [64] ++ i)).
Proof.
  intros L I D. rewrite no_word_match by (apply no_letter_no_word; unfold Turtle_Spec.is_letter, Turtle_Spec.range; lia).
  rewrite (tagged_ok l i f) by auto. cbn [app]. rewrite or_other, variable_other by lia. reflexivity.
Qed.

(* ---- variables ---- *)
Lemma var_ok x : name_char x /\ x <> 45 -> var_char x = true.
Proof. intros [H N]. unfold var_char. classes. lia. Qed.
Lemma match_variable u us d : encoded (fun x => name_start x \/ is_digit x) u ->
  Forall (encoded (fun x => name_char x /\ x <> 45)) us -> head_ascii_not name_char d ->
  match_token (63 :: u ++ concat us ++ d) = Some (VARIABLE, length (63 :: u ++ concat us)).
Proof.
  intros U V D. rewrite no_word_match by (apply no_letter_no_word; unfold Turtle_Spec.is_letter, Turtle_Spec.range; lia).
  rewrite or_other by lia. cbn [variable_re]. rewrite (one_ok _ _ u _ U label_first_ok), Strings_Proof.skipn_len.
  rewrite many_units.
  - cbn [length]. now rewrite app_length.
  - eapply Forall_impl; [|exact V]. intros v H. split; [eapply encoded_nonempty; eauto|]. intros e.
    eapply one_ok; eauto. apply var_ok.
  - destruct d as [|c d]; [reflexivity|]. destruct (D c d eq_refl) as [L K]. rewrite one_low by auto.
    unfold var_char. destruct (low_chars c L K) as (_ & -> & ->). classes. now replace (_ || _) with false by lia.
Qed.

(* ---- literals ---- *)
Lemma string_units u : string_body u ->
  exists us, u = concat us /\ Forall (unit_of (Turtle_Model.alt (one (string_char 34)) echar)) us.
Proof.
  induction 1 as [|u r H _ (us & -> & IH)|c d r E _ (us & -> & IH)].
  - exists []. auto.
  - exists (u :: us). split; auto. constructor; auto. split; [eapply encoded_nonempty; eauto|].
    intros d. unfold Turtle_Model.alt. erewrite one_ok; eauto. intros x X. unfold string_char. cbn [In existsb] in *. lia.
  - exists ([92; c] :: us). split; auto. constructor; auto. split; [discriminate|]. intros d'.
    unfold Turtle_Model.alt. cbn [app]. rewrite one_low by lia. change (string_char 34 92) with false. cbv iota.
    unfold echar. cbv iota. replace (existsb _ _) with true; [reflexivity|]. symmetry.
    unfold string_escape in E. cbn [In] in E. cbn [existsb].
    repeat (destruct E as [E|E]; [injection E as <- _; reflexivity|]). destruct E.
Qed.
Lemma suffix_ok x f d : suffix_text x f -> f d ->
  Turtle_Model.alt langtag_re (Turtle_Model.seq2 (word [94; 94]) iri_re) (x ++ d) = match x with [] => None | _ => Some (length x) end.
Proof.
  intros [|l L|i g I] D; unfold Turtle_Model.alt.
  - cbn [app]. destruct d as [|c d]; [reflexivity|]. assert (K := D c d eq_refl). cbv beta in K.
    rewrite langtag_other by tauto. unfold Turtle_Model.seq2, Turtle_Model.word. cbn [startsWith]. 
    now replace (c =? 94) with false by lia.
  - rewrite <- app_assoc. rewrite langtag_ok by auto. reflexivity.
  - change (langtag_re (([94; 94] ++ i) ++ d)) with (@None nat). cbv iota. unfold Turtle_Model.seq2.
    rewrite <- app_assoc, word_app, Strings_Proof.skipn_len, (iri_ok i g) by auto. cbn [option_map].
    now rewrite app_length.
Qed.
Lemma literal_ok u x f d : string_body u -> suffix_text x f -> f d ->
  literal_re (([34] ++ u ++ [34] ++ x) ++ d) = Some (length ([34] ++ u ++ [34] ++ x)).
Proof.
  intros U X D. destruct (string_units u U) as (us & E & F). unfold literal_re.
  assert (S : string_re (([34] ++ u ++ [34] ++ x) ++ d) = Some (length ([34] ++ u ++ [34]))).
  { rewrite <- !app_assoc. cbn [app string_re]. change ((34 =? 34) || (34 =? 39)) with true. cbv iota.
    rewrite E, many_units; auto. rewrite Strings_Proof.skipn_len. change (34 =? 34) with true. cbv iota. cbn [length]. rewrite app_length. cbn [length]. f_equal. lia. }
  rewrite S. replace (([34] ++ u ++ [34] ++ x) ++ d) with (([34] ++ u ++ [34]) ++ x ++ d) by now rewrite <- !app_assoc.
  rewrite Strings_Proof.skipn_len, (suffix_ok x f) by auto. destruct x as [|c x].
  - now rewrite app_nil_r.
  - replace ([34] ++ u ++ [34] ++ c :: x) with (([34] ++ u ++ [34]) ++ c :: x) by now rewrite <- !app_assoc.
    now rewrite (app_length (_ ++ _)).
Qed.
Lemma match_literal u x f d : string_body u -> suffix_text x f -> f d ->
  match_token (([34] ++ u ++ [34] ++ x) ++ d) = Some (RDFLITERAL, length ([34] ++ u ++ [34] ++ x)).
Proof.
  intros U X D. rewrite no_word_match by (apply no_letter_no_word; unfold Turtle_Spec.is_letter, Turtle_Spec.range; lia).
  rewrite (literal_ok u x f) by auto. cbn [app].
  rewrite or_other, variable_other, iri_other by (unfold Turtle_Spec.is_letter, Turtle_Spec.range; lia). reflexivity.
Qed.

(* ---- numbers ---- *)
Lemma integer_ok sg ds d : sg = [] \/ sg = [45] -> ds <> [] -> Forall is_digit ds -> head_not is_digit d ->
  integer_re ((sg ++ ds) ++ d) = Some (length (sg ++ ds)).
Proof.
  intros S N H D. assert (P : Turtle_Model.plus Turtle_Model.digit (ds ++ d) = Some (length ds)).
  { apply plus_app; auto.
    - eapply Forall_impl; [|exact H]. intros c C. now apply digit_ok.
    - intros c r E. specialize (D c r E). rewrite digit_ok in D. now destruct (Turtle_Model.digit c). }
  unfold integer_re, Turtle_Model.opt. destruct S as [->| ->]; cbn [app].
  - destruct ds as [|c ds]; [contradiction|]. cbn [app] in *. inversion_clear H as [|? ? C _].
    replace (45 =? c) with false by (unfold Turtle_Spec.is_digit, Turtle_Spec.range in C; lia). cbn [skipn]. now rewrite P.
  - change (45 =? 45) with true. cbv iota. cbn [skipn]. now rewrite P.
Qed.
Lemma number_head sg ds (d : text) : sg = [] \/ sg = [45] -> ds <> [] -> Forall is_digit ds ->
  exists c r, (sg ++ ds) ++ d = c :: r /\ (c = 45 \/ is_digit c).
Proof.
  intros S N H. destruct S as [->| ->]; [|do 2 eexists; split; [reflexivity | auto]].
  destruct ds as [|c ds]; [contradiction|]. inversion_clear H. do 2 eexists; split; [reflexivity | auto].
Qed.
Lemma number_before c r : c = 45 \/ is_digit c -> match_token (c :: r) =
  match float_re (c :: r) with Some n => Some (FLOAT, n) | None =>
  match integer_re (c :: r) with Some n => Some (INTEGER, n) | None =>
  match symbol_re (c :: r) with Some n => Some (SYMBOL, n) | None =>
  match ws_re (c :: r) with Some n => Some (WS, n) | None => None end end end end.
Proof.
  intros H. unfold Turtle_Spec.is_digit, Turtle_Spec.range in H.
  rewrite no_word_match by (apply no_letter_no_word; unfold Turtle_Spec.is_letter, Turtle_Spec.range; lia).
  now rewrite or_other, variable_other, iri_other, literal_other by (unfold Turtle_Spec.is_letter, Turtle_Spec.range; lia).
Qed.
Lemma match_dot {A} (d : text) (f : text -> A) (b : A) : (forall r, d <> 46 :: r) -> match d with 46 :: r => f r | _ => b end = b.
Proof. intros H. destruct d as [|c d]; [reflexivity|]. assert (c <> 46) by (intros ->; now contradiction (H d)). clear H. not_lit c. Qed.
Lemma match_integer sg ds d : sg = [] \/ sg = [45] -> ds <> [] -> Forall is_digit ds -> after_integer d ->
  match_token ((sg ++ ds) ++ d) = Some (INTEGER, length (sg ++ ds)).
Proof.
  intros S N H [D E]. assert (I := integer_ok sg ds d S N H D).
  assert (F : float_re ((sg ++ ds) ++ d) = None).
  { unfold float_re. rewrite I, Strings_Proof.skipn_len.
    destruct d as [|c d]; [reflexivity|]. destruct (N.eq_dec c 46) as [->|C]; [|clear - C; not_lit c].
    specialize (E d eq_refl). unfold Turtle_Model.plus. destruct d as [|c d]; [reflexivity|]. specialize (E c d eq_refl).
    rewrite digit_ok in E. cbn [Turtle_Model.span]. now destruct (Turtle_Model.digit c). }
  destruct (number_head sg ds d S N H) as (c & r & G & C). rewrite G in *. rewrite number_before by auto. now rewrite F, I.
Qed.
Lemma match_decimal sg ds es d : sg = [] \/ sg = [45] -> ds <> [] -> Forall is_digit ds -> es <> [] -> Forall is_digit es ->
  head_not is_digit d -> match_token ((sg ++ ds ++ [46] ++ es) ++ d) = Some (FLOAT, length (sg ++ ds ++ [46] ++ es)).
Proof.
  intros S N H N' H' D.
  replace ((sg ++ ds ++ [46] ++ es) ++ d) with ((sg ++ ds) ++ [46] ++ es ++ d) by now rewrite <- !app_assoc.
  assert (F : float_re ((sg ++ ds) ++ [46] ++ es ++ d) = Some (length (sg ++ ds ++ [46] ++ es))).
  { unfold float_re. rewrite integer_ok; auto.
    - rewrite Strings_Proof.skipn_len. cbn [app]. rewrite plus_app; auto.
      + cbn [option_map]. rewrite !app_length. cbn [length]. f_equal. lia.
      + eapply Forall_impl; [|exact H']. intros c C. now apply digit_ok.
      + intros c r E. specialize (D c r E). rewrite digit_ok in D. now destruct (Turtle_Model.digit c).
    - intros c r E. cbn [app] in E. injection E as <- _. unfold Turtle_Spec.is_digit, Turtle_Spec.range. lia. }
  destruct (number_head sg ds ([46] ++ es ++ d) S N H) as (c & r & G & C). rewrite G in *. rewrite number_before by auto. now rewrite F.
Qed.

(* ---- symbols ---- *)
Lemma match_symbol c d : In c [46; 123; 125; 40; 41; 61; 42; 44; 59; 62; 33; 47; 94; 43] -> match_token (c :: d) = Some (SYMBOL, 1%nat).
Proof. cbn [In]. intros H. repeat (destruct H as [<-|H]; [reflexivity|]). destruct H. Qed.
Lemma match_less d : (forall u r, d = u ++ 62 :: r -> exists c, In c u /\ (c <= 32 \/ In c iri_forbidden)) ->
  match_token (60 :: d) = Some (SYMBOL, 1%nat).
Proof.
  intros H. rewrite no_word_match by (apply no_letter_no_word; unfold Turtle_Spec.is_letter, Turtle_Spec.range; lia).
  rewrite or_other, variable_other by lia. rewrite iri_re_head by lia. unfold iri_body_re, Turtle_Model.alt, Turtle_Model.seq2.
  rewrite iriref_none by auto. rewrite pname_other by (unfold Turtle_Spec.is_letter, Turtle_Spec.range; lia). reflexivity.
Qed.
Lemma match_bar d : head_not (eq 124) d -> match_token (124 :: d) = Some (SYMBOL, 1%nat).
Proof.
  intros H. rewrite no_word_match by (apply no_letter_no_word; unfold Turtle_Spec.is_letter, Turtle_Spec.range; lia).
  unfold Turtle_Model.word. cbn [startsWith]. change (124 =? 124) with true. cbn [andb].
  assert (E : startsWith d [124] = false).
  { destruct d as [|c d]; [reflexivity|]. specialize (H c d eq_refl). cbn [startsWith]. now replace (c =? 124) with false by lia. }
  rewrite E. reflexivity.
Qed.
Lemma match_question d : head_ascii_not name_char d -> match_token (63 :: d) = Some (SYMBOL, 1%nat).
Proof.
  intros H. rewrite no_word_match by (apply no_letter_no_word; unfold Turtle_Spec.is_letter, Turtle_Spec.range; lia).
  rewrite or_other by lia. cbn [variable_re].
  assert (E : one (fun x => pn_u x || Turtle_Model.digit x) d = None).
  { destruct d as [|c d]; [reflexivity|]. destruct (H c d eq_refl) as [L K]. rewrite one_low by auto.
    destruct (low_chars c L K) as (_ & -> & ->). reflexivity. }
  rewrite E. reflexivity.
Qed.
Lemma match_minus d : head_not is_digit d -> match_token (45 :: d) = Some (SYMBOL, 1%nat).
Proof.
  intros H. rewrite number_before by auto.
  assert (E : integer_re (45 :: d) = None).
  { unfold integer_re, Turtle_Model.opt. change (45 =? 45) with true. cbv iota. cbn [skipn]. unfold Turtle_Model.plus.
    destruct d as [|c d]; [reflexivity|]. specialize (H c d eq_refl). rewrite digit_ok in H. cbn [Turtle_Model.span].
    now destruct (Turtle_Model.digit c). }
  rewrite float_other by auto. rewrite E. reflexivity.
Qed.

(* ---- a token and its value ---- *)
Definition type_of (k : kind) : ttype :=
  match k with
  | KIri => IRI | KWord => KEYWORD | KGroupBy => GROUP_BY | KOrderBy => ORDER_BY | KVariable => VARIABLE
  | KSymbol => SYMBOL | KAggregate => AGGREGATE | KLiteral => RDFLITERAL | KInteger => INTEGER | KDecimal => FLOAT
  | KOr => LOGICAL_OR
  end.
Lemma encoded_no P u k : encoded P u -> k < 128 -> ~ P k -> ~ In k u.
Proof. apply encoded_free. Qed.
Lemma escape_free u k : name_escape u -> ~ In k [37; 92] -> (forall c, local_escape c c -> c <> k) -> ~ Turtle_Spec.is_hex k -> ~ In k u.
Proof.
  intros [(a & b & A & B & ->)|(c & C & _ & ->)] K L X I; cbn [In] in *; intuition (subst; auto); eapply L; eauto.
Qed.
Lemma iri_free_quote i f : iri_text i f -> ~ In 34 i.
Proof.
  assert (H34 : ~ name_char 34) by (classes; lia).
  assert (NR : forall r, name_rest r -> ~ In 34 r).
  { induction 1 as [|k u r U _ IH]; [easy|]. intros I. apply in_app_or in I as [I|I]; [apply repeat_spec in I; discriminate|].
    apply in_app_or in I as [I|I]; [|auto]. eapply (encoded_no _ u 34); eauto. lia. }
  assert (UN : forall u, lunit u -> ~ In 34 u).
  { intros u [U|U].
    - eapply encoded_no; eauto; [lia|]. intros [?|?]; [auto | discriminate].
    - apply escape_free; auto; [cbn; lia| |unfold Turtle_Spec.is_hex; classes; lia].
      intros c [_ C] ->. cbn [In] in C. lia. }
  assert (LR : forall r, local_rest r -> ~ In 34 r).
  { induction 1 as [|k u r U _ IH]; [easy|]. intros I. apply in_app_or in I as [I|I]; [apply repeat_spec in I; discriminate|].
    apply in_app_or in I as [I|I]; [|auto]. exact (UN u U I). }
  intros [u U|p l P L] I.
  - cbn [app In] in I. destruct I as [I|I]; [discriminate|]. apply in_app_or in I as [I|[I|[]]]; [|discriminate].
    induction U as [|u r H _ IH]; [easy|]. apply in_app_or in I as [I|I]; [|auto]. eapply (encoded_no _ u 34); eauto; [lia|].
    intros [_ K]. apply K. unfold iri_forbidden. cbn [In]. tauto.
  - apply in_app_or in I as [I|[I|I]]; [|discriminate|].
    + destruct P as [->|(u & r & U & R & ->)]; [easy|]. apply in_app_or in I as [I|I]; [|eapply NR; eauto].
      eapply (encoded_no _ u 34); eauto; [lia|]. intros K. apply H34. left; now left.
    + change (In 34 l) in I. destruct L as [->|(u & r & U & R & ->)]; [easy|]. apply in_app_or in I as [I|I]; [|eapply LR; eauto].
      destruct U as [U|U]; [|exact (UN u (or_intror U) I)]. eapply (encoded_no _ u 34); eauto; [lia|].
      intros [K|[K|K]]; [apply H34; now left | discriminate | unfold Turtle_Spec.is_digit, Turtle_Spec.range in K; lia].
Qed.
Lemma suffix_free_quote x f : suffix_text x f -> ~ In 34 x.
Proof.
  intros [|l (w & r & _ & W & R & ->)|i g I].
  - easy.
  - intros [I|I]; [discriminate|]. change (In 34 (w ++ r)) in I. apply in_app_or in I as [I|I].
    + rewrite Forall_forall in W. specialize (W 34 I). unfold Turtle_Spec.is_letter, Turtle_Spec.range in W. lia.
    + induction R as [|v r _ V _ IH]; [easy|]. destruct I as [I|I]; [discriminate|]. apply in_app_or in I as [I|I]; [|auto].
      rewrite Forall_forall in V. specialize (V 34 I). classes. lia.
  - intros [J|[J|J]]; try discriminate. exact (iri_free_quote i g I J).
Qed.
Lemma body_short u : string_body u -> Turtle_Spec.short_body 34 u.
Proof.
  induction 1 as [|u r (x & X & U) _ IH|c d r E _ IH]; [constructor| |].
  - destruct (utf8_bytes_high x u U) as [->|H].
    + cbn [app]. apply Turtle_Spec.sb_char; [intros ->; apply X; cbn [In]; tauto.. | exact IH].
    + clear U. induction H as [|c u C _ IHu]; [exact IH|]. cbn [app]. apply Turtle_Spec.sb_char; [lia.. | exact IHu].
  - now apply Turtle_Spec.sb_escape.
Qed.
Lemma escaped_numeric u s : escaped string_escape False False u s -> escaped string_escape True False u s.
Proof. induction 1; try contradiction; constructor; auto. Qed.
Lemma literal_value u s x f : string_body u -> escaped string_escape False False u s -> suffix_text x f ->
  literal_raw ([34] ++ u ++ [34] ++ x) = Ok ([34] ++ s ++ [34] ++ x).
Proof.
  intros U E X. unfold literal_raw.
  assert (Q : Conv_Model.rfind 34 (([34] ++ u) ++ 34 :: x) = Some (length ([34] ++ u))).
  { apply Conv_Proof5.rfind_last. apply Forall_forall. intros c I. destruct (N.eqb_spec 34 c) as [<-|]; auto. exfalso. eapply suffix_free_quote; eauto. }
  replace ([34] ++ u ++ [34] ++ x) with (([34] ++ u) ++ 34 :: x) by now rewrite <- app_assoc. rewrite Q.
  replace (([34] ++ u) ++ 34 :: x) with (([34] ++ u ++ [34]) ++ x) by now rewrite <- !app_assoc.
  replace (S (length ([34] ++ u))) with (length ([34] ++ u ++ [34])) by (rewrite !app_length; cbn [length]; lia).
  rewrite firstn_exact, Strings_Proof.skipn_len.
  rewrite (Turtle_Proof3.string_value _ s).
  - cbn [escaping bind]. now rewrite <- !app_assoc.
  - apply (Turtle_Spec.q_short 34 u s); [cbn; auto | now apply body_short | now apply escaped_numeric].
Qed.
Lemma match_ok k w v f d : token_text k w v f -> f d ->
  match_token (w ++ d) = Some (type_of k, length w) /\ raw_of (type_of k) w = Ok v /\ w <> [].
Proof.
  intros H D. destruct H as [w k I W|w k I W|a s b A S B|a s b A S B|u us U V|i f I B|l i f L I|u s x f U E X|sg ds S N H|sg ds es S N H N' H'| |c C| | | |];
    cbn [type_of raw_of].
  - split; [now apply (match_word k)|]. assert (L := written_lower w k W (words_low k (or_introl I))). rewrite L. split; auto.
    intros ->. inversion W; subst. vm_compute in I. repeat (destruct I as [I|I]; [discriminate|]). destruct I.
  - split; [now apply (match_aggregate k)|]. assert (L := written_lower w k W (words_low k (or_intror I))). rewrite L. split; auto.
    intros ->. inversion W; subst. vm_compute in I. repeat (destruct I as [I|I]; [discriminate|]). destruct I.
  - split; [rewrite <- !app_assoc; now apply match_group|]. rewrite !lower_app, (lower_blanks s) by auto.
    rewrite (written_lower a (bytes "group")), (written_lower b (bytes "by"))
      by first [assumption | apply low_in, in_or_app; right; cbn [map In]; tauto].
    split; auto. apply written_cons in A as (c & r & -> & _). discriminate.
  - split; [rewrite <- !app_assoc; now apply match_order|]. rewrite !lower_app, (lower_blanks s) by auto.
    rewrite (written_lower a (bytes "order")), (written_lower b (bytes "by"))
      by first [assumption | apply low_in, in_or_app; right; cbn [map In]; tauto].
    split; auto. apply written_cons in A as (c & r & -> & _). discriminate.
  - split; [|split; [reflexivity | discriminate]]. cbn [app]. rewrite <- app_assoc. now apply match_variable.
  - split; [now apply (match_iri i f)|]. split; auto. destruct (iri_head i f [] I) as (c & r & E & _). rewrite app_nil_r in E. subst i. discriminate.
  - split; [now apply (match_tagged l i f)|]. split; [reflexivity | discriminate].
  - split; [now apply (match_literal u x f)|]. split; [now apply (literal_value u s x f) | discriminate].
  - split; [now apply match_integer|]. split; auto. destruct (number_head sg ds [] S N H) as (c & r & E & _). rewrite app_nil_r in E. rewrite E. discriminate.
  - split; [now apply match_decimal|]. split; auto. destruct (number_head sg ds [] S N H) as (c & r & E & _). rewrite app_nil_r in E.
    rewrite app_assoc, E. discriminate.
  - split; [|split; [reflexivity | discriminate]].
    rewrite no_word_match by (apply no_letter_no_word; unfold Turtle_Spec.is_letter, Turtle_Spec.range; lia).
    now rewrite word_app.
  - split; [now apply match_symbol|]. split; [reflexivity | discriminate].
  - split; [now apply match_less|]. split; [reflexivity | discriminate].
  - split; [now apply match_bar|]. split; [reflexivity | discriminate].
  - split; [now apply match_question|]. split; [reflexivity | discriminate].
  - split; [now apply match_minus|]. split; [reflexivity | discriminate].
Qed.

(* ---- gaps ---- *)
(* a gap begins with all its white space *)
Lemma gap_split g : gap g -> exists a g', g = a ++ g' /\ Forall is_blank a /\ gap g' /\
  (g' = [] \/ exists c h, g' = 35 :: c ++ 10 :: h /\ ~ In 10 c /\ gap h).
Proof.
  induction 1 as [|c g B _ (a & g' & -> & A & G & K)|c g C G _].
  - exists [], []. repeat split; auto; constructor.
  - exists (c :: a), g'. repeat split; auto.
  - exists [], (35 :: c ++ 10 :: g). repeat split; auto; [now constructor|]. right; exists c, g; auto.
Qed.
Lemma skip_comment c d : ~ In 10 c -> skip_line (c ++ 10 :: d) = 10 :: d.
Proof.
  induction c as [|x c IH]; intros H; [reflexivity|]. cbn [app skip_line].
  replace (x =? 10) with false by (cbn in H; lia). apply IH. intros K; apply H; now right.
Qed.
Lemma skip_last c : ~ In 10 c -> skip_line c = [].
Proof.
  induction c as [|x c IH]; intros H; [reflexivity|]. cbn [skip_line].
  replace (x =? 10) with false by (cbn in H; lia). apply IH. intros K; apply H; now right.
Qed.
Definition not_blank (d : text) : Prop := forall c r, d = c :: r -> ~ is_blank c.
Lemma match_blanks a d : a <> [] -> Forall is_blank a -> not_blank d -> match_token (a ++ d) = Some (WS, length a).
Proof.
  intros N A D. assert (W : ws_re (a ++ d) = Some (length a)).
  { apply plus_app; auto.
    - eapply Forall_impl; [|exact A]. intros c. apply blank_iff.
    - intros c r E. specialize (D c r E). rewrite <- blank_iff in D. now destruct (Turtle_Model.blank c). }
  destruct a as [|c a]; [contradiction|]. inversion_clear A as [|? ? C _]. cbn [app] in *.
  assert (M : match_token (c :: a ++ d) = match ws_re (c :: a ++ d) with Some n => Some (WS, n) | None => None end).
  { destruct C as [<-|[<-|[<-|[<-|[]]]]]; reflexivity. }
  now rewrite M, W.
Qed.
Lemma match_hash d : match_token (35 :: d) = None.
Proof. reflexivity. Qed.

(* d begins with a token *)
Definition starts (d : text) (t : ttype) (n : nat) (v : text) : Prop :=
  match_token d = Some (t, n) /\ t <> WS /\ raw_of t (firstn n d) = Ok v /\ d <> [].
Lemma starts_not_blank d t n v : starts d t n v -> not_blank d.
Proof.
  intros (M & T & _ & _) c r -> B. assert (K : exists m, match_token (c :: r) = Some (WS, S m)).
  { assert (M' : match_token (c :: r) = match ws_re (c :: r) with Some n => Some (WS, n) | None => None end).
    { destruct B as [<-|[<-|[<-|[<-|[]]]]]; reflexivity. }
    rewrite M'. unfold ws_re, Turtle_Model.plus. cbn [Turtle_Model.span].
    apply blank_iff in B. rewrite B. eauto. }
  destruct K as [m K]. rewrite K in M. injection M as M _. congruence.
Qed.
Lemma hash_not_blank c : not_blank (35 :: c).
Proof. intros x r E. injection E as <- _. unfold Turtle_Spec.is_blank. cbn [In]. lia. Qed.
Lemma read_blanks fuel a r d : a <> [] -> Forall is_blank a -> not_blank d ->
  read_loop (S fuel) r (a ++ d) = read_loop fuel a d.
Proof.
  intros N A D. assert (M := match_blanks a d N A D). destruct a as [|c a]; [contradiction|]. cbn [app] in *.
  unfold read_loop at 1. fold read_loop. rewrite M.
  change (c :: a ++ d) with ((c :: a) ++ d). now rewrite firstn_exact, Strings_Proof.skipn_len.
Qed.
Lemma read_comment fuel r c d : ~ In 10 c -> read_loop (S fuel) r (35 :: c ++ 10 :: d) = read_loop fuel r (10 :: d).
Proof.
  intros H. cbn [read_loop]. rewrite match_hash. change (35 =? 35) with true. cbv iota.
  change (skip_line (35 :: c ++ 10 :: d)) with (skip_line (c ++ 10 :: d)). now rewrite skip_comment.
Qed.
Lemma read_gap : forall fuel g d t n v r, gap g -> starts d t n v -> (length (g ++ d) < fuel)%nat ->
  read_loop fuel r (g ++ d) = Ok (T v t, skipn n d).
Proof.
  induction fuel as [fuel IH] using lt_wf_ind. intros g d t n v r G S L.
  destruct (gap_split g G) as (a & g' & -> & A & G' & K).
  assert (B := starts_not_blank d t n v S). destruct a as [|x a].
  - cbn [app] in *. destruct K as [->|(c & h & -> & C & H)].
    + cbn [app] in *. destruct S as (M & T' & V & N). destruct d as [|y d]; [contradiction|].
      destruct fuel as [|fuel]; [lia|]. cbn [read_loop]. rewrite M.
      destruct t; try contradiction; now rewrite V.
    + cbn [app] in *. rewrite <- app_assoc in *. cbn [app] in *. destruct fuel as [|fuel]; [lia|].
      rewrite read_comment by auto. change (10 :: h ++ d) with ((10 :: h) ++ d). apply IH; auto.
      * constructor; auto. cbn. auto.
      * cbn [length app] in *. rewrite !app_length in *. cbn [length] in *. rewrite app_length in *. lia.
  - rewrite <- app_assoc in *. destruct fuel as [|fuel]; [lia|].
    rewrite read_blanks; auto; [|discriminate|].
    + apply IH; auto. rewrite app_length in L. cbn [length] in L. lia.
    + destruct K as [->|(c & h & -> & C & H)]; [exact B | apply hash_not_blank].
Qed.
Lemma read_end_gap : forall fuel g r, gap g -> (length g < fuel)%nat -> Forall is_blank r ->
  exists r', read_loop fuel r g = Ok (T r' WS, []) /\ Forall is_blank r'.
Proof.
  induction fuel as [fuel IH] using lt_wf_ind. intros g r G L R.
  destruct (gap_split g G) as (a & g' & -> & A & G' & K). destruct a as [|x a].
  - cbn [app] in *. destruct K as [->|(c & h & -> & C & H)].
    + exists r. split; auto. now destruct fuel.
    + destruct fuel as [|fuel]; [lia|]. rewrite read_comment by auto. apply IH; auto.
      * constructor; auto. cbn. auto.
      * cbn [length app] in *. rewrite !app_length in *. cbn [length] in *. lia.
  - destruct fuel as [|fuel]; [lia|]. rewrite read_blanks; auto; [|discriminate|].
    + apply IH; auto. rewrite app_length in L. cbn [length] in L. lia.
    + destruct K as [->|(c & h & -> & C & H)]; [intros ? ? ?; discriminate | apply hash_not_blank].
Qed.
Lemma read_open_gap : forall fuel g r c, gap g -> ~ In 10 c -> (length (g ++ 35%N :: c) < fuel)%nat -> Forall is_blank r ->
  exists r', read_loop fuel r (g ++ 35 :: c) = Ok (T r' WS, []) /\ Forall is_blank r'.
Proof.
  induction fuel as [fuel IH] using lt_wf_ind. intros g r c0 G C0 L R.
  destruct (gap_split g G) as (a & g' & -> & A & G' & K). destruct a as [|x a].
  - cbn [app] in *. destruct K as [->|(c & h & -> & C & H)].
    + cbn [app] in *. destruct fuel as [|fuel]; [lia|]. exists r. split; auto. cbn [read_loop]. rewrite match_hash.
      change (35 =? 35) with true. cbv iota. change (skip_line (35 :: c0)) with (skip_line c0). rewrite skip_last by auto. now destruct fuel.
    + cbn [app] in *. rewrite <- app_assoc in *. cbn [app] in *. destruct fuel as [|fuel]; [lia|].
      rewrite read_comment by auto. change (10 :: h ++ 35 :: c0) with ((10 :: h) ++ 35 :: c0). apply IH; auto.
      * constructor; auto. cbn. auto.
      * cbn [length app] in *. rewrite !app_length in *. cbn [length] in *. rewrite app_length in *. cbn [length] in *. lia.
  - rewrite <- app_assoc in *. destruct fuel as [|fuel]; [lia|].
    rewrite read_blanks; auto; [|discriminate|].
    + apply IH; auto. rewrite app_length in L. cbn [length] in L. lia.
    + destruct K as [->|(c & h & -> & C & H)]; [apply hash_not_blank | apply hash_not_blank].
Qed.

(* ---- the next token ---- *)
Lemma token_starts k w v f d : token_text k w v f -> f d -> starts (w ++ d) (type_of k) (length w) v.
Proof.
  intros H D. destruct (match_ok k w v f d H D) as (M & V & N). repeat split; auto.
  - now destruct k.
  - now rewrite firstn_exact.
  - destruct w; [contradiction | discriminate].
Qed.
Lemma read_token c n g k w v f d : gap g -> token_text k w v f -> f d ->
  readNext (L c n (g ++ w ++ d)) = Ok (L n (T v (type_of k)) d).
Proof.
  intros G H D. unfold readNext. cbn [rest]. rewrite (read_gap _ g (w ++ d) (type_of k) (length w) v); auto.
  - cbn [bind next]. now rewrite Strings_Proof.skipn_len.
  - eapply token_starts; eauto.
Qed.
Lemma read_end c n g : end_gap g -> exists r, readNext (L c n g) = Ok (L n (T r WS) []) /\ Forall is_blank r.
Proof.
  intros [g' G|g' c' G C]; unfold readNext; cbn [rest].
  - destruct (read_end_gap (S (length g')) g' [] G ltac:(lia) ltac:(constructor)) as (r & -> & R). exists r. auto.
  - destruct (read_open_gap (S (length (g' ++ 35 :: c'))) g' [] c' G C ltac:(lia) ltac:(constructor)) as (r & -> & R). exists r. auto.
Qed.

(* the tokens that the lexer has still to give, the next one included *)
Inductive delivers : lexer -> list (kind * text) -> Prop :=
| dl_end l : type (next l) = WS -> rest l = [] -> Forall is_blank (raw (next l)) -> delivers l []
| dl_token l l' k v ts : next l = T v (type_of k) -> readNext l = Ok l' -> current l' = next l -> delivers l' ts ->
    delivers l ((k, v) :: ts).
Lemma delivers_rest ts d : spelled ts d -> forall c n, exists l, readNext (L c n d) = Ok l /\ current l = n /\ delivers l ts.
Proof.
  induction 1 as [g G|k w v f ts g d G H _ IH D]; intros c n.
  - destruct (read_end c n g G) as (r & E & R). rewrite E. eexists; repeat split. constructor; auto.
  - rewrite (read_token c n g k w v f d) by auto. eexists; repeat split.
    destruct (IH n (T v (type_of k))) as (l & E & C & Dl). econstructor; eauto.
Qed.
Lemma lex_all ts d : spelled ts d -> exists l, start d = Ok l /\ delivers l ts.
Proof. intros H. destruct (delivers_rest ts d H (T [] IRI) (T [] IRI)) as (l & E & _ & D). exists l; auto. Qed.

(* the lexer always comes to an end *)
Lemma ws_positive d n : ws_re d = Some n -> (0 < n <= length d)%nat.
Proof.
  unfold ws_re, Turtle_Model.plus. assert (L : (span Turtle_Model.blank d <= length d)%nat).
  { induction d as [|c d IH]; cbn; [lia|]. destruct (Turtle_Model.blank c); lia. }
  destruct (span _ d); [discriminate|]. intros E; injection E as <-. lia.
Qed.
Lemma match_ws d n : match_token d = Some (WS, n) -> ws_re d = Some n.
Proof.
  unfold match_token. repeat match goal with |- match ?r with _ => _ end = _ -> _ => destruct r eqn:?; try discriminate end. congruence.
Qed.
Lemma skip_line_length d : (length (skip_line d) <= length d)%nat.
Proof. induction d as [|c d IH]; cbn; [lia|]. destruct (c =? 10); cbn; lia. Qed.
Lemma raw_fuel t r : raw_of t r <> NoFuel.
Proof.
  unfold raw_of, literal_raw. destruct t; try discriminate. destruct (normalizeRDFLiteral _); discriminate.
Qed.
Lemma read_fuel : forall fuel r d, (length d < fuel)%nat -> read_loop fuel r d <> NoFuel.
Proof.
  induction fuel as [|fuel IH]; intros r d L; [lia|]. destruct d as [|c d]; [discriminate|]. cbn [read_loop].
  destruct (match_token (c :: d)) as [[t n]|] eqn:M.
  - assert (R := raw_fuel t (firstn n (c :: d))). destruct t; try (destruct (raw_of _ _); try discriminate; contradiction).
    apply IH. apply match_ws, ws_positive in M. rewrite skipn_length. cbn [length] in *. lia.
  - destruct (c =? 35) eqn:E; [|discriminate]. apply IH. cbn [skip_line]. replace (c =? 10) with false by lia.
    assert (K := skip_line_length d). cbn [length] in L. lia.
Qed.
Lemma readNext_fuel l : readNext l <> NoFuel.
Proof.
  unfold readNext. assert (H := read_fuel (S (length (rest l))) [] (rest l) ltac:(lia)).
  destruct (read_loop _ _ _) as [[t d]| | | |]; try discriminate. contradiction.
Qed.
