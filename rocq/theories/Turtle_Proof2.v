(* Proofs about the Turtle parser: tokens that are complete, and tokens that are cut. *)
From Coq Require Import Ascii String List NArith Arith Bool Lia ZifyBool ZifyN ZifyNat.
From Verif Require Import Strings_Model Strings_Spec Turtle_Model Turtle_Spec Turtle_Proof.
From Verif Require Strings_Proof Strings_Proof4.
Import ListNotations.
Open Scope N_scope.
Open Scope list_scope.

(* what follows a name, a number or a language *)
Definition stop (d : text) : Prop := match d with [] => True | c :: _ => In c [9; 10; 13; 32; 35; 44; 59; 93] end.
(* what remains of a name that is cut inside a character *)
Definition bits (z : text) : Prop :=
  z = [] \/ (exists c r, z = c :: r /\ 192 <= c /\ char z = None) \/ z = [92] \/ (exists r, z = 37 :: r).

Lemma encoded_weaken (P Q : N -> Prop) u : (forall x, P x -> Q x) -> encoded P u -> encoded Q u.
Proof. intros H (x & ? & ?). exists x; auto. Qed.
Lemma encoded_head P u : encoded P u -> exists c r, u = c :: r /\ (P c /\ c < 128 /\ r = [] \/ 192 <= c).
Proof.
  intros (x & H & U). destruct (utf8_head x u U) as (c & r & -> & [(-> & L & ->)|[L G]]); do 2 eexists; split; eauto.
Qed.
Lemma encoded_bits P u z w : encoded P u -> z ++ w = u -> w <> [] -> bits z.
Proof.
  intros (x & H & U) E W. destruct (char_cut_head x u z w U E W) as [->|(c & r & -> & L)]; [now left|].
  right; left. exists c, r. repeat split; auto. eapply char_cut; eauto.
Qed.
Lemma encoded_free P u k : encoded P u -> k < 128 -> ~ P k -> ~ In k u.
Proof.
  intros (x & H & U) L K I. destruct (utf8_bytes_high x u U) as [->|F].
  - destruct I as [->|[]]. contradiction.
  - rewrite Forall_forall in F. specialize (F k I). lia.
Qed.
Lemma stop_char p d : stop d -> (forall c, In c [9; 10; 13; 32; 35; 44; 59; 93] -> p c = false) -> one p d = None.
Proof.
  destruct d as [|c d]; [reflexivity|]. cbn [stop]. intros H K. rewrite one_low; [now rewrite K|].
  cbn [In] in H. lia.
Qed.
Lemma span_app p w d : Forall (fun c => p c = true) w -> (forall c r, d = c :: r -> p c = false) ->
  span p (w ++ d) = length w.
Proof.
  intros H K. induction H as [|c w H _ IH]; cbn [app span length].
  - destruct d as [|c d]; [reflexivity|]. cbn. now rewrite (K c d).
  - now rewrite H, IH.
Qed.
Lemma span_all p w : Forall (fun c => p c = true) w -> span p w = length w.
Proof. intros H. rewrite <- (app_nil_r w) at 1. now apply span_app. Qed.
Lemma plus_app p w d : Forall (fun c => p c = true) w -> (forall c r, d = c :: r -> p c = false) -> w <> [] ->
  plus p (w ++ d) = Some (length w).
Proof. intros H K N. unfold plus. rewrite span_app by auto. now destruct w. Qed.

(* ---- IRIs ---- *)
Lemma body_units u : iri_body u -> exists us, u = concat us /\ Forall (unit_of (alt (one iri_char) uchar)) us.
Proof.
  induction 1 as [|u r H _ (us & -> & IH)|h r L H _ (us & -> & IH)|h r L H _ (us & -> & IH)].
  - exists []. auto.
  - exists (u :: us). split; auto. constructor; auto. split; [eapply encoded_nonempty; eauto|].
    intros d. unfold alt. erewrite one_ok; eauto. intros x [X Y]. unfold iri_char. unfold iri_forbidden in Y.
    cbn [In existsb] in *. lia.
  - exists ((92 :: 117 :: h) :: us). split; auto. constructor; auto. split; [discriminate|].
    intros d. unfold alt. cbn [app]. rewrite one_low by lia. change (iri_char 92) with false. cbv iota.
    unfold uchar. rewrite firstn_app. replace (firstn 4 h) with h by (rewrite <- L; now rewrite firstn_all).
    rewrite L. cbn [Nat.sub firstn]. rewrite app_nil_r, span_all, L.
    + cbn [length]. now rewrite L.
    + eapply Forall_impl; [|exact H]. intros c K. now apply hex_ok in K.
  - exists ((92 :: 85 :: h) :: us). split; auto. constructor; auto. split; [discriminate|].
    intros d. unfold alt. cbn [app]. rewrite one_low by lia. change (iri_char 92) with false. cbv iota.
    unfold uchar. rewrite firstn_app. replace (firstn 8 h) with h by (rewrite <- L; now rewrite firstn_all).
    rewrite L. cbn [Nat.sub firstn]. rewrite app_nil_r, span_all, L.
    + cbn [length]. now rewrite L.
    + eapply Forall_impl; [|exact H]. intros c K. now apply hex_ok in K.
Qed.
Lemma iriref_full u d : iri_body u -> regex Iriref ([60] ++ u ++ [62] ++ d) = Some (length ([60] ++ u ++ [62])).
Proof.
  intros H. destruct (body_units u H) as (us & -> & F). cbn [regex app iriref_re].
  rewrite many_units by auto. rewrite Strings_Proof.skipn_len. f_equal. cbn [length]. rewrite app_length. cbn. lia.
Qed.
Lemma body_free u : iri_body u -> ~ In 62 u.
Proof.
  induction 1 as [|u r H _ IH|h r L H _ IH|h r L H _ IH]; cbn [In]; auto; rewrite in_app_iff.
  - intros [I|I]; auto. eapply (encoded_free _ _ 62 H); eauto; [lia|]. unfold iri_forbidden; cbn [In]. tauto.
  - intros [I|[I|[I|I]]]; auto; try lia. rewrite Forall_forall in H. specialize (H _ I). classes. lia.
  - intros [I|[I|[I|I]]]; auto; try lia. rewrite Forall_forall in H. specialize (H _ I). classes. lia.
Qed.
Lemma skipn_in {A} (x : A) n l : In x (skipn n l) -> In x l.
Proof. revert l; induction n as [|n IH]; intros l H; auto. destruct l; [destruct H | right; auto]. Qed.
Definition heads (k : N) (l : text) : bool := match l with c :: _ => c =? k | [] => false end.
Ltac by_heads k := intros l; destruct l as [|c l]; [reflexivity|]; unfold heads; destruct (N.eqb_spec c k) as [->|H];
  [reflexivity | not_lit c].
Lemma match_62 {A} (a b : A) : forall l : text, (match l with 62 :: _ => a | _ => b end) = if heads 62 l then a else b.
Proof. by_heads 62. Qed.
Lemma match_58 {A} (a b : A) : forall l : text, (match l with 58 :: _ => a | _ => b end) = if heads 58 l then a else b.
Proof. by_heads 58. Qed.
Lemma match_93 {A} (a b : A) : forall l : text, (match l with 93 :: _ => a | _ => b end) = if heads 93 l then a else b.
Proof. by_heads 93. Qed.
Lemma heads_in k n l : heads k (skipn n l) = true -> In k l.
Proof.
  intros H. apply (skipn_in k n). destruct (skipn n l) as [|c r]; [discriminate|]. cbn in H. left. lia.
Qed.
Lemma iriref_needs d n : regex Iriref d = Some n -> In 62 (tl d).
Proof.
  destruct d as [|c d]; [discriminate|]. destruct (N.eq_dec c 60) as [->|K].
  2:{ rewrite regex_first by (cbn [first]; lia). discriminate. }
  cbn [regex]. unfold iriref_re. rewrite match_62. destruct (heads _ _) eqn:E; [|discriminate].
  intros _. now apply heads_in in E.
Qed.
Lemma iriref_cut u x y : iri_body u -> x ++ y = [60] ++ u ++ [62] -> y <> [] -> regex Iriref x = None.
Proof.
  intros H E Y. destruct (regex Iriref x) as [n|] eqn:R; [|reflexivity]. exfalso. apply iriref_needs in R.
  destruct x as [|c x]; [destruct R|]. cbn [app tl] in *. injection E as _ E.
  destruct (cut_app _ _ _ _ E Y) as [(x' & -> & F)|(y' & F & _)].
  - apply in_app_or in R as [R|R]; [now apply body_free in R|].
    destruct x' as [|e x']; [destruct R|]. cbn in F; injection F as _ F. apply app_eq_nil in F as [_ ->]. contradiction.
  - apply (body_free u H). rewrite <- F. apply in_or_app; auto.
Qed.

Lemma word_app w d : word w (w ++ d) = Some (length w).
Proof. unfold word. now rewrite Strings_Proof4.startsWith_app. Qed.

(* ---- prefixes ---- *)
Definition prefix_more : text -> option nat := alt (seq2 (word [46]) (one pn_chars)) (one pn_chars).
Lemma not_dot_char p u d : encoded p u -> ~ p 46 -> word [46] (u ++ d) = None.
Proof.
  intros H K. destruct (encoded_head p u H) as (c & r & -> & G). cbn [app]. eapply word_first; [reflexivity|].
  destruct G as [(P & _ & _)|G]; [|lia]. destruct (N.eqb_spec c 46) as [->|]; auto. contradiction.
Qed.
Lemma name_char_dot : ~ name_char 46.
Proof. classes. lia. Qed.
Lemma prefix_units r : prefix_rest r -> exists us, r = concat us /\ Forall (unit_of prefix_more) us.
Proof.
  induction 1 as [|u r H _ (us & -> & IH)|u r H _ (us & -> & IH)].
  - exists []; auto.
  - exists (u :: us). split; auto. constructor; auto. split; [eapply encoded_nonempty; eauto|]. intros d.
    unfold prefix_more, alt, seq2. rewrite (not_dot_char _ _ _ H name_char_dot).
    eapply one_ok; eauto. apply chars_ok.
  - exists ((46 :: u) :: us). split; auto. constructor; auto. split; [discriminate|]. intros d.
    unfold prefix_more, alt, seq2. change ((46 :: u) ++ d) with ([46] ++ (u ++ d)). rewrite word_app.
    rewrite Strings_Proof.skipn_len. erewrite one_ok; eauto. apply chars_ok.
Qed.
Lemma pname_full p d : prefix_name p -> regex PnameNS (p ++ [58] ++ d) = Some (length (p ++ [58])).
Proof.
  intros (u & r & H & R & ->). destruct (prefix_units r R) as (us & -> & F). cbn [regex]. unfold pname_ns_re.
  rewrite <- app_assoc. erewrite one_ok; eauto; [|apply base_ok]. rewrite Strings_Proof.skipn_len.
  fold prefix_more. rewrite many_units; auto.
  rewrite <- app_length, app_assoc, Strings_Proof.skipn_len. cbn [app]. f_equal. rewrite !app_length. cbn. lia.
Qed.
Lemma prefix_rest_free r : prefix_rest r -> ~ In 58 r.
Proof.
  assert (K : ~ name_char 58) by (classes; lia).
  induction 1 as [|u r H _ IH|u r H _ IH]; cbn [In]; auto; rewrite in_app_iff.
  - intros [I|I]; auto. eapply (encoded_free _ _ 58 H); eauto; lia.
  - intros [I|[I|I]]; auto; [lia|]. eapply (encoded_free _ _ 58 H); eauto; lia.
Qed.
Lemma prefix_free p : prefix_name p -> ~ In 58 p.
Proof.
  assert (K : ~ name_base 58) by (classes; lia).
  intros (u & r & H & R & ->). rewrite in_app_iff. intros [I|I]; [|now apply prefix_rest_free in I].
  eapply (encoded_free _ _ 58 H); eauto; lia.
Qed.
Lemma pname_needs d n : regex PnameNS d = Some n -> In 58 d.
Proof.
  cbn [regex]. unfold pname_ns_re. destruct (one pn_base d) as [k|]; [|discriminate].
  rewrite match_58. destruct (heads _ _) eqn:E; [|discriminate]. intros _. now apply heads_in in E.
Qed.
Lemma pname_cut p x y : prefix_name p -> x ++ y = p -> regex PnameNS x = None.
Proof.
  intros H E. destruct (regex PnameNS x) as [n|] eqn:R; [|reflexivity]. exfalso. apply pname_needs in R.
  apply (prefix_free p H). rewrite <- E. apply in_or_app; auto.
Qed.
Lemma prefix_head p : prefix_name p -> exists c r, p = c :: r /\ (is_letter c \/ 192 <= c).
Proof.
  intros (u & r & H & _ & ->). destruct (encoded_head _ u H) as (c & r' & -> & G). exists c, (r' ++ r). split; auto.
  destruct G as [(G & L & _)|G]; auto. left. apply letter_ok. rewrite <- base_low by auto. now apply base_ok.
Qed.

(* ---- local names ---- *)
Definition local_unit (u : text) : Prop := encoded (fun x => name_char x \/ x = 58) u \/ plx_text u.
Definition local_start (u : text) : Prop := encoded (fun x => name_start x \/ x = 58 \/ is_digit x) u \/ plx_text u.
Lemma start_is_unit u : local_start u -> local_unit u.
Proof.
  intros [H|H]; [left|now right]. refine (encoded_weaken _ _ u _ H). intros x [K|[K|K]];
    [left; now left | now right | left; right; right; now left].
Qed.
Lemma unit_head u : local_unit u -> exists c r, u = c :: r /\ c <> 46.
Proof.
  intros [H|[(a & b & _ & _ & ->)|(c & _ & ->)]]; [|do 2 eexists; split; [reflexivity | lia]..].
  destruct (encoded_head _ u H) as (c & r & -> & G). do 2 eexists; split; [reflexivity|].
  destruct G as [(G & _ & _)|G]; [|lia]. intros ->. destruct G as [G|G]; [now apply name_char_dot | discriminate].
Qed.
Lemma plx_ok u d : plx_text u -> plx (u ++ d) = Some (length u).
Proof.
  intros [(a & b & A & B & ->)|(c & [_ C] & ->)]; unfold plx; cbn [app length].
  - apply hex_ok in A as [-> _]. apply hex_ok in B as [-> _]. reflexivity.
  - replace (existsb _ _) with true; [reflexivity|]. symmetry. apply existsb_exists. exists c. split; auto. lia.
Qed.
Lemma more_ok u d : local_unit u -> pn_local_more (u ++ d) = Some (length u).
Proof.
  intros [H|H]; unfold pn_local_more, alt.
  - erewrite one_ok; eauto. intros x [K|K]; [rewrite chars_ok by auto; reflexivity | lia].
  - destruct H as [(a & b & A & B & ->)|(c & C & ->)]; cbn [app]; rewrite one_low by lia; cbv iota.
    + change (pn_chars 37 || (37 =? 58)) with false. cbv iota. apply (plx_ok [37; a; b]). left; eauto.
    + change (pn_chars 92 || (92 =? 58)) with false. cbv iota. apply (plx_ok [92; c]). right; eauto.
Qed.
Lemma first_ok_ u d : local_start u -> pn_local_first (u ++ d) = Some (length u).
Proof.
  intros [H|H]; unfold pn_local_first, alt.
  - erewrite one_ok; eauto. intros x [K|[K|K]]; [rewrite start_ok by auto; reflexivity | lia | apply digit_ok in K; lia].
  - destruct H as [(a & b & A & B & ->)|(c & C & ->)]; cbn [app]; rewrite one_low by lia; cbv iota.
    + change (pn_u 37 || (37 =? 58) || digit 37) with false. cbv iota. apply (plx_ok [37; a; b]). left; eauto.
    + change (pn_u 92 || (92 =? 58) || digit 92) with false. cbv iota. apply (plx_ok [92; c]). right; eauto.
Qed.
Lemma span_dots k u d : (exists c r, u = c :: r /\ c <> 46) -> span (N.eqb 46) (repeat 46 k ++ u ++ d) = k.
Proof.
  intros (c & r & -> & H). rewrite <- (repeat_length 46 k) at 2. apply span_app.
  - clear. induction k; cbn; constructor; auto.
  - intros c' r' E. cbn in E. injection E as -> _. lia.
Qed.
Lemma dots_ok r k u d : (exists c r, u = c :: r /\ c <> 46) -> r (u ++ d) = Some (length u) ->
  dots r ((repeat 46 k ++ u) ++ d) = Some (length (repeat 46 k ++ u)).
Proof.
  intros H R. unfold dots. rewrite <- app_assoc, span_dots by auto.
  rewrite <- (repeat_length 46 k) at 2. rewrite Strings_Proof.skipn_len, R. cbn. now rewrite app_length, repeat_length.
Qed.
Lemma plx_none c r : c <> 37 -> c <> 92 -> plx (c :: r) = None.
Proof. intros H K. unfold plx. not_lit c. Qed.
Lemma unit_bits u z w : local_unit u -> z ++ w = u -> w <> [] -> bits z.
Proof.
  intros [H|[(a & b & _ & _ & ->)|(c & _ & ->)]] E W.
  - eapply encoded_bits; eauto.
  - destruct z as [|e z]; [now left|]. cbn in E; injection E as -> E. right; right; right; eauto.
  - split_cut E; try (subst; contradiction); [now left | right; right; now left].
Qed.
Lemma bits_one p z : bits z -> p 37 = false -> p 92 = false -> one p z = None.
Proof.
  intros [->|[(c & r & -> & _ & H)|[->|(r & ->)]]] A B; [reflexivity| | |].
  - unfold one. now rewrite H.
  - rewrite one_low by lia. now rewrite B.
  - rewrite one_low by lia. now rewrite A.
Qed.
Lemma unit_cut_plx u z w : local_unit u -> z ++ w = u -> w <> [] -> plx z = None.
Proof.
  intros [H|[(a & b & _ & _ & ->)|(c & _ & ->)]] E W.
  - destruct H as (x & _ & U). destruct (char_cut_head x u z w U E W) as [->|(c & r & -> & L)]; [reflexivity|].
    apply plx_none; lia.
  - split_cut E; try (subst; contradiction); reflexivity.
  - split_cut E; try (subst; contradiction); reflexivity.
Qed.
Lemma bits_dots z : bits z -> span (N.eqb 46) z = O.
Proof.
  intros [->|[(c & r & -> & L & _)|[->|(r & ->)]]]; try reflexivity. cbn [span]. now replace (46 =? c) with false by lia.
Qed.
Lemma local_solid u : local_unit u -> solid (dots pn_local_more) u.
Proof.
  intros H. split; [split|].
  - destruct (unit_head u H) as (c & r & -> & _). discriminate.
  - intros d. apply (dots_ok pn_local_more O u d); [now apply unit_head | now apply more_ok].
  - intros y z E Z. assert (B := unit_bits u y z H E Z). unfold dots. rewrite bits_dots by auto. cbn [skipn].
    unfold pn_local_more, alt. rewrite bits_one by auto. now rewrite (unit_cut_plx u y z).
Qed.
Lemma local_units dotted r : local_rest dotted r ->
  exists us, r = concat us /\ Forall (unit_of (dots pn_local_more)) us /\ ((dotted -> False) -> Forall local_unit us).
Proof.
  induction 1 as [|k u r K H _ (us & -> & F & G)].
  - exists []. auto.
  - exists ((repeat 46 k ++ u) :: us). cbn [concat]. split; [now rewrite app_assoc|]. split.
    + constructor; auto. destruct (unit_head u H) as (c & r & Q & _). split.
      * subst u. now destruct k.
      * intros d. apply dots_ok; [now apply unit_head | now apply more_ok].
    + intros N. constructor; auto. destruct K as [->|K]; [exact H | now contradiction N].
Qed.
Lemma local_none d : stop d -> regex PnLocal d = None.
Proof.
  destruct d as [|c d]; [reflexivity|]. cbn [stop]. intros H. apply regex_first. cbn [In] in H.
  intuition (subst; reflexivity).
Qed.
Lemma more_none d : stop d -> dots pn_local_more d = None.
Proof.
  intros H. unfold dots. replace (span (N.eqb 46) d) with O.
  - cbn [skipn]. unfold pn_local_more, alt. rewrite stop_char; auto.
    + destruct d as [|c d]; [reflexivity|]. cbn [stop In] in H. rewrite plx_none by lia. reflexivity.
    + intros c K. cbn [In] in K. intuition (subst; reflexivity).
  - destruct d as [|c d]; [reflexivity|]. cbn [stop In span] in *. now replace (46 =? c) with false by lia.
Qed.
Lemma local_full dotted l d : local_name dotted l -> stop d -> regex PnLocal (l ++ d) = Some (length l).
Proof.
  intros (u & r & H & R & ->) D. destruct (local_units dotted r R) as (us & -> & F & _). cbn [regex].
  unfold pn_local_re. rewrite <- app_assoc, first_ok_ by exact H. rewrite Strings_Proof.skipn_len.
  rewrite many_units; auto; [now rewrite app_length | now apply more_none].
Qed.
Lemma free_escaped esc a b u : ~ In 92 u -> escaped esc a b u u.
Proof. induction u as [|c u IH]; intros H; constructor; [intros ->; apply H; now left|]. apply IH. intros K; apply H; now right. Qed.
Lemma escaped_app u s v t : escaped local_escape False False u s -> escaped local_escape False False v t ->
  escaped local_escape False False (u ++ v) (s ++ t).
Proof. induction 1; intros K; cbn [app]; auto; try contradiction; constructor; auto. Qed.
Lemma unit_escaped u : local_unit u -> exists s, escaped local_escape False False u s.
Proof.
  intros [H|[(a & b & A & B & ->)|(c & C & ->)]].
  - exists u. apply free_escaped. eapply encoded_free; eauto; [lia|]. intros [K|K]; [|discriminate]. classes; lia.
  - exists [37; a; b]. apply free_escaped. cbn [In]. classes. lia.
  - exists [c]. constructor; auto. constructor.
Qed.
Lemma units_escaped us : Forall local_unit us -> exists s, escaped local_escape False False (concat us) s.
Proof.
  induction 1 as [|u us H _ [t IH]]; [exists []; constructor|]. destruct (unit_escaped u H) as [s S].
  exists (s ++ t). cbn [concat]. now apply escaped_app.
Qed.
Lemma local_cut (dotted : Prop) l x y : (dotted -> False) -> local_name dotted l -> x ++ y = l -> y <> [] ->
  exists a z s, x = a ++ z /\ bits z /\ escaped local_escape False False a s /\
    (regex PnLocal x = Some (length a) \/ regex PnLocal x = None /\ a = []).
Proof.
  intros N (u & r & H & R & ->) E Y. destruct (local_units dotted r R) as (us & -> & F & G). specialize (G N).
  destruct (cut_app _ _ _ _ E Y) as [(x' & -> & E')|(y' & E' & Y' & _)].
  - assert (S : Forall (solid (dots pn_local_more)) us) by (eapply Forall_impl; [|exact G]; apply local_solid).
    destruct (many_cut _ us x' y S E' Y) as (us1 & z & v & w & us2 & -> & -> & Z & W & M).
    apply Forall_app in G as [G1 G2]. inversion_clear G2 as [|? ? Gv _].
    destruct (units_escaped (u :: us1)) as [s Hs]; [constructor; auto; now apply start_is_unit|].
    exists (u ++ concat us1), z, s. repeat split; auto.
    + now rewrite app_assoc.
    + eapply unit_bits; eauto.
    + left. cbn [regex]. unfold pn_local_re. rewrite first_ok_ by exact H. rewrite Strings_Proof.skipn_len, M.
      now rewrite app_length.
  - exists [], x, []. assert (B : bits x) by (eapply unit_bits; eauto; now apply start_is_unit). repeat split; auto; [constructor|].
    right. split; auto. cbn [regex]. unfold pn_local_re, pn_local_first, alt.
    rewrite bits_one by auto. rewrite (unit_cut_plx u x y'); auto. now apply start_is_unit.
Qed.

(* ---- labels of blank nodes ---- *)
Lemma label_units dotted r : label_rest dotted r ->
  exists us, r = concat us /\ Forall (unit_of (dots (one pn_chars))) us /\ ((dotted -> False) -> Forall (encoded name_char) us).
Proof.
  assert (D : forall u, encoded name_char u -> exists c r, u = c :: r /\ c <> 46).
  { intros u H. destruct (encoded_head _ u H) as (c & r' & -> & G). do 2 eexists; split; [reflexivity|].
    destruct G as [(G & _)|G]; [|lia]. intros ->. now apply name_char_dot. }
  induction 1 as [|k u r' K H _ (us & -> & F & G)].
  - exists []. auto.
  - exists ((repeat 46 k ++ u) :: us). cbn [concat]. split; [now rewrite app_assoc|]. split.
    + constructor; auto. destruct (D u H) as (c & r' & Q & _). split.
      * subst u. now destruct k.
      * intros d. apply dots_ok; auto. eapply one_ok; eauto. apply chars_ok.
    + intros N. constructor; auto. destruct K as [->|K]; [exact H | now contradiction N].
Qed.
Lemma char_more_none d : stop d -> dots (one pn_chars) d = None.
Proof.
  intros H. unfold dots. replace (span (N.eqb 46) d) with O.
  - cbn [skipn]. rewrite stop_char; auto. intros c K. cbn [In] in K. intuition (subst; reflexivity).
  - destruct d as [|c d]; [reflexivity|]. cbn [stop In span] in *. now replace (46 =? c) with false by lia.
Qed.
Lemma label_first_ok x : name_start x \/ is_digit x -> pn_u x || digit x = true.
Proof. intros [K|K]; [rewrite start_ok by auto; reflexivity | apply digit_ok in K; lia]. Qed.
Lemma label_full dotted t d : label dotted t -> stop d -> regex BlankNodeLabel (t ++ d) = Some (length t).
Proof.
  intros (u & r & H & R & ->) D. destruct (label_units dotted r R) as (us & -> & F & _). cbn [regex app].
  unfold blank_re. rewrite <- app_assoc. erewrite one_ok; eauto; [|apply label_first_ok].
  rewrite Strings_Proof.skipn_len, many_units by (auto; now apply char_more_none). cbn [length]. now rewrite app_length.
Qed.
Lemma label_cut (dotted : Prop) t x y : (dotted -> False) -> label dotted t -> x ++ y = t -> y <> [] ->
  (regex BlankNodeLabel x = None /\ (x = [] \/ exists r, x = 95 :: r)) \/
  exists a z, x = a ++ z /\ bits z /\ regex BlankNodeLabel x = Some (length a) /\ (exists r, a = 95 :: r).
Proof.
  intros N (u & r & H & R & ->) E Y. destruct (label_units dotted r R) as (us & -> & F & G). specialize (G N).
  destruct (cut_app _ _ _ _ E Y) as [(x' & -> & E')|(y' & E' & Y' & _)].
  2:{ left. split_cut E'; try (subst; contradiction); split; auto; right; eauto. }
  destruct (cut_app _ _ _ _ E' Y) as [(x2 & -> & E2)|(y' & E2 & Y' & _)].
  2:{ left. split; [|right; cbn [app]; eauto]. cbn [regex app]. unfold blank_re.
      erewrite one_cut; eauto. }
  right.
  assert (S : Forall (solid (dots (one pn_chars))) us).
  { eapply Forall_impl; [|exact G]. intros v V.
    assert (Dv : exists c r, v = c :: r /\ c <> 46).
    { destruct (encoded_head _ v V) as (c & r' & -> & Gc). do 2 eexists; split; [reflexivity|].
      destruct Gc as [(Gc & _)|Gc]; [|lia]. intros ->. now apply name_char_dot. }
    split; [split|].
    - eapply encoded_nonempty; eauto.
    - intros d. apply (dots_ok _ O v d); auto. eapply one_ok; eauto. apply chars_ok.
    - intros y1 z1 E1 Z1. unfold dots. rewrite bits_dots by (eapply encoded_bits; eauto). cbn [skipn].
      erewrite one_cut; eauto. }
  destruct (many_cut _ us x2 y S E2 Y) as (us1 & z & v & w & us2 & -> & -> & Z & W & M).
  apply Forall_app in G as [_ G2]. inversion_clear G2 as [|? ? Gv _].
  exists ([95; 58] ++ u ++ concat us1), z. repeat split.
  - now rewrite <- !app_assoc.
  - eapply encoded_bits; eauto.
  - cbn [regex app]. unfold blank_re. erewrite one_ok; eauto; [|apply label_first_ok].
    rewrite Strings_Proof.skipn_len, M. cbn [length]. now rewrite app_length.
  - eexists; reflexivity.
Qed.
