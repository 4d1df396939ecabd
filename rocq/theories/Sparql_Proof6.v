(* Proofs about the SPARQL parser: it always comes to an end. *)
From Coq Require Import Ascii String List NArith ZArith Arith Bool Lia ZifyBool ZifyN ZifyNat.
From Verif Require Import Strings_Model SLex_Model Sparql_Model SLex_Proof SLex_Proof3.
From Verif Require Conv_Model PPath_Model PPath_Thm Turtle_Model.
Import ListNotations.
Open Scope N_scope.
Open Scope list_scope.

(* ---- tokens are not empty ---- *)
Definition pos (r : text -> option nat) : Prop := forall d n, r d = Some n -> (0 < n)%nat.
Lemma pos_alt a b : pos a -> pos b -> pos (alt a b).
Proof. intros A B d n. unfold alt, Turtle_Model.alt. destruct (a d) eqn:E; [intros [= <-]; eauto|eauto]. Qed.
Lemma pos_seq a b : pos a \/ pos b -> pos (seq2 a b).
Proof.
  intros P d n. unfold seq2, Turtle_Model.seq2. destruct (a d) as [x|] eqn:E; [|discriminate]. destruct (b (skipn x d)) as [y|] eqn:F; [|discriminate].
  intros [= <-]. destruct P as [P|P]; apply P in E || apply P in F; lia.
Qed.
Lemma word_i_length w : forall d n, word_i w d = Some n -> n = length w.
Proof.
  induction w as [|a w IH]; intros [|b d] n; cbn [word_i length]; try (intros [= <-]; reflexivity); try discriminate.
  destruct (_ =? _); [|discriminate]. destruct (word_i w d) eqn:E; [|discriminate]. intros [= <-]. f_equal. eauto.
Qed.
Lemma pos_first ws : Forall (fun w => w <> []) ws -> pos (first_of ws).
Proof.
  induction 1 as [|w ws H _ IH]; intros d n; cbn [first_of]; [discriminate|]. destruct (word_i w d) eqn:E; [|apply IH].
  intros [= <-]. apply word_i_length in E. subst. destruct w; [contradiction|cbn; lia].
Qed.
Lemma pos_by w : pos (words_by w).
Proof.
  intros d n. unfold words_by. destruct (word_i w d) as [x|]; [|discriminate]. destruct (word_i (bytes "by") _) as [y|] eqn:E; [|discriminate].
  apply word_i_length in E. cbn [option_map]. intros [= <-]. subst y. cbn [bytes length String.length]. vm_compute bytes. cbn [length]. lia.
Qed.
Ltac brk := repeat match goal with |- context [match ?x with _ => _ end] => destruct x; try discriminate end.
Ltac some := let E := fresh in intros E; injection E as <-; lia.
Lemma pos_plus p : pos (plus p).
Proof. intros d n. unfold Turtle_Model.plus. destruct (Turtle_Model.span p d); [discriminate|some]. Qed.
Lemma pos_word w : w <> [] -> pos (word w).
Proof. intros W d n. unfold Turtle_Model.word. destruct (startsWith d w); [|discriminate]. destruct w; [contradiction|]. cbn [length]. some. Qed.
Lemma pos_iriref : pos iriref_re.
Proof. intros d n. unfold iriref_re. destruct d as [|c d]; [discriminate|]. generalize (many (one iri_char) d). intros m. brk; some. Qed.
Lemma pos_pname : pos pname_ns_re.
Proof.
  intros d n. unfold pname_ns_re. assert (G : match one pn_base d with
    | Some n => let m := many (dots (one pn_chars)) (skipn n d) in match skipn (n + m) d with 58 :: _ => Some (n + m + 1)%nat | _ => None end
    | None => None end = Some n -> (0 < n)%nat).
  { destruct (one pn_base d) as [x|]; [|discriminate]. cbv zeta. generalize (many (dots (one pn_chars)) (skipn x d)). intros m. brk; some. }
  destruct d as [|c d]; [exact G|]. destruct (N.eq_dec c 58) as [-> |Nc]; [some|].
  destruct c as [|p]; [exact G|]. repeat (destruct p as [p|p|]; try exact G). exfalso; apply Nc; reflexivity.
Qed.
Lemma pos_iri_body : pos iri_body_re.
Proof. apply pos_alt; [apply pos_iriref|]. apply pos_alt; [apply pos_seq; left|]; apply pos_pname. Qed.
Lemma pos_iri : pos iri_re.
Proof. apply pos_alt; [|apply pos_iri_body]. apply pos_seq. right. apply pos_seq. left. apply pos_word. discriminate. Qed.
Lemma pos_variable : pos variable_re.
Proof.
  intros d n. unfold variable_re. destruct d as [|c d]; [discriminate|]. destruct (one _ d) as [x|]; [generalize (many (one var_char) (skipn x d)); intros m|]; brk; some.
Qed.
Lemma pos_string : pos string_re.
Proof.
  intros d n. unfold string_re. destruct d as [|c d]; [discriminate|]. destruct (_ || _); [|discriminate]. generalize (many (alt (one (string_char c)) echar) d). intros m. brk; some.
Qed.
Lemma pos_literal : pos literal_re.
Proof.
  intros d n. unfold literal_re. destruct (string_re d) as [x|] eqn:E; [|discriminate]. apply pos_string in E.
  destruct (Turtle_Model.alt _ _ _); some.
Qed.
Lemma pos_integer : pos integer_re.
Proof.
  intros d n. unfold integer_re. destruct (Turtle_Model.plus _ _) as [x|] eqn:E; [|discriminate]. apply pos_plus in E. cbn [option_map]. some.
Qed.
Lemma pos_float : pos float_re.
Proof.
  intros d n. unfold float_re. destruct (integer_re d) as [x|]; [|discriminate]. destruct (skipn x d) as [|c r]; [discriminate|].
  destruct (Turtle_Model.plus digit r); cbn [option_map]; brk; some.
Qed.
Lemma pos_symbol : pos symbol_re.
Proof. intros d n. unfold symbol_re. destruct d; [discriminate|]. destruct (existsb _ _); [some|discriminate]. Qed.
Lemma token_positive d t n : match_token d = Some (t, n) -> (0 < n)%nat.
Proof.
  unfold match_token.
  repeat match goal with |- match ?r d with _ => _ end = _ -> _ => destruct (r d) eqn:?E; [intros H; injection H as <- <-|] end; try discriminate.
  - eapply pos_first; [|eassumption]. apply Forall_forall. intros w I Ew. subst w. vm_compute in I. repeat (destruct I as [I|I]; [discriminate|]). destruct I.
  - eapply pos_by; eassumption.
  - eapply pos_by; eassumption.
  - eapply pos_first; [|eassumption]. apply Forall_forall. intros w I Ew. subst w. vm_compute in I. repeat (destruct I as [I|I]; [discriminate|]). destruct I.
  - eapply pos_word; [|eassumption]. discriminate.
  - eapply pos_variable; eassumption.
  - eapply pos_iri; eassumption.
  - eapply pos_literal; eassumption.
  - eapply pos_float; eassumption.
  - eapply pos_integer; eassumption.
  - eapply pos_symbol; eassumption.
  - eapply pos_plus; eassumption.
Qed.

(* ---- reading makes the rest smaller ---- *)
Definition Inv (l : lexer) : Prop := type (next l) = WS -> rest l = [] /\ Forall (fun c => isspace c = true) (raw (next l)).
(* the tokens that may be left *)
Definition nu (l : lexer) : nat := (length (rest l) + (if ttype_eqb (type (next l)) WS then 0 else 1))%nat.
Lemma read_loop_less : forall fuel r d t d', read_loop fuel r d = Ok (t, d') -> Forall (fun c => isspace c = true) r ->
  (type t = WS -> d' = [] /\ Forall (fun c => isspace c = true) (raw t)) /\ (type t <> WS -> (length d' < length d)%nat) /\ (length d' <= length d)%nat.
Proof.
  induction fuel as [|fuel IH]; intros r [|c d] t d'; cbn [read_loop]; try discriminate.
  - intros [= <- <-] F. cbn [type raw length]. repeat split; auto; congruence.
  - intros [= <- <-] F. cbn [type raw length]. repeat split; auto; congruence.
  - destruct (match_token (c :: d)) as [[ty n]|] eqn:M.
    + assert (P := token_positive _ _ _ M). intros H F.
      assert (Tok : ty <> WS -> bind (raw_of ty (firstn n (c :: d))) (fun r' => Ok (T r' ty, skipn n (c :: d))) = Ok (t, d') ->
        (type t = WS -> d' = [] /\ Forall (fun c => isspace c = true) (raw t)) /\ (type t <> WS -> (length d' < length (c :: d))%nat) /\ (length d' <= length (c :: d))%nat).
      { intros Nt E. destruct (raw_of ty _); try discriminate. cbn [bind] in E. injection E as <- <-. cbn [type raw]. rewrite skipn_length. cbn [length]. repeat split; intros; try contradiction; lia. }
      destruct ty; try (apply Tok; [discriminate|exact H]).
      apply IH in H. 2: { apply match_ws in M. unfold ws_re, Turtle_Model.plus in M. destruct (Turtle_Model.span Turtle_Model.blank (c :: d)) as [|k] eqn:E; [discriminate|]. injection M as <-.
        clear - E. revert k E. generalize (c :: d). intros x. induction x as [|a x IHx]; intros k E; [discriminate|]. cbn [Turtle_Model.span] in E.
        destruct (Turtle_Model.blank a) eqn:B; [|discriminate]. injection E as E. cbn [firstn]. constructor; [unfold Turtle_Model.blank in B; unfold isspace; cbn in B; lia|].
        destruct k; [constructor|]. apply IHx. exact E. }
      destruct H as (H1 & H2 & H3). rewrite skipn_length in *. cbn [length] in *. repeat split; try (apply H1); auto; try lia.
    + destruct (c =? 35); [|discriminate]. intros H F. apply IH in H; auto. destruct H as (H1 & H2 & H3). assert (L := skip_line_length (c :: d)). repeat split; try (apply H1); auto; try lia.
Qed.
Lemma read_less l l' : readNext l = Ok l' -> Inv l' /\ (nu l' <= length (rest l))%nat.
Proof.
  unfold readNext. destruct (read_loop _ _ _) as [[t d]| | | |] eqn:E; try discriminate. cbn [bind]. intros [= <-].
  apply read_loop_less in E; [|constructor]. destruct E as (H1 & H2 & H3). split; [exact H1|]. unfold nu. cbn [next rest type].
  destruct (ttype_eqb (type t) WS) eqn:B; [lia|]. assert (type t <> WS) by (intros H; rewrite H in B; discriminate). apply H2 in H. lia.
Qed.

(* ---- functions of the parser: the result is not NoFuel, and at most n tokens are left ---- *)
Definition good {A} (Q : A -> nat -> Prop) (o : out (A * lexer)) : Prop :=
  o <> NoFuel /\ forall a l, o = Ok (a, l) -> Inv l /\ Q a (nu l).
Definition goodl (Q : nat -> Prop) (o : out lexer) : Prop := o <> NoFuel /\ forall l, o = Ok l -> Inv l /\ Q (nu l).
Notation upto n := (fun _ k => (k <= n)%nat).
Lemma bind_good {A B} Q (R : B -> nat -> Prop) (o : out (A * lexer)) f : good Q o ->
  (forall a l, Inv l -> Q a (nu l) -> good R (f (a, l))) -> good R (bind o f).
Proof.
  intros [H1 H2] F. destruct o as [[a l]| | | |]; cbn [bind]; try contradiction; try (split; [discriminate|intros; discriminate]).
  destruct (H2 a l eq_refl). auto.
Qed.
Lemma bind_goodl {B} (Q : nat -> Prop) (R : B -> nat -> Prop) (o : out lexer) f : goodl Q o ->
  (forall l, Inv l -> Q (nu l) -> good R (f l)) -> good R (bind o f).
Proof.
  intros [H1 H2] F. destruct o as [l| | | |]; cbn [bind]; try contradiction; try (split; [discriminate|intros; discriminate]).
  destruct (H2 l eq_refl). auto.
Qed.
Lemma goodl_bindl (Q R : nat -> Prop) (o : out lexer) f : goodl Q o -> (forall l, Inv l -> Q (nu l) -> goodl R (f l)) -> goodl R (bind o f).
Proof.
  intros [H1 H2] F. destruct o as [l| | | |]; cbn [bind]; try contradiction; try (split; [discriminate|intros; discriminate]).
  destruct (H2 l eq_refl). auto.
Qed.
Lemma bind_pure {A B} (R : B -> nat -> Prop) (o : out A) f : o <> NoFuel -> (forall a, good R (f a)) -> good R (bind o f).
Proof. intros H1 F. destruct o; cbn [bind]; try contradiction; try (split; [discriminate|intros; discriminate]). auto. Qed.
Lemma ok_good {A} (R : A -> nat -> Prop) a l : Inv l -> R a (nu l) -> good R (Ok (a, l)).
Proof. intros I H. split; [discriminate|]. intros a' l' [= <- <-]. auto. Qed.
Lemma ok_goodl (Q : nat -> Prop) l : Inv l -> Q (nu l) -> goodl Q (Ok l).
Proof. intros I H. split; [discriminate|]. intros l' [= <-]. auto. Qed.
Lemma good_weaken {A} (Q R : A -> nat -> Prop) o : good Q o -> (forall a k, Q a k -> R a k) -> good R o.
Proof. intros [H1 H2] W. split; auto. intros a l E. destruct (H2 a l E). auto. Qed.

Lemma read_good l : goodl (fun k => (k <= length (rest l))%nat) (readNext l).
Proof. split; [apply readNext_fuel|]. intros l' E. apply read_less. exact E. Qed.
Lemma read_strict l : type (next l) <> WS -> goodl (fun k => (k < nu l)%nat) (readNext l).
Proof.
  intros H. destruct (read_good l) as [H1 H2]. split; auto. intros l' E. destruct (H2 l' E). split; auto. unfold nu at 2.
  destruct (ttype_eqb (type (next l)) WS) eqn:B; [|lia]. destruct (type (next l)); try discriminate. contradiction.
Qed.
Lemma nu_pos l : type (next l) <> WS -> (0 < nu l)%nat.
Proof. unfold nu. destruct (type (next l)); cbn [ttype_eqb]; intros; try lia. contradiction. Qed.
Definition word_like (s : text) : Prop := match s with c :: _ => isspace c = false | [] => False end.
Lemma word_type s l : Inv l -> word_like s -> text_eqb (raw (next l)) s = true -> type (next l) <> WS.
Proof.
  intros I W E H. apply text_eqb_ok in E. destruct (I H) as [_ F]. rewrite E in F. destruct s as [|c s]; [destruct W|]. inversion F; subst. cbn in W. congruence.
Qed.
Lemma ttype_eqb_ok a b : ttype_eqb a b = true -> a = b.
Proof. destruct a, b; cbn; congruence. Qed.
(* accepting a token *)
Definition accepted (n : nat) (b : bool) (k : nat) : Prop := if b then (k < n)%nat else (k <= n)%nat.
Lemma accept_raw_good s l : Inv l -> word_like s -> good (accepted (nu l)) (accept_raw s l).
Proof.
  intros I W. unfold accept_raw. destruct (text_eqb (raw (next l)) s) eqn:E; [|apply ok_good; cbn; auto].
  assert (H := word_type s l I W E). eapply bind_goodl; [apply read_strict; exact H|].
  cbv beta. intros l' I' L. apply ok_good; cbn; auto.
Qed.
Lemma accept_type_good t l : Inv l -> t <> WS -> good (accepted (nu l)) (accept_type t l).
Proof.
  intros I W. unfold accept_type. destruct (ttype_eqb (type (next l)) t) eqn:E; [|apply ok_good; cbn; auto]. apply ttype_eqb_ok in E.
  assert (H : type (next l) <> WS) by congruence. eapply bind_goodl; [apply read_strict; exact H|].
  cbv beta. intros l' I' L. apply ok_good; cbn; auto.
Qed.
Lemma bad {A} (Q : A -> nat -> Prop) o : o = ParseError \/ o = Undefined \/ o = Error -> good Q o.
Proof. intros [-> |[-> | ->]]; split; discriminate. Qed.
Lemma expect_raw_good s l : Inv l -> word_like s -> goodl (fun k => (k < nu l)%nat) (expect_raw s l).
Proof.
  intros I W. unfold expect_raw. destruct (text_eqb _ s) eqn:E; [|split; discriminate].
  apply read_strict. eapply word_type; eauto.
Qed.
Lemma expect_type_good t l : Inv l -> t <> WS -> goodl (fun k => (k < nu l)%nat) (expect_type t l).
Proof.
  intros I W. unfold expect_type. destruct (ttype_eqb _ t) eqn:E; [|destruct (_ && _); split; discriminate]. apply ttype_eqb_ok in E.
  apply read_strict. congruence.
Qed.
Lemma accept_any_error {A} (Q : A -> nat -> Prop) l f : (forall x, f x = ParseError) -> good Q (bind (accept_any l) f).
Proof.
  intros F. unfold accept_any. assert (H := readNext_fuel l). destruct (readNext l); cbn [bind]; try contradiction; try (split; discriminate). rewrite F. split; discriminate.
Qed.
Lemma parseLiteral_fuel v : parseLiteral v <> NoFuel.
Proof. unfold parseLiteral. repeat match goal with |- context [match ?x with _ => _ end] => destruct x; try discriminate end. Qed.
Lemma aggregate_fuel a : aggregate_of a <> NoFuel.
Proof. unfold aggregate_of. repeat match goal with |- context [if ?x then _ else _] => destruct x; try discriminate end. Qed.
Lemma key_fuel a : OrderKey a <> NoFuel.
Proof.
  unfold OrderKey. cbv zeta. match goal with |- context [match ?x with _ => _ end] => destruct x end; [discriminate|].
  repeat match goal with |- context [match ?x with _ => _ end] => destruct x; try discriminate end.
Qed.
Lemma scan_fuel d : forall i b ps, scan_regex i b ps d <> NoFuel.
Proof. induction d as [|c d IH]; intros i b ps; cbn [scan_regex]; [discriminate|]. repeat match goal with |- context [if ?x then _ else _] => destruct x; try discriminate; auto end. Qed.
Lemma regex_fuel s i : regex_or_prefix s i <> NoFuel.
Proof.
  unfold regex_or_prefix. destruct (_ && _); [|discriminate]. assert (H := scan_fuel (skipn 1 s) 1 false []). destruct (scan_regex _ _ _ _) as [[[] p]| | | |]; try discriminate. contradiction.
Qed.
Lemma triple_fuel s p o : make_triple s p o <> NoFuel.
Proof.
  unfold make_triple. assert (T := PPath_Thm.C60_terminates p). destruct (PPath_Model.parse p); cbn in *; try discriminate; contradiction.
Qed.
Lemma merge_fuel v : merge_regex v <> NoFuel.
Proof. destruct v as [|f [|g v]]; try discriminate. unfold merge_regex. destruct (forallb _ _); discriminate. Qed.

Lemma bind_assoc {A B C} (o : out A) (f : A -> out B) (g : B -> out C) : bind (bind o f) g = bind o (fun x => bind (f x) g).
Proof. destruct o; reflexivity. Qed.

(* going through a function *)
Create HintDb gd discriminated.
Notation less n := (fun _ k => (k < n)%nat).
Ltac leaf := unfold accepted in *; cbv beta iota in *; cbn [app] in *; lia.
Ltac bad := apply bad; auto.
Ltac go1 :=
  match goal with
  | |- good _ (bind (bind _ _) _) => rewrite bind_assoc
  | |- good _ (bind (accept_raw _ _) _) => eapply bind_good; [apply accept_raw_good; [assumption|reflexivity]|]; intros [] ? ? ?; cbn iota beta
  | |- good _ (bind (accept_type _ _) _) => eapply bind_good; [apply accept_type_good; [assumption|discriminate]|]; intros [] ? ? ?; cbn iota beta
  | |- good _ (bind (expect_raw _ ?l) _) => eapply bind_goodl; [apply expect_raw_good; [assumption|reflexivity]|]; intros ? ? ?; cbn beta
  | |- good _ (bind (expect_type _ ?l) _) => eapply bind_goodl; [apply expect_type_good; [assumption|discriminate]|]; intros ? ? ?; cbn beta
  | |- good _ (bind (accept_any _) _) => apply accept_any_error; reflexivity
  | |- good _ (bind (parseLiteral _) _) => apply bind_pure; [apply parseLiteral_fuel|]; intros ?
  | |- good _ (bind (aggregate_of _) _) => apply bind_pure; [apply aggregate_fuel|]; intros ?
  | |- good _ (bind (OrderKey _) _) => apply bind_pure; [apply key_fuel|]; intros ?
  | |- good _ (bind (regex_or_prefix _ _) _) => apply bind_pure; [apply regex_fuel|]; intros [? ?]
  | |- good _ (bind (make_triple _ _ _) _) => apply bind_pure; [apply triple_fuel|]; intros ?
  | |- good _ (bind (merge_regex _) _) => apply bind_pure; [apply merge_fuel|]; intros ?
  | |- good _ (Ok (_, _)) => apply ok_good; [assumption|leaf]
  | |- good _ ParseError => bad
  | |- good _ Error => bad
  | |- good _ Undefined => bad
  | |- good _ (bind ParseError _) => bad
  | |- good _ (bind Error _) => bad
  | |- good _ (bind (if ?b then _ else _) _) => destruct b
  | |- good _ (bind (let _ := _ in _) _) => cbv zeta
  | |- good _ (if ?b then _ else _) => destruct b
  | |- good _ (bind (Ok _) _) => cbn [bind]
  | |- good _ (let _ := _ in _) => cbv zeta
  | |- good _ (match ?x with (_, _) => _ end) => destruct x
  | |- good _ (match ?x with [] => _ | _ :: _ => _ end) => destruct x
  | |- good _ (bind _ _) => eapply bind_good; [solve [eauto 2 with gd]|]; intros ? ? ? ?; cbn iota beta
  | |- good _ (bind _ _) => eapply bind_goodl; [solve [eauto 2 with gd]|]; intros ? ? ?; cbn iota beta
  end.
Ltac go := repeat go1.
Lemma nu_rest l : (nu l < length (rest l) + 2)%nat.
Proof. unfold nu. destruct (ttype_eqb _ _); lia. Qed.
Local Hint Resolve nu_rest : gd.
Lemma parseAlias_good l : Inv l -> good (less (nu l)) (parseAlias l).
Proof. intros I. unfold parseAlias. go. Qed.
Local Hint Resolve parseAlias_good : gd.
Lemma parse_call_good s l : Inv l -> good (less (nu l)) (parse_call s l).
Proof. intros I. unfold parse_call. go. Qed.
Local Hint Resolve parse_call_good : gd.
Lemma parse_selected_good fuel : forall sel al l, Inv l -> (nu l < fuel)%nat -> good (less (nu l)) (parse_selected fuel sel al l).
Proof.
  induction fuel as [|fuel IH]; intros sel al l I L; [lia|]. cbn [parse_selected]. go.
  all: eapply good_weaken; [apply IH; [assumption|leaf]|cbv beta; intros; leaf].
Qed.
Local Hint Resolve parse_selected_good : gd.
Lemma parseSelect_good h l : Inv l -> good (less (nu l)) (parseSelect h l).
Proof. intros I. unfold parseSelect. go. Qed.
Local Hint Resolve parseSelect_good : gd.
Lemma parseOrderKey_good o h l : Inv l -> good (less (nu l)) (parseOrderKey o h l).
Proof. intros I. unfold parseOrderKey. go. Qed.
Local Hint Resolve parseOrderKey_good : gd.
Lemma parseRegexFilter_good k l : Inv l -> good (less (nu l)) (parseRegexFilter k l).
Proof. intros I. unfold parseRegexFilter. destruct k; go. Qed.
Local Hint Resolve parseRegexFilter_good : gd.
Lemma count_open_good fuel : forall n l, Inv l -> (nu l < fuel)%nat -> good (fun m k => (k + (m - n) <= nu l)%nat /\ (n <= m)%nat) (count_open fuel n l).
Proof.
  induction fuel as [|fuel IH]; intros n l I L; [lia|]. cbn [count_open]. go.
  eapply good_weaken; [apply IH; [assumption|leaf]|cbv beta; intros; leaf].
Qed.
Local Hint Resolve count_open_good : gd.
Lemma expectClose_good n : forall l, Inv l -> goodl (fun k => (k + n <= nu l)%nat) (expectClose n l).
Proof.
  induction n as [|n IH]; intros l I; cbn [expectClose]; [apply ok_goodl; auto; lia|].
  eapply goodl_bindl; [apply expect_raw_good; [assumption|reflexivity]|]. intros l' I' L. destruct (IH l' I') as [H1 H2].
  split; auto. intros l2 E. destruct (H2 l2 E). split; auto. leaf.
Qed.
Local Hint Resolve expectClose_good : gd.
Lemma more_regex_good fuel : forall v l, Inv l -> (nu l < fuel)%nat -> good (upto (nu l)) (more_regex fuel v l).
Proof.
  induction fuel as [|fuel IH]; intros v l I L; [lia|]. cbn [more_regex]. go.
  eapply good_weaken; [apply IH; [assumption|leaf]|cbv beta; intros; leaf].
Qed.
Local Hint Resolve more_regex_good : gd.
Lemma parse_operand_good l : Inv l -> good (less (nu l)) (parse_operand l).
Proof. intros I. unfold parse_operand. go. Qed.
Local Hint Resolve parse_operand_good : gd.
Lemma parse_relation_good l : Inv l -> good (less (nu l)) (parse_relation l).
Proof. intros I. unfold parse_relation. go. Qed.
Local Hint Resolve parse_relation_good : gd.
Lemma parse_comparison_good l : Inv l -> good (less (nu l)) (parse_comparison l).
Proof. intros I. unfold parse_comparison. go. Qed.
Local Hint Resolve parse_comparison_good : gd.
Lemma parseFilter_good f fs cs l : Inv l -> good (fun r k => (k <= nu l)%nat /\ (fst (fst r) = true \/ f = true -> (k < nu l)%nat)) (parseFilter f fs cs l).
Proof.
  intros I. unfold parseFilter. go. apply ok_good; [assumption|]. cbn [fst]. split; [leaf|intros [?|?]; discriminate].
Qed.
Local Hint Resolve parseFilter_good : gd.
Lemma parse_node_good l : Inv l -> good (less (nu l)) (parse_node l).
Proof. intros I. unfold parse_node. go. Qed.
Local Hint Resolve parse_node_good : gd.
Lemma expand_inv l : Inv l -> Inv (expandNextUntilWhitespace l) /\ (nu (expandNextUntilWhitespace l) <= nu l)%nat.
Proof.
  intros I. unfold expandNextUntilWhitespace, Inv, nu in *. destruct l as [c n r]. cbn [next rest current] in *.
  assert (G : forall d, (length (snd (until_space d)) <= length d)%nat).
  { induction d as [|x d IH]; cbn [until_space]; [cbn; lia|]. destruct (isspace x); [cbn; lia|]. destruct (until_space d). cbn in *. lia. }
  specialize (G r). destruct (until_space r) as [s d] eqn:E. cbn [snd next rest raw type] in *. split; [|lia].
  intros H. destruct (I H) as [-> F]. cbn in E. injection E as <- <-. rewrite app_nil_r. auto.
Qed.
Lemma parse_predicate_good l : Inv l -> good (upto (nu l)) (parse_predicate l).
Proof.
  intros I. unfold parse_predicate. go. destruct (expand_inv l1 H1) as [J K]. unfold accept_any.
  eapply bind_goodl; [apply read_good|]. intros l2 I2 L2. cbv beta in L2. apply ok_good; [assumption|].
  assert (length (rest (expandNextUntilWhitespace l1)) <= nu (expandNextUntilWhitespace l1))%nat by (unfold nu; lia). leaf.
Qed.
Local Hint Resolve parse_predicate_good : gd.
Lemma parse_bind_good l : Inv l -> good (less (nu l)) (parse_bind l).
Proof. intros I. unfold parse_bind. go. Qed.
Local Hint Resolve parse_bind_good : gd.
Lemma parse_vars_good fuel : forall v l, Inv l -> (nu l < fuel)%nat -> good (upto (nu l)) (parse_vars fuel v l).
Proof.
  induction fuel as [|fuel IH]; intros v l I L; [lia|]. cbn [parse_vars]. go.
  eapply good_weaken; [apply IH; [assumption|leaf]|cbv beta; intros; leaf].
Qed.
Local Hint Resolve parse_vars_good : gd.
Lemma parse_row_good n : forall l, Inv l -> good (upto (nu l)) (parse_row n l).
Proof. induction n as [|n IH]; intros l I; cbn [parse_row]; go. Qed.
Local Hint Resolve parse_row_good : gd.
Lemma parse_rows_good fuel : forall n v l, Inv l -> (nu l < fuel)%nat -> good (upto (nu l)) (parse_rows fuel n v l).
Proof.
  induction fuel as [|fuel IH]; intros n v l I L; [lia|]. cbn [parse_rows]. go.
  eapply good_weaken; [apply IH; [assumption|leaf]|cbv beta; intros; leaf].
Qed.
Local Hint Resolve parse_rows_good : gd.
Lemma parse_values1_good fuel : forall v l, Inv l -> (nu l < fuel)%nat -> good (upto (nu l)) (parse_values1 fuel v l).
Proof.
  induction fuel as [|fuel IH]; intros v l I L; [lia|]. cbn [parse_values1]. go.
  all: eapply good_weaken; [apply IH; [assumption|leaf]|cbv beta; intros; leaf].
Qed.
Local Hint Resolve parse_values1_good : gd.
Lemma parse_values_good l : Inv l -> good (less (nu l)) (parse_values l).
Proof. intros I. unfold parse_values. go. Qed.
Local Hint Resolve parse_values_good : gd.
Lemma parse_order_good fuel : forall h l, Inv l -> (nu l < fuel)%nat -> good (upto (nu l)) (parse_order fuel h l).
Proof.
  induction fuel as [|fuel IH]; intros h l I L; [lia|]. cbn [parse_order]. go.
  all: eapply good_weaken; [apply IH; [assumption|leaf]|cbv beta; intros; leaf].
Qed.
Local Hint Resolve parse_order_good : gd.
Lemma more_having_good fuel : forall fs cs l, Inv l -> (nu l < fuel)%nat -> good (upto (nu l)) (more_having fuel fs cs l).
Proof.
  induction fuel as [|fuel IH]; intros fs cs l I L; [lia|]. cbn [more_having].
  eapply bind_good; [apply parseFilter_good; assumption|]. intros [[[] fs1] cs1] l1 I1 [L1 L2]; cbn iota beta; cbn [fst] in L2.
  - eapply good_weaken; [apply IH; [assumption|]|cbv beta; intros; leaf]. specialize (L2 (or_introl eq_refl)). leaf.
  - go.
Qed.
Local Hint Resolve more_having_good : gd.
Lemma parseSolutionModifiers_good fuel : forall h cs l, Inv l -> (nu l < fuel)%nat -> good (upto (nu l)) (parseSolutionModifiers fuel h cs l).
Proof.
  induction fuel as [|fuel IH]; intros h cs l I L; [lia|]. cbn [parseSolutionModifiers]. go.
  all: eapply good_weaken; [apply IH; [assumption|leaf]|cbv beta; intros; leaf].
Qed.
Local Hint Resolve parseSolutionModifiers_good : gd.
Lemma skip_dot_good l : Inv l -> goodl (fun k => (k <= nu l)%nat) (skip_dot l).
Proof.
  intros I. unfold skip_dot. destruct (accept_raw_good (bytes ".") l I ltac:(reflexivity)) as [H1 H2].
  destruct (accept_raw (bytes ".") l) as [[b l']| | | |]; cbn [bind]; try contradiction; try (split; discriminate).
  destruct (H2 _ _ eq_refl). apply ok_goodl; auto. destruct b; leaf.
Qed.
Local Hint Resolve skip_dot_good : gd.
Lemma parseWhere_good fuel : (forall n fs cs s p l, Inv l -> (nu l < fuel)%nat -> good (less (nu l)) (parseWhere fuel n fs cs s p l)) /\
  (forall h l, Inv l -> (nu l < fuel)%nat -> good (upto (nu l)) (parseQuery fuel h l)).
Proof.
  induction fuel as [|fuel [IH1 IH2]]; [split; intros; lia|]. split.
  - intros n fs cs s p l I L. cbn [parseWhere].
    assert (IH1' : forall n fs cs s p l, Inv l -> (nu l < fuel)%nat -> good (less (nu l)) (parseWhere fuel n fs cs s p l)) by exact IH1.
    repeat first [go1
      | match goal with
        | |- good _ (bind (parseWhere fuel _ _ _ _ _ _) _) => eapply bind_good; [apply IH1; [assumption|leaf]|]; intros ? ? ? ?; cbn iota beta
        | |- good _ (bind (parseQuery fuel _ _) _) => eapply bind_good; [apply IH2; [assumption|leaf]|]; intros ? ? ? ?; cbn iota beta
        | |- good _ (bind (match ?x with [] => _ | _ :: _ => _ end) _) => destruct x
        | |- good _ (parseWhere fuel _ _ _ _ _ _) => eapply good_weaken; [apply IH1; [assumption|leaf]|cbv beta; intros; leaf]
        end].
  - intros h l I L. cbn [parseQuery].
    repeat first [go1
      | match goal with
        | |- good _ (bind (parseWhere fuel _ _ _ _ _ _) _) => eapply bind_good; [apply IH1; [assumption|leaf]|]; intros ? ? ? ?; cbn iota beta
        end].
Qed.
Lemma prologue_good fuel : forall ps l, Inv l -> (nu l < fuel)%nat -> good (upto (nu l)) (parsePrologue fuel ps l).
Proof.
  induction fuel as [|fuel IH]; intros ps l I L; [lia|]. cbn [parsePrologue]. go.
  eapply good_weaken; [apply IH; [assumption|leaf]|cbv beta; intros; leaf].
Qed.
Theorem parse_ends q : parse q <> NoFuel.
Proof.
  unfold parse, start. destruct (read_good (L (T [] IRI) (T [] IRI) q)) as [H1 H2]. destruct (readNext _) as [l| | | |]; cbn [bind]; try contradiction; try discriminate.
  destruct (H2 l eq_refl) as [I L]. cbn [rest] in L.
  assert (G : good (upto (nu l)) (let* (ps, l) := parsePrologue (length q + 2) [] l in
    let* l := expect_raw (bytes "select") l in let* (r, l) := parseQuery (2 * length q + 4) (empty_head ps) l in Ok (r, l))).
  { eapply bind_good; [apply prologue_good; [assumption|lia]|]. intros ps l1 I1 L1. cbn iota beta. go1.
    eapply bind_good; [apply parseWhere_good; [assumption|leaf]|]. intros r l3 I3 L3. cbn iota beta. go. }
  destruct G as [G _]. destruct (parsePrologue _ _ _) as [[ps l1]| | | |]; cbn [bind] in *; try discriminate; try contradiction.
  destruct (expect_raw _ l1) as [l2| | | |]; cbn [bind] in *; try discriminate; try contradiction.
  destruct (parseQuery _ _ l2) as [[r l3]| | | |]; cbn [bind] in *; try discriminate; try contradiction.
  unfold expectEmpty. destruct (empty l3); discriminate.
Qed.
