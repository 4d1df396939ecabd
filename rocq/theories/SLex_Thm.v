(* Theorems about the SPARQL lexer (C64). *)
From Coq Require Import Ascii String List NArith Arith Bool Lia ZifyBool ZifyN ZifyNat.
From Verif Require Import Strings_Model Strings_Spec SLex_Model SLex_Spec SLex_Proof SLex_Proof2 SLex_Proof3.
From Verif Require Conv_Model Conv_Proof4 Conv_Proof5 Turtle_Model Turtle_Spec Turtle_Proof Turtle_Proof2.
Import ListNotations.
Open Scope N_scope.
Open Scope list_scope.

(* What the parser gets from a lexer: the next token again and again, until there is only white space. *)
Fixpoint drain (fuel : nat) (l : lexer) : out (list token) :=
  match type (next l), rest l with
  | WS, [] => Ok []
  | _, _ =>
    match fuel with
    | O => NoFuel
    | S fuel' => bind (readNext l) (fun l' => bind (drain fuel' l') (fun ts => Ok (current l' :: ts)))
    end
  end.
Definition lex (d : text) : out (list token) := bind (start d) (drain (S (length d))).
(* the types of the tokens, SparqlLexer.h 10-23 *)
Definition kind_of (t : ttype) : option kind :=
  match t with
  | IRI => Some KIri | KEYWORD => Some KWord | GROUP_BY => Some KGroupBy | ORDER_BY => Some KOrderBy
  | VARIABLE => Some KVariable | SYMBOL => Some KSymbol | AGGREGATE => Some KAggregate | RDFLITERAL => Some KLiteral
  | INTEGER => Some KInteger | FLOAT => Some KDecimal | LOGICAL_OR => Some KOr | WS => None
  end.

Lemma drain_ok ts : forall fuel l, delivers l ts -> (length ts < fuel)%nat ->
  exists us, drain fuel l = Ok us /\ map (fun u => (kind_of (type u), raw u)) us = map (fun '(k, v) => (Some k, v)) ts.
Proof.
  induction ts as [|[k v] ts IH]; intros fuel l D F.
  - inversion D as [l0 W R B|]; subst. exists []. destruct fuel; cbn; rewrite W, R; auto.
  - inversion D as [|l0 l' k0 v0 ts0 Nx Rd Cu D' E1 E2]; subst. destruct fuel as [|fuel]; [cbn in F; lia|].
    destruct (IH fuel l' D' ltac:(cbn in F; lia)) as (us & E & M). exists (next l :: us). split.
    + assert (Nw : type (next l) <> WS) by (rewrite Nx; destruct k; discriminate).
      cbn [drain]. rewrite Rd. cbn [bind]. rewrite E, Cu. destruct (type (next l)); try contradiction; reflexivity.
    + cbn [map]. rewrite M, Nx. cbn. f_equal. destruct k; reflexivity.
Qed.
Lemma token_nonempty k w v f : token_text k w v f -> w <> [].
Proof.
  intros H E. destruct H; try discriminate.
  - subst w. inversion H0; subst. vm_compute in H. repeat (destruct H as [H|H]; [discriminate|]). destruct H.
  - subst w. inversion H0; subst. vm_compute in H. repeat (destruct H as [H|H]; [discriminate|]). destruct H.
  - apply app_eq_nil in E. destruct E as [-> _]. inversion H.
  - apply app_eq_nil in E. destruct E as [-> _]. inversion H.
  - destruct H; [discriminate|]. destruct p; discriminate.
  - apply app_eq_nil in E. destruct E as [_ E]. contradiction.
  - apply app_eq_nil in E. destruct E as [_ E]. destruct ds; discriminate.
Qed.
Lemma spelled_length ts d : spelled ts d -> (length ts <= length d)%nat.
Proof.
  induction 1 as [|k w v f ts g d G H _ IH D]; cbn [length]; [lia|]. rewrite !app_length.
  apply token_nonempty in H. destruct w; [contradiction|]. cbn [length]. lia.
Qed.

(* C64: a text that is written according to the grammar is split into its tokens, with their kinds and
   values. *)
Theorem C64_tokens ts d : spelled ts d ->
  exists us, lex d = Ok us /\ map (fun u => (kind_of (type u), raw u)) us = map (fun '(k, v) => (Some k, v)) ts.
Proof.
  intros H. destruct (lex_all ts d H) as (l & E & D). unfold lex. rewrite E. cbn [bind].
  apply drain_ok; auto. apply spelled_length in H. lia.
Qed.

(* for the example *)
Lemma written_same k : written k k.
Proof. induction k; constructor; auto. left; reflexivity. Qed.
Lemma not_reserved w : existsb (fun k => text_eqb (lowercase (firstn (length k) w)) k) reserved = false -> ~ begins_reserved w.
Proof.
  intros H (k & u & r & I & W & ->). assert (Hk : Forall (fun c => low c = true) k).
  { revert I. apply (proj1 (Forall_forall (fun k => Forall (fun c => low c = true) k) reserved)). vm_compute. repeat constructor. }
  assert (K : existsb (fun k => text_eqb (lowercase (firstn (length k) (u ++ r))) k) reserved = true).
  { apply existsb_exists. exists k. split; auto. rewrite <- (written_length _ _ W), firstn_app, firstn_all, Nat.sub_diag.
    cbn [firstn]. rewrite app_nil_r, (written_lower _ _ W Hk). apply text_eqb_ok. reflexivity. }
  congruence.
Qed.
Lemma encoded_ascii (P : N -> Prop) c : c < 128 -> P c -> encoded P [c].
Proof. intros H K. exists c. split; auto. constructor; auto. Qed.
(* the text of SPARQL with a name, a literal with a tag, an escape sequence, a comparison and a comment *)
Definition x_text : text :=
  bytes "SELECT ?x where {?x a:b ""c\t""@en. FILTER(?x<=-1.5)}#end"%string.
Definition x_tokens : list (kind * text) :=
  [(KWord, bytes "select"); (KVariable, bytes "?x"); (KWord, bytes "where"); (KSymbol, bytes "{"); (KVariable, bytes "?x");
   (KIri, bytes "a:b"); (KLiteral, [34; 99; 9; 34] ++ bytes "@en"); (KSymbol, bytes "."); (KWord, bytes "filter"); (KSymbol, bytes "(");
   (KVariable, bytes "?x"); (KSymbol, bytes "<"); (KSymbol, bytes "="); (KDecimal, bytes "-1.5"); (KSymbol, bytes ")"); (KSymbol, bytes "}")].
Ltac small := unfold Turtle_Spec.name_char, Turtle_Spec.name_start, Turtle_Spec.name_base, Turtle_Spec.is_letter, Turtle_Spec.is_digit,
  Turtle_Spec.is_blank, Turtle_Spec.range in *; cbn [In] in *; lia.
Ltac tok g w d :=
  match goal with |- spelled ((?k, ?v) :: ?ts) _ => change (spelled ((k, v) :: ts) (bytes g ++ bytes w ++ bytes d));
    eapply (sp_token k (bytes w) v _ ts (bytes g) (bytes d)) end.
Ltac gap_tac := match goal with |- gap ?g => let g' := eval vm_compute in g in change (gap g') end; repeat (apply gap_blank; [small|]); apply gap_nil.
Ltac var_tac c := apply (tk_variable [c] []); [apply encoded_ascii; small|constructor].
Ltac head_tac := intros c r E; assert (E' := f_equal (hd 0) E); vm_compute in E'; subst c; clear E; small.
Ltac word_tac := apply tk_word; [vm_compute; tauto|];
  match goal with |- written ?a ?b => let a' := eval vm_compute in a in let b' := eval vm_compute in b in change (Forall2 same_letter a' b') end;
  repeat (apply Forall2_cons; [first [left; reflexivity|right; small]|]); apply Forall2_nil.
Ltac sym_tac := apply tk_symbol; vm_compute; tauto.
Example C64_tokens_example : spelled x_tokens x_text.
Proof.
  unfold x_tokens, x_text. 
  tok ""%string "SELECT"%string " ?x where {?x a:b ""c\t""@en. FILTER(?x<=-1.5)}#end"%string; [gap_tac|word_tac| |head_tac].
  tok " "%string "?x"%string " where {?x a:b ""c\t""@en. FILTER(?x<=-1.5)}#end"%string; [gap_tac|var_tac 120| |head_tac].
  tok " "%string "where"%string " {?x a:b ""c\t""@en. FILTER(?x<=-1.5)}#end"%string; [gap_tac|word_tac| |head_tac].
  tok " "%string "{"%string "?x a:b ""c\t""@en. FILTER(?x<=-1.5)}#end"%string; [gap_tac|sym_tac| |exact I].
  tok ""%string "?x"%string " a:b ""c\t""@en. FILTER(?x<=-1.5)}#end"%string; [gap_tac|var_tac 120| |head_tac].
  tok " "%string "a:b"%string " ""c\t""@en. FILTER(?x<=-1.5)}#end"%string; [gap_tac| | |].
  { apply tk_iri; [|apply not_reserved; vm_compute; reflexivity]. apply (it_name [97] [98]).
    - right. exists [97], []. repeat split; [apply encoded_ascii; small|constructor].
    - right. exists [98], []. repeat split; [left; apply encoded_ascii; small|constructor]. }
  2: { match goal with |- after_name ?g => let g' := eval vm_compute in g in change (after_name g') end. apply an_char; small. }
  tok " "%string """c\t""@en"%string ". FILTER(?x<=-1.5)}#end"%string; [gap_tac| | |].
  { apply (tk_literal [99; 92; 116] [99; 9] (bytes "@en")).
    - apply (sb_char [99]); [apply encoded_ascii; small|]. apply (sb_escape 116 9); [vm_compute; tauto|constructor].
    - apply es_char; [small|]. apply es_letter; [vm_compute; tauto|apply es_nil].
    - apply (su_language [101; 110]). exists [101; 110], []. split; [discriminate|]. split; [repeat (apply Forall_cons; [small|]); apply Forall_nil|]. split; [constructor|reflexivity]. }
  2: head_tac.
  tok ""%string "."%string " FILTER(?x<=-1.5)}#end"%string; [gap_tac|sym_tac| |exact I].
  tok " "%string "FILTER"%string "(?x<=-1.5)}#end"%string; [gap_tac|word_tac| |head_tac].
  tok ""%string "("%string "?x<=-1.5)}#end"%string; [gap_tac|sym_tac| |exact I].
  tok ""%string "?x"%string "<=-1.5)}#end"%string; [gap_tac|var_tac 120| |head_tac].
  tok ""%string "<"%string "=-1.5)}#end"%string; [gap_tac|apply tk_less| |].
  2: { intros u r E. exfalso. assert (J : In 62 (bytes "=-1.5)}#end"%string)) by (rewrite E; apply in_or_app; right; left; reflexivity).
       vm_compute in J. repeat (destruct J as [J|J]; [discriminate|]). destruct J. }
  tok ""%string "="%string "-1.5)}#end"%string; [gap_tac|sym_tac| |exact I].
  tok ""%string "-1.5"%string ")}#end"%string; [gap_tac| | |].
  { apply (tk_decimal [45] [49] [53]); auto; try discriminate; repeat constructor; small. }
  2: head_tac.
  tok ""%string ")"%string "}#end"%string; [gap_tac|sym_tac| |exact I].
  tok ""%string "}"%string "#end"%string; [gap_tac|sym_tac| |exact I].
  apply sp_end. apply (eg_comment [] (bytes "end")); [gap_tac|]. vm_compute. intuition discriminate.
Qed.

(* C64: reading a token always comes to an end. *)
Theorem C64_terminates l : readNext l <> NoFuel.
Proof. apply readNext_fuel. Qed.

(* A name with a prefix that begins with a word of the language is split, for every such word: in
   `text:x` the keyword `text` is found first. *)
Theorem C64_names_refuted k r : In k words -> exists l, start (k ++ 58 :: r) = Ok l /\ next l = T k KEYWORD /\ rest l = 58 :: r.
Proof.
  intros I. assert (E : exists c k', k = c :: k') by (vm_compute in I; repeat (destruct I as [<-|I]; [eauto|]); destruct I).
  assert (R : readNext (L (T [] IRI) (T [] IRI) ([] ++ k ++ 58 :: r)) = Ok (L (T [] IRI) (T k (type_of KWord)) (58 :: r))).
  { apply (read_token _ _ [] KWord k k (head_not is_letter)); [constructor|apply tk_word; auto; apply written_same|].
    intros c r' E'. injection E' as <- _. small. }
  unfold start. cbn [app] in R. rewrite R. eexists. repeat split.
Qed.

Lemma last_quote s : In 34 s -> exists a b, s = a ++ 34 :: b /\ Conv_Proof4.free 34 b.
Proof.
  induction s as [|c s IH]; intros I; [destruct I|]. destruct (in_dec N.eq_dec 34 s) as [J|J].
  - destruct (IH J) as (a & b & -> & F). exists (c :: a), b. auto.
  - destruct I as [->|I]; [|contradiction]. exists [], s. split; [reflexivity|]. apply Forall_forall. intros x Hx. destruct (34 =? x) eqn:E; [|reflexivity]. exfalso. apply J. replace 34 with x by lia. auto.
Qed.
Lemma Conv_find_none s : ~ In 34 s -> find_char (N.eqb 34) s = None.
Proof.
  induction s as [|c s IH]; intros I; [reflexivity|]. cbn [find_char]. destruct (34 =? c) eqn:E; [|rewrite IH; [reflexivity|]; intros J; apply I; now right].
  exfalso. apply I. left. lia.
Qed.
(* No string in single quotes is accepted: the code searches for the last double quote in it. *)
Theorem C64_single_quotes_refuted c n d l : readNext (L c n (39 :: d)) <> Ok l.
Proof.
  unfold readNext. cbn [rest length read_loop].
  assert (M : match_token (39 :: d) = match literal_re (39 :: d) with Some n => Some (RDFLITERAL, n) | None => None end) by reflexivity.
  rewrite M. destruct (literal_re (39 :: d)) as [m|] eqn:E; [|discriminate].
  assert (Q : forall m, normalizeRDFLiteral (firstn (match Conv_Model.rfind 34 (firstn m (39 :: d)) with Some i => S i | None => O end) (firstn m (39 :: d))) = Check).
  2: { unfold raw_of, literal_raw. rewrite Q. discriminate. }
  clear. intros m. assert (Z : firstn m (39 :: d) = [] \/ exists s, firstn m (39 :: d) = 39 :: s) by (destruct m; cbn; eauto).
  generalize dependent (firstn m (39 :: d)). clear m. intros s Z. destruct (in_dec N.eq_dec 34 s) as [I|I].
  - destruct (last_quote s I) as (a & b & -> & F). rewrite (Conv_Proof5.rfind_last 34 a b) by exact F.
    replace (firstn (S (length a)) (a ++ 34 :: b)) with (a ++ [34]).
    2: { rewrite firstn_app, firstn_all2 by lia. replace (S (length a) - length a)%nat with 1%nat by lia. reflexivity. }
    destruct Z as [Z|(s & Z)]; [destruct a; discriminate|]. destruct a as [|x a]; [discriminate|]. injection Z as -> _.
    unfold normalizeRDFLiteral, endsWith. replace (rev ((39 :: a) ++ [34])) with (34 :: rev (39 :: a)) by (rewrite rev_app_distr; reflexivity).
    assert (G3 : startsWith ((39 :: a) ++ [34]) [39; 39; 39] = true -> firstn 3 ((39 :: a) ++ [34]) = [39; 39; 39]).
    { destruct a as [|x a]; cbn; [discriminate|]. destruct a as [|y a]; cbn; [destruct (x =? 39); discriminate|].
      destruct (x =? 39) eqn:E1, (y =? 39) eqn:E2; cbn; try discriminate. intros _. repeat f_equal; lia. }
    destruct (startsWith ((39 :: a) ++ [34]) [39; 39; 39]) eqn:E.
    + rewrite G3 by reflexivity. rewrite orb_true_r. reflexivity.
    + change (startsWith ((39 :: a) ++ [34]) [34; 34; 34]) with false. change (startsWith ((39 :: a) ++ [34]) [34]) with false.
      assert (H1 : startsWith ((39 :: a) ++ [34]) [39] = true) by (cbn; destruct (a ++ [34]); reflexivity). rewrite H1. reflexivity.
  - replace (Conv_Model.rfind 34 s) with (@None nat); [reflexivity|]. unfold Conv_Model.rfind.
    rewrite (Conv_find_none (rev s)); [reflexivity|]. intros J. apply I, in_rev, J.
Qed.

(* A string in three quotes is split into three strings: the first is empty. *)
Theorem C64_long_string_refuted c n d : readNext (L c n ([34; 34; 34] ++ d)) = Ok (L n (T [34; 34] RDFLITERAL) (34 :: d)).
Proof. reflexivity. Qed.

(* A variable that begins with a dollar sign, a blank node and `&&` are rejected. *)
Theorem C64_rejected_refuted c n d : readNext (L c n (36 :: d)) = ParseError /\ readNext (L c n (95 :: d)) = ParseError /\
  readNext (L c n (91 :: d)) = ParseError /\ readNext (L c n ([38; 38] ++ d)) = ParseError.
Proof. repeat split; reflexivity. Qed.

(* The name `a:x\$y` is split before the backslash, which is then rejected: the dollar sign in the
   expression for escaped characters is not escaped and stands for the end of the text. *)
Theorem C64_dollar_refuted c n d : exists l, readNext (L c n (bytes "a:x\$y"%string ++ d)) = Ok l /\ next l = T (bytes "a:x"%string) IRI /\
  readNext l = ParseError.
Proof. eexists. repeat split; reflexivity. Qed.

(* The message about a decimal number or `||` in the wrong place reads past the end of the array with the
   names of the types. *)
Theorem C64_type_names_refuted t l : has_name t = true -> type (next l) = FLOAT \/ type (next l) = LOGICAL_OR ->
  expect_type t l = Undefined.
Proof. intros H [E|E]; unfold expect_type; rewrite E; destruct t; try discriminate; reflexivity. Qed.
Example C64_type_names_example : exists l, start (bytes "1.5 .") = Ok l /\ expect_type VARIABLE l = Undefined.
Proof. eexists. split; reflexivity. Qed.

(* A number with an exponent is split. *)
Theorem C64_exponent_refuted c n d : readNext (L c n (bytes "1e5"%string ++ d)) = Ok (L n (T [49] INTEGER) (101 :: 53 :: d)).
Proof. reflexivity. Qed.

Print Assumptions C64_tokens.
Print Assumptions C64_terminates.
Print Assumptions C64_names_refuted.
Print Assumptions C64_single_quotes_refuted.
Print Assumptions C64_long_string_refuted.
Print Assumptions C64_rejected_refuted.
Print Assumptions C64_dollar_refuted.
Print Assumptions C64_type_names_refuted.
Print Assumptions C64_exponent_refuted.
