(* C54, C55, C56: parsing Turtle documents. *)
From Coq Require Import Ascii String List NArith Arith Bool Lia Permutation.
From Verif Require Import Strings_Spec Turtle_Model Turtle_Spec Turtle_Proof5 Turtle_Proof6 Turtle_Proof8 Turtle_Proof9.
From Verif Require Conv_Model.
Import ListNotations.
Open Scope N_scope.
Open Scope list_scope.

(* ---- C54 ---- *)

(* A document is parsed to the end and gives exactly its triples, in the order of the text. *)
Theorem C54_parses_partial (dotted redeclared : Prop) txt ts :
  means dotted redeclared txt ts ->
  exists s, turtleDoc (S (length txt)) (initial txt) = No s /\ data s = [] /\ triples s = ts.
Proof.
  intros (l & g & D & G & E).
  destruct (document_full dotted redeclared no_prefixes 0 l ts D (initial txt) g (S (length txt))) as (s & R & Dt & T); auto.
  { intros p v Z. discriminate. }
  exists s. auto.
Qed.

(* The grammar gives every text at most one meaning. *)
Theorem C54_unambiguous (dotted redeclared : Prop) txt ts ts' :
  means dotted redeclared txt ts -> means dotted redeclared txt ts' -> ts = ts'.
Proof. apply unambiguous. Qed.

(* Parsing ends for every input: no loop or recursion is entered more often than there are bytes. *)
Theorem C54_terminates txt :
  turtleDoc (S (length txt)) (initial txt) <> NoFuel /\ forall s, turtleDoc (S (length txt)) (initial txt) <> Yes s.
Proof. apply turtleDoc_ends. unfold size. cbn [initial data]. auto. Qed.

(* ---- C55 ---- *)

(* The triples that are delivered do not depend on how the file is divided into blocks, for
   documents without dots in names and without prefixes that change their meaning. Their order
   may be another one. *)
Theorem C55_blocks_partial (dotted redeclared : Prop) bs ts batch max_buffer calls fuel :
  (dotted -> False) -> (redeclared -> False) ->
  means dotted redeclared (concat bs) ts -> Forall (fun b => b <> []) bs -> (0 < batch)%nat ->
  (length (concat bs) <= max_buffer)%nat -> (length ts < calls)%nat ->
  (S (length bs) * S (length (concat bs)) < fuel)%nat ->
  exists out, read_all batch max_buffer calls fuel (initialize bs) [] = Some out /\ Permutation out ts.
Proof. apply blocks_ok. Qed.

(* Reading a batch ends for every input. *)
Theorem C55_terminates batch max_buffer s L fuel :
  (length (data (st s)) + length (concat (blocks s)) <= L)%nat ->
  (S (length (blocks s)) * S L < fuel)%nat ->
  fst (getLine batch max_buffer fuel s) <> Endless.
Proof.
  intros H F. unfold getLine.
  assert (K : match triples (st s) with [] => fill batch max_buffer fuel (backupState (st s)) s | _ => Reading s end <> Endless).
  { destruct (triples (st s)); [|discriminate]. apply (fill_ends batch max_buffer L); auto. cbn [Nat.mul] in F. lia. }
  destruct (match triples (st s) with [] => _ | _ => _ end) as [s'| | |]; cbn [fst]; try congruence.
  destruct (rev (triples (st s'))); cbn [fst]; discriminate.
Qed.

(* ---- C56 ---- *)

(* The parser for mapped files delivers the triples of the first statement only and then reports the end. *)
Theorem C56_mmap_only_first_refuted (dotted redeclared : Prop) t pm n ts rest batch calls fuel :
  (0 < batch)%nat -> (length ts < calls)%nat -> (0 < fuel)%nat ->
  statement_text dotted redeclared no_prefixes 0 t pm n ts ->
  mmap_all batch calls fuel (initial (t ++ rest)) false [] = Some (rev ts).
Proof. apply mmap_first. Qed.

(* The parser for mapped files does not end on a file with white space and comments only. *)
Theorem C56_mmap_endless_refuted txt batch calls fuel :
  (0 < batch)%nat -> gap txt -> mmap_all batch calls fuel (initial txt) false [] = None.
Proof.
  intros B G. destruct calls as [|calls]; auto. cbn [mmap_all]. change (triples (initial txt)) with (@nil triple). cbn iota.
  rewrite mmap_endless; auto. apply quiet_inert. left. now apply gap_nil.
Qed.

(* ---- examples ---- *)

Definition eol : text := [10].
Definition b (s : string) : text := Conv_Model.bytes s.
Definition ex_prefix : text := b "@prefix z: <h> .".
Definition ex_triples : text := eol ++ b "#c" ++ eol ++ b "z:s z:p ""x""@en , [ a 12 ] .".
Definition ex_ts : list triple :=
  [(b "<hs>", b "<hp>", b """x""@en"); (b "<hs>", b "<hp>", b "QLever-Anon-Node:0");
   (b "QLever-Anon-Node:0", b "<http://www.w3.org/1999/02/22-rdf-syntax-ns#type>", b "12")].

Lemma ascii_encoded (p : N -> Prop) c : p c -> c < 128 -> encoded p [c].
Proof. exists c. split; auto. now constructor. Qed.
Lemma gap_space : gap [32].
Proof. apply gap_blanks. repeat constructor. Qed.
Lemma gap_empty : gap [].
Proof. apply gap_blanks. constructor. Qed.
Ltac char := apply ascii_encoded; [|lia]; unfold name_char, name_start, name_base, is_letter, is_digit, range; lia.
Lemma ex_name m c : m (b "z") = Some (b "h") -> In c [112; 115] -> iri_text False m (b "z:" ++ [c]) (b "<h" ++ [c] ++ b ">") false.
Proof.
  intros M I. apply (i_name False m (b "z") (b "h") [c] [c]).
  - exists [122], []. split; [char|]. split; [constructor | reflexivity].
  - exact M.
  - right. exists [c], []. split; [left; destruct I as [<-|[<-|[]]]; char|]. split; [constructor | reflexivity].
  - apply es_char; [destruct I as [<-|[<-|[]]]; discriminate | constructor].
Qed.
Lemma ex_document : means False False (ex_prefix ++ ex_triples) ex_ts.
Proof.
  exists [ex_prefix; ex_triples], []. split; [|split; [apply gap_empty | now rewrite app_nil_r; cbn [concat]; rewrite app_nil_r]].
  set (pm := declare (b "z") (b "h") no_prefixes).
  apply (d_cons False False no_prefixes 0 ex_prefix pm 0 [] [ex_triples] ex_ts).
  - apply (st_prefix False False no_prefixes 0 [] [32] (b "z") [32] (b "h") (b "h") [32]); auto using gap_empty, gap_space.
    + exists [122], []. split; [char|]. split; [constructor | reflexivity].
    + apply (ib_char [104] []); [|constructor]. apply ascii_encoded; [|lia]. split; [lia|]. unfold iri_forbidden. cbn [In]. intuition discriminate.
    + apply es_char; [discriminate | constructor].
  - replace ex_ts with (ex_ts ++ []) by apply app_nil_r. apply (d_cons False False pm 0 ex_triples pm 1 ex_ts [] []); [|constructor].
    apply (st_triples False False pm 0 (eol ++ b "#c" ++ eol) (b "z:s") (b "<hs>") false 0 [32]
             (b "z:p ""x""@en , [ a 12 ]") true 1 ex_ts [32]); auto using gap_space; try (left; discriminate).
    + apply (gap_comment [10] [99] []); [constructor; [unfold is_blank; cbn [In]; auto 6 | constructor] | cbn [In]; intuition discriminate | constructor].
    + apply su_iri; [exact (ex_name pm 115 eq_refl (or_intror (or_introl eq_refl)))|..]; intros (r & E); discriminate.
    + apply (l_item False pm (b "<hs>") 0 (b "z:p ""x""@en , [ a 12 ]") true 1 ex_ts [] true 1 []); [|constructor].
      apply (it False pm (b "<hs>") 0 (b "z:p") (b "<hp>") false [32] (b """x""@en , [ a 12 ]") true 1 ex_ts); auto using gap_space; [|left; discriminate|].
      * apply v_iri; [exact (ex_name pm 112 eq_refl (or_introl eq_refl))|]. intros (r & E); discriminate.
      * apply (os_more False pm (b "<hs>") (b "<hp>") 0 (b """x""@en") false 0 [(b "<hs>", b "<hp>", b """x""@en")] [32] [32] (b "[ a 12 ]") true 1
                 [(b "<hs>", b "<hp>", node 0); (node 0, w_type, b "12")]); auto using gap_space.
        -- apply o_term. apply (t_language False pm (b """x""") (b "x") (b "en")).
           ++ apply (q_short 34 (b "x") (b "x")); [cbn; auto|..].
              ** apply sb_char; [discriminate | discriminate | constructor].
              ** apply es_char; [discriminate | constructor].
           ++ exists (b "en"), []. split; [discriminate|]. split; [|split; [constructor | reflexivity]].
              change (b "en") with [101; 110]. repeat apply Forall_cons; try apply Forall_nil; unfold is_letter, range; lia.
        -- apply os_last. apply (o_nested False pm (b "<hs>") (b "<hp>") 0 [32] (b "a 12") false 1 [(node 0, w_type, b "12")] [32]); auto using gap_space.
           apply (l_item False pm (node 0) 1 (b "a 12") false 1 [(node 0, w_type, b "12")] [] false 1 []); [|constructor].
           apply (it False pm (node 0) 1 [97] w_type false [32] (b "12") false 1 [(node 0, w_type, b "12")]); auto using gap_space; [constructor | left; discriminate|].
           apply os_last. apply o_term. apply t_number. exists [], (b "12"). split; auto. split; [discriminate|]. split; [|reflexivity].
           change (b "12") with [49; 50]. repeat apply Forall_cons; try apply Forall_nil; unfold is_digit, range; lia.
Qed.
(* the document cut inside a comment, a name and a nested list *)
Definition ex_blocks : list text :=
  [ex_prefix ++ eol ++ b "#"; b "c" ++ eol ++ b "z"; b ":s z:p ""x""@en , [ a 1"; b "2 ] ."].
Example C54_example : exists s, turtleDoc (S (length (ex_prefix ++ ex_triples))) (initial (ex_prefix ++ ex_triples)) = No s /\
  data s = [] /\ triples s = ex_ts.
Proof. apply (C54_parses_partial False False). apply ex_document. Qed.
Example C55_example : exists out, read_all 1 100 4 1000 (initialize ex_blocks) [] = Some out /\ Permutation out ex_ts.
Proof.
  apply (C55_blocks_partial False False ex_blocks ex_ts); auto; try (vm_compute; lia).
  - exact ex_document.
  - repeat constructor; discriminate.
Qed.
Example C56_example : mmap_all 1 5 5 (initial (ex_prefix ++ ex_triples)) false [] = Some [].
Proof. vm_compute. reflexivity. Qed.

(* ---- what is not in the grammar of Turtle_Spec.v ---- *)

(* the triples and the rest of the input that is not parsed; no exception is reported *)
Definition run (x : string) : option (list triple * text) :=
  match turtleDoc (S (length (b x))) (initial (b x)) with No s => Some (triples s, data s) | _ => None end.
Definition raises (x : string) : Prop := exists s, turtleDoc (S (length (b x))) (initial (b x)) = Raised s.

(* A decimal number is read as an integer and its dot ends the statement; the rest of the file is ignored without an error. *)
Theorem C54_decimal_refuted :
  run "<s> <p> 1.5 . <t> <p> <o> ." = Some ([(b "<s>", b "<p>", b "1")], b "5 . <t> <p> <o> .").
Proof. vm_compute. reflexivity. Qed.
(* The same for a number with an exponent. *)
Theorem C54_double_refuted :
  run "<s> <p> 1e5 . <t> <p> <o> ." = Some ([(b "<s>", b "<p>", b "1")], b "e5 . <t> <p> <o> .").
Proof. vm_compute. reflexivity. Qed.
(* The dot after @base is not skipped; the rest of the file is ignored. *)
Theorem C54_base_refuted :
  run "@base <x> . <t> <p> <o> ." = Some ([], b ". <t> <p> <o> .").
Proof. vm_compute. reflexivity. Qed.
(* A prefix declared by PREFIX keeps its angle brackets, so that its names contain them. *)
Theorem C54_sparql_prefix_refuted :
  run "PREFIX ab: <x> ab:c <p> <o> ." = Some ([(b "<<x>c>", b "<p>", b "<o>")], []).
Proof. vm_compute. reflexivity. Qed.
(* A predicate whose prefix begins with the letter a is taken for the keyword a. *)
Theorem C54_keyword_a_refuted :
  run "@prefix as: <x> . @prefix s: <y> . <s> as:b <o> ." =
  Some ([(b "<s>", b "<http://www.w3.org/1999/02/22-rdf-syntax-ns#type>", b "<yb>")], b "<o> .").
Proof. vm_compute. reflexivity. Qed.
(* An object whose prefix begins with true is taken for the boolean. *)
Theorem C54_keyword_true_refuted :
  run "@prefix true: <x> . <s> <p> true:c . <t> <p> <o> ." = Some ([(b "<s>", b "<p>", b "true")], b ":c . <t> <p> <o> .").
Proof. vm_compute. reflexivity. Qed.
(* An object whose prefix looks like an exponent is taken for a number. *)
Theorem C54_exponent_refuted :
  run "@prefix e1: <x> . <s> <p> e1:c . <t> <p> <o> ." = Some ([(b "<s>", b "<p>", b "e1")], b ":c . <t> <p> <o> .").
Proof. vm_compute. reflexivity. Qed.
(* A subject whose prefix begins with PREFIX is taken for a directive. *)
Theorem C54_keyword_prefix_refuted : raises "@prefix PREFIXa: <x> . PREFIXa:c <p> <o> .".
Proof. eexists. vm_compute. reflexivity. Qed.
(* A blank node property list as a subject adds a triple with the subject and predicate of the statement before,
   and the predicates that follow it get the subject of the statement before. *)
Theorem C54_property_list_subject_refuted :
  run "<s> <p> <o> . [ <a> <b> ] <c> <d> ." =
  Some ([(b "<s>", b "<p>", b "<o>"); (b "<s>", b "<p>", node 0); (node 0, b "<a>", b "<b>"); (b "<s>", b "<c>", b "<d>")], []).
Proof. vm_compute. reflexivity. Qed.
(* At most one comment is skipped at a time; after three comments a prefix declaration is not
   recognized and the rest of the file is ignored. *)
Theorem C54_comments_refuted :
  let txt := b "#1" ++ eol ++ b "#2" ++ eol ++ b "#3" ++ eol ++ b "@prefix a: <b> . <s> <p> <o> ." in
  exists s, turtleDoc (S (length txt)) (initial txt) = No s /\ triples s = [] /\ data s = b "@prefix a: <b> . <s> <p> <o> .".
Proof. cbv zeta. eexists. split; [vm_compute; reflexivity|]. split; vm_compute; reflexivity. Qed.
(* The empty prefix is rejected. *)
Theorem C54_empty_prefix_refuted : raises "@prefix : <x> . :s <p> <o> .".
Proof. eexists. vm_compute. reflexivity. Qed.
(* A prefix with two dots in a row is rejected. *)
Theorem C54_two_dots_refuted : raises "@prefix a..b: <x> . <s> <p> <o> .".
Proof. eexists. vm_compute. reflexivity. Qed.
(* Collections are rejected. *)
Theorem C54_collection_refuted : raises "<s> <p> (1) .".
Proof. eexists. vm_compute. reflexivity. Qed.

(* The triples of a batch are delivered in reverse order. *)
Theorem C55_order_refuted :
  read_all 2 100 100 100 (initialize [b "<s> <p> <o1> . <s> <p> <o2> . <s> <p> <o3> ."]) [] =
  Some [(b "<s>", b "<p>", b "<o2>"); (b "<s>", b "<p>", b "<o1>"); (b "<s>", b "<p>", b "<o3>")].
Proof. vm_compute. reflexivity. Qed.
(* The prefixes are not put back when a block is read again: a name that was read before its prefix
   was declared again gets the new meaning, depending on where the blocks end. *)
Theorem C55_redeclared_refuted :
  let x := b "@prefix a: <x> . <s> <p> <o> , <n> . a:s <p> <o> . @prefix a: <y> . <t" in let y := b "> <p> <o> ." in
  (exists l, read_all 2 200 100 200 (initialize [x ++ y]) [] = Some l /\ In (b "<xs>", b "<p>", b "<o>") l) /\
  exists l, read_all 2 200 100 200 (initialize [x; y]) [] = Some l /\ ~ In (b "<xs>", b "<p>", b "<o>") l.
Proof.
  cbv zeta. split; eexists; (split; [vm_compute; reflexivity|]).
  - vm_compute. tauto.
  - vm_compute. intuition discriminate.
Qed.
(* A name with a dot that is cut after the dot gives a wrong triple, and the rest of the file is lost. *)
Theorem C55_dotted_refuted :
  let x := b "@prefix a: <x> . <s> <p> a:d." in let y := b "e . <t> <p> <o> ." in
  read_all 1 100 100 100 (initialize [x ++ y]) [] = Some [(b "<s>", b "<p>", b "<xd.e>"); (b "<t>", b "<p>", b "<o>")] /\
  read_all 1 100 100 100 (initialize [x; y]) [] = Some [(b "<s>", b "<p>", b "<xd>")].
Proof. split; vm_compute; reflexivity. Qed.
(* The same for the label of a blank node. *)
Theorem C55_dotted_label_refuted :
  let x := b "<s> <p> _:d." in let y := b "e . <t> <p> <o> ." in
  read_all 1 100 100 100 (initialize [x ++ y]) [] = Some [(b "<s>", b "<p>", b "_:d.e"); (b "<t>", b "<p>", b "<o>")] /\
  read_all 1 100 100 100 (initialize [x; y]) [] = Some [(b "<s>", b "<p>", b "_:d")].
Proof. split; vm_compute; reflexivity. Qed.
(* An input that cannot be parsed up to its end is not an error: the triples after a decimal number are lost. *)
Theorem C55_silent_loss_refuted :
  read_all 10 100 100 100 (initialize [b "<s> <p> 1.5 . <t> <p> <o> ."]) [] = Some [(b "<s>", b "<p>", b "1")].
Proof. vm_compute. reflexivity. Qed.
Print Assumptions C54_parses_partial.
Print Assumptions C54_unambiguous.
Print Assumptions C54_terminates.
Print Assumptions C55_blocks_partial.
Print Assumptions C55_terminates.
Print Assumptions C56_mmap_only_first_refuted.
Print Assumptions C56_mmap_endless_refuted.
Print Assumptions C54_decimal_refuted.
Print Assumptions C54_double_refuted.
Print Assumptions C54_base_refuted.
Print Assumptions C54_sparql_prefix_refuted.
Print Assumptions C54_keyword_a_refuted.
Print Assumptions C54_keyword_true_refuted.
Print Assumptions C54_exponent_refuted.
Print Assumptions C54_keyword_prefix_refuted.
Print Assumptions C54_property_list_subject_refuted.
Print Assumptions C54_comments_refuted.
Print Assumptions C54_empty_prefix_refuted.
Print Assumptions C54_two_dots_refuted.
Print Assumptions C54_collection_refuted.
Print Assumptions C55_order_refuted.
Print Assumptions C55_redeclared_refuted.
Print Assumptions C55_dotted_refuted.
Print Assumptions C55_dotted_label_refuted.
Print Assumptions C55_silent_loss_refuted.
