(* Theorems about the prefixes of queries (C68). *)
From Coq Require Import Ascii String List NArith ZArith Arith Bool Lia ZifyBool ZifyN ZifyNat.
From Verif Require Import Strings_Model SLex_Model Sparql_Model SLex_Spec Strings_Spec SPrefix_Spec SPrefix_Proof.
From Verif Require Conv_Model PPath_Model Strings_Proof.
Import ListNotations.
Open Scope N_scope.
Open Scope list_scope.

(* C68: every name in a query is replaced by the IRI that it stands for, and nothing else is changed.
   Missing: filters in groups and in HAVING (they must not contain names), literals with two carets in
   them, and literals with a type that is a name, with colons or backslashes in them. *)
Theorem C68_expand_partial h g q : Forall good_declaration (prefixes h) -> query_stands (Query h g) q -> query_nameless (Query h g) ->
  expandPrefixes (Query h g) = Ok q.
Proof. apply query_expand. Qed.

Definition e_text : text := bytes
  "PREFIX p: <http://x/> PREFIX p: <y:> SELECT ?x WHERE {?x p:a/^<b> ""1""^^p:int . OPTIONAL {?x p:c\.d ""p:e"" . FILTER(?x > 3)} FILTER(?x != p:f)}".
Definition e_query : query := match parse e_text with Ok q => q | _ => Query (Head [] [] [] 0 [] [] [] [] [] false false []) (Pattern false 0 [] []) end.
Definition e_result : query := match expandPrefixes e_query with Ok q => q | _ => e_query end.
Lemma declared_p : declared [([112], bytes "<http://x/>"); ([112], bytes "<y:>")] [112] (60 :: bytes "y:" ++ [62]).
Proof. exists [(bytes "ql", bytes "<QLever-internal-function/>"); ([112], bytes "<http://x/>")], []. split; [reflexivity|intros []]. Qed.
Ltac carets := apply carets_free; vm_compute; intuition discriminate.
Ltac plains := repeat (apply es_char; [discriminate|]); apply es_nil.
Ltac var_t := apply st_variable.
Example C68_expand_example : Forall good_declaration (match e_query with Query h _ => prefixes h end) /\ query_stands e_query e_result /\ query_nameless e_query.
Proof.
  set (q := e_query) in *. assert (E : q = e_query) by reflexivity. clearbody q. vm_compute in E. set (r := e_result). assert (E' : r = e_result) by reflexivity.
  clearbody r. vm_compute in E'. subst q r. split; [|split].
  - repeat (apply Forall_cons; [split; [repeat (apply Forall_cons; [cbn; intuition discriminate|]); apply Forall_nil|]|]); [| |apply Forall_nil].
    + exists (bytes "http://x/"). split; [reflexivity|vm_compute; intuition discriminate].
    + exists (bytes "y:"). split; [reflexivity|vm_compute; intuition discriminate].
  - apply qs; [apply hs; constructor|]. cbn [prefixes]. apply pt.
    + apply Forall2_cons; [|apply Forall2_nil]. apply fs_other; [discriminate|var_t|]. apply st_name.
      apply (nm_name _ [112] [102] [102] (bytes "y:")); [apply declared_p|carets|plains].
    + apply oss_cons; [|apply oss_cons; [|apply oss_nil]].
      * apply os_basic. apply Forall2_cons; [|apply Forall2_nil]. apply ts_triple; [var_t| |intros []|].
        -- apply ps_inner; [discriminate|]. apply pss_cons; [apply ps_link|apply pss_cons; [|apply pss_nil]].
           ++ apply st_name. apply (nm_name _ [112] [97] [97] (bytes "y:")); [apply declared_p|carets|plains].
           ++ apply ps_inner; [discriminate|]. apply pss_cons; [apply ps_link, st_iri|apply pss_nil].
        -- apply (st_typed _ [49] (bytes "p:int") (60 :: bytes "y:" ++ bytes "int" ++ [62])); [carets|vm_compute; intuition discriminate|vm_compute; intuition discriminate|].
           apply (nm_name _ [112] (bytes "int") (bytes "int") (bytes "y:")); [apply declared_p|carets|plains].
      * apply os_optional, pt.
        -- apply Forall2_cons; [|apply Forall2_nil]. apply fs_other; [discriminate|var_t|]. apply st_other; [cbn; intuition discriminate|discriminate].
        -- apply oss_cons; [|apply oss_nil]. apply os_basic. apply Forall2_cons; [|apply Forall2_nil]. apply ts_triple; [var_t|apply ps_link, st_name| |].
           ++ apply (nm_name _ [112] (bytes "c\.d") (bytes "c.d") (bytes "y:")); [apply declared_p|carets|].
              apply es_char; [discriminate|]. apply es_letter; [vm_compute; tauto|]. plains.
           ++ intros (a & b & Z). apply (f_equal (@length N)) in Z. rewrite !app_length in Z. cbn [length] in Z. change (length (bytes "in-context")) with 10%nat in Z. lia.
           ++ apply st_literal. carets.
  - apply qn; [constructor|]. cbn [prefixes]. apply ons_cons; [apply on_basic|]. apply ons_cons; [|apply ons_nil]. apply on_optional, gn.
    + apply Forall_cons; [|apply Forall_nil]. apply fs_other; [discriminate|var_t|]. apply st_other; [cbn; intuition discriminate|discriminate].
    + apply ons_cons; [apply on_basic|apply ons_nil].
Qed.

(* Names in the filters of OPTIONAL, MINUS and UNION groups are not expanded: the filters of a group stay
   as they are. *)
Theorem C68_groups_refuted ps opt id fs cs g : expand_pattern ps (Pattern opt id fs cs) = Ok g -> exists cs', g = Pattern opt id fs cs'.
Proof.
  cbn [expand_pattern]. match goal with |- bind ?x _ = _ -> _ => destruct x as [cs'| | | |]; try discriminate end. cbn [bind]. intros E. injection E as <-. eauto.
Qed.
Example C68_groups_example : exists q h fs cs opt t, parse (bytes
    "PREFIX p: <x:> SELECT ?x WHERE {?x <a> ?y . OPTIONAL {?x <b> ?z . FILTER(?z = p:c)}}") = Ok q /\
  expandPrefixes q = Ok (Query h (Pattern false 0 fs [cs; Optional (Pattern opt 1 [Filter EQ (bytes "?z") (bytes "p:c") [] [] false false] t)])).
Proof. do 6 eexists. split; vm_compute; reflexivity. Qed.

(* Names in HAVING are not expanded. *)
Theorem C68_having_refuted q q' : expandPrefixes q = Ok q' -> match q, q' with Query h _, Query h' _ => h' = h end.
Proof.
  destruct q as [h [opt id fs cs]], q' as [h' g']. unfold expandPrefixes. destruct (map_out _ fs) as [fs'| | | |]; try discriminate. cbn [bind].
  destruct (expand_pattern _ _); try discriminate. cbn [bind]. intros E. injection E as -> _. reflexivity.
Qed.

(* The type of a literal with a colon in it is not expanded, as in 12:00 with the type xsd:time. *)
Theorem C68_colon_refuted ps a b t : ~ In 58 a -> no_carets (a ++ 58 :: b) ->
  expandPrefix ps (34 :: (a ++ 58 :: b) ++ [34; 94; 94] ++ t) = Ok (34 :: (a ++ 58 :: b) ++ [34; 94; 94] ++ t).
Proof.
  intros I H. unfold expandPrefix. rewrite !startsWith1. cbn [orb]. unfold expand_name.
  pose proof (begin_typed (a ++ 58 :: b) t H) as B. unfold begin in B.
  replace ((34 :: (a ++ 58 :: b) ++ [34; 94; 94]) ++ t) with (34 :: (a ++ 58 :: b) ++ [34; 94; 94] ++ t) in B by (cbn [app]; rewrite <- !app_assoc; reflexivity).
  rewrite B. replace (find_char (N.eqb 58) (34 :: (a ++ 58 :: b) ++ [34; 94; 94] ++ t)) with (Some (S (length a))).
  - replace (Nat.leb (length (34 :: (a ++ 58 :: b) ++ [34; 94; 94])) (S (length a))) with false; [reflexivity|]. symmetry. apply Nat.leb_gt. cbn [length]. rewrite !app_length. cbn [length]. lia.
  - symmetry. replace (34 :: (a ++ 58 :: b) ++ [34; 94; 94] ++ t) with ((34 :: a) ++ 58 :: b ++ [34; 94; 94] ++ t) by (cbn [app]; rewrite <- !app_assoc; reflexivity).
    rewrite colon_at; [reflexivity|]. intros [J|J]; [discriminate|auto].
Qed.
Example C68_colon_example : expandPrefix (prefix_map [(bytes "x", bytes "<X#>")]) (bytes """12:00""^^x:time") = Ok (bytes """12:00""^^x:time") /\
  expandPrefix (prefix_map [(bytes "x", bytes "<X#>")]) (bytes """12""^^x:int") = Ok (bytes """12""^^<X#int>").
Proof. split; vm_compute; reflexivity. Qed.

(* A text with two carets and a name in it is changed. *)
Theorem C68_carets_refuted : expandPrefix (prefix_map [(bytes "p", bytes "<X#>")]) (bytes """see ^^p:b""") = Ok (bytes """see ^^<X#b"">").
Proof. vm_compute. reflexivity. Qed.

(* Backslashes in a literal whose type is a name are taken for escape sequences: removed or rejected. *)
Theorem C68_backslash_refuted : expandPrefix (prefix_map [(bytes "p", bytes "<X#>")]) (bytes """a\-b""^^p:t") = Ok (bytes """a-b""^^<X#t>") /\
  expandPrefix (prefix_map [(bytes "p", bytes "<X#>")]) (bytes """a\b""^^p:t") = Error.
Proof. split; vm_compute; reflexivity. Qed.

(* A name with a prefix that is not declared is not reported, for every such name. *)
Theorem C68_undeclared_refuted ps p l : good_prefix p -> no_carets l -> prefix_uri (prefix_map ps) p = None -> expandPrefix (prefix_map ps) (p ++ 58 :: l) = Ok (p ++ 58 :: l).
Proof.
  intros Gp H U. unfold expandPrefix. rewrite !first_not by (auto; cbn; tauto). cbn [orb]. unfold expand_name.
  rewrite carets_none. 2: { apply carets_app; auto; [|discriminate]. apply carets_free, good_not; auto. cbn; tauto. }
  rewrite colon_at by (apply good_not; auto; cbn; tauto). cbn [Nat.leb]. unfold substr. cbn [skipn]. rewrite Nat.sub_0_r, firstn_app, firstn_all, Nat.sub_diag. cbn [firstn].
  rewrite app_nil_r, U. reflexivity.
Qed.
Example C68_undeclared_example : exists q q', parse (bytes "SELECT ?x WHERE {?x <a> b:c}") = Ok q /\ expandPrefixes q = Ok q' /\ q' = q.
Proof. eexists. eexists. split; [vm_compute; reflexivity|]. split; [vm_compute; reflexivity|reflexivity]. Qed.

Print Assumptions C68_expand_partial.
Print Assumptions C68_groups_refuted.
Print Assumptions C68_having_refuted.
Print Assumptions C68_colon_refuted.
Print Assumptions C68_carets_refuted.
Print Assumptions C68_backslash_refuted.
Print Assumptions C68_undeclared_refuted.
