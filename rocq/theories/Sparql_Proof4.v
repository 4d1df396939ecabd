(* Proofs about the SPARQL parser: triples, values, assignments and solution modifiers. *)
From Coq Require Import Ascii String List NArith ZArith Arith Bool Lia ZifyBool ZifyN ZifyNat.
From Verif Require Import Strings_Model SLex_Model Sparql_Model SLex_Spec Sparql_Spec SLex_Proof SLex_Proof3 Sparql_Proof1 Sparql_Proof2 Sparql_Proof3.
From Verif Require Conv_Model PPath_Model PPath_Spec PPath_Proof PPath_Thm Turtle_Model Turtle_Spec Turtle_Proof.
Import ListNotations.
Open Scope N_scope.
Open Scope list_scope.

(* ---- triples ---- *)
Lemma node_step x is l : node_ok x -> At (node_item x :: is) l -> exists l', parse_node l = Ok (node_text x, l') /\ At is l'.
Proof.
  intros K A. unfold parse_node. destruct x as [v|v|v]; cbn [node_item node_text node_ok] in *; steps; rewrite ?(parse_plain _ K); cbn [bind]; eauto.
Qed.
Lemma predicate_step p is l : At (predicate_item p :: is) l -> exists l', parse_predicate l = Ok (predicate_text p, l') /\ At is l'.
Proof.
  intros A. unfold parse_predicate. destruct p as [v|ts p]; cbn [predicate_item predicate_text] in *; steps; eauto.
  destruct (read_raw _ _ _ A) as (l' & E & C & A'). unfold accept_any. rewrite E. cbn [bind]. rewrite C. eauto.
Qed.
Definition node_possible (x : node) : Prop :=
  match x with NVar v => possible KVariable v | NIri v => possible KIri v | NLit v => possible KLiteral v end.
Lemma at_node x is l : At (node_item x :: is) l -> node_possible x.
Proof. destruct x; apply at_possible. Qed.
Definition predicate_possible (p : predicate) : Prop := match p with PVar v => possible KVariable v | PPath ts _ => concat ts <> [] end.
Lemma at_predicate p is l : At (predicate_item p :: is) l -> predicate_possible p.
Proof.
  destruct p; [apply at_possible|]. intros (k & w1 & w2 & c & d & E & _ & P & _). cbn [predicate_possible]. rewrite E.
  apply possible_nonempty in P. destruct w1; [contradiction|discriminate].
Qed.
Lemma iri_first v : possible KIri v -> forall r, v <> 34 :: r.
Proof.
  intros (w & f & H) r E. remember KIri as k. destruct H; try discriminate.
  destruct H as [u B|p l P Lo]; [discriminate|]. destruct P as [->|(u & q & (x & Hx & U) & _ & ->)]; [discriminate|].
  destruct (Turtle_Proof.utf8_head _ _ U) as (c & t & -> & [(-> & Hl & ->)|(Hc & _)]); cbn in E; injection E as -> _; [|lia].
  apply Turtle_Proof.base_ok in Hx. vm_compute in Hx. discriminate.
Qed.
Lemma plain_quoted v s : plain v -> v = quoted s -> exists s', ~ In 34 s' /\ v = quoted s' /\ s' = s.
Proof.
  intros (s' & x & -> & I & B & X) E. unfold quoted in E. destruct X as [->|[(l & F & ->)|(i & F & ->)]].
  - exists s'. split; auto. split; [reflexivity|]. injection E as E. apply app_inj_tail in E. apply E.
  - exfalso. assert (L1 : List.last ([34] ++ s' ++ [34] ++ 64 :: l) 0 = 34) by (rewrite E; change ([34] ++ s ++ [34]) with ((34 :: s) ++ [34]); apply last_last).
    destruct l as [|c l].
    + replace ([34] ++ s' ++ [34] ++ [64]) with (([34] ++ s' ++ [34]) ++ [64]) in L1 by (rewrite <- !app_assoc; reflexivity). rewrite last_last in L1. discriminate.
    + assert (Nc : c :: l <> []) by discriminate. destruct (exists_last Nc) as (l0 & c0 & E0). rewrite E0 in L1, F. clear E0.
      replace ([34] ++ s' ++ [34] ++ 64 :: l0 ++ [c0]) with (([34] ++ s' ++ [34] ++ 64 :: l0) ++ [c0]) in L1 by (rewrite <- !app_assoc; reflexivity). rewrite last_last in L1. subst c0.
      apply Forall_app in F as [_ F]. inversion F as [|? ? H _]; subst. apply Turtle_Proof.letter_ok in H. discriminate.
  - exfalso. assert (L1 : List.last ([34] ++ s' ++ [34] ++ 94 :: 94 :: i) 0 = 34) by (rewrite E; change ([34] ++ s ++ [34]) with ((34 :: s) ++ [34]); apply last_last).
    destruct i as [|c l].
    + replace ([34] ++ s' ++ [34] ++ [94; 94]) with (([34] ++ s' ++ [34; 94]) ++ [94]) in L1 by (rewrite <- !app_assoc; reflexivity). rewrite last_last in L1. discriminate.
    + assert (Nc : c :: l <> []) by discriminate. destruct (exists_last Nc) as (l0 & c0 & E0). rewrite E0 in L1, F. clear E0.
      replace ([34] ++ s' ++ [34] ++ 94 :: 94 :: l0 ++ [c0]) with (([34] ++ s' ++ [34] ++ 94 :: 94 :: l0) ++ [c0]) in L1 by (rewrite <- !app_assoc; reflexivity). rewrite last_last in L1. subst c0.
      apply Forall_app in F as [_ F]. inversion F as [|? ? [_ H] _]; subst. congruence.
Qed.
Lemma contains_ok p : contains_word p <-> text_eqb (predicate_text p) CONTAINS_WORD_PREDICATE || text_eqb (predicate_text p) CONTAINS_WORD_PREDICATE_NS = true.
Proof.
  unfold contains_word. rewrite orb_true_iff, !text_eqb_ok. cbn [In]. unfold CONTAINS_WORD_PREDICATE, CONTAINS_WORD_PREDICATE_NS. intuition congruence.
Qed.
Lemma var_shape v : possible KVariable v -> exists r, v = 63 :: r.
Proof. intros (w & f & H). remember KVariable as k. destruct H; try discriminate. eauto. Qed.
Lemma triple_ok s p o x : node_ok o -> node_possible o -> predicate_ok p -> predicate_possible p -> object_value p o x ->
  make_triple s (predicate_text p) (node_text o) = Ok (Triple s (predicate_path p) x).
Proof.
  intros Ko Po Kp Pp H. unfold make_triple.
  assert (X : (if text_eqb (predicate_text p) CONTAINS_WORD_PREDICATE || text_eqb (predicate_text p) CONTAINS_WORD_PREDICATE_NS
           then stripAndLowercaseKeywordLiteral (node_text o) else node_text o) = x).
  { destruct H as [w C Nw Iw|o H].
    - apply contains_ok in C. rewrite C. apply keyword_strip; auto.
    - destruct (text_eqb (predicate_text p) CONTAINS_WORD_PREDICATE || text_eqb (predicate_text p) CONTAINS_WORD_PREDICATE_NS) eqn:C; [|reflexivity].
      apply contains_ok in C. destruct H as [H|H]; [contradiction|]. apply keyword_other. intros w Nw E. destruct o as [v|v|v]; cbn [node_text node_possible node_ok] in *.
      + destruct (var_shape _ Po) as (r & ->). discriminate.
      + apply (iri_first _ Po (w ++ [34])). exact E.
      + destruct (plain_quoted _ _ Ko E) as (w' & I & Ew & ->). exact (H w Nw I (f_equal NLit Ew)). }
  rewrite X. clear X.
  assert (Q : PPath_Model.parse (predicate_text p) = PPath_Model.Val (predicate_path p)).
  { destruct p as [v|ts p]; cbn [predicate_text predicate_path predicate_ok predicate_possible] in *.
    - destruct (var_shape _ Pp) as (r & ->). apply PPath_Thm.C60_variable. exact Kp.
    - destruct Kp as [D C]. apply PPath_Thm.C60_parses_partial; auto. }
  rewrite Q. reflexivity.
Qed.

(* ---- values and assignments ---- *)
Lemma bind_step b e v is l : bound_means b e -> At (Sym "(" :: bound_items b ++ [Word "as"; Tok KVariable v; Sym ")"] ++ is) l ->
  exists l', parse_bind l = Ok (Bind e v, l') /\ At is l'.
Proof.
  intros H A. unfold parse_bind. destruct H; cbn [bound_items app] in A; steps; rewrite ?parse_plain by auto; steps;
    rewrite ?(strtoll_ok _ _ H) by auto; eauto.
  replace (existsb (N.eqb (at_ [op] 0)) (bytes "+-*/")) with true; [steps; eauto|].
  symmetry. apply existsb_exists. exists op. split; auto. apply N.eqb_refl.
Qed.
Lemma vars_step vs : forall fuel us is l, (length vs < fuel)%nat -> At (map (Tok KVariable) vs ++ is) l -> type_differs is VARIABLE = true ->
  exists l', parse_vars fuel us l = Ok (us ++ vs, l') /\ At is l'.
Proof.
  induction vs as [|v vs IH]; intros [|fuel] us is l F A D; try (cbn [length] in F; lia); cbn [map app parse_vars] in *.
  - rewrite (accept_type_no _ _ _ A D). cbn [bind]. rewrite app_nil_r. eauto.
  - steps. destruct (IH fuel (us ++ [v]) is _ ltac:(cbn [length] in F; lia) A0 D) as (l' & E & A'). exists l'. rewrite E, <- app_assoc. auto.
Qed.
Lemma row_step cs : forall is l, At (map cell_item cs ++ is) l -> exists l', parse_row (length cs) l = Ok (map cell_text cs, l') /\ At is l'.
Proof.
  induction cs as [|c cs IH]; intros is l A; cbn [map app length parse_row] in *; [eauto|].
  destruct c; cbn [cell_item cell_text] in *; steps;
    match goal with A : At (map cell_item cs ++ is) _ |- _ => destruct (IH _ _ A) as (l' & E & A'); rewrite E; cbn [bind]; eauto end.
Qed.
Lemma rows_step n rows : Forall (fun r : list cell => length r = n) rows -> forall fuel us is l, (length rows < fuel)%nat ->
  At (concat (map (fun r => [Sym "("] ++ map cell_item r ++ [Sym ")"]) rows) ++ is) l -> head_differs is (bytes "(") = true ->
  exists l', parse_rows fuel n us l = Ok (us ++ map (map cell_text) rows, l') /\ At is l'.
Proof.
  induction 1 as [|r rows <- _ IH]; intros [|fuel] us is l F A D; try (cbn [length] in F; lia); cbn [map concat app parse_rows] in *.
  - rewrite (accept_no _ _ _ A D). cbn [bind]. rewrite app_nil_r. eauto.
  - rewrite <- !app_assoc in A. step. destruct (row_step r _ _ A0) as (l1 & E1 & A1). rewrite E1. cbn [bind app] in *. step.
    destruct (IH fuel (us ++ [map cell_text r]) is _ ltac:(cbn [length] in F; lia) A2 D) as (l' & E & A'). exists l'. rewrite E, <- app_assoc. auto.
Qed.
Lemma values1_step cs : forall fuel us is l, (length cs < fuel)%nat -> At (map cell_item cs ++ is) l ->
  type_differs is IRI = true -> type_differs is RDFLITERAL = true ->
  exists l', parse_values1 fuel us l = Ok (us ++ map (fun c => [cell_text c]) cs, l') /\ At is l'.
Proof.
  induction cs as [|c cs IH]; intros [|fuel] us is l F A D1 D2; try (cbn [length] in F; lia); cbn [map app parse_values1] in *.
  - rewrite (accept_type_no _ _ _ A D1). cbn [bind]. rewrite (accept_type_no _ _ _ A D2). cbn [bind]. rewrite app_nil_r. eauto.
  - destruct c; cbn [cell_item cell_text] in *; steps;
      match goal with A : At (map cell_item cs ++ is) _ |- context [us ++ [[?v]]] =>
        destruct (IH fuel (us ++ [[v]]) is _ ltac:(cbn [length] in F; lia) A D1 D2) as (l' & E & A'); exists l'; rewrite E, <- app_assoc; auto end.
Qed.
Lemma values_step d is l : data_ok d -> At (data_items d ++ is) l -> exists l', parse_values l = Ok (data_means d, l') /\ At is l'.
Proof.
  intros K A. unfold parse_values. destruct d as [vars rows|v cells]; cbn [data_items data_means data_ok] in *.
  - rewrite <- !app_assoc in A. cbn [app] in A. step. assert (Len := at_length _ _ A0). rewrite app_length, map_length in Len.
    destruct (vars_step vars (length (rest l0) + 2) [] _ _ ltac:(lia) A0 eq_refl) as (l1 & E1 & A1). rewrite E1. steps. cbn [app].
    set (rs := fun r => Sym "(" :: map cell_item r ++ [Sym ")"]) in *.
    assert (Len2 := at_length _ _ A3). rewrite app_length in Len2.
    assert (Lc : (length rows <= length (concat (map rs rows)))%nat).
    { clear. induction rows as [|r rows IH]; [cbn; lia|]. cbn [map concat length]. rewrite app_length. unfold rs at 1. cbn [length]. lia. }
    destruct (rows_step (length vars) rows K (length (rest l3) + 2) [] (Sym "}" :: is) l3 ltac:(lia) A3 eq_refl) as (l4 & E4 & A4). rewrite E4.
    steps. eauto.
  - cbn [app] in A. rewrite <- app_assoc in A. steps.
    match goal with A : At (map _ cells ++ _) ?l2 |- _ => assert (Len2 := at_length _ _ A); rewrite app_length, map_length in Len2;
      destruct (values1_step cells (length (rest l2) + 2) [] _ _ ltac:(lia) A eq_refl eq_refl) as (l3 & E3 & A3); rewrite E3 end.
    steps. eauto.
Qed.

(* ---- solution modifiers ---- *)
Lemma name_char_low x : Turtle_Spec.name_char x -> x < 128 -> negb ((x =? 41) || isspace x) = true.
Proof.
  intros H L1. unfold Turtle_Spec.name_char, Turtle_Spec.name_start in H. unfold isspace.
  assert (G : Turtle_Spec.name_base x -> Turtle_Model.letter x = true) by (intros B; apply Turtle_Proof.base_ok in B; now rewrite Turtle_Proof.base_low in B).
  unfold Turtle_Spec.is_digit, Turtle_Spec.range in H. destruct H as [[H|H]|H]; [apply G in H; unfold Turtle_Model.letter, Turtle_Model.between in H| |]; lia.
Qed.
Lemma possible_var v : possible KVariable v -> var_text v.
Proof.
  intros (w & f & H). remember KVariable as k. destruct H; try discriminate. exists (u ++ concat us). split; [reflexivity|].
  assert (G : forall (P : N -> Prop) u, encoded P u -> (forall x, P x -> x < 128 -> negb ((x =? 41) || isspace x) = true) ->
    Forall (fun c => negb ((c =? 41) || isspace c) = true) u).
  { intros P x (y & Py & U) HP. destruct (Turtle_Proof.utf8_bytes_high _ _ U) as [-> |F].
    - constructor; [|constructor]. destruct (N.lt_ge_cases y 128) as [L1|L1]; [auto|]. unfold isspace. lia.
    - eapply Forall_impl; [|exact F]. unfold isspace. cbv beta. intros. lia. }
  apply Forall_app. split.
  - eapply G; [eassumption|]. cbv beta. intros x Hx L1. apply name_char_low; auto. unfold Turtle_Spec.name_char. destruct Hx as [Hx|Hx]; auto.
  - apply Forall_concat. eapply Forall_impl; [|eassumption]. intros. eapply G; [eassumption|]. cbv beta. intros x [Hx _] L1. now apply name_char_low.
Qed.
Lemma order_key_step d k h is l : key_ok k -> match k with KeyAlias _ a => ~ In (ca_out a) (selected h) | _ => True end ->
  match k with KeyVar _ => False | KeyCall d' _ | KeyScore d' _ | KeyAlias d' _ => d = d' end ->
  At (tl (key_items k) ++ is) l ->
  exists l', parseOrderKey (order_text d) h l = Ok (key_means k, aliases h ++ key_alias k, l') /\ At is l'.
Proof.
  intros K I D A. unfold parseOrderKey. destruct k as [v|d' v|d' v|d' a]; [contradiction|subst d'..]; cbn [key_items tl app key_means key_alias key_ok] in *.
  - steps. rewrite key_call, app_nil_r by (apply possible_var; eapply at_possible; eassumption). cbn [bind]. eauto.
  - step. step. destruct (call_step (bytes "SCORE") v _ _ A1) as (l2 & E2 & A2). rewrite E2.
    assert (P : possible KVariable v) by (destruct (expect_yes _ _ _ _ A1) as (? & _ & _ & B); eapply at_possible; exact B).
    steps. change (bytes "SCORE" ++ bytes "(" ++ v ++ bytes ")") with (bytes "SCORE(" ++ v ++ bytes ")"). rewrite key_score, app_nil_r by (apply possible_var; exact P). cbn [bind]. eauto.
  - rewrite <- app_assoc in A. step. step. step.
    assert (P : possible KVariable (ca_out a)).
    { clear - A1 K. cbn [app] in A1. destruct a as [ty ds v sep o]. cbn [alias_items ca_type ca_distinct ca_in ca_separator ca_out] in *.
      assert (G : forall is l, At is l -> forall v, In (Tok KVariable v) is -> possible KVariable v).
      { clear. induction is as [|i is IH]; intros l A v H; [destruct H|]. destruct H as [-> |H]; [eapply at_possible; eauto|].
        destruct i as [k w|w]; [destruct (read_tok _ _ _ _ A) as (l' & _ & _ & A')|destruct (read_raw _ _ _ A) as (l' & _ & _ & A')]; eauto. }
      eapply G; [exact A1|]. apply in_or_app; left; unfold alias_items; cbn [ca_type ca_distinct ca_in ca_separator ca_out]; destruct ds, sep; cbn [app In]; tauto. }
    destruct (alias_step a _ _ K A1) as (l2 & E2 & A2). rewrite E2. cbn [bind app] in *.
    replace (existsb (fun s => text_eqb s (a_out (alias_means a))) (selected h)) with false.
    2: { symmetry. apply not_true_is_false. intros H. apply existsb_exists in H as (s & H & E). apply text_eqb_ok in E. subst s. apply I. exact H. }
    steps. change (a_out (alias_means a)) with (ca_out a). rewrite key_call by (apply possible_var; exact P). cbn [bind]. eauto.
Qed.

(* what follows a list of keys, variables or filters *)
Definition ends (is : list item) : bool :=
  type_differs is VARIABLE && forallb (head_differs is) (map bytes ["asc"; "desc"; "("; "lang"; "langmatches"; "regex"; "prefix"]%string).
Lemma ends_var is : ends is = true -> type_differs is VARIABLE = true.
Proof. unfold ends. intros H. apply andb_true_iff in H. apply H. Qed.
Lemma ends_word is s : ends is = true -> In s ["asc"; "desc"; "("; "lang"; "langmatches"; "regex"; "prefix"]%string -> head_differs is (bytes s) = true.
Proof.
  unfold ends. intros H I. apply andb_true_iff in H. destruct H as [_ H]. rewrite forallb_forall in H. apply H. apply in_map. exact I.
Qed.
Lemma ends_modifier b m is : ends (modifier_items b m ++ is) = true.
Proof. destruct m; reflexivity. Qed.
Lemma ends_modifiers ms is k : modifiers_items ms is -> ends k = true -> ends (is ++ k) = true.
Proof. intros [|b m ms' is' _] H; [exact H|]. rewrite <- app_assoc. apply ends_modifier. Qed.

Lemma order_step ks : Forall key_ok ks -> forall fuel ps se ha n ob gb li tl of r d al is l,
  Forall (fun k => match k with KeyAlias _ a => ~ In (ca_out a) se | _ => True end) ks -> (length ks < fuel)%nat ->
  ob <> [] \/ ks <> [] -> At (concat (map key_items ks) ++ is) l -> ends is = true ->
  exists l', parse_order fuel (Head ps se ha n ob gb li tl of r d al) l =
    Ok (Head ps se ha n (ob ++ map key_means ks) gb li tl of r d (al ++ concat (map key_alias ks)), l') /\ At is l'.
Proof.
  induction 1 as [|k ks K _ IH]; intros [|fuel] ps se ha n ob gb li tl of r d al is l I F Nb A E; try (cbn [length] in F; lia);
    cbn [map concat parse_order] in *.
  - cbn [app] in A. rewrite (accept_type_no _ _ _ A (ends_var _ E)). cbn [bind].
    rewrite (accept_no _ _ _ A (ends_word _ "asc" E ltac:(cbn; tauto))). cbn [bind].
    rewrite (accept_no _ _ _ A (ends_word _ "desc" E ltac:(cbn; tauto))). cbn [bind orderBy].
    rewrite !app_nil_r. destruct ob; [destruct Nb; contradiction|]. eauto.
  - inversion I as [|? ? I1 I2]; subst. cbn [prefixes selected having numPatterns orderBy groupBy limit textLimit offset reduced distinct aliases].
    rewrite <- app_assoc in A.
    assert (G : forall l1, At (concat (map key_items ks) ++ is) l1 -> exists l',
      parse_order fuel (Head ps se ha n (ob ++ [key_means k]) gb li tl of r d (al ++ key_alias k)) l1 =
      Ok (Head ps se ha n (ob ++ key_means k :: map key_means ks) gb li tl of r d (al ++ key_alias k ++ concat (map key_alias ks)), l') /\ At is l').
    { intros l1 A1. destruct (IH fuel ps se ha n (ob ++ [key_means k]) gb li tl of r d (al ++ key_alias k) is l1 I2 ltac:(cbn [length] in F; lia)
        ltac:(left; destruct ob; discriminate) A1 E) as (l' & El & A'). exists l'. rewrite El, <- !app_assoc. auto. }
    assert (O := fun d1 => order_key_step d1 k (Head ps se ha n ob gb li tl of r d al) (concat (map key_items ks) ++ is)).
    cbn [selected aliases] in O.
    destruct k as [v|d1 v|d1 v|d1 a]; cbn [key_items] in A.
    + cbn [app] in A. step. rewrite key_variable by (apply possible_var; eapply at_possible; eassumption). cbn [bind].
      cbn [key_means key_alias] in G. rewrite app_nil_r in G. apply G. exact A0.
    + destruct d1; cbn [direction app] in A; steps.
      * destruct (O true _ K I1 eq_refl A0) as (l2 & E2 & A2). change (bytes "DESC") with (order_text true). rewrite E2. cbn [bind]. apply G. exact A2.
      * destruct (O false _ K I1 eq_refl A0) as (l2 & E2 & A2). change (bytes "ASC") with (order_text false). rewrite E2. cbn [bind]. apply G. exact A2.
    + destruct d1; cbn [direction app] in A; steps.
      * destruct (O true _ K I1 eq_refl A0) as (l2 & E2 & A2). change (bytes "DESC") with (order_text true). rewrite E2. cbn [bind]. apply G. exact A2.
      * destruct (O false _ K I1 eq_refl A0) as (l2 & E2 & A2). change (bytes "ASC") with (order_text false). rewrite E2. cbn [bind]. apply G. exact A2.
    + destruct d1; cbn [direction app] in A; steps.
      * destruct (O true _ K I1 eq_refl A0) as (l2 & E2 & A2). change (bytes "DESC") with (order_text true). rewrite E2. cbn [bind]. apply G. exact A2.
      * destruct (O false _ K I1 eq_refl A0) as (l2 & E2 & A2). change (bytes "ASC") with (order_text false). rewrite E2. cbn [bind]. apply G. exact A2.
Qed.
Lemma no_filter fs cs is l : At is l -> ends is = true -> parseFilter false fs cs l = Ok (false, fs, cs, l).
Proof.
  intros A E. unfold parseFilter. destruct (open_step 0 (length (rest l) + 2) 0 is l ltac:(lia) A (ends_word _ "(" E ltac:(cbn; tauto))) as (l1 & E1 & A1).
  assert (l1 = l). { rewrite Nat.add_comm in E1. cbn [Nat.add count_open] in E1. rewrite (accept_no _ _ _ A (ends_word _ "(" E ltac:(cbn; tauto))) in E1. cbn [bind] in E1. congruence. }
  subst l1. rewrite E1. cbn [bind Nat.add].
  rewrite (accept_no _ _ _ A (ends_word _ "lang" E ltac:(cbn; tauto))). cbn [bind andb].
  rewrite (accept_no _ _ _ A (ends_word _ "langmatches" E ltac:(cbn; tauto))). cbn [bind].
  rewrite (accept_no _ _ _ A (ends_word _ "regex" E ltac:(cbn; tauto))). cbn [bind].
  rewrite (accept_no _ _ _ A (ends_word _ "prefix" E ltac:(cbn; tauto))). cbn [bind]. reflexivity.
Qed.
Lemma having_step fs gs : Forall2 filter_means fs gs -> Forall filter_ok fs -> forall fuel hs cs is l, (length fs < fuel)%nat ->
  At (concat (map filter_items fs) ++ is) l -> ends is = true ->
  exists l', more_having fuel hs cs l = Ok (hs ++ gs, cs, l') /\ At is l'.
Proof.
  induction 1 as [|f g fs gs M _ IH]; intros K [|fuel] hs cs is l F A E; try (cbn [length] in F; lia); cbn [map concat more_having] in *.
  - rewrite (no_filter _ _ _ _ A E). cbn [bind]. rewrite app_nil_r. eauto.
  - inversion K; subst. rewrite <- app_assoc in A.
    destruct (filter_step f hs cs (hs ++ [g]) cs false _ _ ltac:(assumption) (fa_other _ _ _ _ M) A) as (l1 & E1 & A1). rewrite E1. cbn [bind].
    destruct (IH ltac:(assumption) fuel (hs ++ [g]) cs is l1 ltac:(cbn [length] in F; lia) A1 E) as (l' & E2 & A2). exists l'. rewrite E2, <- app_assoc. auto.
Qed.
Lemma filter_one f : (1 <= length (filter_items f))%nat.
Proof. destruct f; cbn [filter_items]; rewrite !app_length; try (destruct r; cbn [regex_items]); cbn [map concat]; rewrite ?app_length; cbn [length]; lia. Qed.
Lemma key_one k : (1 <= length (key_items k))%nat.
Proof. destruct k; cbn [key_items app length]; lia. Qed.
Lemma modifier_two b m : (2 <= length (modifier_items b m))%nat.
Proof.
  destruct m as [k ks| | | | |f fs]; cbn [modifier_items map concat length]; rewrite ?app_length; [assert (T := key_one k)|..|assert (T := filter_one f)]; lia.
Qed.
Lemma modifiers_step ms is : modifiers_items ms is -> forall fuel h h' cs l k, Forall modifier_ok ms -> modify_all ms h h' -> (length ms < fuel)%nat ->
  At (is ++ k) l -> k = [] \/ (exists k', k = Sym "}" :: k' /\ k' <> []) ->
  exists l', parseSolutionModifiers fuel h cs l = Ok (h', cs, l') /\ (k = [] -> At [] l') /\ (forall k', k = Sym "}" :: k' -> At k' l').
Proof.
  induction 1 as [|b m ms is Hi IH]; intros [|fuel] h h' cs l k K M F A Hk; try (cbn [length] in F; lia); cbn [parseSolutionModifiers].
  - inversion M; subst. cbn [app] in A. destruct Hk as [-> |(k' & -> & Nk)].
    + rewrite (at_empty _ A). exists l. split; [reflexivity|]. split; [auto|discriminate].
    + rewrite (at_two _ _ A) by (destruct k'; [contradiction|cbn [length]; lia]). step. eexists. split; [reflexivity|]. split; [discriminate|].
      intros k0 [= <-]. assumption.
  - inversion M as [|? ? ? h1 ? M1 M2]; subst. inversion K as [|? ? K1 K2]; subst. rewrite <- app_assoc in A.
    assert (Ee : ends (is ++ k) = true). { apply ends_modifiers with ms; auto. destruct Hk as [-> |(k' & -> & _)]; reflexivity. }
    rewrite (at_two _ _ A) by (rewrite app_length; assert (T := modifier_two b m); lia).
    assert (R : forall l1, At (is ++ k) l1 -> exists l', parseSolutionModifiers fuel h1 cs l1 = Ok (h', cs, l') /\ (k = [] -> At [] l') /\ (forall k', k = Sym "}" :: k' -> At k' l')).
    { intros l1 A1. apply IH; auto. cbn [length] in F; lia. }
    destruct M1; cbn [modifier_items modifier_ok app] in *.
    + step. step. assert (Len := at_length _ _ A0). rewrite app_length in Len.
      assert (Lc : (length (k0 :: ks) <= length (concat (map key_items (k0 :: ks))))%nat).
      { clear. generalize (k0 :: ks). intros l. induction l as [|x l IH]; [cbn; lia|]. cbn [map concat length]. rewrite app_length. destruct x; cbn [key_items app length]; lia. }
      destruct (order_step (k0 :: ks) K1 (length (rest l0) + 2) ps se ha n ob gb li tl of r d al (is ++ k) l0 H ltac:(lia) ltac:(right; discriminate) A0 Ee) as (l1 & E1 & A1).
      rewrite E1. cbn [bind]. apply R. exact A1.
    + steps. apply R. assumption.
    + steps. apply R. assumption.
    + steps. apply R. assumption.
    + cbn [map app] in A. steps. assert (Len := at_length _ _ A1). rewrite app_length, map_length in Len.
      destruct (vars_step vs (length (rest l1) + 2) [v] (is ++ k) l1 ltac:(lia) A1 (ends_var _ Ee)) as (l2 & E2 & A2). rewrite E2. cbn [bind]. apply R. exact A2.
    + steps. cbn [having]. inversion H as [|? g ? gs' M1 M3]; subst. inversion K1; subst. cbn [map concat] in A0. rewrite <- app_assoc in A0.
      destruct (filter_step f ha cs (ha ++ [g]) cs true _ _ ltac:(assumption) (fa_other _ _ _ _ M1) A0) as (l1 & E1 & A1). rewrite E1. cbn [bind].
      assert (Len := at_length _ _ A1). rewrite app_length in Len.
      assert (Lc : (length fs <= length (concat (map filter_items fs)))%nat).
      { clear. induction fs as [|x l IH]; [cbn; lia|]. cbn [map concat length]. rewrite app_length.
        assert (T := filter_one x). lia. }
      destruct (having_step fs gs' M3 ltac:(assumption) (length (rest l1) + 2) (ha ++ [g]) cs (is ++ k) l1 ltac:(lia) A1 Ee) as (l2 & E2 & A2). rewrite E2. cbn [bind].
      rewrite <- app_assoc. apply R. exact A2.
Qed.
