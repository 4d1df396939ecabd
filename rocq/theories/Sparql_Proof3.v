(* Proofs about the SPARQL parser: the functions for the parts of queries other than patterns. *)
From Coq Require Import Ascii String List NArith ZArith Arith Bool Lia ZifyBool ZifyN ZifyNat.
From Verif Require Import Strings_Model SLex_Model Sparql_Model SLex_Spec Sparql_Spec SLex_Proof SLex_Proof3 Sparql_Proof1 Sparql_Proof2.
From Verif Require Conv_Model PPath_Model PPath_Spec PPath_Proof PPath_Thm Turtle_Model Turtle_Spec Turtle_Proof.
Import ListNotations.
Open Scope N_scope.
Open Scope list_scope.

Lemma at_possible k v is l : At (Tok k v :: is) l -> possible k v.
Proof. intros (_ & P & _). exact P. Qed.
(* the next call of the lexer, by the items before it *)
Ltac step := cbn [bind];
  match goal with
  | |- context [accept_raw ?s ?l] =>
    match goal with A : At _ l |- _ =>
      first [ rewrite (accept_no s _ l A) by reflexivity
            | let l' := fresh "l" in let E := fresh "E" in let C := fresh "C" in let A' := fresh "A" in
              destruct (accept_yes s _ _ l A) as (l' & E & C & A'); rewrite E; clear E ] end
  | |- context [expect_raw ?s ?l] =>
    match goal with A : At _ l |- _ =>
      let l' := fresh "l" in let E := fresh "E" in let C := fresh "C" in let A' := fresh "A" in
      destruct (expect_yes s _ _ l A) as (l' & E & C & A'); rewrite E; clear E end
  | |- context [accept_type ?s ?l] =>
    match goal with A : At _ l |- _ =>
      first [ rewrite (accept_type_no s _ l A) by reflexivity
            | let l' := fresh "l" in let E := fresh "E" in let C := fresh "C" in let A' := fresh "A" in
              destruct (accept_type_yes s _ _ _ l A eq_refl) as (l' & E & C & A'); rewrite E; clear E; cbn [bind]; rewrite ?C ] end
  | |- context [expect_type ?s ?l] =>
    match goal with A : At _ l |- _ =>
      let l' := fresh "l" in let E := fresh "E" in let C := fresh "C" in let A' := fresh "A" in
      destruct (expect_type_yes s _ _ _ l A eq_refl) as (l' & E & C & A'); rewrite E; clear E; cbn [bind]; rewrite ?C end
  end; cbn [bind raw].
Ltac steps := repeat step.

(* ---- aggregates ---- *)
Lemma aggregate_of_ok t : aggregate_of (bytes (aggregate_name t)) = Ok t.
Proof. destruct t; reflexivity. Qed.
Lemma uppercase_ok t : uppercase (bytes (aggregate_name t)) = bytes (aggregate_NAME t).
Proof. destruct t; reflexivity. Qed.
Lemma alias_step a is l : alias_ok a -> At (alias_items a ++ is) l -> exists l', parseAlias l = Ok (alias_means a, l') /\ At is l'.
Proof.
  intros K A. destruct a as [ty d v sep o]. unfold alias_ok, alias_items, alias_means in *.
  cbn [ca_type ca_distinct ca_in ca_separator ca_out] in *. unfold parseAlias.
  destruct d, sep as [s|]; cbn [app] in A; try subst ty; steps; rewrite ?aggregate_of_ok; steps;
    rewrite ?uppercase_ok, ?inner_quoted; try (change (text_eqb (bytes (aggregate_name GROUP_CONCAT)) (bytes "group_concat")) with true; steps; rewrite ?inner_quoted);
    eexists; (split; [|eassumption]); rewrite <- ?app_assoc; reflexivity.
Qed.
Lemma call_step name v is l : At (Sym "(" :: Tok KVariable v :: Sym ")" :: is) l ->
  exists l', parse_call name l = Ok (name ++ bytes "(" ++ v ++ bytes ")", l') /\ At is l'.
Proof. intros A. unfold parse_call. steps. eexists. split; [|eassumption]. reflexivity. Qed.

(* ---- selected variables ---- *)
Lemma at_two is l : At is l -> (2 <= length is)%nat -> empty l = false.
Proof. destruct is as [|i [|j is]]; cbn [length]; intros A H; try lia. eapply at_not_empty; eauto. Qed.
Lemma column_first c r l s : At (column_items c ++ r) l -> In s [bytes "where"] -> accept_raw s l = Ok (false, l).
Proof. intros A [<-|[]]. eapply accept_no; [exact A|]. destruct c; reflexivity. Qed.
Lemma selected_step cols : Forall column_ok cols -> forall fuel sel al i is l, (length cols < fuel)%nat ->
  At (concat (map column_items cols) ++ Word "where" :: i :: is) l ->
  exists l', parse_selected fuel sel al l = Ok (sel ++ map column_name cols, al ++ concat (map column_alias cols), l') /\ At (i :: is) l'.
Proof.
  induction 1 as [|c cols K _ IH]; intros [|fuel] sel al i is l F A; try (cbn [length] in F; lia); cbn [map concat parse_selected] in *.
  - cbn [app] in A. step. rewrite !app_nil_r. eauto.
  - rewrite <- app_assoc in A. rewrite (column_first c _ l (bytes "where") A ltac:(now left)). cbn [bind].
    set (r := concat (map column_items cols) ++ Word "where" :: i :: is) in *.
    assert (Lr : (2 <= length r)%nat) by (unfold r; rewrite app_length; cbn [length]; lia).
    assert (G : exists l', (let* (b, l) := accept_type VARIABLE l in
        if b then Ok (sel ++ [raw (current l)], al, l)
        else
          let* (b, l) := accept_raw (bytes "text") l in
          if b then let* (v, l) := parse_call (bytes "TEXT") l in Ok (sel ++ [v], al, l)
          else
            let* (b, l) := accept_raw (bytes "score") l in
            if b then let* (v, l) := parse_call (bytes "SCORE") l in Ok (sel ++ [v], al, l)
            else
              let* (b, l) := accept_raw (bytes "(") l in
              if b then
                let* (a, l) := parseAlias l in
                let* l := expect_raw (bytes ")") l in
                Ok (sel ++ [a_out a], al ++ [a], l)
              else let* _ := accept_any l in ParseError) = Ok (sel ++ [column_name c], al ++ column_alias c, l') /\ At r l').
    { destruct c as [v|v|v|a]; cbn [column_items app] in A.
      - steps. eexists. split; [|eassumption]. cbn [column_alias]. rewrite app_nil_r. reflexivity.
      - steps. destruct (call_step (bytes "TEXT") v r _ A0) as (l' & E & A'). rewrite E. cbn [bind column_alias]. rewrite app_nil_r. eauto.
      - steps. destruct (call_step (bytes "SCORE") v r _ A0) as (l' & E & A'). rewrite E. cbn [bind column_alias]. rewrite app_nil_r. eauto.
      - steps. rewrite <- app_assoc in A0. destruct (alias_step a _ _ K A0) as (l' & E & A'). rewrite E. cbn [bind app] in *. step. eauto. }
    destruct G as (l' & -> & A'). cbn [bind]. rewrite (at_two _ _ A' Lr). subst r.
    destruct (IH fuel (sel ++ [column_name c]) (al ++ column_alias c) i is l' ltac:(cbn [length] in F; lia) A') as (l2 & E & A2).
    exists l2. rewrite E, <- !app_assoc. auto.
Qed.

(* ---- filters ---- *)
Lemma open_step n : forall fuel m is l, (n < fuel)%nat -> At (repeat (Sym "(") n ++ is) l -> head_differs is (bytes "(") = true ->
  exists l', count_open fuel m l = Ok ((m + n)%nat, l') /\ At is l'.
Proof.
  induction n as [|n IH]; intros [|fuel] m is l F A D; try lia; cbn [repeat app count_open] in *.
  - rewrite (accept_no _ _ _ A D). cbn [bind]. rewrite Nat.add_0_r. eauto.
  - step. destruct (IH fuel (S m) is _ ltac:(lia) A0 D) as (l' & E & A'). exists l'. rewrite E. split; auto. do 2 f_equal. lia.
Qed.
Lemma close_step n : forall is l, At (repeat (Sym ")") n ++ is) l -> exists l', expectClose n l = Ok l' /\ At is l'.
Proof.
  induction n as [|n IH]; intros is l A; cbn [repeat app expectClose] in *; [eauto|]. step. apply IH. exact A0.
Qed.
Lemma operand_step a is l : At (operand_item a :: is) l -> exists l', parse_operand l = Ok (operand_text a, l') /\ At is l'.
Proof. intros A. unfold parse_operand. destruct a; cbn [operand_item operand_text] in *; steps; eauto. Qed.
Lemma relation_step r b is l : is_relation r -> At (relation_items r ++ operand_item b :: is) l ->
  exists l', parse_relation l = Ok (r, l') /\ At (operand_item b :: is) l'.
Proof.
  intros H A. unfold parse_relation. destruct r; cbn [relation_items app] in A; try (exfalso; cbn in H; intuition discriminate);
    steps; try (eexists; split; [reflexivity|eassumption]); destruct b; steps; eexists; (split; [reflexivity|eassumption]).
Qed.
Lemma comparison_step str a r b is l : is_relation r -> At (in_str str (operand_item a) ++ relation_items r ++ operand_item b :: is) l ->
  exists l', parse_comparison l = Ok (Filter r (operand_text a) (operand_text b) [] [] false str, l') /\ At is l'.
Proof.
  intros H A. unfold parse_comparison. destruct str; cbn [in_str app] in A.
  - steps. destruct (operand_step a _ _ A1) as (l2 & E2 & A2). rewrite E2. step.
    destruct (relation_step r b is _ H A3) as (l4 & E4 & A4). rewrite E4. cbn [bind].
    destruct (operand_step b _ _ A4) as (l5 & E5 & A5). rewrite E5. cbn [bind]. eauto.
  - rewrite (accept_no _ _ _ A) by (destruct a; reflexivity). cbn [bind].
    destruct (operand_step a _ _ A) as (l2 & E2 & A2). rewrite E2. cbn [bind].
    destruct (relation_step r b is _ H A2) as (l4 & E4 & A4). rewrite E4. cbn [bind].
    destruct (operand_step b _ _ A4) as (l5 & E5 & A5). rewrite E5. cbn [bind]. eauto.
Qed.
Lemma regex_step r f is l : regex_filter r f -> At (regex_items r ++ is) l ->
  exists l1 l', accept_raw (bytes "regex") l = Ok (true, l1) /\ parseRegexFilter true l = Ok (f, l') /\ parseRegexFilter false l1 = Ok (f, l') /\ At is l'.
Proof.
  intros [str v s i ty s' M] A. cbn [regex_items] in A. rewrite <- !app_assoc in A. cbn [app] in A.
  assert (G : forall l1, At (Sym "(" :: in_str str (Tok KVariable v) ++ Sym "," :: Tok KLiteral (quoted s) ::
     (if i then [Sym ","; Tok KLiteral (quoted (bytes "i"))] else []) ++ Sym ")" :: is) l1 ->
     exists l', parseRegexFilter false l1 = Ok (Filter ty v s' [] [] i str, l') /\ At is l').
  { intros l1 A1. unfold parseRegexFilter. destruct str, i; cbn [in_str app] in A1; steps; rewrite ?inner_quoted;
      match goal with |- context [regex_or_prefix ?s ?i] => change (regex_or_prefix s i) with (regex_or_prefix s i) end;
      rewrite (regex_ok _ _ _ _ M); cbn [bind]; eexists; (split; [reflexivity|eassumption]). }
  destruct (accept_yes _ _ _ _ A) as (l1 & E1 & C1 & A1). destruct (expect_yes _ _ _ _ A) as (l1' & E1' & C1' & A1').
  assert (l1' = l1).
  { unfold accept_raw, expect_raw in *. destruct (text_eqb _ _); [|discriminate]. rewrite E1' in E1. cbn in E1. congruence. }
  subst l1'. destruct (G l1 A1) as (l' & E & A'). exists l1, l'. split; [exact E1|]. split; [|auto].
  unfold parseRegexFilter in *. rewrite E1'. cbn [bind] in *. exact E.
Qed.
Lemma more_regex_step rs fs : Forall2 regex_filter rs fs -> forall fuel v is l, (length rs < fuel)%nat ->
  At (concat (map (fun r => Tok KOr (bytes "||") :: regex_items r) rs) ++ is) l -> type_differs is LOGICAL_OR = true -> exists l', more_regex fuel v l = Ok (v ++ fs, l') /\ At is l'.
Proof.
  induction 1 as [|r f rs fs H _ IH]; intros [|fuel] v is l F A D; try (cbn [length] in F; lia); cbn [map concat more_regex] in *.
  - cbn [app] in A. rewrite (accept_type_no _ _ _ A D). cbn [bind]. rewrite app_nil_r. eauto.
  - cbn [app] in A. rewrite <- app_assoc in A. step. destruct (regex_step r f _ _ H A0) as (l1 & l' & _ & E & _ & A'). rewrite E. cbn [bind].
    destruct (IH fuel (v ++ [f]) is l' ltac:(cbn [length] in F; lia) A' D) as (l2 & E2 & A2). exists l2. rewrite E2, <- app_assoc. auto.
Qed.
Lemma prefix_filters_many rs gs : Forall2 (fun r g => exists str v s i s', r = Regex str v s i /\ regex_means s i PREFIX s' /\ g = (v, s')) rs gs ->
  exists fs, Forall2 regex_filter rs fs /\ forallb is_prefix fs = true /\ map f_lhs fs = map fst gs /\ map f_rhs fs = map snd gs.
Proof.
  induction 1 as [|r g rs gs (str & v & s & i & s' & -> & M & ->) _ (fs & F & P & E1 & E2)].
  - exists []. repeat split. constructor.
  - exists (Filter PREFIX v s' [] [] i str :: fs). repeat split; cbn; try congruence; auto. constructor; auto. constructor; auto.
Qed.
(* the first item of a filter *)
Lemma filter_step f fs cs fs' cs' b is l : filter_ok f -> filter_adds f fs cs fs' cs' -> At (filter_items f ++ is) l ->
  exists l', parseFilter b fs cs l = Ok (true, fs', cs', l') /\ At is l'.
Proof.
  intros K H A. assert (Len := at_length _ _ A). unfold parseFilter.
  destruct H as [n v lg fs cs cs' H|f g fs cs H]; [|destruct H as [n str a r c|n r g M|n str v s i s' rs gs Nr M F]].
  - cbn [filter_items filter_ok] in *. rewrite <- !app_assoc in A. rewrite !app_length, repeat_length in Len.
    destruct (open_step n (length (rest l) + 2) 0 _ l ltac:(lia) A eq_refl) as (l1 & E1 & A1). rewrite E1. cbn [bind Nat.add app] in *.
    step. replace (Nat.ltb 0 n) with true by lia. cbn [andb]. steps.
    destruct (close_step _ _ _ A6) as (l9 & E9 & A9). rewrite E9. cbn [bind]. rewrite (lang_filter_ok _ _ _ _ H). eauto.
  - destruct K as [K1 K2]. cbn [filter_items] in *. rewrite <- !app_assoc in A. rewrite !app_length, repeat_length in Len.
    destruct (open_step n (length (rest l) + 2) 0 _ l ltac:(lia) A ltac:(destruct str, a; reflexivity)) as (l1 & E1 & A1). rewrite E1. cbn [bind Nat.add].
    repeat (rewrite (accept_no _ _ _ A1) by (destruct str, a; reflexivity); cbn [bind andb]).
    replace (Nat.ltb 0 n) with true by lia. cbn [app] in A1. destruct (comparison_step _ _ _ _ _ _ K2 A1) as (l2 & E2 & A2). rewrite E2. cbn [bind].
    destruct (close_step _ _ _ A2) as (l9 & E9 & A9). rewrite E9. cbn [bind]. eauto.
  - cbn [filter_items] in *. rewrite <- !app_assoc in A. cbn [map concat app] in A. rewrite !app_length, repeat_length in Len.
    assert (Hd : forall s x, s <> bytes "regex" -> head_differs (regex_items r ++ x) s = true).
    { intros s x Hs. destruct r. cbn [regex_items app head_differs differs Word]. rewrite text_eqb_no by congruence. reflexivity. }
    destruct (open_step n (length (rest l) + 2) 0 _ l ltac:(lia) A (Hd (bytes "(") _ ltac:(vm_compute; discriminate))) as (l1 & E1 & A1). rewrite E1. cbn [bind Nat.add].
    repeat (rewrite (accept_no _ _ _ A1) by (apply Hd; vm_compute; discriminate); cbn [bind andb]).
    destruct (regex_step r g _ _ M A1) as (l2 & l3 & E2 & _ & E3 & A3). rewrite E2. cbn [bind]. rewrite E3. cbn [bind].
    assert (G : (if Nat.ltb 0 n then more_regex (length (rest l3) + 2) [g] l3 else Ok ([g], l3)) = Ok ([g], l3)).
    { destruct (Nat.ltb 0 n) eqn:En; [|reflexivity]. destruct n; [discriminate|].
      rewrite Nat.add_comm. cbn [Nat.add more_regex repeat app] in *. step. reflexivity. }
    rewrite G. cbn [bind merge_regex]. destruct (close_step _ _ _ A3) as (l9 & E9 & A9). rewrite E9. cbn [bind]. eauto.
  - cbn [filter_items filter_ok] in *. destruct K as [K|K]; [|contradiction]. rewrite <- !app_assoc in A. rewrite !app_length, repeat_length in Len.
    assert (Hd : forall r s x, s <> bytes "regex" -> head_differs (regex_items r ++ x) s = true).
    { intros r0 s0 x Hs. destruct r0. cbn [regex_items app head_differs differs Word]. rewrite text_eqb_no by congruence. reflexivity. }
    destruct (open_step n (length (rest l) + 2) 0 _ l ltac:(lia) A (Hd _ (bytes "(") _ ltac:(vm_compute; discriminate))) as (l1 & E1 & A1). rewrite E1. cbn [bind Nat.add].
    repeat (rewrite (accept_no _ _ _ A1) by (apply Hd; vm_compute; discriminate); cbn [bind andb]).
    destruct (regex_step _ _ _ _ M A1) as (l2 & l3 & E2 & _ & E3 & A3). rewrite E2. cbn [bind]. rewrite E3. cbn [bind].
    replace (Nat.ltb 0 n) with true by lia. destruct (prefix_filters_many rs gs F) as (hs & Fh & Ph & Lh & Rh).
    assert (Len3 := at_length _ _ A3). rewrite app_length in Len3.
    assert (Lc : (length rs <= length (concat (map (fun r => Tok KOr (bytes "||") :: regex_items r) rs)))%nat).
    { clear. induction rs as [|r rs IH]; [cbn; lia|]. cbn [map concat length app]. rewrite app_length. lia. }
    destruct (more_regex_step rs hs Fh (length (rest l3) + 2) [Filter PREFIX v s' [] [] i str] _ l3 ltac:(lia) A3 ltac:(destruct n; [lia|reflexivity])) as (l4 & E4 & A4).
    rewrite E4. cbn [bind app]. assert (Mg : merge_regex (Filter PREFIX v s' [] [] i str :: hs) = Ok (Filter PREFIX v s' (map fst gs) (map snd gs) i str)).
    { assert (Nh : hs <> []) by (intros ->; inversion Fh; congruence). destruct hs as [|h hs]; [contradiction|]. unfold merge_regex.
      cbn [forallb] in *. change (is_prefix (Filter PREFIX v s' [] [] i str)) with true. cbn [andb] in *. rewrite Ph. cbn [f_type f_lhs f_rhs f_additionalLhs f_additionalPrefixes f_ignoreCase f_lhsAsString app].
      rewrite Lh, Rh. reflexivity. }
    rewrite Mg. cbn [bind]. destruct (close_step _ _ _ A4) as (l9 & E9 & A9). rewrite E9. cbn [bind]. eauto.
Qed.
