(* The query level modifications are those of the specification. *)
From Coq Require Import String Ascii List NArith Arith Bool Lia Sorted Permutation.
From Verif Require Import Table_Spec Ops_Spec Filter_Model Ops_Model Float32 GroupBy_Spec GroupBy_Model Lex_Proof Ops_Proof GroupBy_Proof GroupBy_Proof2 GroupBy_Thm Ops_Thm.
From Verif Require Import Query_Spec Query_Model.
Import ListNotations.
Open Scope N_scope.

(* what is claimed is true and every column exists *)
Definition node_ok (n : node) : Prop :=
  sorted_lex (n_sorted n) (n_rows n) /\ (forall v c, var_find (n_vars n) v = Some c -> (c < n_width n)%nat).
Definition sols (n : node) : list sol := map (value (n_vars n)) (n_rows n).

Lemma value_find m r v : value m r v = match var_find m v with Some c => col c r | None => UNBOUND end.
Proof. apply binding_find. Qed.
Lemma key_of_cols m r : forall vs cs, find_columns m vs = Some cs -> key_of vs (value m r) = cols cs r.
Proof.
  induction vs as [|v vs IH]; intros cs H; cbn in H; [injection H as <-; reflexivity|].
  destruct (var_find m v) as [c|] eqn:E; [|discriminate]. destruct (find_columns m vs) as [cs'|]; [|discriminate]. injection H as <-.
  unfold key_of, cols in *. cbn [map]. rewrite value_find, E. f_equal. now apply IH.
Qed.
Lemma filter_map {A B} (f : A -> B) (g : B -> bool) l : filter g (map f l) = map f (filter (fun x => g (f x)) l).
Proof. induction l as [|x l IH]; cbn; auto. destruct (g (f x)); cbn; now rewrite IH. Qed.
Lemma members_map m vs cs k t : find_columns m vs = Some cs -> members vs k (map (value m) t) = map (value m) (group cs k t).
Proof.
  intros H. unfold members, group. rewrite filter_map. f_equal. apply filter_ext. intros r. unfold key_is. now rewrite (key_of_cols m r vs cs H).
Qed.
Lemma lex_sorted_nodup (ks : list (list N)) : StronglySorted lex_lt ks -> NoDup ks.
Proof.
  induction 1 as [|k ks S IH F]; constructor; auto. intros H. rewrite Forall_forall in F. apply (lex_lt_irrefl k). auto.
Qed.
Lemma find_columns_nil m vs : find_columns m vs = Some [] -> vs = [].
Proof. destruct vs as [|v vs]; auto. cbn. destruct (var_find m v), (find_columns m vs); discriminate. Qed.

Section G.
Variable env : environment.
Variable types : list result_type.
Variable blank : nat -> row.
Variable q : query.
Hypothesis names : NoDup (q_group q ++ map al_out (q_aliases q)).
Hypothesis memory : forall i, length (blank i) = (length (q_group q) + length (q_aliases q))%nat.
Hypothesis group_by : q_aliases q <> [] -> q_group q <> [].

Lemma group_ok n n1 : node_ok n -> group_step env types blank q n n1 ->
  (forall mid k, Permutation (n_rows n) mid -> (exists s, In s (map (value (n_vars n)) mid) /\ key_of (q_group q) s = k) ->
     Forall (fun al => supported (al_type al) (al_distinct al) (type_of_variable types (n_vars n) (al_in al))
       (map (fun s : sol => s (al_in al)) (members (q_group q) k (map (value (n_vars n)) mid)))) (q_aliases q)) ->
  node_ok n1 /\ exists vocab,
    (grouping q -> grouped env vocab (type_of_variable types (n_vars n)) (q_group q) (q_aliases q) (sols n) (sols n1)) /\
    (~ grouping q -> Permutation (sols n) (sols n1)).
Proof.
  intros [Hs Hc] G Sup. unfold group_step in G. destruct (q_group q) as [|v0 gv0] eqn:Eg.
  - destruct (q_aliases q) as [|a als] eqn:Ea; [|elim group_by; auto; discriminate]. subst n1. split; [split; auto|].
    exists []. split; auto. intros [H|H]; rewrite ?Eg, ?Ea in H; congruence.
  - rewrite <- Eg in *. assert (Ne : q_group q <> []) by congruence. set (gv := q_group q) in *. set (als := q_aliases q) in *.
    assert (G2 : exists cs acs mid out vocab,
      find_columns (n_vars n) gv = Some cs /\ find_columns (n_vars n) (map al_in als) = Some acs /\
      presorted (group_by_plan (n_sorted n) cs acs) (n_rows n) mid /\
      group_by_result env types (n_vars n) gv als blank mid = Some (out, vocab) /\
      n1 = Node (group_by_vars gv als) (length gv + length als)
             (map (fun v => match var_find (group_by_vars gv als) v with Some c => c | None => 0%nat end) gv) out) by exact G.
    clear G. destruct G2 as (cs & acs & mid & out & vocab & Fc & Fa & Pm & R & ->).
    assert (Nc : cs <> []) by (intros ->; apply find_columns_nil in Fc; congruence).
    destruct (group_by_plan_sorted _ _ _ _ _ Nc Hs Pm) as [Sm Pr].
    assert (Hsup : forall k, (exists r, In r mid /\ cols cs r = k) -> aliases_supported types (n_vars n) als (group cs k mid)).
    { intros k (r & Hr & Ek). unfold aliases_supported. specialize (Sup mid k Pr). rewrite (members_map _ _ cs) in Sup by auto.
      eapply Forall_impl; [|apply Sup].
      - intros al H. cbv beta in H. rewrite map_map in H. exact H.
      - exists (value (n_vars n) r). split; [now apply in_map|]. now rewrite (key_of_cols _ _ _ cs). }
    destruct (group_by_result_ok env types (n_vars n) gv als cs acs blank mid Ne names Fc Fa memory Sm Hsup) as (out' & vocab' & ks & E & K1 & K2 & K3).
    rewrite R in E. injection E as <- <-. split.
    + split.
      * exact (C43_group_by_claim env types (n_vars n) gv als cs acs blank mid out vocab Ne names Fc Fa memory Sm Hsup R).
      * cbn [n_vars n_width]. intros v c Hv. unfold group_by_vars in Hv. rewrite group_by_columns_spec in Hv by (auto; intros ? ? []).
        cbn [app] in Hv. assert (In (v, c) (combine (gv ++ map al_out als) (seq 0 (length (gv ++ map al_out als))))).
        { unfold var_find in Hv. destruct (find _ _) as [[w d]|] eqn:F; [|discriminate]. apply find_some in F. cbn in *. injection Hv as ->. destruct F as [F E].
          apply String.eqb_eq in E. now subst w. }
        apply in_combine_r in H. apply in_seq in H. rewrite app_length, map_length in H. lia.
    + exists vocab. split; [|intros H; elim H; now left]. intros _. exists (map (value (n_vars n)) mid), ks.
      split; [now apply Permutation_map|]. split; [now apply lex_sorted_nodup|]. split.
      * intros k. rewrite K2. split.
        -- intros (r & Hr & Ek). exists (value (n_vars n) r). split; [apply in_map; eapply Permutation_in; [symmetry; exact Pr|auto]|]. now rewrite (key_of_cols _ _ _ cs).
        -- intros (s & H1 & H2). apply in_map_iff in H1. destruct H1 as (r & <- & Hr). rewrite (key_of_cols _ _ _ cs) in H2 by auto. exists r. split; auto. eapply Permutation_in; eauto.
      * unfold sols. cbn [n_vars n_rows]. clear - K3 Fc. induction K3 as [|k r ks out [H1 H2] K3 IH]; constructor; auto. split; [exact H1|].
        eapply Forall_impl; [|exact H2]. intros al H. cbv beta in H. rewrite (members_map _ _ cs) by auto. rewrite map_map. exact H.
Qed.
End G.

Lemma having_ok q n n2 : (length (q_having q) <= 1)%nat -> node_ok n -> having_step q n n2 ->
  node_ok n2 /\ sols n2 = holding (q_having q) (sols n) /\ n_vars n2 = n_vars n.
Proof.
  intros L [Hs Hc] ->. unfold node_ok, sols. cbn [n_vars n_rows n_sorted n_width]. rewrite C49_having_partial by (rewrite map_length; auto).
  split; [|split; auto].
  - split; auto. apply Lex_Proof.ksorted_sorted_lex, Lex_Proof.ksorted_filter, Lex_Proof.sorted_lex_ksorted, Hs.
  - unfold holding. rewrite filter_map. f_equal. apply filter_ext. intros r. clear. induction (q_having q) as [|f fs IH]; cbn; auto. now rewrite IH.
Qed.

(* ---- DISTINCT ---- *)
Definition select_ok (m : var_map) (v : string) : Prop :=
  (prefix "SCORE(" v = false /\ prefix "TEXT(" v = false) \/
  (exists x, v = ("TEXT(?" ++ x ++ ")")%string /\ var_find m v = None) \/
  (prefix "TEXT(" v = false /\ var_find m v <> None).
Lemma last_index_end c s : last_index c (s ++ String c "")%string = Some (String.length s).
Proof.
  induction s as [|d s IH]; cbn; [now rewrite Ascii.eqb_refl|]. now rewrite IH.
Qed.
Lemma substring_all s t : substring 0 (String.length s) (s ++ t) = s.
Proof. induction s as [|c s IH]; cbn; [destruct t; reflexivity|]. now rewrite IH. Qed.
Lemma str_length_app s t : String.length (s ++ t) = (String.length s + String.length t)%nat.
Proof. induction s; cbn; auto. Qed.
Lemma text_variable x : context_variable ("TEXT(?" ++ x ++ ")") = Some ("?" ++ x)%string /\ shown_variable ("TEXT(?" ++ x ++ ")") = ("?" ++ x)%string.
Proof.
  assert (S1 : substring 5 (S (String.length x)) ("TEXT(?" ++ x ++ ")") = ("?" ++ x)%string).
  { change ("TEXT(?" ++ x ++ ")")%string with ("TEXT(" ++ ("?" ++ x) ++ ")")%string. change (S (String.length x)) with (String.length ("?" ++ x)). cbn [append substring].
    change (substring 0 (String.length (String "?" x)) (String "?" x ++ ")") = String "?" x). apply substring_all. }
  split.
  - unfold context_variable. replace (index 0 "?" ("TEXT(?" ++ x ++ ")")) with (Some 5%nat) by (destruct x; reflexivity).
    replace (last_index ")"%char ("TEXT(?" ++ x ++ ")")) with (Some (6 + String.length x)%nat).
    + replace (6 + String.length x - 5)%nat with (S (String.length x)) by lia. now rewrite S1.
    + symmetry. change ("TEXT(?" ++ x ++ ")")%string with (("TEXT(?" ++ x) ++ String ")" "")%string. rewrite last_index_end. reflexivity.
  - unfold shown_variable. replace (prefix "TEXT(" ("TEXT(?" ++ x ++ ")")) with true by reflexivity.
    replace (String.length ("TEXT(?" ++ x ++ ")") - 6)%nat with (S (String.length x)); auto.
    rewrite !str_length_app. cbn [String.length]. lia.
Qed.
Lemma select_shown m v r : select_ok m v -> value m r (shown_variable v) = match select_column m v with Some c => col c r | None => UNBOUND end.
Proof.
  intros [[H1 H2]|[(x & -> & H)|[H1 H2]]]; rewrite value_find.
  - unfold shown_variable, select_column. rewrite H2, H1. cbn. destruct (var_find m v); reflexivity.
  - destruct (text_variable x) as [E1 E2]. rewrite E2. unfold select_column. rewrite H, E1.
    replace (prefix "TEXT(" ("TEXT(?" ++ x ++ ")")) with true by reflexivity. rewrite orb_true_r. reflexivity.
  - unfold shown_variable, select_column. rewrite H1. destruct (var_find m v); congruence.
Qed.
Lemma keep_in m sel : forall done c, In c (keep_indices m done sel) <-> (~ In c done /\ exists v, In v sel /\ select_column m v = Some c).
Proof.
  induction sel as [|v sel IH]; intros done c; cbn [keep_indices]; [cbn; firstorder|].
  destruct (select_column m v) as [d|] eqn:E.
  - destruct (existsb (Nat.eqb d) done) eqn:Ex.
    + apply existsb_exists in Ex. destruct Ex as (y & Hy & Ey). apply Nat.eqb_eq in Ey. subst y. rewrite IH. split.
      * intros (N1 & w & Hw & Ew). split; auto. exists w. split; auto. now right.
      * intros (N1 & w & [<-|Hw] & Ew); [rewrite E in Ew; injection Ew as ->; contradiction|]. split; eauto.
    + assert (Nd : ~ In d done).
      { intros Hd. assert (X : existsb (Nat.eqb d) done = true) by (apply existsb_exists; exists d; split; auto; apply Nat.eqb_refl). congruence. }
      cbn [In]. rewrite IH. cbn [In]. split.
      * intros [<-|(N1 & w & Hw & Ew)]; [split; auto; exists v; auto|]. split; [tauto|]. exists w. auto.
      * intros (N1 & w & [<-|Hw] & Ew); [left; congruence|]. destruct (Nat.eq_dec d c); [now left|]. right. split; [tauto|]. eauto.
  - rewrite IH. split; intros (N1 & w & Hw & Ew); split; auto.
    + exists w. split; auto. now right.
    + destruct Hw as [<-|Hw]; [congruence|]. eauto.
Qed.
Lemma keep_nodup m sel : forall done, NoDup (keep_indices m done sel).
Proof.
  induction sel as [|v sel IH]; intros done; cbn [keep_indices]; [constructor|].
  destruct (select_column m v) as [d|]; auto. destruct (existsb (Nat.eqb d) done); auto. constructor; auto. rewrite keep_in. cbn. tauto.
Qed.
Lemma keep_shown m sel r s : Forall (select_ok m) sel ->
  cols (keep_indices m [] sel) r = cols (keep_indices m [] sel) s <-> shown sel (value m r) = shown sel (value m s).
Proof.
  intros F. assert (A : cols (keep_indices m [] sel) r = cols (keep_indices m [] sel) s <-> forall c, In c (keep_indices m [] sel) -> col c r = col c s).
  { unfold cols. clear. induction (keep_indices m [] sel) as [|d l IH]; cbn; [tauto|]. split.
    - intros H. injection H as H1 H2. intros c [<-|Hc]; auto. now apply IH.
    - intros H. f_equal; [auto|]. apply IH. auto. }
  rewrite A. assert (B : shown sel (value m r) = shown sel (value m s) <-> forall v, In v sel -> value m r (shown_variable v) = value m s (shown_variable v)).
  { unfold shown. clear. induction sel as [|v l IH]; cbn; [tauto|]. split.
    - intros H. injection H as H1 H2. intros c [<-|Hc]; auto. now apply IH.
    - intros H. f_equal; [auto|]. apply IH. auto. }
  rewrite B. rewrite Forall_forall in F. split.
  - intros H v Hv. rewrite !select_shown by auto. destruct (select_column m v) as [c|] eqn:E; auto. apply H. apply keep_in. cbn. eauto.
  - intros H c Hc. apply keep_in in Hc. destruct Hc as (_ & v & Hv & E). specialize (H v Hv). rewrite !select_shown, E in H by auto. exact H.
Qed.
Lemma nodup_map_rel {A B C} (f : A -> B) (g : A -> C) l : (forall a b, g a = g b -> f a = f b) -> NoDup (map f l) -> NoDup (map g l).
Proof.
  intros H N. induction l as [|x l IH]; cbn in *; constructor; inversion N as [|? ? N1 N2]; subst; auto.
  intros I. apply in_map_iff in I. destruct I as (y & E & Hy). apply N1. apply H in E. rewrite <- E. now apply in_map.
Qed.
Lemma select_column_lt n v c : node_ok n -> select_column (n_vars n) v = Some c -> (c < n_width n)%nat.
Proof.
  intros [_ H] E. unfold select_column in E. destruct (var_find (n_vars n) v) eqn:F; [injection E as <-; eauto|].
  destruct (prefix "SCORE(" v || prefix "TEXT(" v); [|discriminate]. destruct (context_variable v); [eauto|discriminate].
Qed.
Lemma keep_length n sel : node_ok n -> (length (keep_indices (n_vars n) [] sel) <= n_width n)%nat.
Proof.
  intros H. rewrite <- (seq_length (n_width n) 0). apply NoDup_incl_length; [apply keep_nodup|]. intros c Hc. apply keep_in in Hc.
  destruct Hc as (_ & v & _ & E). apply in_seq. apply (select_column_lt n) in E; auto. lia.
Qed.
Lemma distinct_claim srt keep sub mid : sorted_lex srt sub -> presorted (distinct_plan srt keep) sub mid ->
  sorted_lex (sorted_after (distinct_plan srt keep) srt) mid.
Proof.
  intros Hs Pm. destruct (distinct_plan_sorted srt keep sub mid Hs Pm) as [Sk Pr]. unfold distinct_plan in *.
  destruct (Nat.leb (length keep) (length srt) && _).
  - cbn in *. congruence.
  - assert (G : sorted_lex (sorted_after (OrderedBy (map (fun i => (i, false)) keep)) srt) mid).
    { cbn [sorted_after]. unfold order_by_sorted_on.
      replace (map fst (filter (fun p : nat * bool => negb (snd p)) (map (fun i => (i, false)) keep))) with keep; auto.
      clear. induction keep as [|c l IH]; cbn; congruence. }
    destruct keep as [|c [|d keep]]; exact G || exact Sk.
Qed.
Lemma distinct_ok q n n3 : node_ok n -> (q_distinct q = true -> Forall (select_ok (n_vars n)) (q_select q)) -> distinct_step q n n3 ->
  node_ok n3 /\ n_vars n3 = n_vars n /\
  (if q_distinct q then made_distinct (q_select q) (sols n) (sols n3) else Permutation (sols n) (sols n3)).
Proof.
  intros Ok Sel D. unfold distinct_step in D. destruct (q_distinct q); [|subst; auto]. specialize (Sel eq_refl).
  destruct D as (mid & out & Pm & R & ->). set (keep := keep_indices (n_vars n) [] (q_select q)) in *. assert (Kl := keep_length n (q_select q) Ok). fold keep in Kl.
  destruct Ok as [Hs Hc]. destruct (planned_distinct (n_width n) _ keep _ mid Hs Kl Pm) as (out' & R' & D1 & D2 & D3).
  rewrite R in R'. injection R' as <-. split; [|split; [reflexivity|]].
  - split; [|exact Hc]. cbn [n_sorted n_rows]. destruct (distinct_plan_sorted _ _ _ _ Hs Pm) as [Sk Pr].
    apply (fun H => proj2 (C43_distinct_filter_claim (sorted_after (distinct_plan (n_sorted n) keep) (n_sorted n)) keep (n_width n) mid out (fun _ => true) H) Sk Kl R).
    now apply distinct_claim with (n_rows n).
  - unfold made_distinct, sols. cbn [n_vars n_rows]. split; [|split].
    + rewrite map_map. revert D1. apply nodup_map_rel. intros a b. apply keep_shown; auto.
    + intros s H. apply in_map_iff in H. destruct H as (r & <- & Hr). apply in_map. auto.
    + intros s H. apply in_map_iff in H. destruct H as (r & <- & Hr). destruct (D3 r Hr) as (t & Ht & Et). exists (value (n_vars n) t).
      split; [now apply in_map|]. apply keep_shown; auto.
Qed.

(* ---- ORDER BY ---- *)
Lemma order_cols_le m r s : forall key cs, order_columns m key = Some cs -> order_le cs r s -> may_precede key (value m r) (value m s).
Proof.
  induction key as [|[v d] key IH]; intros cs H O; cbn in H; [exact I|]. destruct (var_find m v) as [c|] eqn:E; [|discriminate].
  destruct (order_columns m key) as [cs'|] eqn:F; [|discriminate]. injection H as <-. cbn [order_le] in O. cbn [may_precede]. rewrite !value_find, E.
  destruct O as [O|[O1 O2]]; [now left|]. right. split; eauto.
Qed.
Lemma in_order_map m key cs t : order_columns m key = Some cs -> StronglySorted (order_le cs) t -> in_order key (map (value m) t).
Proof.
  intros H S. induction S as [|r t S IH F]; cbn; constructor; auto. rewrite Forall_forall in *. intros s Hs. apply in_map_iff in Hs.
  destruct Hs as (x & <- & Hx). eapply order_cols_le; eauto.
Qed.
Lemma lex_le_order cs r s : lex_le (cols cs r) (cols cs s) -> order_le (map (fun c => (c, false)) cs) r s.
Proof.
  induction cs as [|c cs IH]; cbn; auto. unfold lex_le in *. cbn [lex_cmp]. destruct (N.compare_spec (col c r) (col c s)); auto. congruence.
Qed.
Lemma sorted_lex_order cs t : sorted_lex cs t -> StronglySorted (order_le (map (fun c => (c, false)) cs)) t.
Proof.
  intros H. apply sorted_lex_ksorted in H. induction H as [|r t S IH F]; constructor; auto. eapply Forall_impl; [|exact F]. intros s Hs. now apply lex_le_order.
Qed.
Lemma already_sorted : forall (key : list (nat * bool)) srt, (length key <= length srt)%nat ->
  forallb (fun p => negb (snd (fst p)) && Nat.eqb (fst (fst p)) (snd p)) (combine key srt) = true ->
  exists cs, key = map (fun c => (c, false)) cs /\ srt = cs ++ skipn (length key) srt.
Proof.
  induction key as [|[c d] key IH]; intros [|x srt] L H; cbn in *; try lia.
  - exists []. auto.
  - exists []. auto.
  - apply andb_true_iff in H. destruct H as [H H2]. apply andb_true_iff in H. destruct H as [H0 H1]. apply Nat.eqb_eq in H1. subst x. destruct d; [discriminate|].
    destruct (IH srt) as (cs & E1 & E2); auto; [lia|]. exists (c :: cs). cbn. rewrite <- E1. split; auto. f_equal. exact E2.
Qed.
Lemma order_plan_cases srt key : key <> [] ->
  (order_plan srt key = NoSort /\ exists cs rest, key = map (fun c => (c, false)) cs /\ srt = cs ++ rest) \/
  (exists c, key = [(c, false)] /\ order_plan srt key = SortBy c) \/ order_plan srt key = OrderedBy key.
Proof.
  intros Ne. assert (G : forall k, k <> [] -> let p := if Nat.leb (length k) (length srt) && forallb (fun p => negb (snd (fst p)) && Nat.eqb (fst (fst p)) (snd p)) (combine k srt)
         then NoSort else OrderedBy k in
    (p = NoSort /\ exists cs rest, k = map (fun c => (c, false)) cs /\ srt = cs ++ rest) \/ p = OrderedBy k).
  { intros k _. cbv zeta. destruct (Nat.leb_spec (length k) (length srt)) as [L|L]; cbn [andb]; auto. destruct (forallb _ _) eqn:E; auto. left. split; auto.
    destruct (already_sorted k srt L E) as (cs & E1 & E2). eauto. }
  specialize (G key Ne). destruct key as [|[c d] key]; [congruence|]. destruct d, key as [|p key]; try (destruct G as [G|G]; [left|right; right]; exact G).
  cbn [order_plan]. destruct srt as [|x srt]; [right; left; eauto|]. destruct (Nat.eqb_spec c x) as [->|]; [|right; left; eauto].
  left. split; auto. exists [x], srt. auto.
Qed.
Lemma order_result srt key t out : key <> [] -> sorted_lex srt t -> presorted (order_plan srt key) t out -> Permutation t out /\ StronglySorted (order_le key) out.
Proof.
  intros Ne Hs P. destruct (order_plan_cases srt key Ne) as [[E (cs & rest & -> & ->)]|[(c & -> & E)|E]]; rewrite E in P; cbn [presorted] in P.
  - subst. split; auto. apply sorted_lex_order. eapply sorted_lex_prefix; eauto.
  - split; [apply P|]. apply (sorted_lex_order [c]). eapply sort_sorted_lex; eauto.
  - destruct P as [P S]. split; auto. clear - S. induction S as [|r t S IH F]; constructor; auto. eapply Forall_impl; [|exact F]. intros s H. now apply order_by_less_le.
Qed.
(* no ascending variable after a descending one *)
Fixpoint ascending_first {A} (key : list (A * bool)) : bool :=
  match key with
  | [] => true
  | (_, false) :: key' => ascending_first key'
  | (_, true) :: key' => forallb (fun p => snd p) key'
  end.
Lemma ascending_split : forall key : list (nat * bool), ascending_first key = true ->
  exists cs ds, key = map (fun c => (c, false)) cs ++ ds /\ order_by_sorted_on key = cs.
Proof.
  induction key as [|[c [|]] key IH]; cbn [ascending_first]; intros H.
  - exists [], []. auto.
  - exists [], ((c, true) :: key). split; auto. unfold order_by_sorted_on. cbn.
    replace (filter (fun p : nat * bool => negb (snd p)) key) with (@nil (nat * bool)); auto.
    clear IH. induction key as [|[x [|]] key IHk]; cbn in *; auto. discriminate H.
  - destruct (IH H) as (cs & ds & E1 & E2). exists (c :: cs), ds. split; [cbn; now rewrite E1 at 1|]. unfold order_by_sorted_on in *. cbn. now rewrite E2.
Qed.
Lemma order_claim srt key t out : key <> [] -> ascending_first key = true -> sorted_lex srt t -> presorted (order_plan srt key) t out ->
  sorted_lex (sorted_after (order_plan srt key) srt) out.
Proof.
  intros Ne A Hs P. destruct (order_plan_cases srt key Ne) as [[E (cs & rest & _ & _)]|[(c & -> & E)|E]]; rewrite E in *; cbn [presorted sorted_after] in *.
  - now subst.
  - eapply sort_sorted_lex; eauto.
  - destruct (ascending_split key A) as (cs & ds & E1 & E2). rewrite E2. rewrite E1 in P. eapply order_by_sorted_lex; eauto.
Qed.
Lemma order_columns_asc m : forall key cs, order_columns m key = Some cs -> map snd cs = map snd key.
Proof.
  induction key as [|[v d] key IH]; intros cs H; cbn in H; [injection H as <-; auto|]. destruct (var_find m v); [|discriminate].
  destruct (order_columns m key); [|discriminate]. injection H as <-. cbn. f_equal. auto.
Qed.
Lemma ascending_snd {A B} : forall (k : list (A * bool)) (l : list (B * bool)), map snd k = map snd l -> ascending_first k = ascending_first l.
Proof.
  induction k as [|[x d] k IH]; intros [|[y e] l] H; try discriminate; auto. cbn in H. injection H as -> H. cbn. destruct e; auto. clear IH.
  revert l H. induction k as [|[a b] k IH]; intros [|[c e] l] H; try discriminate; auto. cbn in *. injection H as -> H. now rewrite (IH l H).
Qed.
Lemma order_ok q n n4 : node_ok n -> order_step q n n4 ->
  Permutation (sols n) (sols n4) /\ in_order (q_order q) (sols n4) /\ n_vars n4 = n_vars n /\ (ascending_first (q_order q) = true -> node_ok n4).
Proof.
  intros [Hs Hc] O. unfold order_step in O. destruct (q_order q) as [|k0 ks0] eqn:E.
  - subst n4. split; auto. split; [|split; auto; split; auto]. clear. unfold in_order. induction (sols n); constructor; auto. apply Forall_forall. intros x _. exact I.
  - rewrite <- E in *. destruct O as (key & out & Ec & P & ->). assert (Ne : key <> []).
    { intros ->. rewrite E in Ec. cbn in Ec. destruct k0 as [v d]. destruct (var_find (n_vars n) v), (order_columns (n_vars n) ks0); discriminate. }
    destruct (order_result _ _ _ _ Ne Hs P) as [P1 P2]. unfold sols. cbn [n_vars n_rows]. split; [now apply Permutation_map|].
    split; [eapply in_order_map; eauto|]. split; auto. intros A. split; [|exact Hc]. cbn [n_sorted n_rows].
    apply order_claim with (n_rows n); auto. rewrite (ascending_snd key (q_order q)); auto. eapply order_columns_asc; eauto.
Qed.
Lemma columns_below m w : Forall (fun p : string * nat => (snd p < w)%nat) m -> forall v c, var_find m v = Some c -> (c < w)%nat.
Proof.
  intros F v c H. unfold var_find in H. destruct (find _ m) as [p|] eqn:E; [|discriminate]. apply find_some in E. rewrite Forall_forall in F.
  cbn in H. injection H as <-. apply F. apply E.
Qed.
