From Coq Require Import String List NArith ZArith Arith Bool Lia Sorted Permutation ZifyBool ZifyN ZifyNat.
From Verif Require Import Table_Spec Std_Model Ops_Spec Filter_Model Ops_Model Float32 GroupBy_Spec
  GroupBy_Model ListAux Lex_Proof Ops_Proof GroupBy_Proof.
Import ListNotations.
Open Scope N_scope.

(* ---- variables ---- *)

Lemma var_set_new m v c : ~ In v (map fst m) -> var_set m v c = m ++ [(v, c)].
Proof.
  induction m as [|[w d] m IH]; simpl; intros H; auto.
  destruct (String.eqb_spec w v); [tauto|]. rewrite IH; tauto.
Qed.

Lemma group_by_columns_spec : forall vars m i, NoDup vars ->
  (forall v, In v vars -> ~ In v (map fst m)) ->
  group_by_columns m i vars = m ++ combine vars (seq i (length vars)).
Proof.
  induction vars as [|v vars IH]; intros m i Hd Hn; simpl; [now rewrite app_nil_r|].
  inversion Hd as [|? ? Hv Hd']; subst.
  rewrite var_set_new by (apply Hn; simpl; auto).
  rewrite IH; auto.
  - rewrite <- app_assoc. simpl. now rewrite Nat.add_1_r.
  - intros u Hu. rewrite map_app, in_app_iff. simpl. intros [H|[H|[]]].
    + apply (Hn u); simpl; auto.
    + subst. tauto.
Qed.

Lemma map_fst_combine {A B} (l : list A) : forall l' : list B, length l = length l' -> map fst (combine l l') = l.
Proof. induction l as [|a l IH]; intros [|b l'] H; simpl in *; try discriminate; auto. f_equal. apply IH. congruence. Qed.

Lemma var_find_combine vars : forall i j v, NoDup vars -> nth_error vars j = Some v ->
  var_find (combine vars (seq i (length vars))) v = Some (i + j)%nat.
Proof.
  intros i j v Hd Hj. apply var_find_In.
  - rewrite map_fst_combine; [auto|]. now rewrite seq_length.
  - revert i j Hj. clear Hd. induction vars as [|w vars IH]; intros i [|j] Hj; simpl in *; try discriminate.
    + injection Hj as ->. rewrite Nat.add_0_r. auto.
    + right. replace (i + S j)%nat with (S i + j)%nat by lia. apply IH, Hj.
Qed.

Lemma group_by_vars_find groupVars aliases j v : NoDup (groupVars ++ map al_out aliases) ->
  nth_error (groupVars ++ map al_out aliases) j = Some v ->
  var_find (group_by_vars groupVars aliases) v = Some j.
Proof.
  intros Hd Hj. unfold group_by_vars. rewrite group_by_columns_spec; auto.
  apply (var_find_combine _ 0 j v Hd Hj).
Qed.

Definition sample_of (i o : nat) : aggregate :=
  {| a_type := SAMPLE; a_in := i; a_out := o; a_distinct := false; a_delim := "" |}.
Definition aggregate_of (al : alias) (i o : nat) : aggregate :=
  {| a_type := al_type al; a_in := i; a_out := o; a_distinct := al_distinct al; a_delim := al_delim al |}.

Lemma group_aggregates_spec sub out : forall vs cs i, find_columns sub vs = Some cs ->
  (forall j v, nth_error vs j = Some v -> var_find out v = Some (i + j)%nat) ->
  group_aggregates sub out vs = Some (map (fun p => sample_of (fst p) (snd p)) (combine cs (seq i (length cs)))) /\
  length cs = length vs.
Proof.
  induction vs as [|v vs IH]; intros cs i Hc Ho; simpl in *.
  - injection Hc as <-. auto.
  - destruct (var_find sub v) as [c|] eqn:Ec; [|discriminate].
    destruct (find_columns sub vs) as [cs'|] eqn:Ecs; [|discriminate]. injection Hc as <-.
    rewrite (Ho 0%nat v eq_refl).
    destruct (IH cs' (S i) eq_refl) as [-> Hl].
    { intros j u Hj. rewrite (Ho (S j) u Hj). f_equal. lia. }
    simpl. rewrite Nat.add_0_r. split; auto.
Qed.

Lemma alias_aggregates_spec sub out : forall als cs i, find_columns sub (map al_in als) = Some cs ->
  (forall j v, nth_error (map al_out als) j = Some v -> var_find out v = Some (i + j)%nat) ->
  alias_aggregates sub out als =
    Some (map (fun p => aggregate_of (fst (fst p)) (snd (fst p)) (snd p))
              (combine (combine als cs) (seq i (length als)))) /\
  length cs = length als.
Proof.
  induction als as [|al als IH]; intros cs i Hc Ho; simpl in *.
  - injection Hc as <-. auto.
  - destruct (var_find sub (al_in al)) as [c|] eqn:Ec; [|discriminate].
    destruct (find_columns sub (map al_in als)) as [cs'|] eqn:Ecs; [|discriminate]. injection Hc as <-.
    rewrite (Ho 0%nat _ eq_refl).
    destruct (IH cs' (S i) eq_refl) as [-> Hl].
    { intros j u Hj. rewrite (Ho (S j) u Hj). f_equal. lia. }
    simpl. rewrite Nat.add_0_r. split; auto.
Qed.

Lemma outs_samples cs i : map a_out (map (fun p => sample_of (fst p) (snd p)) (combine cs (seq i (length cs)))) = seq i (length cs).
Proof. revert i. induction cs as [|c cs IH]; intros i; simpl; f_equal; auto. Qed.
Lemma outs_aliases als : forall cs i, length cs = length als ->
  map a_out (map (fun p => aggregate_of (fst (fst p)) (snd (fst p)) (snd p)) (combine (combine als cs) (seq i (length als)))) = seq i (length als).
Proof.
  induction als as [|al als IH]; intros [|c cs] i H; simpl in *; try discriminate; auto.
  f_equal. apply IH. congruence.
Qed.

Lemma var_type types (sub : var_map) v : type_of_variable types sub v =
  match var_find sub v with Some c => type_of types c | None => KB end.
Proof. unfold type_of_variable, var_find, type_of. destruct (find _ sub) as [p|]; reflexivity. Qed.

Lemma find_columns_nth sub : forall vs cs, find_columns sub vs = Some cs ->
  forall j v, nth_error vs j = Some v -> exists c, nth_error cs j = Some c /\ var_find sub v = Some c.
Proof.
  induction vs as [|v vs IH]; intros cs H j u Hj; simpl in H; [destruct j; discriminate|].
  destruct (var_find sub v) eqn:E; [|discriminate].
  destruct (find_columns sub vs); [|discriminate]. injection H as <-.
  destruct j; simpl in *; [injection Hj as <-; eauto|]. eapply IH; eauto.
Qed.

Lemma group_by_result_ok env types sub groupVars aliases cs acs blank input :
  groupVars <> [] -> NoDup (groupVars ++ map al_out aliases) ->
  find_columns sub groupVars = Some cs -> find_columns sub (map al_in aliases) = Some acs ->
  (forall i, length (blank i) = (length groupVars + length aliases)%nat) ->
  sorted_lex cs input ->
  (forall k, (exists r, In r input /\ cols cs r = k) -> aliases_supported types sub aliases (group cs k input)) ->
  exists out vocab ks,
    group_by_result env types sub groupVars aliases blank input = Some (out, vocab) /\
    StronglySorted lex_lt ks /\ (forall k, In k ks <-> exists r, In r input /\ cols cs r = k) /\
    Forall2 (fun k r => group_row_ok env types sub (group_by_vars groupVars aliases) groupVars aliases vocab k
               (group cs k input) r) ks out.
Proof.
  intros Hne Hd Hc Ha Hb Hs Hsup.
  set (outv := group_by_vars groupVars aliases) in *.
  assert (Ho : forall j v, nth_error (groupVars ++ map al_out aliases) j = Some v -> var_find outv v = Some j)
    by (intros; now apply group_by_vars_find).
  destruct (group_aggregates_spec sub outv groupVars cs 0 Hc) as [Eg Hlg].
  { intros j v Hj. cbn [Nat.add]. apply Ho. rewrite nth_error_app1; [exact Hj|]. apply nth_error_Some. congruence. }
  destruct (alias_aggregates_spec sub outv aliases acs (length groupVars) Ha) as [Ea Hla].
  { intros j v Hj. apply Ho. rewrite nth_error_app2 by lia. rewrite <- Hj. f_equal. lia. }
  unfold group_by_result. fold outv. rewrite Eg, Ea, Hc.
  set (ga := map (fun p => sample_of (fst p) (snd p)) (combine cs (seq 0 (length cs)))) in *.
  set (aa := map (fun p => aggregate_of (fst (fst p)) (snd (fst p)) (snd p)) (combine (combine aliases acs) (seq (length groupVars) (length aliases)))) in *.
  assert (Houts : map a_out (ga ++ aa) = seq 0 (length groupVars + length aliases)).
  { rewrite map_app. unfold ga, aa. rewrite outs_samples, outs_aliases by auto. rewrite Hlg, seq_app. reflexivity. }
  assert (Hga : forall a, In a ga -> a_type a = SAMPLE).
  { intros a Hin. apply in_map_iff in Hin. destruct Hin as (p & <- & _). reflexivity. }
  assert (Haa : forall a, In a aa -> exists al, In al aliases /\ exists c, var_find sub (al_in al) = Some c /\
                  a = aggregate_of al c (a_out a)).
  { intros a Hin. apply in_map_iff in Hin. destruct Hin as ([[al c] o] & <- & Hin). simpl in *.
    apply in_combine_l in Hin. assert (In al aliases) by (now apply in_combine_l in Hin). exists al. split; auto. exists c. split; auto.
    apply In_nth_error in Hin. destruct Hin as (j & Hj).
    assert (nth_error aliases j = Some al /\ nth_error acs j = Some c) as [H1 H2].
    { clear -Hj. revert acs j Hj. induction aliases as [|x l IH]; intros [|y l'] [|j] H; simpl in *; try discriminate.
      - injection H as -> ->. auto. - auto. }
    destruct (find_columns_nth sub _ _ Ha j (al_in al)) as (c' & H3 & H4).
    { now apply map_nth_error. }
    congruence. }
  destruct (do_group_by_ok env types cs (ga ++ aa) blank (length groupVars + length aliases)%nat input)
    as (out & vocab & ks & E & Hw & H1 & H2 & H3); auto.
  - intros ->. destruct groupVars; [congruence|discriminate].
  - rewrite Houts. apply seq_NoDup.
  - apply Forall_forall. intros a Hin. apply (in_map a_out) in Hin. rewrite Houts in Hin. apply in_seq in Hin. lia.
  - intros k Hk. apply Forall_app. split.
    + apply Forall_forall. intros a Hin. rewrite (Hga a Hin). exact I.
    + apply Forall_forall. intros a Hin. destruct (Haa a Hin) as (al & Hal & c & Ec & Ea').
      specialize (Hsup k Hk). unfold aliases_supported in Hsup. rewrite Forall_forall in Hsup.
      specialize (Hsup al Hal). rewrite var_type, Ec in Hsup. rewrite Ea'. simpl.
      erewrite map_ext; [exact Hsup|]. intros s. simpl. rewrite binding_find, Ec. reflexivity.
  - exists out, vocab, ks. split; auto. split; auto. split; auto.
    assert (Hks : forall k, In k ks -> exists r, In r input /\ cols cs r = k) by (intros; now apply H2).
    clear H1 H2 Hw E. induction H3 as [|k r ks out Hkr H3 IH]; constructor.
    + split.
      * (* the key *)
        destruct (Hks k (or_introl eq_refl)) as (r0 & Hr0 & Er0).
        assert (Hlen : length k = length groupVars) by (rewrite <- Er0; unfold cols; rewrite map_length; auto).
        apply (nth_ext _ _ 0 0).
        { now rewrite map_length. }
        intros j Hj. rewrite map_length in Hj.
        destruct (nth_error groupVars j) as [v|] eqn:Ev; [|apply nth_error_None in Ev; lia].
        rewrite (nth_indep _ 0 (binding String.eqb outv r v)) by (now rewrite map_length).
        rewrite (map_nth (fun v => binding String.eqb outv r v)).
        rewrite (nth_error_nth _ _ v Ev).
        rewrite binding_find. rewrite (Ho j v) by (rewrite nth_error_app1; auto).
        destruct (find_columns_nth sub _ _ Hc j v Ev) as (c & Hcj & _).
        assert (Hin : In (sample_of c j) (ga ++ aa)).
        { apply in_or_app. left. apply in_map_iff. exists (c, j). split; auto.
          apply (nth_error_In _ j). clear -Hcj.
          assert (Hc' : nth_error (combine cs (seq 0 (length cs))) j = Some (c, (0 + j)%nat)).
          { revert Hcj. generalize 0%nat. revert j. induction cs as [|x l IHl]; intros [|j] i H; simpl in *; try discriminate.
            - injection H as ->. now rewrite Nat.add_0_r.
            - rewrite (IHl j (S i) H). f_equal. f_equal. lia. }
          exact Hc'. }
        specialize (Hkr _ Hin). simpl in Hkr. apply in_map_iff in Hkr. destruct Hkr as (s & Es & Hs').
        rewrite <- Es. unfold group in Hs'. apply filter_In in Hs'. destruct Hs' as [_ Hk].
        apply key_is_true in Hk. rewrite <- Hk. unfold cols.
        rewrite (nth_indep _ 0 (col c s)) by (rewrite map_length; lia).
        rewrite (map_nth (fun c => col c s)). now rewrite (nth_error_nth _ _ c Hcj).
      * apply Forall_forall. intros al Hal. apply In_nth_error in Hal. destruct Hal as (j & Hj).
        destruct (find_columns_nth sub _ _ Ha j (al_in al)) as (c & Hcj & Ec); [now apply map_nth_error|].
        assert (Hin : In (aggregate_of al c (length groupVars + j)) (ga ++ aa)).
        { apply in_or_app. right. apply in_map_iff. exists ((al, c), (length groupVars + j)%nat). split; auto.
          apply (nth_error_In _ j). clear -Hcj Hj.
          revert Hcj Hj. generalize (length groupVars) as i. revert acs j.
          induction aliases as [|x l IHl]; intros [|y l'] [|j] i H1 H2; simpl in *; try discriminate.
          - injection H1 as ->. injection H2 as ->. now rewrite Nat.add_0_r.
          - rewrite (IHl l' j (S i) H1 H2). f_equal. f_equal. lia. }
        specialize (Hkr _ Hin). simpl in Hkr. rewrite var_type, Ec.
        rewrite (binding_find outv). rewrite (Ho (length groupVars + j)%nat (al_out al)).
        2:{ rewrite nth_error_app2 by lia. replace (length groupVars + j - length groupVars)%nat with j by lia.
            now apply map_nth_error. }
        erewrite map_ext; [exact Hkr|]. intros s. simpl. rewrite binding_find, Ec. reflexivity.
    + apply IH. intros k' Hk'. apply Hks. simpl. auto.
Qed.

(* ---- the planner's sorting ---- *)

Lemma add_sort_columns_cmp r s : forall cs seen, (forall c, In c seen -> col c r = col c s) ->
  lex_cmp (cols (add_sort_columns seen cs) r) (cols (add_sort_columns seen cs) s) =
  lex_cmp (cols cs r) (cols cs s).
Proof.
  induction cs as [|c cs IH]; intros seen Hs; simpl; auto.
  destruct (existsb (Nat.eqb c) seen) eqn:E.
  - apply existsb_exists in E. destruct E as (d & Hd & E). apply Nat.eqb_eq in E. subst d.
    rewrite (Hs c Hd), N.compare_refl. apply IH, Hs.
  - simpl. destruct (N.compare_spec (col c r) (col c s)); auto. apply IH.
    intros d [<-|Hd]; auto.
Qed.

Lemma add_sort_columns_sorted cs t : sorted_lex (add_sort_columns [] cs) t -> sorted_lex cs t.
Proof.
  unfold sorted_lex. intros H. induction H as [|r t H IH Hh]; constructor; auto.
  destruct Hh as [|s t Hrs]; constructor. revert Hrs. unfold lex_le.
  rewrite add_sort_columns_cmp by (intros c []). auto.
Qed.

Lemma sorted_prefix_eq : forall sc srt : list nat, (length sc <= length srt)%nat ->
  forallb (fun p => Nat.eqb (fst p) (snd p)) (combine sc srt) = true ->
  srt = sc ++ skipn (length sc) srt.
Proof.
  induction sc as [|c sc IH]; intros [|d srt] Hl H; simpl in *; auto; try lia.
  apply andb_true_iff in H. destruct H as [E H]. apply Nat.eqb_eq in E. subst. f_equal. apply IH; auto. lia.
Qed.

Lemma group_by_plan_sorted claimed cs acs sub mid : cs <> [] -> sorted_lex claimed sub ->
  presorted (group_by_plan claimed cs acs) sub mid -> sorted_lex cs mid /\ Permutation sub mid.
Proof.
  intros Hne Hs. unfold group_by_plan, group_sort_columns.
  destruct cs as [|c cs']; [congruence|]. set (cs := c :: cs') in *.
  set (sc := add_sort_columns [] (cs ++ acs)).
  assert (Hsc : forall t, sorted_lex sc t -> sorted_lex cs t).
  { intros t Ht. apply add_sort_columns_sorted in Ht. now apply sorted_lex_prefix in Ht. }
  assert (Hscne : sc <> []) by (unfold sc, cs; simpl; discriminate).
  destruct sc as [|x sc'] eqn:Esc; [congruence|]. rewrite <- Esc in *. 
  destruct (Nat.leb (length sc) (length claimed) && _) eqn:E; cbn [presorted].
  - intros ->. split; [|apply Permutation_refl]. apply andb_true_iff in E. destruct E as [E1 E2]. apply Nat.leb_le in E1.
    apply Hsc. rewrite (sorted_prefix_eq sc claimed E1 E2) in Hs. now apply sorted_lex_prefix in Hs.
  - intros H. split; [|apply H]. apply Hsc.
    apply (order_by_sorted_lex sc [] sub mid). now rewrite app_nil_r.
Qed.

(* ---- the claimed order ---- *)

Lemma strongly_sorted_keys (ks : list (list N)) (out : table) (f : row -> list N) :
  StronglySorted lex_lt ks -> Forall2 (fun k r => f r = k) ks out ->
  Sorted (fun r s => lex_le (f r) (f s)) out.
Proof.
  intros Hs H. induction H as [|k r ks out E H IH]; constructor.
  - inversion Hs; auto.
  - inversion Hs as [|? ? _ Hf]; subst. destruct H as [|k2 r2 ks out E2 H]; constructor.
    inversion Hf; subst. now apply lex_lt_le.
Qed.

(* ---- HAVING ---- *)

Lemma having_last clauses f t : run_plan (having_plan (clauses ++ [f])) t = filter f t.
Proof. unfold having_plan. rewrite fold_left_app. reflexivity. Qed.
