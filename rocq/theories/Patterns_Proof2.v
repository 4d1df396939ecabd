From Coq Require Import List NArith Arith Bool Lia Permutation Sorted ZifyBool ZifyN ZifyNat.
From Verif Require Import HasPred_Spec HasPred_Proof Bytes Csv_Model Csv_Proof Std_Model Std_Proof
  Ops_Model Ops_Proof ListAux Patterns_Model Patterns_Proof.
Import ListNotations.
Open Scope N_scope.

(* ---- index_of ---- *)
Lemma index_of_Some pats pat k : index_of pats pat = Some k -> nth_error pats (N.to_nat k) = Some pat.
Proof.
  revert k. induction pats as [|q pats IH]; intros k; cbn [index_of]; [discriminate|].
  destruct (pattern_eqb q pat) eqn:E.
  - intros H. injection H as <-. apply pattern_eqb_spec in E. now subst.
  - destruct (index_of pats pat) as [j|]; cbn [option_map]; [|discriminate]. intros H. injection H as <-.
    rewrite N2Nat.inj_succ. cbn [nth_error]. auto.
Qed.
Lemma index_of_None pats pat : index_of pats pat = None <-> ~ In pat pats.
Proof.
  induction pats as [|q pats IH]; cbn [index_of In]; [tauto|]. destruct (pattern_eqb q pat) eqn:E.
  - apply pattern_eqb_spec in E. subst. split; [discriminate|tauto].
  - assert (q <> pat) by (intros ->; rewrite pattern_eqb_refl in E; discriminate).
    destruct (index_of pats pat) as [k|]; cbn [option_map].
    + split; [discriminate|]. intros Hn. exfalso.
      assert (Hp : ~ In pat pats) by tauto. apply IH in Hp. discriminate.
    + split; [|reflexivity]. intros _ [Ha|Hb]; [auto|]. now apply (proj1 IH).
Qed.

(* ---- what the second pass collects ---- *)
Definition pattern_entries (pats : list pattern) (G : list (N * pattern)) : list (N * N) :=
  flat_map (fun g => match index_of pats (snd g) with Some k => [(fst g, k)] | None => [] end) G.
Definition predicate_entries (pats : list pattern) (G : list (N * pattern)) : list (N * N) :=
  flat_map (fun g => match index_of pats (snd g) with Some k => [] | None => map (fun p => (fst g, p)) (snd g) end) G.
Definition total_size (G : list (N * pattern)) : N := N.of_nat (length (flat_map snd G)).

Lemma assign_all pats G : forall a,
  fold_left (fun a g => assign pats a (fst g) (snd g)) G a =
  {| e_pattern := e_pattern a ++ pattern_entries pats G;
     e_predicate := e_predicate a ++ predicate_entries pats G;
     full_size := full_size a + total_size G |}.
Proof.
  induction G as [|[s pat] G IH]; intros [p q n]; cbn [fold_left].
  - unfold pattern_entries, predicate_entries, total_size. cbn. rewrite !app_nil_r. f_equal. lia.
  - rewrite IH. unfold pattern_entries, predicate_entries, total_size, assign. cbn [fst snd flat_map].
    destruct (index_of pats pat); cbn [e_pattern e_predicate full_size]; rewrite <- ?app_assoc, app_length; cbn [app];
      f_equal; lia.
Qed.

(* ---- the vector hasPattern ---- *)
Fixpoint vector_of (pos : nat) (entries : list (N * N)) : list N :=
  match entries with
  | [] => []
  | (e, k) :: entries' =>
      repeat NO_PATTERN (N.to_nat e - pos) ++ k mod 2 ^ 32 :: vector_of (N.to_nat e + 1) entries'
  end.

Lemma list_set_at {A} (a : list A) x y b : list_set (a ++ x :: b) (length a) y = Some (a ++ y :: b).
Proof. induction a as [|z a IH]; cbn [app length list_set]; auto. rewrite IH. reflexivity. Qed.

Lemma fill_no_spec n : forall done rest, (n <= length rest)%nat ->
  fill_no_pattern (done ++ rest) (length done) n = Some (done ++ repeat NO_PATTERN n ++ skipn n rest).
Proof.
  induction n as [|n IH]; intros done rest Hn; cbn [fill_no_pattern repeat app skipn]; auto.
  destruct rest as [|x rest]; cbn [length] in Hn; [lia|]. rewrite list_set_at.
  replace (done ++ NO_PATTERN :: rest) with ((done ++ [NO_PATTERN]) ++ rest) by (now rewrite <- app_assoc).
  replace (length done + 1)%nat with (length (done ++ [NO_PATTERN])) by (rewrite app_length; reflexivity).
  rewrite IH by lia. rewrite <- app_assoc. reflexivity.
Qed.

Lemma fill_patterns_spec entries : StronglySorted N.lt (map fst entries) -> forall done rest,
  Forall (fun e => (length done <= N.to_nat (fst e))%nat) entries ->
  length rest = length (vector_of (length done) entries) ->
  fill_patterns (done ++ rest) (length done) entries = Some (done ++ vector_of (length done) entries).
Proof.
  induction entries as [|[e k] entries IH]; intros Hs done rest Hpos Hlen; cbn [fill_patterns vector_of].
  - cbn [vector_of length] in Hlen. destruct rest; [now rewrite app_nil_r|discriminate].
  - cbn [map fst] in Hs. inversion Hs as [|? ? Hs' He]; subst. inversion Hpos as [|? ? H1 H2]; subst. cbn [fst] in H1.
    cbn [vector_of] in Hlen. rewrite app_length, repeat_length in Hlen. cbn [length] in Hlen.
    set (n := (N.to_nat e - length done)%nat) in *. set (hp0 := vector_of (N.to_nat e + 1) entries) in *.
    rewrite fill_no_spec by lia.
    destruct (skipn n rest) as [|x rest'] eqn:Esk.
    { apply (f_equal (@length _)) in Esk. rewrite skipn_length in Esk. cbn in Esk. lia. }
    assert (Hl' : length rest' = length hp0).
    { apply (f_equal (@length _)) in Esk. rewrite skipn_length in Esk. cbn [length] in Esk. lia. }
    replace (length done + n)%nat with (length (done ++ repeat NO_PATTERN n)) by (rewrite app_length, repeat_length; lia).
    rewrite (app_assoc done (repeat NO_PATTERN n)). rewrite list_set_at.
    replace ((done ++ repeat NO_PATTERN n) ++ k mod 2 ^ 32 :: rest')
      with (((done ++ repeat NO_PATTERN n) ++ [k mod 2 ^ 32]) ++ rest') by (now rewrite <- app_assoc).
    set (done2 := (done ++ repeat NO_PATTERN n) ++ [k mod 2 ^ 32]).
    assert (Hd2 : length done2 = (N.to_nat e + 1)%nat).
    { unfold done2. rewrite !app_length, repeat_length. cbn [length]. lia. }
    replace (length (done ++ repeat NO_PATTERN n) + 1)%nat with (length done2)
      by (unfold done2; rewrite (app_length _ [_]); reflexivity).
    rewrite IH; auto.
    + rewrite Hd2. fold hp0. unfold done2. now rewrite <- !app_assoc.
    + rewrite Hd2. apply Forall_forall. intros [e' k'] Hin. cbn [fst]. rewrite Forall_forall in He.
      assert (e < e') by (apply He, in_map_iff; exists (e', k'); auto). lia.
    + rewrite Hd2. exact Hl'.
Qed.

Lemma vector_of_length entries : forall pos, StronglySorted N.lt (map fst entries) ->
  Forall (fun e => (pos <= N.to_nat (fst e))%nat) entries -> entries <> [] ->
  (pos + length (vector_of pos entries) = N.to_nat (fst (last entries (0, 0)%N)) + 1)%nat.
Proof.
  induction entries as [|[e k] entries IH]; intros pos Hs Hp Hne; [congruence|].
  cbn [vector_of]. rewrite app_length, repeat_length. cbn [length].
  cbn [map fst] in Hs. inversion Hs as [|? ? Hs' He]; subst. inversion Hp as [|? ? H1 H2]; subst. cbn [fst] in H1.
  destruct entries as [|g entries]; [cbn; lia|].
  assert (Hl : last ((e, k) :: g :: entries) (0, 0) = last (g :: entries) (0, 0)) by reflexivity.
  rewrite Hl. rewrite <- (IH (N.to_nat e + 1)%nat); auto; [lia| |discriminate].
  apply Forall_forall. intros [e' k'] Hin. cbn [fst]. rewrite Forall_forall in He.
  assert (e < e') by (apply He; apply (in_map fst) in Hin; exact Hin). lia.
Qed.

Lemma vector_of_nth entries : forall pos e, StronglySorted N.lt (map fst entries) ->
  Forall (fun g => (pos <= N.to_nat (fst g))%nat) entries -> (pos <= N.to_nat e)%nat ->
  (forall k, In (e, k) entries -> nth_error (vector_of pos entries) (N.to_nat e - pos) = Some (k mod 2 ^ 32)) /\
  (~ In e (map fst entries) -> nth_error (vector_of pos entries) (N.to_nat e - pos) = Some NO_PATTERN \/
                               nth_error (vector_of pos entries) (N.to_nat e - pos) = None).
Proof.
  induction entries as [|[a j] entries IH]; intros pos e Hs Hp He; cbn [vector_of].
  - split; [intros k []|]. intros _. right. destruct (_ - _)%nat; reflexivity.
  - cbn [map fst] in *. inversion Hs as [|? ? Hs' Ha]; subst. inversion Hp as [|? ? H1 H2]; subst. cbn [fst] in H1.
    rewrite Forall_forall in Ha.
    assert (Hrec : Forall (fun g => (N.to_nat a + 1 <= N.to_nat (fst g))%nat) entries).
    { apply Forall_forall. intros g Hin. assert (a < fst g) by (apply Ha, in_map; auto). lia. }
    destruct (N.lt_trichotomy e a) as [H|[H|H]].
    + rewrite nth_error_app1 by (rewrite repeat_length; lia). split.
      * intros k [Hin|Hin]; [injection Hin; lia|]. apply (in_map fst) in Hin. apply Ha in Hin. cbn in Hin. lia.
      * intros _. left. apply nth_error_repeat. lia.
    + subst a. rewrite nth_error_app2 by (rewrite repeat_length; lia). rewrite repeat_length, Nat.sub_diag.
      cbn [nth_error]. split.
      * intros k [Hin|Hin]; [congruence|]. apply (in_map fst) in Hin. apply Ha in Hin. cbn in Hin. lia.
      * intros Hn. exfalso. apply Hn. left. reflexivity.
    + rewrite nth_error_app2 by (rewrite repeat_length; lia). rewrite repeat_length.
      replace (N.to_nat e - pos - (N.to_nat a - pos))%nat with (S (N.to_nat e - (N.to_nat a + 1))) by lia.
      cbn [nth_error]. destruct (IH (N.to_nat a + 1)%nat e Hs' Hrec ltac:(lia)) as [I1 I2]. split.
      * intros k [Hin|Hin]; [injection Hin; lia|auto].
      * intros Hn. apply I2. cbn [In] in Hn. tauto.
Qed.

Lemma has_pattern_spec entries : StronglySorted N.lt (map fst entries) ->
  exists hp, has_pattern_vector entries = Some hp /\
    (forall v, In v hp -> v = NO_PATTERN \/ exists e k, In (e, k) entries /\ v = k mod 2 ^ 32) /\
    forall e, (forall k, In (e, k) entries -> nth_error hp (N.to_nat e) = Some (k mod 2 ^ 32)) /\
      (~ In e (map fst entries) -> nth_error hp (N.to_nat e) = Some NO_PATTERN \/
                                   nth_error hp (N.to_nat e) = None).
Proof.
  intros Hs. assert (Hp0 : Forall (fun g => (0 <= N.to_nat (fst g))%nat) entries) by (apply Forall_forall; intros; lia).
  exists (vector_of 0 entries). split; [|split].
  - destruct entries as [|g entries]; [reflexivity|]. unfold has_pattern_vector.
    pose proof (fill_patterns_spec (g :: entries) Hs []
      (repeat 0 (N.to_nat (fst (last (g :: entries) (0, 0))) + 1))) as H. cbn [app length] in H. apply H; auto.
    rewrite repeat_length. pose proof (vector_of_length (g :: entries) 0 Hs Hp0 ltac:(discriminate)). lia.
  - clear. generalize 0%nat. induction entries as [|[e k] entries IH]; intros pos v; cbn [vector_of]; [intros []|].
    rewrite in_app_iff. intros [H|[H|H]].
    + apply repeat_spec in H. auto.
    + right. exists e, k. split; [left; auto|auto].
    + destruct (IH _ _ H) as [H'|(e' & k' & H1 & H2)]; [auto|]. right. exists e', k'. split; [right|]; auto.
  - intros e. pose proof (vector_of_nth entries 0 e Hs Hp0 ltac:(lia)) as H. rewrite Nat.sub_0_r in H. exact H.
Qed.

Lemma pattern_entries_sorted pats G : StronglySorted N.lt (map fst G) ->
  StronglySorted N.lt (map fst (pattern_entries pats G)).
Proof.
  induction G as [|[s pat] G IH]; cbn [map fst]; intros H; [constructor|]. inversion H as [|? ? H1 H2]; subst.
  unfold pattern_entries. cbn [flat_map fst snd]. fold (pattern_entries pats G).
  destruct (index_of pats pat); cbn [app map fst]; auto. constructor; auto.
  apply Forall_forall. intros x Hx. rewrite Forall_forall in H2. apply H2.
  apply in_map_iff in Hx. destruct Hx as ([x' k] & <- & Hx). unfold pattern_entries in Hx.
  apply in_flat_map in Hx. destruct Hx as ([s' pat'] & Hin & Hx). cbn [fst snd] in Hx.
  destruct (index_of pats pat'); [|contradiction]. destruct Hx as [Hx|[]]. injection Hx as <- <-.
  cbn [fst]. apply in_map_iff. exists (s', pat'). auto.
Qed.
Lemma pattern_entries_In pats G e k : In (e, k) (pattern_entries pats G) <->
  exists pat, In (e, pat) G /\ index_of pats pat = Some k.
Proof.
  unfold pattern_entries. rewrite in_flat_map. split.
  - intros ([s pat] & Hin & H). cbn [fst snd] in H. destruct (index_of pats pat) eqn:E; [|contradiction].
    destruct H as [H|[]]. injection H as -> ->. exists pat. auto.
  - intros (pat & Hin & H). exists (e, pat). split; auto. cbn [fst snd]. rewrite H. left. reflexivity.
Qed.

(* ---- the vector hasPredicate for one entity ---- *)
Lemma fill_one e ps : forall a b, fill_predicates (Some e) (map (fun p => (e, p)) ps) (a ++ [b]) = a ++ [b ++ ps].
Proof.
  induction ps as [|p ps IH]; intros a b; cbn [map fill_predicates]; [now rewrite app_nil_r|].
  rewrite N.eqb_refl. unfold push_to_last. rewrite removelast_last, last_last. rewrite IH, <- app_assoc. reflexivity.
Qed.
Lemma has_predicate_one e ps : ps <> [] ->
  has_predicate_vector (map (fun p => (e, p)) ps) = repeat [] (N.to_nat e) ++ [ps].
Proof.
  intros Hne. destruct ps as [|p ps]; [congruence|].
  assert (Hlast : fst (last (map (fun p => (e, p)) (p :: ps)) (0, 0)) = e).
  { clear Hne. revert p. induction ps as [|q ps IH]; intros p; [reflexivity|].
    change (last (map (fun p => (e, p)) (p :: q :: ps)) (0, 0)) with (last (map (fun p => (e, p)) (q :: ps)) (0, 0)). apply IH. }
  unfold has_predicate_vector. cbn [map] in *. rewrite Hlast.
  rewrite Nat.add_1_r. cbn [fill_predicates]. unfold push_to_last.
  assert (Hr : repeat (@nil N) (S (N.to_nat e)) = repeat [] (N.to_nat e) ++ [[]]).
  { generalize (N.to_nat e). induction n as [|n IH]; cbn [repeat app]; auto. f_equal. exact IH. }
  rewrite Hr, removelast_last, last_last. cbn [app]. rewrite fill_one. reflexivity.
Qed.

Section Build.
  Variables lo hi : N.
  Variable maxNum : nat.
  Variables order sort : pattern_counts -> pattern_counts.
  Variable ts : list triple.
  Hypothesis Hts : StronglySorted spo_le ts.
  Hypothesis Hmax : (0 < maxNum)%nat.
  Hypothesis Hmax32 : N.of_nat maxNum < 2 ^ 32.
  Hypothesis Hord : forall m, Permutation (order m) m.
  Hypothesis Hsort : sort_ok sort.

  Lemma find_patterns_spec : exists pats,
    let G := all_groups lo hi ts in
    find_patterns lo hi maxNum order sort ts =
      Some (pats, {| e_pattern := pattern_entries pats G; e_predicate := predicate_entries pats G;
                     full_size := total_size G |}) /\
    NoDup pats /\ (length pats <= maxNum)%nat /\ (forall q, In q pats -> In q (map snd G)) /\
    ((length pats < maxNum)%nat -> forall q, In q (map snd G) -> In q pats) /\
    (forall q r, In q pats -> In r (map snd G) -> ~ In r pats ->
       occurrences r (map snd G) <= occurrences q (map snd G)).
  Proof using Hmax Hord Hsort.
    clear Hts Hmax32. destruct ts as [|t ts'] eqn:Ets.
    { exists []. cbn. split; [reflexivity|]. split; [constructor|]. split; [lia|]. split; [intros q []|].
      split; [intros _ q []|intros q r []]. }
    unfold find_patterns, all_groups. rewrite first_pass_eq. set (G := groups lo hi (subj t) [] (t :: ts')).
    destruct (counts_spec (map snd G) []) as (C1 & C2 & C3); [constructor|].
    set (m := fold_left pcount (map snd G) []) in *.
    assert (Hn : NoDup (map fst (order m))).
    { eapply Permutation_NoDup; [|exact C1]. apply Permutation_sym, Permutation_map, Hord. }
    destruct (select_spec maxNum sort Hmax Hsort (order m) [] [] []) as (sp & dropped & E & S1 & S2 & S3 & S4); auto.
    { split; [constructor|]. split; [intros a b []|]. cbn [length]. split; [lia|]. split; [auto|]. intros; constructor. }
    rewrite E. cbn [app] in S1.
    assert (Hall : Permutation (sp ++ dropped) m) by (now rewrite S1).
    exists (map fst sp). rewrite second_pass_eq, assign_all. cbn [e_pattern e_predicate full_size empty_assoc app].
    fold G. rewrite N.add_0_l. split; [reflexivity|].
    assert (Hkey : forall q, In q (map fst sp) \/ In q (map fst dropped) <-> In q (map snd G)).
    { intros q. specialize (C2 q). cbn [map In] in C2. rewrite <- in_app_iff, <- map_app.
      assert (Hp : In q (map fst (sp ++ dropped)) <-> In q (map fst m)).
      { split; apply Permutation_in; [|apply Permutation_sym]; apply Permutation_map, Hall. }
      tauto. }
    assert (Hcnt : forall q c, In (q, c) (sp ++ dropped) -> c = occurrences q (map snd G)).
    { intros q c Hin. assert (Hin' : In (q, c) m) by (eapply Permutation_in; [exact Hall|auto]).
      apply pget_In in Hin'; auto. rewrite C3 in Hin'. cbn [pget] in Hin'. lia. }
    split; [|split; [|split; [|split]]].
    - assert (NoDup (map fst (sp ++ dropped))).
      { eapply Permutation_NoDup; [|exact C1]. apply Permutation_sym, Permutation_map, Hall. }
      rewrite map_app in H. now apply NoDup_app_l in H.
    - now rewrite map_length.
    - intros q Hq. apply Hkey. auto.
    - rewrite map_length. intros Hl q Hq. rewrite (S4 Hl) in Hkey. cbn [map In] in Hkey. apply Hkey in Hq. tauto.
    - intros q r Hq Hr Hnr. apply Hkey in Hr. destruct Hr as [Hr|Hr]; [contradiction|].
      apply in_map_iff in Hq, Hr. destruct Hq as ([q' c] & <- & Hq), Hr as ([r' d] & <- & Hr).
      cbn [fst] in *. rewrite <- (Hcnt q' c), <- (Hcnt r' d) by (apply in_app_iff; auto). apply (S2 _ _ Hq Hr).
  Qed.

  (* The index built: entities with a stored pattern, and the others. *)
  Lemma create_spec : exists ix pats,
    let G := all_groups lo hi ts in
    create_patterns lo hi maxNum order sort ts = Some ix /\ patterns ix = pats /\
    hasPredicate ix = has_predicate_vector (predicate_entries pats G) /\
    index_ok ix /\ (length pats <= maxNum)%nat /\ NoDup pats /\ (forall q, In q pats -> In q (map snd G)) /\
    ((length pats < maxNum)%nat -> forall q, In q (map snd G) -> In q pats) /\
    (forall q r, In q pats -> In r (map snd G) -> ~ In r pats ->
       occurrences r (map snd G) <= occurrences q (map snd G)) /\
    (forall e l, In (e, l) G -> In l pats -> predicates_of ix e = l) /\
    (forall e, (forall l, In (e, l) G -> ~ In l pats) -> predicates_of ix e = nth (N.to_nat e) (hasPredicate ix) []).
  Proof.
    destruct find_patterns_spec as (pats & E & P1 & P2 & P3 & P4 & P5).
    destruct (all_groups_spec lo hi ts Hts) as (A1 & A2 & A3). set (G := all_groups lo hi ts) in *.
    destruct (has_pattern_spec (pattern_entries pats G) (pattern_entries_sorted pats G A1)) as (hp & H1 & H2 & H3).
    exists {| hasPattern := hp; hasPredicate := has_predicate_vector (predicate_entries pats G); patterns := pats |}, pats.
    cbv zeta. unfold create_patterns. rewrite E. unfold lookup_vectors. cbn [e_pattern e_predicate]. rewrite H1.
    cbn [patterns hasPredicate]. split; [reflexivity|]. split; [reflexivity|]. split; [reflexivity|].
    assert (Hk : forall pat k, index_of pats pat = Some k -> k < N.of_nat (length pats) /\ k mod 2 ^ 32 = k /\ k <> NO_PATTERN).
    { intros pat k Hi. apply index_of_Some in Hi. assert (Hs : (N.to_nat k < length pats)%nat) by (apply nth_error_Some; congruence).
      assert (Hk : k < 2 ^ 32 - 1) by lia. split; [lia|]. split; [apply N.mod_small; lia|]. unfold NO_PATTERN. lia. }
    split.
    { unfold index_ok. cbn [hasPattern patterns]. apply Forall_forall. intros v Hv. apply H2 in Hv.
      destruct Hv as [Hv|(e & k & Hin & ->)]; auto. right. apply pattern_entries_In in Hin.
      destruct Hin as (pat & _ & Hi). apply Hk in Hi. destruct Hi as (Hi & -> & _). exact Hi. }
    split; [exact P2|]. split; [exact P1|]. split; [exact P3|]. split; [exact P4|]. split; [exact P5|]. split.
    - intros e l Hin Hl. unfold predicates_of. cbn [hasPattern patterns hasPredicate].
      destruct (index_of pats l) as [k|] eqn:Ei; [|apply index_of_None in Ei; contradiction].
      destruct (H3 e) as [H4 _]. rewrite (H4 k); [|apply pattern_entries_In; exists l; auto].
      destruct (Hk l k Ei) as (_ & -> & Hne). replace (k =? NO_PATTERN) with false by lia.
      apply index_of_Some in Ei. now apply nth_error_nth.
    - intros e He. unfold predicates_of. cbn [hasPattern patterns hasPredicate].
      destruct (H3 e) as [_ H4]. destruct H4 as [H4|H4].
      + intros Hin. apply in_map_iff in Hin. destruct Hin as ([e' k] & <- & Hin). cbn [fst] in *.
        apply pattern_entries_In in Hin. destruct Hin as (pat & Hin & Hi). apply (He pat); auto.
        apply index_of_Some in Hi. eapply nth_error_In; eauto.
      + rewrite H4. reflexivity.
      + rewrite H4. reflexivity.
  Qed.

  Definition exact_for (ix : pattern_index) (e : N) : Prop :=
    forall p, In p (predicates_of ix e) <-> exists t, In t ts /\ subj t = e /\ pred t = p /\ keep lo hi p.

  Lemma predicate_entries_none pats G : (forall e l, In (e, l) G -> In l pats) -> predicate_entries pats G = [].
  Proof.
    clear. intros H. unfold predicate_entries. induction G as [|[s pat] G IH]; auto. cbn [flat_map fst snd].
    destruct (index_of pats pat) eqn:E.
    - apply IH. intros e l Hin. apply (H e). right; auto.
    - apply index_of_None in E. exfalso. apply E, (H s). left; auto.
  Qed.
  (* at most one entity has no stored pattern *)
  Lemma predicate_entries_one pats G e0 l0 : NoDup (map fst G) -> In (e0, l0) G -> ~ In l0 pats ->
    (forall e l, In (e, l) G -> ~ In l pats -> e = e0) ->
    predicate_entries pats G = map (fun p => (e0, p)) l0.
  Proof.
    clear. intros Hn Hin Hl H. unfold predicate_entries. induction G as [|[s pat] G IH]; [contradiction|].
    cbn [flat_map fst snd]. cbn [map fst] in Hn. inversion Hn as [|? ? Hn1 Hn2]; subst. destruct Hin as [Hin|Hin].
    - injection Hin as -> ->. destruct (index_of pats l0) eqn:E.
      { apply index_of_Some, nth_error_In in E. contradiction. }
      fold (predicate_entries pats G). rewrite predicate_entries_none; [apply app_nil_r|].
      intros e l Hel. destruct (index_of pats l) eqn:El.
      + apply index_of_Some, nth_error_In in El. auto.
      + exfalso. apply index_of_None in El. apply Hn1. rewrite <- (H e l); [|right; auto|auto].
        apply in_map_iff. exists (e, l). auto.
    - destruct (index_of pats pat) eqn:E.
      + apply IH; auto. intros e l Hel. apply H. right; auto.
      + apply index_of_None in E. exfalso. apply Hn1. rewrite (H s pat); [|left; auto|auto].
        apply in_map_iff. exists (e0, l0). auto.
  Qed.

  Lemma sorted_nodup (l : list N) : StronglySorted N.lt l -> NoDup l.
  Proof.
    clear. induction 1 as [|x l Hl IH Hx]; constructor; auto. intros Hin. rewrite Forall_forall in Hx.
    specialize (Hx x Hin). lia.
  Qed.

  Lemma group_exact e l : In (e, l) (all_groups lo hi ts) -> forall p,
    In p l <-> exists t, In t ts /\ subj t = e /\ pred t = p /\ keep lo hi p.
  Proof. destruct (all_groups_spec lo hi ts Hts) as (_ & _ & A3). apply A3. Qed.

  Lemma nth_repeat_nil n k (x : list N) : (k <> n)%nat -> nth k (repeat [] n ++ [x]) [] = [].
  Proof.
    clear. intros H. destruct (Nat.lt_ge_cases k n) as [Hk|Hk].
    - rewrite app_nth1 by (rewrite repeat_length; lia). apply nth_repeat.
    - apply nth_overflow. rewrite app_length, repeat_length. cbn [length]. lia.
  Qed.

  Theorem create_correct : exists ix, create_patterns lo hi maxNum order sort ts = Some ix /\ index_ok ix /\
    (* entities with a stored pattern *)
    (forall e l, In (e, l) (all_groups lo hi ts) -> In l (patterns ix) -> exact_for ix e) /\
    (* at most one entity without *)
    ((forall e l e' l', In (e, l) (all_groups lo hi ts) -> In (e', l') (all_groups lo hi ts) ->
        ~ In l (patterns ix) -> ~ In l' (patterns ix) -> e = e') ->
     lists_distinct ix /\ forall e, exact_for ix e /\ StronglySorted N.lt (predicates_of ix e)) /\
    (* the stored patterns *)
    (length (patterns ix) <= maxNum)%nat /\ NoDup (patterns ix) /\
    (forall q, In q (patterns ix) -> In q (map snd (all_groups lo hi ts))) /\
    ((length (patterns ix) < maxNum)%nat -> (forall q, In q (map snd (all_groups lo hi ts)) -> In q (patterns ix)) /\
       hasPredicate ix = []) /\
    (forall q r, In q (patterns ix) -> In r (map snd (all_groups lo hi ts)) -> ~ In r (patterns ix) ->
       occurrences r (map snd (all_groups lo hi ts)) <= occurrences q (map snd (all_groups lo hi ts))).
  Proof.
    destruct create_spec as (ix & pats & E & Hp & Hq & Hok & L1 & L2 & L3 & L4 & L5 & M1 & M2).
    destruct (all_groups_spec lo hi ts Hts) as (A1 & A2 & A3). set (G := all_groups lo hi ts) in *.
    exists ix. rewrite Hp. split; [exact E|]. split; [exact Hok|].
    assert (Hgr : forall e l, In (e, l) G -> In l pats -> exact_for ix e).
    { intros e l Hin Hl p. rewrite (M1 e l Hin Hl). now apply A3. }
    split; [exact Hgr|].
    assert (Hgs : forall q, In q pats -> StronglySorted N.lt q).
    { intros q Hin. apply L3 in Hin. apply in_map_iff in Hin. destruct Hin as ([e l] & <- & Hin). now apply (A3 e l). }
    split; [|split; [exact L1|split; [exact L2|split; [exact L3|split; [|exact L5]]]]].
    - intros Hone.
      assert (Hcase : (forall e l, In (e, l) G -> In l pats) \/ exists e0 l0, In (e0, l0) G /\ ~ In l0 pats).
      { clear - G. induction G as [|[e l] G' IH]; [left; intros e l []|].
        destruct (index_of pats l) as [k|] eqn:Ei.
        - destruct IH as [IH|(e0 & l0 & H1 & H2)].
          + left. intros e' l' [H|H]; [|eauto]. injection H as <- <-. apply index_of_Some, nth_error_In in Ei. auto.
          + right. exists e0, l0. split; [right; auto|auto].
        - right. exists e, l. split; [left; auto|]. now apply index_of_None. }
      destruct Hcase as [Hall|(e0 & l0 & Hin0 & Hl0)].
      + rewrite (predicate_entries_none pats G Hall) in Hq. cbn in Hq. split.
        { split; [|rewrite Hq; constructor]. rewrite Hp. apply Forall_forall. intros q Hin. apply sorted_nodup. auto. }
        intros e. destruct (in_dec N.eq_dec e (map fst G)) as [Hin|Hin].
        * apply in_map_iff in Hin. destruct Hin as ([e' l] & <- & Hin). cbn [fst] in *. split; [eauto|].
          rewrite (M1 e' l Hin); eauto.
        * assert (Hno : predicates_of ix e = []).
          { rewrite M2; [rewrite Hq; destruct (N.to_nat e); reflexivity|].
            intros l Hl. exfalso. apply Hin, in_map_iff. exists (e, l). auto. }
          split; [|rewrite Hno; constructor]. intros p. rewrite Hno. split; [intros []|].
          intros (t & Ht & Hs & _). apply Hin, A2. exists t. auto.
      + assert (Hone' : forall e l, In (e, l) G -> ~ In l pats -> e = e0) by (intros e l H1 H2; apply (Hone e l e0 l0); auto).
        rewrite (predicate_entries_one pats G e0 l0 (sorted_nodup _ A1) Hin0 Hl0 Hone') in Hq.
        assert (Hnth : forall e, nth (N.to_nat e) (hasPredicate ix) [] = if e =? e0 then l0 else []).
        { intros e. rewrite Hq. destruct l0 as [|p0 l0].
          - cbn. destruct (N.to_nat e), (e =? e0); reflexivity.
          - rewrite has_predicate_one by discriminate. destruct (e =? e0) eqn:Ee.
            + replace e with e0 by lia. rewrite app_nth2 by (rewrite repeat_length; lia).
              rewrite repeat_length, Nat.sub_diag. reflexivity.
            + apply nth_repeat_nil. lia. }
        split.
        { split; [rewrite Hp; apply Forall_forall; intros q Hin; apply sorted_nodup; auto|].
          rewrite Hq. destruct l0 as [|p0 l0']; [constructor|]. rewrite has_predicate_one by discriminate.
          apply Forall_app. split.
          - apply Forall_forall. intros x Hx. apply repeat_spec in Hx. subst. constructor.
          - constructor; [|constructor]. apply sorted_nodup. now apply (A3 e0). }
        intros e. destruct (in_dec N.eq_dec e (map fst G)) as [Hin|Hin].
        * apply in_map_iff in Hin. destruct Hin as ([e' l] & <- & Hin). cbn [fst] in *.
          destruct (index_of pats l) as [k|] eqn:Ei.
          -- assert (Hl : In l pats) by (apply index_of_Some, nth_error_In in Ei; auto). split; [eauto|].
             rewrite (M1 e' l Hin Hl). auto.
          -- apply index_of_None in Ei. assert (Ee : e' = e0) by eauto. subst e'.
             assert (El : l = l0).
             { assert (Hu : forall (GG : list (N * pattern)) e a b, NoDup (map fst GG) -> In (e, a) GG -> In (e, b) GG -> a = b).
               { clear. induction GG as [|[s q] GG IH]; intros e a b Hn Ha Hb; [contradiction|].
                 cbn [map fst] in Hn. inversion Hn; subst. destruct Ha as [Ha|Ha], Hb as [Hb|Hb].
                 - congruence.
                 - injection Ha as -> ->. exfalso. apply H1, in_map_iff. exists (e, b). auto.
                 - injection Hb as -> ->. exfalso. apply H1, in_map_iff. exists (e, a). auto.
                 - eauto. }
               apply (Hu G e0); auto. now apply sorted_nodup. }
             subst l. assert (Hpr : predicates_of ix e0 = l0).
             { rewrite M2; [rewrite Hnth, N.eqb_refl; reflexivity|]. intros l' Hl'.
               destruct (index_of pats l') as [k|] eqn:Ei'; [|now apply index_of_None]. intros Hl''.
               pose proof (M1 e0 l' Hl' Hl'') as Hpp. exfalso.
               assert (l' = l0).
               { assert (Hu : forall (GG : list (N * pattern)) e a b, NoDup (map fst GG) -> In (e, a) GG -> In (e, b) GG -> a = b).
                 { clear. induction GG as [|[s q] GG IH]; intros e a b Hn Ha Hb; [contradiction|].
                   cbn [map fst] in Hn. inversion Hn; subst. destruct Ha as [Ha|Ha], Hb as [Hb|Hb].
                   - congruence.
                   - injection Ha as -> ->. exfalso. apply H1, in_map_iff. exists (e, b). auto.
                   - injection Hb as -> ->. exfalso. apply H1, in_map_iff. exists (e, a). auto.
                   - eauto. }
                 apply (Hu G e0); auto. now apply sorted_nodup. }
               subst. contradiction. }
             split; [|rewrite Hpr; now apply (A3 e0)]. intros p. rewrite Hpr. now apply A3.
        * assert (Hno : predicates_of ix e = []).
          { rewrite M2; [rewrite Hnth|].
            - destruct (e =? e0) eqn:Ee; auto. exfalso. apply Hin. replace e with e0 by lia.
              apply in_map_iff. exists (e0, l0). auto.
            - intros l Hl. exfalso. apply Hin, in_map_iff. exists (e, l). auto. }
          split; [|rewrite Hno; constructor]. intros p. rewrite Hno. split; [intros []|].
          intros (t & Ht & Hs & _). apply Hin, A2. exists t. auto.
    - intros Hl. specialize (L4 Hl). split; [exact L4|]. rewrite Hq, predicate_entries_none; [reflexivity|].
      intros e l Hin. apply L4. apply in_map_iff. exists (e, l). auto.
  Qed.
End Build.
