(* Lemmas about knownEmptyResult (C77). *)
From Coq Require Import String List NArith Arith Bool Permutation Lia ZifyN ZifyNat ZifyBool.
From Verif Require Import Base Table_Spec Std_Model Std_Proof Ops_Spec Ops_Model Join_Model MultiJoin_Model Vars_Model GroupBy_Spec GroupBy_Model
  Path_Model HasPred_Spec HasPred_Model Plan_Model Fts_Model Postings_Model TextIndex_Model TextOp_Model Empty_Model Empty_Spec.
From Verif Require Bind_Model Values_Model.
Import ListNotations.
Local Open Scope N_scope.

(* ---------- text ---------- *)
Lemma rbind_done {A B} (x : Postings_Model.result A) (f : A -> Postings_Model.result B) b :
  rbind x f = Done b -> exists a, x = Done a /\ f a = Done b.
Proof. destruct x; cbn; try discriminate. eauto. Qed.

Lemma estimate_zero m ws : forall n, estimate_loop m n ws = Done 0 -> In Unknown (map as_term ws).
Proof.
  induction ws as [|x ws IH]; intros n H; cbn [estimate_loop map] in *.
  - assert (Q : 1 + n / 100 = 0) by congruence. generalize dependent (n / 100). intros. lia.
  - destruct x as [t| |p]; cbn in *; auto. apply rbind_done in H. destruct H as [b [_ H]]. right. eauto.
Qed.

Lemma all_word_postings_unknown file m ts pss : all_word_postings file m ts = Done pss -> In Unknown ts -> In [] pss.
Proof.
  revert pss. induction ts as [|t ts IH]; intros pss H Hu; [destruct Hu|]. cbn [all_word_postings] in H.
  apply rbind_done in H. destruct H as [p [Hp H]]. apply rbind_done in H. destruct H as [ps [Hps H]]. injection H as <-.
  destruct Hu as [->|Hu]; [left; cbn in Hp; congruence|right; eauto].
Qed.
Lemma all_word_postings_length file m ts pss : all_word_postings file m ts = Done pss -> length pss = length ts.
Proof.
  revert pss. induction ts as [|t ts IH]; intros pss H; cbn [all_word_postings] in H; [injection H as <-; reflexivity|].
  apply rbind_done in H. destruct H as [p [Hp H]]. apply rbind_done in H. destruct H as [ps [Hps H]]. injection H as <-.
  cbn. f_equal. auto.
Qed.

Lemma of_fts_done {A} (o : outcome A) a : of_fts o = Done a -> o = Ok a.
Proof. destruct o; cbn; congruence. Qed.

(* A list without contexts: nothing is in all lists. *)
Definition early (k z : nat) (s : kstate) : Prop :=
  k_out s = [] /\ ((k_list s = (k - 1)%nat /\ k_streak s = 0%nat) \/ ((k_list s <= z)%nat /\ (k_streak s <= S (k_list s))%nat)) /\
  nth_error (k_next s) z = Some 0%nat /\ length (k_next s) = k.
Lemma list_set_nth {A} (l : list A) i j x : i <> j -> nth_error (Fts_Model.list_set l i x) j = nth_error l j.
Proof. revert i j. induction l as [|y l IH]; intros [|i] [|j] H; cbn; auto; try congruence; try (apply IH; lia). Qed.
Lemma list_set_length {A} (l : list A) i x : length (Fts_Model.list_set l i x) = length l.
Proof. revert i. induction l as [|y l IH]; intros [|i]; cbn; auto. Qed.

Lemma bind_ok {A B} (x : outcome A) (f : A -> outcome B) b : Fts_Model.bind x f = Ok b -> exists a, x = Ok a /\ f a = Ok b.
Proof. destruct x; cbn; try discriminate. eauto. Qed.
Lemma get_ok {A} (l : list A) i a : Fts_Model.get l i = Ok a -> nth_error l i = Some a.
Proof. unfold Fts_Model.get. destruct (nth_error l i); congruence. Qed.

Lemma early_step cids scores eids room z s r : (S z < length cids)%nat -> nth_error cids z = Some [] ->
  early (length cids) z s -> kway_step cids scores eids room s = Ok r ->
  match r with KStop out => out = [] | KNext s' => early (length cids) z s' end.
Proof.
  intros Hz Hn [E1 [E2 [E3 E4]]] H. unfold kway_step in H. apply bind_ok in H. destruct H as [l [Hl H]].
  apply bind_ok in H. destruct H as [n0 [Hn0 H]]. apply get_ok in Hl. apply get_ok in Hn0.
  destruct (Nat.eqb n0 (length l)) eqn:En; [injection H as <-; auto|].
  assert (Hc : k_list s <> z).
  { intros Q. rewrite Q in *. rewrite Hn in Hl. injection Hl as <-. rewrite E3 in Hn0. injection Hn0 as <-. discriminate En. }
  destruct (Nat.eqb (advance_to (k_context s) l n0) (length l)); [injection H as <-; auto|].
  apply bind_ok in H. destruct H as [a [Ha H]].
  assert (Adv : forall x' streak r', (streak <= S (k_streak s))%nat ->
    Ok (KNext (mk_kstate (if Nat.eqb (S (k_list s)) (length cids) then 0 else S (k_list s))%nat x' streak
                 (Fts_Model.list_set (Fts_Model.list_set (k_next s) (k_list s) (advance_to (k_context s) l n0)) (k_list s)
                    (S (advance_to (k_context s) l n0))) (k_out s))) = Ok r' ->
    match r' with KStop out => out = [] | KNext s' => early (length cids) z s' end).
  { intros x' streak r' Hs Q. injection Q as <-.
    assert (B : ((if Nat.eqb (S (k_list s)) (length cids) then 0 else S (k_list s)) <= z /\
      streak <= S (if Nat.eqb (S (k_list s)) (length cids) then 0 else S (k_list s)))%nat)
      by (destruct (Nat.eqb (S (k_list s)) (length cids)) eqn:Q; destruct E2 as [[E2 E2']|[E2 E2']]; lia).
    unfold early, k_out, k_list, k_streak, k_next in *.
    rewrite !list_set_nth by auto. rewrite !list_set_length. split; auto. }
  destruct (a =? k_context s).
  - destruct (Nat.eqb (S (k_streak s)) (length cids)) eqn:Es; [exfalso; lia|]. now apply (Adv _ _ _ (le_n _)) in H.
  - apply (Adv a 1%nat r) in H; auto; lia.
Qed.
Lemma early_loop cids scores eids room z : (S z < length cids)%nat -> nth_error cids z = Some [] ->
  forall fuel s out, early (length cids) z s -> kway_loop fuel cids scores eids room s = Ok out -> out = [].
Proof.
  intros Hz Hn fuel. induction fuel as [|fuel IH]; intros s out E H; [discriminate|]. cbn [kway_loop] in H.
  apply bind_ok in H. destruct H as [r [Hr H]]. pose proof (early_step _ _ _ _ _ _ _ Hz Hn E Hr) as Q.
  destruct r as [o|s']; [congruence|eauto].
Qed.
Lemma kway_empty cids scores eids out : In [] cids -> intersectKWay [] cids scores eids = Ok out -> out = [].
Proof.
  intros Hin H. unfold intersectKWay in H. destruct (length cids) as [|k1] eqn:Ek; [discriminate|].
  apply bind_ok in H. destruct H as [la [Hl H]]. apply get_ok in Hl. destruct la as [|x la]; [congruence|].
  destruct (match eids with None => _ | Some _ => _ end); [congruence|].
  apply In_nth_error in Hin. destruct Hin as [z Hz].
  assert (Lz : (z < length cids)%nat) by (apply nth_error_Some; congruence).
  assert (z <> k1) by (intros ->; congruence).
  revert H. apply (early_loop _ _ _ _ z); auto; [lia|]. unfold early. rewrite Ek. cbn [k_out k_list k_streak k_next].
  split; auto. split; [left; lia|]. split; [|apply repeat_length].
  rewrite (nth_error_nth' _ 0%nat) by (rewrite repeat_length; lia). now rewrite nth_repeat.
Qed.

Lemma two_lists_empty s1 s2 c1 c2 out : c1 = [] \/ c2 = [] -> context_list_two_words c1 s1 c2 s2 = Ok out -> out = [].
Proof. unfold context_list_two_words, intersectTwoPostingLists. intros [->| ->]; [|destruct c1]; congruence. Qed.
Lemma intersect_empty m e out : m = [] \/ e = [] -> intersect [] m e = Ok out -> out = [].
Proof. unfold intersect. intros [->| ->]; [|destruct m]; congruence. Qed.

Lemma contexts_unknown file m ts cs : In Unknown ts -> getContextListForWords file m ts = Done cs -> cs = [].
Proof.
  intros Hu H. destruct ts as [|t1 [|t2 ts]]; [discriminate|cbn in H|].
  - destruct Hu as [->|[]]. cbn in H. congruence.
  - unfold getContextListForWords in H. apply rbind_done in H. destruct H as [pss [Hp H]].
    pose proof (all_word_postings_unknown _ _ _ _ Hp Hu) as He. pose proof (all_word_postings_length _ _ _ _ Hp) as Hl.
    destruct pss as [|p1 [|p2 [|p3 pss]]]; try discriminate Hl.
    + apply of_fts_done in H. apply two_lists_empty in H; auto. destruct He as [->|[->|[]]]; auto.
    + apply rbind_done in H. destruct H as [out [Ho H]]. apply of_fts_done in Ho. apply kway_empty in Ho.
      * subst out. cbn in H. congruence.
      * apply in_map_iff. exists []. auto.
Qed.
Lemma nth_unknown (ts : list term) use : In Unknown ts -> nth use ts Unknown = Unknown \/ In Unknown (remove_nth use ts).
Proof.
  intros Hu. apply In_nth with (d := Unknown) in Hu. destruct Hu as [i [Hi E]].
  destruct (Nat.eq_dec i use) as [->|Hne]; auto. right. unfold remove_nth. apply in_or_app.
  destruct (Nat.lt_ge_cases i use) as [L|L].
  - left. rewrite <- E. rewrite <- (firstn_skipn use ts) at 1. rewrite app_nth1; [|rewrite firstn_length; lia].
    apply nth_In. rewrite firstn_length. lia.
  - right. rewrite <- E. rewrite <- (firstn_skipn (S use) ts) at 1.
    rewrite app_nth2; [|rewrite firstn_length; lia]. apply nth_In. rewrite firstn_length, skipn_length. lia.
Qed.
Lemma entity_postings_unknown file m use ts ps : In Unknown ts -> (2 < length ts \/ use < 2)%nat ->
  getContextEntityScoreListsForWords file m use ts = Done ps -> ps = [].
Proof.
  intros Hu Hl H. destruct ts as [|t1 [|t2 [|t3 ts]]]; [discriminate|cbn in H| |].
  - destruct Hu as [->|[]]. cbn in H. congruence.
  - unfold getContextEntityScoreListsForWords in H. apply rbind_done in H. destruct H as [wl [Hw H]].
    apply rbind_done in H. destruct H as [e [He H]]. apply of_fts_done in H. apply intersect_empty in H; auto.
    cbn [length] in Hl. destruct Hu as [->|[->|[]]]; destruct use as [|[|use]]; try lia; cbn in Hw, He;
      injection Hw as <- || injection He as <-; auto.
  - remember (t1 :: t2 :: t3 :: ts) as all eqn:Eall.
    assert (Q : getContextEntityScoreListsForWords file m use all =
      rbind (all_word_postings file m (remove_nth use all)) (fun pss =>
      rbind (getEntityPostingsForTerm file m (nth use all Unknown)) (fun e =>
        of_fts (intersectKWay [] (map (map fst) pss ++ [map p_cid e])
                  (map (map snd) pss ++ [map p_score e]) (Some (map p_eid e)))))) by now subst all.
    rewrite Q in H. clear Q. apply rbind_done in H. destruct H as [pss [Hp H]].
    apply rbind_done in H. destruct H as [e [He H]]. apply of_fts_done in H. apply kway_empty in H; auto.
    apply in_or_app. destruct (nth_unknown all use Hu) as [E|E].
    + right. rewrite E in He. cbn in He. injection He as <-. now left.
    + left. apply in_map_iff. exists []. split; auto. eapply all_word_postings_unknown; eauto.
Qed.

Lemma agg_nil {K} (keqb : K -> K -> bool) k : agg_all keqb k [] = [].
Proof. reflexivity. Qed.
Lemma text_result_nil o r : text_result o [] [] r -> r = [].
Proof.
  unfold text_result, aggScoresAndTakeTopKContexts, multVarsAggScoresAndTakeTopKContexts.
  destruct (nof_vars o) as [|[|n]]; [auto| |]; destruct (Nat.eqb (t_limit o) 1); intros [it [P ->]];
    apply Permutation_nil in P; now subst it.
Qed.

Lemma context_loop_none keys : (forall ents, keys ents = []) -> forall ps c s ents, context_loop keys c s ents ps = [].
Proof.
  intros H ps. induction ps as [|q l IH]; intros c s ents; cbn [context_loop]; rewrite H; auto.
  destruct (p_cid q =? c); rewrite IH; auto.
Qed.
Lemma context_occurrences_none keys ps : ps = [] \/ (forall ents, keys ents = []) -> context_occurrences keys ps = [].
Proof. intros [->|H]; [reflexivity|]. unfold context_occurrences. destruct ps as [|p ps]; auto. now apply context_loop_none. Qed.
Lemma filter_none {A} (f : A -> bool) l : (forall x, f x = false) -> filter f l = [].
Proof. intros H. induction l as [|x l IH]; cbn; auto. now rewrite H. Qed.
Lemma text_filter_nil junk o ps fw a fcol r : ps = [] \/ a = [] -> text_filter_result junk o ps fw a fcol (Some r) -> r = [].
Proof.
  intros Hn. unfold text_filter_result. destruct (nof_vars o) as [|n]; [discriminate|]. intros [r' [Er H]]. injection Er as <-.
  assert (Agg : forall K (keqb : K -> K -> bool) k cols occ it, occ = [] -> Permutation (agg_all keqb k occ) it -> agg_rows cols it = []).
  { intros K keqb k cols occ it -> P. apply Permutation_nil in P. now subst it. }
  destruct (Nat.eqb fw 1).
  - destruct n as [|n]; destruct H as [it [P ->]]; revert P; apply Agg.
    + destruct Hn as [->| ->]; [reflexivity|]. now rewrite filter_none.
    + apply context_occurrences_none. destruct Hn as [->| ->]; auto. right. intros ents. now rewrite filter_none.
  - destruct a as [|a0 a]; auto. destruct Hn as [->|Hn]; [|discriminate].
    destruct n as [|n]; destruct H as [it [P ->]]; revert P; now apply Agg.
Qed.

Lemma best_below m i ws es : suited_loop m i ws = Done es ->
  match es with
  | inl l => forall e, In e l -> (i <= fst (fst e) < i + length ws)%nat
  | inr j => (i <= j < i + length ws)%nat
  end.
Proof.
  revert i es. induction ws as [|x ws IH]; intros i es H; cbn [suited_loop] in H.
  - injection H as <-. intros e [].
  - assert (Add : forall b, rbind (suited_loop m (S i) ws) (fun r =>
        Done (match r with inl es => inl ((i, b_first b =? b_last b, N.of_nat (l_count (b_ecl b))) :: es) | inr j => inr j end)) = Done es ->
      match es with
      | inl l => forall e, In e l -> (i <= fst (fst e) < i + length (x :: ws))%nat
      | inr j => (i <= j < i + length (x :: ws))%nat
      end).
    { intros b Q. apply rbind_done in Q. destruct Q as [r [Hr Q]]. injection Q as <-. specialize (IH _ _ Hr).
      cbn [length]. destruct r as [l|j]; [|lia]. intros e [<-|He]; [cbn; lia|]. specialize (IH e He). lia. }
    destruct x as [t| |p].
    + apply rbind_done in H. destruct H as [b [_ H]]. exact (Add b H).
    + injection H as <-. cbn [length]. lia.
    + apply rbind_done in H. destruct H as [b [_ H]]. exact (Add b H).
Qed.
Lemma best_in_range m ws i : best_suited m ws i -> (i < length ws)%nat.
Proof.
  unfold best_suited. destruct (suited_loop m 0 ws) as [[es|j]| | |] eqn:E; try tauto; apply best_below in E.
  - intros [sorted [e [rest [[P _] [-> ->]]]]]. apply (E e). eapply Permutation_in; [apply Permutation_sym; exact P|now left].
  - intros ->. lia.
Qed.
Lemma entity_lists_unknown file m ws ps : In Unknown (map as_term ws) -> entity_lists file m ws ps -> ps = [].
Proof.
  intros Hu [use [Hb H]]. revert H. destruct ws as [|x [|y [|z ws]]].
  - destruct Hu.
  - destruct Hu as [Hu|[]]. cbn [map]. rewrite Hu. cbn. congruence.
  - apply best_in_range in Hb. now apply entity_postings_unknown; [|right].
  - apply entity_postings_unknown; auto. left. cbn. lia.
Qed.

(* ---------- the operations ---------- *)
Lemma flat_nil {A B} (f : A -> list B) l : (forall x, f x = []) -> flat_map f l = [].
Proof. intros H. induction l as [|x l IH]; cbn; auto. now rewrite H. Qed.
Lemma full_scan_loop_nil cp c : (forall id g, cp id g = []) -> forall ndr cur g, full_scan_loop cp c cur g ndr = [].
Proof.
  intros H ndr. induction ndr as [|x l IH]; intros cur g; cbn; auto.
  destruct (col c x =? cur); auto. rewrite IH, app_nil_r. auto.
Qed.
Lemma full_left_nil scan b rc : (forall id, scan id = []) \/ b = [] -> full_scan_left scan b rc = [].
Proof.
  intros [H| ->]; [|reflexivity]. unfold full_scan_left. destruct b; auto. apply full_scan_loop_nil. intros. now rewrite H.
Qed.
Lemma full_right_nil scan a lc : (forall id, scan id = []) \/ a = [] -> full_scan_right scan a lc = [].
Proof.
  intros [H| ->]; [|reflexivity]. unfold full_scan_right. destruct a; auto. apply full_scan_loop_nil. intros.
  unfold cross_product. apply flat_nil. intros. now rewrite H.
Qed.

Lemma search_nil fuel order mn mx x ys : search fuel order [] mn mx x = Some ys -> ys = [].
Proof. unfold search. cbn. destruct fuel; cbn; congruence. Qed.
Lemma search_all_nil fuel order mn mx pair nodes r : search_all fuel order [] mn mx pair nodes = Some r -> r = [].
Proof.
  revert r. induction nodes as [|x nodes IH]; intros r H; cbn [search_all] in H; [congruence|].
  destruct (mn =? 0); [discriminate|]. destruct (search fuel order [] mn mx x) as [ys|] eqn:E; [|discriminate].
  apply search_nil in E. subst ys. destruct (search_all _ _ _ _ _ _ _) as [rest|]; [|discriminate].
  cbn in H. injection H as <-. auto.
Qed.
Lemma path_nil fuel order lv rv lsc rsc lval rval mn mx r :
  compute_path fuel order [] lv rv lsc rsc lval rval mn mx = Some r -> r = [].
Proof.
  unfold compute_path. destruct (negb lv && negb rv); [congruence|].
  destruct rv; intros H; eapply search_all_nil; exact H.
Qed.
Lemma bound_nil fuel order mn mx isVar value pair blank rw sc side : forall last r,
  bound_loop fuel order [] mn mx isVar value pair blank rw sc last [] side = Some r -> r = [].
Proof.
  induction side as [|x side IH]; intros last r H; cbn [bound_loop] in H; [congruence|].
  destruct (col sc x =? last).
  - destruct (bound_loop _ _ _ _ _ _ _ _ _ _ _ _ _ _) eqn:E; [|discriminate]. cbn in H. injection H as <-. eauto.
  - destruct (mn =? 0); [discriminate|]. destruct (search fuel order [] mn mx (col sc x)) eqn:Es; [|discriminate].
    apply search_nil in Es. subst l. cbn [filter bound_rows] in H.
    destruct (bound_loop _ _ _ _ _ _ _ _ _ _ _ _ _ _) eqn:E; [|discriminate]. cbn in H. injection H as <-. eauto.
Qed.

Section Known.
Variable kb : list (N * N * N).
Variable w : world.
Hypothesis I : index_holds kb w.
Hypothesis P : sizes_right w.
Hypothesis HO : hash_order w [] = [].

Lemma no_triples : num_triples w = 0 -> forall o, ix w o = [].
Proof.
  destruct I as [E H]. intros Z o. specialize (H o). destruct kb; [|cbn in E; lia]. cbn in H.
  apply Permutation_sym, Permutation_nil in H. auto.
Qed.

Lemma filter_perm {A} (f : A -> bool) l l' : Permutation l l' -> Permutation (filter f l) (filter f l').
Proof.
  induction 1; cbn; auto.
  - destruct (f x); auto.
  - destruct (f x), (f y); auto. constructor.
  - etransitivity; eauto.
Qed.
Lemma count_perm o o' : (forall t, hd 0 (permuted o t) = hd 0 (permuted o' t)) -> forall id,
  length (filter (fun r => col 0 r =? id) (ix w o)) = length (filter (fun r => col 0 r =? id) (ix w o')).
Proof.
  intros H id. destruct I as [_ Q].
  rewrite (Permutation_length (filter_perm _ _ _ (Q o))), (Permutation_length (filter_perm _ _ _ (Q o'))).
  clear Q. revert H. generalize kb. intros l H. induction l as [|t l IH]; auto. cbn [map filter].
  assert (E : forall od, col 0 (permuted od t) = hd 0 (permuted od t)) by (intros []; destruct t as [[? ?] ?]; reflexivity).
  rewrite !E, H. destruct (hd 0 (permuted o' t) =? id); cbn; auto.
Qed.
Lemma cardinality_exact o id :
  length (filter (fun r => col 0 r =? id) (ix w (cardinality_order o))) = length (filter (fun r => col 0 r =? id) (ix w o)).
Proof. apply count_perm. intros [[s p] x]. destruct o; reflexivity. Qed.
Lemma one_key o r id : In r (ix w o) -> row_eqb (firstn 1 r) [id] = (col 0 r =? id).
Proof.
  intros H. destruct I as [_ Q]. apply (Permutation_in _ (Q o)) in H. apply in_map_iff in H. destruct H as [[[s p] x] [<- _]].
  destruct o; cbn; now rewrite andb_true_r.
Qed.
Lemma estimate_exact o bound : bound <> [] -> (is_predicate_order o = true -> bound <> [TEXT_PREDICATE]) ->
  scan_estimate w o bound = N.of_nat (length (scan_table (voc w) (ix w) o bound)).
Proof.
  intros Hb Ht. destruct bound as [|x [|y bound]]; [congruence| |].
  - cbn [scan_estimate]. unfold cardinality. destruct (is_predicate_order o && String.eqb x TEXT_PREDICATE) eqn:E.
    { apply andb_prop in E. destruct E as [E1 E2]. apply String.eqb_eq in E2. subst x. now destruct (Ht E1). }
    unfold scan_table. cbn [Plan_Model.lookup_all]. destruct (voc w x) as [id|]; cbv iota beta; auto. rewrite cardinality_exact. f_equal.
    etransitivity; [|symmetry; apply map_length]. f_equal. apply filter_ext_in. intros r Hr. symmetry. exact (one_key o r id Hr).
  - cbn [scan_estimate]. destruct (pinned w o (x :: y :: bound)) eqn:E; [now apply P in E|reflexivity].
Qed.
Lemma estimate_zero_scan o bound : bound <> [] -> scan_estimate w o bound = 0 -> scan_table (voc w) (ix w) o bound = [].
Proof.
  intros Hb H. assert (D : is_predicate_order o = true /\ bound = [TEXT_PREDICATE] \/ (is_predicate_order o = true -> bound <> [TEXT_PREDICATE])).
  { destruct (is_predicate_order o); [|right; discriminate].
    destruct (list_eq_dec string_dec bound [TEXT_PREDICATE]); [left|right]; auto. }
  destruct D as [[D1 D2]|D].
  - subst bound. cbn [scan_estimate] in H. unfold cardinality in H. rewrite D1, String.eqb_refl in H. discriminate H.
  - rewrite (estimate_exact o bound Hb D) in H. apply length_zero_iff_nil. lia.
Qed.

Lemma text_estimate_zero m ws : match text_estimate m ws with Done 0 => true | _ => false end = true -> In Unknown (map as_term ws).
Proof. destruct (text_estimate m ws) as [[|n]| | |] eqn:E; try discriminate. intros _. eapply estimate_zero; eauto. Qed.

Definition tells (k : bool) (x : table) : Prop := k = true -> x = [].
Lemma tells1 ks a : Forall2 tells ks [a] -> exists k, ks = [k] /\ tells k a.
Proof. intros F. inversion F as [|k ? ks' ? H F']; subst. inversion F'; subst. eauto. Qed.
Lemma tells2 ks a b : Forall2 tells ks [a; b] -> exists k k', ks = [k; k'] /\ tells k a /\ tells k' b.
Proof. intros F. inversion F as [|k ? ks' ? H F']; subst. apply tells1 in F'. destruct F' as [k' [-> H']]. eauto. Qed.

Ltac arity0 xs A := destruct xs; [|destruct A].
Ltac arity1 xs A F := destruct xs as [|a [|? ?]]; try (destruct A; fail); apply tells1 in F; destruct F as [k [-> T]].
Ltac arity2 xs A F := destruct xs as [|a [|b [|? ?]]]; try (destruct A; fail); apply tells2 in F; destruct F as [k [k' [-> [T T']]]].

Lemma known_op_empty o ks xs r : Forall2 tells ks xs -> known_op w o ks = true -> apply w o xs r -> r = [].
Proof.
  intros F K A. destruct o; cbn [apply] in A.
  - arity0 xs A. cbn [known_op] in K. apply N.eqb_eq in K. destruct A as [A ->]. now apply estimate_zero_scan.
  - arity2 xs A F. cbn [known_op] in K. apply orb_prop in K.
    destruct K as [K|K]; [rewrite (T K) in A|rewrite (T' K) in A; destruct a]; unfold join in A; congruence.
  - arity1 xs A F. cbn [known_op] in K. apply orb_prop in K. subst r. apply full_left_nil. destruct K as [K|K]; [left|right; auto].
    intros id. unfold full_scan_method. rewrite no_triples by lia. reflexivity.
  - arity1 xs A F. cbn [known_op] in K. apply orb_prop in K. subst r. apply full_right_nil. destruct K as [K|K]; [right; auto|left].
    intros id. unfold full_scan_method. rewrite no_triples by lia. reflexivity.
  - arity2 xs A F. cbn [known_op] in K. apply orb_prop in K. unfold two_column_join in A.
    destruct ((Nat.eqb wl 2 && Nat.eqb jc1l 0 && Nat.eqb jc2l 1) || (Nat.eqb wr 2 && Nat.eqb jc1r 0 && Nat.eqb jc2r 1)); [|discriminate].
    destruct (Nat.eqb wr 2 && Nat.eqb jc1r 0 && Nat.eqb jc2r 1); injection A as A; unfold engine_filter in A;
      destruct K as [K|K]; [rewrite (T K) in A|rewrite (T' K) in A; destruct a|rewrite (T K) in A; destruct b|rewrite (T' K) in A]; congruence.
  - arity2 xs A F. cbn [known_op] in K. apply orb_prop in K.
    destruct K as [K|K]; [rewrite (T K) in A|rewrite (T' K) in A; destruct a]; unfold multi_column_join in A; congruence.
  - arity2 xs A F. cbn [known_op] in K. apply orb_prop in K. unfold optional_join in A.
    destruct K as [K|K]; [apply orb_prop in K; destruct K as [K|K]|]; apply andb_prop in K; destruct K as [K1 K2].
    + rewrite (T K1) in A. destruct leftOptional; [discriminate|]. destruct b, rightOptional; congruence.
    + rewrite (T' K1) in A. destruct rightOptional; [discriminate|]. destruct a, leftOptional; congruence.
    + rewrite (T K1), (T' K2) in A. congruence.
  - arity2 xs A F. cbn [known_op] in K. rewrite (T K) in A. unfold compute_minus in A. congruence.
  - arity2 xs A F. cbn [known_op] in K. apply andb_prop in K. destruct K as [K1 K2]. rewrite (T K1), (T' K2) in A.
    unfold compute_union, append_side in A. destruct (Nat.eqb (length os) 0); congruence.
  - arity1 xs A F. cbn [known_op] in K. rewrite (T K) in A. cbn in A. congruence.
  - arity1 xs A F. cbn [known_op] in K. rewrite (T K) in A. destruct A as [A _]. now apply Permutation_nil in A.
  - arity1 xs A F. cbn [known_op] in K. rewrite (T K) in A. destruct A as [A _]. now apply Permutation_nil in A.
  - arity1 xs A F. cbn [known_op] in K. rewrite (T K) in A. auto.
  - arity1 xs A F. cbn [known_op] in K. rewrite (T K) in A. destruct A as [strings A]. unfold group_by_result in A.
    destruct (group_aggregates _ _ _); [|discriminate]. destruct (alias_aggregates _ _ _); [|discriminate].
    destruct (find_columns _ _); [|discriminate]. cbn in A. congruence.
  - arity1 xs A F. cbn [known_op] in K. rewrite (T K) in A. destruct A as [t [A ->]]. unfold Bind_Model.computeResult in A.
    cbn [Bind_Model.data Bind_Model.types Bind_Model.columns map] in A.
    repeat match type of A with match ?x with _ => _ end = _ => destruct x; try discriminate end;
      injection A as <-; reflexivity.
  - arity0 xs A. cbn [known_op] in K. destruct A as [t [A ->]]. unfold Values_Model.computeResult in A.
    destruct (Values_Model.sanitizeValues v) as [v'|] eqn:E; [|discriminate]. exfalso.
    assert (V : Values_Model.values v' <> [] /\ Values_Model.variables v' <> []).
    { unfold Values_Model.sanitizeValues in E. destruct (Values_Model.scan _ _ _ _ _) as [[em bd]|]; [|discriminate].
      cbv zeta in E. remember (Values_Model.erase_columns _ _) as q eqn:Q. clear Q.
      destruct (Values_Model.values q) eqn:E1; [discriminate|]. destruct (Values_Model.variables q) eqn:E2; [discriminate|].
      assert (Q : q = v') by congruence. subst v'. split; congruence. }
    destruct V as [V1 V2]. destruct (Values_Model.values v'); [congruence|]. destruct (Values_Model.variables v'); [congruence|discriminate].
  - arity1 xs A F. cbn [known_op] in K. rewrite (T K) in A. now apply path_nil in A.
  - arity2 xs A F. cbn [known_op] in K. rewrite (T K) in A. now apply bound_nil in A.
  - arity2 xs A F. cbn [known_op] in K. rewrite (T K) in A. now apply bound_nil in A.
  - discriminate K.
  - discriminate K.
  - discriminate K.
  - arity1 xs A F. cbn [known_op] in K. rewrite (T K) in A. cbn in A. congruence.
  - arity1 xs A F. cbn [known_op] in K. rewrite (T K) in A.
    unfold pattern_trick, finish in A. cbn [map count_rows] in A. unfold counts in *. rewrite HO in A. cbn [resolve] in A.
    unfold counts in *. rewrite HO in A. cbn [map] in A. injection A as A. now symmetry.
  - discriminate K.
  - discriminate K.
  - arity0 xs A. cbn [known_op] in K. unfold text_known_empty in K.
    apply text_estimate_zero in K. destruct (Nat.eqb (nof_vars o) 0).
    + destruct A as [cs [A B]]. apply contexts_unknown in A; auto. subst cs. eapply text_result_nil; eauto.
    + destruct A as [ps [A B]]. apply entity_lists_unknown in A; auto. subst ps. eapply text_result_nil; eauto.
  - arity1 xs A F. cbn [known_op] in K. apply orb_prop in K. destruct A as [ps [A B]]. eapply text_filter_nil; [|exact B].
    destruct K as [K|K]; [right; auto|left]. unfold text_known_empty in K. apply text_estimate_zero in K.
    eapply entity_lists_unknown; eauto.
Qed.
End Known.

(* trees *)
Fixpoint tree_rect' (P : tree -> Prop) (step : forall o ts, Forall P ts -> P (Node o ts)) (t : tree) : P t :=
  match t with
  | Node o ts => step o ts ((fix go ts := match ts return Forall P ts with [] => Forall_nil P | t :: ts' => Forall_cons t (tree_rect' P step t) (go ts') end) ts)
  end.

Lemma computes_fun w t : forall r r', computes w t r -> computes w t r' -> r = r'.
Proof.
  induction t as [o ts IH] using tree_rect'. intros r r' H H'. inversion H as [? ? xs F A]; subst. inversion H' as [? ? xs' F' A']; subst.
  assert (xs = xs') as ->; auto. clear A A' H H'. revert xs xs' F F'. induction IH as [|t ts Ht _ IH]; intros xs xs' F F'; inversion F; inversion F'; subst; auto.
  f_equal; auto.
Qed.

Section Trees.
Variables (kb : list (N * N * N)) (w : world) (cached : tree -> option table).
Hypotheses (I : index_holds kb w) (P : sizes_right w) (HO : hash_order w [] = []) (C : cache_right w cached).

Lemma all_tell ts : Forall (fun t => forall r, known_empty w cached t = true -> computes w t r -> r = []) ts ->
  forall xs, Forall2 (computes w) ts xs -> Forall2 tells (map (known_empty w cached) ts) xs.
Proof. induction 1 as [|t ts Ht _ IH]; intros xs F; inversion F; subst; constructor; auto. intros Q. auto. Qed.
Lemma known_empty_right t : forall r, known_empty w cached t = true -> computes w t r -> r = [].
Proof.
  induction t as [o ts IH] using tree_rect'. intros r K H. unfold known_empty in K; fold known_empty in K.
  destruct (cached (Node o ts)) as [c|] eqn:E.
  - destruct c; [|discriminate]. apply C in E. eapply computes_fun; eauto.
  - change (known_op w o (map (known_empty w cached) ts) = true) in K.
    inversion H as [? ? xs F A]; subst. eapply (known_op_empty kb w I P HO); [apply all_tell; [exact IH|exact F]|exact K|exact A].
Qed.
Lemma computes_runs t : forall r, computes w t r -> runs w cached t r.
Proof.
  induction t as [o ts IH] using tree_rect'. intros r H. inversion H as [? ? xs F A]; subst. apply RComputed; auto.
  clear - IH F. revert xs F. induction IH as [|t ts Ht _ IH]; intros xs F; inversion F; subst; constructor; auto.
Qed.
Lemma runs_computes t : forall r r', computes w t r -> runs w cached t r' -> r' = r.
Proof.
  induction t as [o ts IH] using tree_rect'. intros r r' H R. inversion R as [? ? Hc|? ? J K|lc rc l b Rl|? ? xs F A]; subst.
  - apply C in Hc. eapply computes_fun; eauto.
  - inversion H as [? ? xs F A]; subst. symmetry. eapply (known_op_empty kb w I P HO); [apply all_tell; [|exact F]|exact K|exact A].
    apply Forall_forall. intros; eapply known_empty_right; eauto.
  - inversion H as [? ? xs F A]; subst. inversion F as [|? x ? xs' Hl F']; subst. inversion IH; subst.
    assert (x = []) as -> by (symmetry; eauto). inversion F' as [|? y ? ? ? F2]; subst. inversion F2; subst. cbn in A. unfold join in A. congruence.
  - inversion H as [? ? xs' F' A']; subst. f_equal. clear A A' H R.
    revert xs xs' F F'. induction IH as [|t ts Ht _ IH]; intros xs xs' F F'; inversion F; inversion F'; subst; auto.
    f_equal; eauto.
Qed.
End Trees.
