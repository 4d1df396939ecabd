(* Auxiliary facts: the loop over the triples, writing and loading a pair of permutations. *)
From Coq Require Import List NArith Arith Bool Lia ZifyN ZifyNat ZifyBool Sorted Permutation.
From Verif Require Import Bytes Std_Model Std_Proof ListAux Base Ops_Spec Meta_Model Meta_Proof Meta_Thm Perm_Model Perm_Proof Perm_Proof2 Perm_Proof3.
Import ListNotations.
Open Scope N_scope.

Definition swap (p : pair_t) : pair_t := (snd p, fst p).

(* sorting pairs *)
Lemma pair_less_plt a b : pair_less a b = true <-> plt a b.
Proof. unfold pair_less, plt. destruct (N.eqb_spec (fst a) (fst b)); lia. Qed.
Lemma sorted_strict inp out : sort_result pair_less inp out -> NoDup inp -> psorted out /\ Permutation inp out.
Proof.
  intros [P S] Hn. split; auto. assert (Hn' : NoDup out) by (eapply Permutation_NoDup; eauto). clear P Hn. unfold psorted.
  induction S as [|a l S IH Ha]; constructor; inversion Hn' as [|? ? Hx Hl]; subst; auto.
  rewrite Forall_forall in *. intros b Hb. specialize (Ha b Hb).
  destruct (pair_less a b) eqn:E; [now apply pair_less_plt|]. exfalso. apply Hx. replace a with b; auto.
  unfold pair_less in *. destruct a as [a1 a2], b as [b1 b2]. cbn [fst snd] in *.
  destruct (N.eqb_spec a1 b1), (N.eqb_spec b1 a1); f_equal; lia.
Qed.
Lemma psorted_nodup l : psorted l -> NoDup l.
Proof.
  induction 1 as [|a l S IH Ha]; constructor; auto. intros Hi. rewrite Forall_forall in Ha. specialize (Ha a Hi). unfold plt in Ha. lia.
Qed.

Section Pair.
  Variables per thr : nat.
  Variable logmult : N -> N -> N.
  Hypothesis Hper : (0 < per)%nat.
  Hypothesis Hlog : forall a b, logmult a b < 256.
  Variable sort2 : list pair_t -> list pair_t.
  Hypothesis Hsort2 : forall l, sort_result pair_less l (sort2 l).

  Variable kd : option nat.
  Variable vec : list triple.
  Hypothesis Hvec : tsorted vec.
  Hypothesis Hids : forall t, In t vec -> first t < MAX64 /\ fst (rest t) < MAX64 /\ snd (rest t) < MAX64.
  Hypothesis Hkd : match kd with None => True | Some n => forall t, In t vec -> (N.to_nat (first t) < n)%nat end.
  Hypothesis Hsize : N.of_nat (length vec) < 2 ^ 40.

  Definition D1 (x : N) : list pair_t := rel_of x vec.
  Definition D2 (x : N) : list pair_t := sort2 (map swap (rel_of x vec)).
  Definition R (D : N -> list pair_t) (xs : list N) : list (N * list pair_t) := map (fun x => (x, D x)) xs.

  Lemma D1_good x : In x (map first vec) -> good (D1 x).
  Proof.
    intros Hx. split; [now apply rel_of_sorted|]. split; [now apply rel_of_ne|]. intros [y z] Hp. apply rel_of_in in Hp. destruct (Hids _ Hp) as (_ & A). exact A.
  Qed.
  Lemma D2_perm x : psorted (D2 x) /\ Permutation (map swap (rel_of x vec)) (D2 x).
  Proof.
    apply sorted_strict; [apply Hsort2|]. apply FinFun.Injective_map_NoDup; [|apply psorted_nodup, rel_of_sorted, Hvec].
    intros [a b] [c d] Q. unfold swap in Q. cbn in Q. congruence.
  Qed.
  Lemma D2_in x y z : In (z, y) (D2 x) <-> In (x, y, z) vec.
  Proof.
    destruct (D2_perm x) as [_ P]. rewrite <- rel_of_in. split; intros H.
    - apply (Permutation_in _ (Permutation_sym P)) in H. apply in_map_iff in H. destruct H as ([a b] & Q & H). unfold swap in Q. cbn in Q. congruence.
    - apply (Permutation_in _ P). apply in_map_iff. exists (y, z). auto.
  Qed.
  Lemma D2_good x : In x (map first vec) -> good (D2 x).
  Proof.
    intros Hx. destruct (D2_perm x) as [S P]. split; auto. split.
    - intros Q. rewrite Q in P. apply Permutation_sym, Permutation_nil in P. apply map_eq_nil in P. now apply rel_of_ne in Hx.
    - intros [z y] Hp. apply D2_in in Hp. destruct (Hids _ Hp) as (_ & A & B). auto.
  Qed.
  Lemma D2_length x : length (D2 x) = length (D1 x).
  Proof. destruct (D2_perm x) as [_ P]. rewrite <- (Permutation_length P). apply map_length. Qed.

  Lemma R_keys D xs : map fst (R D xs) = xs.
  Proof. unfold R. rewrite map_map. apply map_id. Qed.
  Lemma R_app D xs ys : R D (xs ++ ys) = R D xs ++ R D ys.
  Proof. apply map_app. Qed.
  Lemma R_in D xs x d : In (x, d) (R D xs) <-> In x xs /\ d = D x.
  Proof. unfold R. rewrite in_map_iff. split; [intros (y & Q & H); injection Q as -> ->; auto|]. intros [H ->]. exists x. auto. Qed.
  Lemma R_total D xs : total (R D xs) = list_sum (map (fun x => length (D x)) xs).
  Proof. unfold total, R. now rewrite map_map. Qed.
  Lemma R_total_bound D xs : (D = D1 \/ D = D2) -> NoDup xs -> (total (R D xs) <= length vec)%nat.
  Proof.
    intros HD Hn. rewrite R_total. replace (map (fun x => length (D x)) xs) with (map (fun x => length (rel_of x vec)) xs).
    - now apply rel_of_total.
    - apply map_ext. intros x. destruct HD as [->| ->]; [reflexivity|]. rewrite D2_length. reflexivity.
  Qed.

  (* the statistics of the relations; g: what is added to the number of distinct values *)
  Definition hstat (D : N -> list pair_t) (g : N -> N) (h : half) (xs : list N) : Prop :=
    forall x, In x xs -> exists f ob, get_rmd x (h_meta h) = Ok (f, ob) /\ is_functional (f_word f) = functionalb (D x) /\
      col1 (f_word f) = (if functionalb (D x) then 0 else logmult (N.of_nat (length (D x))) (N.of_nat (ndistinct (D x)) + g x)) /\
      has_blocks (f_word f) = negb (functionalb (D x)) && Nat.ltb thr (length (D x)).

  Lemma finish_R D g h xs x : (D = D1 \/ D = D2) -> hinv per kd h (R D xs) -> hstat D g h xs -> NoDup (xs ++ [x]) -> In x (map first vec) ->
    exists r h', write_rel per thr logmult (h_off h) x (D x) (N.of_nat (ndistinct (D x)) + g x) (functionalb (D x)) = Ok r /\
      finish_rel h r = Ok h' /\ hinv per kd h' (R D (xs ++ [x])) /\ hstat D g h' (xs ++ [x]).
  Proof.
    intros HD Hh Hst Hn Hx.
    assert (Hgood : good (D x)) by (destruct HD as [->| ->]; [now apply D1_good|now apply D2_good]).
    assert (Hnx : ~ In x xs). { apply NoDup_remove_2 in Hn. now rewrite app_nil_r in Hn. }
    assert (Hx' := Hx). apply in_map_iff in Hx'. destruct Hx' as (t & Et & Ht). destruct (Hids t Ht) as (L & _). rewrite Et in L.
    destruct (finish_ok per thr logmult Hper Hlog kd h (R D xs) x (D x) (N.of_nat (ndistinct (D x)) + g x) (functionalb (D x)))
      as (f & b & bytes & h' & Hw & Hf & Hh' & Hg & Hoth & F1 & F2 & F3); auto.
    - now rewrite R_keys.
    - destruct kd; auto. rewrite <- Et. now apply Hkd.
    - pose proof (R_total_bound D _ HD Hn) as B. rewrite R_app in B. unfold total in *. rewrite map_app, list_sum_app in B. cbn [R map snd list_sum fold_right] in B. lia.
    - exists (f, b, bytes), h'. split; auto. split; auto. split; [rewrite R_app; exact Hh'|].
      intros y Hy. apply in_app_iff in Hy. destruct Hy as [Hy|[<-|[]]].
      + destruct (Hst y Hy) as (f0 & ob & G & A). exists f0, ob. split; auto. rewrite Hoth; auto. congruence.
      + exists f. eexists. split; [exact Hg|]. auto.
  Qed.

  Variable x0 : N.
  Definition g1 (x : N) : N := if x =? x0 then 1 else 0.
  Definition g2 (x : N) : N := 0.

  Record linv (done : list triple) (s : st) (xs : list N) : Prop := {
    l_le : forall t, In t done -> first t <= s_rel s;
    l_buf : s_buf s = rel_of (s_rel s) done;
    l_nodup : NoDup xs;
    l_xs : forall x, In x xs <-> In x (map first done) /\ x <> s_rel s;
    l_h1 : hinv per kd (s_h1 s) (R D1 xs);
    l_h2 : hinv per kd (s_h2 s) (R D2 xs);
    l_s1 : hstat D1 g1 (s_h1 s) xs;
    l_s2 : hstat D2 g2 (s_h2 s) xs;
    l_fun : s_fun s = functionalb (s_buf s);
    l_dist : s_dist s = N.of_nat (ndistinct (s_buf s)) + g1 (s_rel s);
    l_last : s_buf s = [] /\ s_last s = MAX64 \/ exists p d, s_buf s = d ++ [p] /\ fst p = s_last s;
    l_rel : In (s_rel s) (map first done) \/ (done = [] /\ s_rel s = x0) }.

  Lemma flush_ok done s xs : linv done s xs -> s_buf s = D1 (s_rel s) -> In (s_rel s) (map first vec) -> ~ In (s_rel s) xs ->
    exists h1 h2, flush per thr logmult sort2 s = Ok (h1, h2) /\
      hinv per kd h1 (R D1 (xs ++ [s_rel s])) /\ hinv per kd h2 (R D2 (xs ++ [s_rel s])) /\
      hstat D1 g1 h1 (xs ++ [s_rel s]) /\ hstat D2 g2 h2 (xs ++ [s_rel s]).
  Proof.
    intros Hl Hb Hx Hnx. unfold flush. rewrite (l_dist _ _ _ Hl), (l_fun _ _ _ Hl), Hb.
    assert (Hn : NoDup (xs ++ [s_rel s])).
    { apply NoDup_app_intro; [apply Hl|repeat constructor; intros []|]. intros y Hy [<-|[]]. contradiction. }
    destruct (finish_R D1 g1 (s_h1 s) xs (s_rel s) (or_introl eq_refl) (l_h1 _ _ _ Hl) (l_s1 _ _ _ Hl) Hn Hx) as (r1 & h1 & W1 & F1 & I1 & S1).
    rewrite W1. cbn [bind]. rewrite F1. cbn [bind]. unfold write_switched. fold swap. change (fun p : pair_t => (snd p, fst p)) with swap.
    fold (D1 (s_rel s)). change (sort2 (map swap (D1 (s_rel s)))) with (D2 (s_rel s)).
    destruct (D2_good _ Hx) as (G1 & G2 & G3).
    rewrite (switched_stats_ok (D2 (s_rel s)) [] MAX64 true 0); auto; [|intros p Hp; apply (G3 p Hp)]. cbn [app].
    replace (N.of_nat (ndistinct (D2 (s_rel s)))) with (N.of_nat (ndistinct (D2 (s_rel s))) + g2 (s_rel s)) by (unfold g2; lia).
    destruct (finish_R D2 g2 (s_h2 s) xs (s_rel s) (or_intror eq_refl) (l_h2 _ _ _ Hl) (l_s2 _ _ _ Hl) Hn Hx) as (r2 & h2 & W2 & F2 & I2 & S2).
    rewrite W2. cbn [bind]. rewrite F2. cbn [bind]. exists h1, h2. auto.
  Qed.

  Lemma tsorted_app a t b : tsorted (a ++ t :: b) -> (forall u, In u a -> tlt u t) /\ (forall u, In u b -> tlt t u).
  Proof.
    unfold tsorted. induction a as [|v a IH]; cbn [app]; intros H; inversion H as [|? ? H1 H2]; subst; rewrite Forall_forall in H2.
    - split; [intros u []|auto].
    - destruct (IH H1) as [A B]. split; auto. intros u [<-|Hu]; auto. apply H2, in_app_iff. right. now left.
  Qed.

  Lemma loop_ok : forall todo done s xs, vec = done ++ todo -> linv done s xs -> vec <> [] -> (exists t v, vec = t :: v /\ first t = x0) ->
    exists h1 h2 ys, loop per thr logmult sort2 todo s = Ok (h1, h2) /\ NoDup ys /\ (forall x, In x ys <-> In x (map first vec)) /\
      hinv per kd h1 (R D1 ys) /\ hinv per kd h2 (R D2 ys) /\ hstat D1 g1 h1 ys /\ hstat D2 g2 h2 ys.
  Proof.
    induction todo as [|t todo IH]; intros done s xs Hv Hl Hne H0.
    - rewrite app_nil_r in Hv. subst done. cbn [loop].
      assert (Hx : In (s_rel s) (map first vec)) by (destruct (l_rel _ _ _ Hl) as [H|[H _]]; [exact H|congruence]).
      assert (Hnx : ~ In (s_rel s) xs) by (intros H; apply (l_xs _ _ _ Hl) in H; destruct H as [_ H]; now apply H).
      destruct (flush_ok vec s xs Hl (l_buf _ _ _ Hl) Hx Hnx) as (h1 & h2 & F & I1 & I2 & S1 & S2).
      exists h1, h2, (xs ++ [s_rel s]). split; auto. split; [|split; [|auto]].
      + apply NoDup_app_intro; [apply Hl|repeat constructor; intros []|]. intros y Hy [<-|[]]. contradiction.
      + intros x. rewrite in_app_iff, (l_xs _ _ _ Hl). cbn [In]. split.
        * intros [[H _]|[<-|[]]]; auto.
        * intros H. destruct (N.eq_dec (s_rel s) x); auto.
    - cbn [loop]. destruct t as [[x y] z] eqn:Et. pose proof Hvec as Hs. rewrite Hv in Hs. destruct (tsorted_app _ _ _ Hs) as [Hbefore Hafter].
      assert (Hin : In (x, y, z) vec) by (rewrite Hv; apply in_app_iff; right; now left).
      destruct (Hids _ Hin) as (Lx & Ly & Lz). unfold first, rest in Lx, Ly, Lz. cbn [fst snd] in *.
      assert (Hv' : vec = (done ++ [(x, y, z)]) ++ todo) by (rewrite <- app_assoc; exact Hv).
      unfold step. destruct (N.eqb_spec x (s_rel s)) as [Ex|Ex]; cbn [negb].
      + cbn [bind]. eapply IH; [exact Hv'| |exact Hne|exact H0].
        assert (Hbuf : rel_of (s_rel s) (done ++ [(x, y, z)]) = s_buf s ++ [(y, z)]).
        { rewrite rel_of_app, <- (l_buf _ _ _ Hl). f_equal. unfold rel_of, first, rest. cbn [filter fst snd]. rewrite Ex, N.eqb_refl. reflexivity. }
        assert (Hps : psorted (s_buf s ++ [(y, z)])).
        { rewrite <- Hbuf. apply psorted_prefix with (rel_of (s_rel s) todo). rewrite <- rel_of_app, <- Hv'. now apply rel_of_sorted. }
        pose proof (last_lhs (s_buf s) y z (s_last s) Hps Ly (l_last _ _ _ Hl)) as E. rewrite E.
        constructor; cbn [s_rel s_buf s_fun s_dist s_last s_h1 s_h2]; try apply Hl.
        * intros u Hu. apply in_app_iff in Hu. destruct Hu as [Hu|[<-|[]]]; [now apply (l_le _ _ _ Hl)|]. unfold first. cbn. lia.
        * now rewrite Hbuf.
        * intros x'. rewrite (l_xs _ _ _ Hl), map_app, in_app_iff. cbn [map In]. unfold first at 3. cbn [fst]. split; [tauto|].
          intros [[H|[<-|[]]] H']; auto. congruence.
        * rewrite functional_snoc, (l_fun _ _ _ Hl). destruct (in_dec N.eq_dec y (map fst (s_buf s))); reflexivity.
        * rewrite ndistinct_snoc, (l_dist _ _ _ Hl). destruct (in_dec N.eq_dec y (map fst (s_buf s))); lia.
        * right. exists (y, z), (s_buf s). auto.
        * left. rewrite map_app. apply in_app_iff. right. left. unfold first. cbn. auto.
      + assert (Hrd : In (s_rel s) (map first done)).
        { destruct (l_rel _ _ _ Hl) as [H|[Hd E0]]; auto. exfalso. subst done. destruct H0 as (t' & v & Hv0 & Ht'). rewrite Hv in Hv0. cbn [app] in Hv0.
          injection Hv0 as <- _. unfold first in Ht'. cbn in Ht'. congruence. }
        assert (Hlt : s_rel s < x).
        { apply in_map_iff in Hrd. destruct Hrd as (u & Eu & Hu). specialize (Hbefore u Hu). unfold tlt, first in *. cbn [fst snd] in *. lia. }
        assert (Hdone : forall w, In w done -> first w < x). { intros w Hw. pose proof (l_le _ _ _ Hl w Hw). lia. }
        assert (Hrest : forall w, In w ((x, y, z) :: todo) -> x <= first w).
        { intros w [<-|Hw]; [unfold first; cbn; lia|]. specialize (Hafter w Hw). unfold tlt, first in *. cbn [fst snd] in *. lia. }
        assert (Hb : s_buf s = D1 (s_rel s)).
        { unfold D1. rewrite Hv, rel_of_app, (l_buf _ _ _ Hl), (rel_of_nil (s_rel s) ((x, y, z) :: todo)), app_nil_r; auto.
          intros H. apply in_map_iff in H. destruct H as (w & Ew & Hw). specialize (Hrest w Hw). lia. }
        assert (Hx : In (s_rel s) (map first vec)) by (rewrite Hv, map_app; apply in_app_iff; auto).
        assert (Hnx : ~ In (s_rel s) xs) by (intros H; apply (l_xs _ _ _ Hl) in H; destruct H as [_ H]; now apply H).
        destruct (flush_ok done s xs Hl Hb Hx Hnx) as (h1 & h2 & F & I1 & I2 & S1 & S2).
        rewrite F. cbn [bind fst snd]. eapply IH; [exact Hv'| |exact Hne|exact H0].
        constructor; cbn [s_rel s_buf s_fun s_dist s_last s_h1 s_h2]; eauto.
        * intros u Hu. apply in_app_iff in Hu. destruct Hu as [Hu|[<-|[]]]; [specialize (Hdone u Hu); lia|]. unfold first. cbn. lia.
        * rewrite rel_of_app, (rel_of_nil x done); [unfold rel_of, first, rest; cbn [filter fst snd]; rewrite N.eqb_refl; reflexivity|].
          intros H. apply in_map_iff in H. destruct H as (w & Ew & Hw). specialize (Hdone w Hw). lia.
        * apply NoDup_app_intro; [apply Hl|repeat constructor; intros []|]. intros w Hw [<-|[]]. contradiction.
        * intros x'. rewrite in_app_iff, (l_xs _ _ _ Hl), map_app, in_app_iff. cbn [map In]. unfold first at 3. cbn [fst]. split.
          -- intros [[A B]|[<-|[]]]; split; auto; try lia. intros ->. apply in_map_iff in A. destruct A as (w & Ew & Hw). specialize (Hdone w Hw). lia.
          -- intros [[A|[<-|[]]] B]; [|congruence]. destruct (N.eq_dec x' (s_rel s)) as [->|]; auto.
        * replace (g1 x) with 0; [reflexivity|]. unfold g1. destruct (N.eqb_spec x x0); auto. exfalso.
          destruct H0 as (t' & v & Hv0 & Ht'). apply in_map_iff in Hrd. destruct Hrd as (u & Eu & Hu).
          assert (Hu0 : x0 <= first u).
          { rewrite Hv0 in Hvec. assert (Huv : In u (t' :: v)) by (rewrite <- Hv0, Hv; apply in_app_iff; now left).
            inversion Hvec as [|? ? _ Q]; subst. destruct Huv as [<-|Huv]; [lia|]. rewrite Forall_forall in Q. specialize (Q u Huv). unfold tlt, first in *. lia. }
          lia.
        * right. exists (y, z), []. auto.
        * left. rewrite map_app. apply in_app_iff. right. left. reflexivity.
  Qed.

  (* ---------- statistics ---------- *)
  Lemma get_of_entries m (W : wf m) k f : In (k, f) (rmap_entries (i_data m)) -> rmap_get k (i_data m) = Ok f.
  Proof. intros H. apply rmap_get_entries; auto. pose proof (wf_keys m W) as K. destruct (i_data m); auto. Qed.
  Lemma sum_bound {A} (g : N * A -> N) (w : N -> nat) c es : (forall e, In e es -> g e <= c * N.of_nat (w (fst e))) ->
    sum g es <= c * N.of_nat (list_sum (map w (map fst es))).
  Proof.
    clear. unfold sum. intros H. assert (G : forall es acc, (forall e, In e es -> g e <= c * N.of_nat (w (fst e))) ->
      fold_left (fun acc x => acc + g x) es acc <= acc + c * N.of_nat (list_sum (map w (map fst es)))).
    { clear. induction es as [|e es IH]; intros acc H; cbn [fold_left map list_sum fold_right]; [lia|].
      etransitivity; [apply IH; intros; apply H; now right|]. specialize (H e (or_introl eq_refl)). unfold list_sum. nia. }
    specialize (G es 0 H). lia.
  Qed.
  Lemma stored_bounds file f ob data : stored per file f ob data -> match ob with
    | None => nof_bytes f <= 40 * N.of_nat (length data)
    | Some b => b_after b - f_start f <= 40 * N.of_nat (length data) /\ N.of_nat (length (b_blocks b)) <= N.of_nat (length data) end.
  Proof.
    intros (Hn & pre & post & Hs & H). destruct ob as [b|]; [|unfold nof_bytes; lia].
    destruct H as (_ & _ & bytes & Hw & _). unfold write_nonfunctional in Hw. injection Hw as <- _. cbn [b_after b_blocks].
    pose proof (lhss_length per logmult Hper Hlog data) as LE. unfold start_of_lhs. rewrite Hn. split; [lia|].
    match goal with |- context [block_loop per ?s 0 ?es] => destruct (block_loop_bound per logmult Hper Hlog s es 0) as [BL _] end. rewrite map_length in BL. lia.
  Qed.
  Lemma stat_wf D h ys : (D = D1 \/ D = D2) -> hinv per kd h (R D ys) -> wf (statistics (h_meta h)).
  Proof.
    intros HD H. pose proof (hi_wf _ _ _ _ H) as W. pose proof (entries_keys _ W) as Kn.
    assert (B : forall c (g : N * full -> N), c <= 40 -> (forall e, In e (rmap_entries (i_data (h_meta h))) -> g e <= c * N.of_nat (length (rel_of (fst e) vec))) ->
              sum g (rmap_entries (i_data (h_meta h))) < W64).
    { intros c g Hc Hg. pose proof (sum_bound g (fun x => length (rel_of x vec)) c _ Hg) as S1. pose proof (rel_of_total vec _ Kn) as S2.
      assert (P40 : 2 ^ 40 = 1099511627776) by reflexivity. rewrite P40 in Hsize. unfold W64. nia. }
    assert (E : forall k f, In (k, f) (rmap_entries (i_data (h_meta h))) -> exists ob, get_rmd k (h_meta h) = Ok (f, ob) /\ stored per (h_out h) f ob (D k) /\
              length (D k) = length (rel_of k vec)).
    { intros k f Hi. assert (Hk : In k (map fst (R D ys))) by (apply (hi_keys _ _ _ _ H); exists f; exact Hi). rewrite R_keys in Hk.
      destruct (hi_rel _ _ _ _ H k (D k)) as (f' & ob & Hg & Hst); [now apply R_in|]. exists ob.
      assert (Q : f' = f). { unfold get_rmd in Hg. rewrite (get_of_entries _ W k f Hi) in Hg. cbn [bind] in Hg. destruct (has_blocks (f_word f)); [destruct (amap_get k _)|]; congruence. }
      rewrite Q in *. split; auto. split; auto. destruct HD as [->| ->]; [reflexivity|apply D2_length]. }
    apply C26_statistics; auto; cbn [statistics i_elements i_bytes i_nblocks].
    - apply (B 1); [lia|]. intros [k f] Hi. cbn [fst snd]. destruct (E k f Hi) as (ob & _ & (Hn & _) & L). lia.
    - apply (B 40); [lia|]. intros [k f] Hi. cbn [fst snd]. destruct (E k f Hi) as (ob & Hg & Hst & L). rewrite <- L.
      unfold total_bytes_for. destruct (wf_full _ W k f Hi) as (-> & _). pose proof (stored_bounds _ _ _ _ Hst) as SB.
      unfold get_rmd in Hg. rewrite (get_of_entries _ W k f Hi) in Hg. cbn [bind] in Hg. destruct (has_blocks (f_word f)) eqn:HB.
      + destruct (amap_get k (i_blocks (h_meta h))) as [b|]; [|discriminate]. injection Hg as <-. apply SB.
      + injection Hg as <-. destruct (amap_get k (i_blocks (h_meta h))) as [b|] eqn:Eb; [|exact SB]. exfalso.
        apply amap_get_in in Eb; [|apply (wf_bkeys _ W)]. destruct (wf_block _ W k b Eb) as (_ & _ & f' & Hf' & HB'). 
        pose proof (get_of_entries _ W k f Hi). pose proof (get_of_entries _ W k f' Hf'). congruence.
    - apply (B 1); [lia|]. intros [k f] Hi. cbn [fst snd]. destruct (E k f Hi) as (ob & Hg & Hst & L). rewrite <- L.
      unfold nof_blocks_for. pose proof (stored_bounds _ _ _ _ Hst) as SB.
      unfold get_rmd in Hg. rewrite (get_of_entries _ W k f Hi) in Hg. cbn [bind] in Hg.
      destruct (amap_get k (i_blocks (h_meta h))) as [b|] eqn:Eb; [|lia]. destruct (has_blocks (f_word f)) eqn:HB.
      + injection Hg as <-. destruct SB. lia.
      + exfalso. apply amap_get_in in Eb; [|apply (wf_bkeys _ W)]. destruct (wf_block _ W k b Eb) as (_ & _ & f' & Hf' & HB'). 
        pose proof (get_of_entries _ W k f Hi). pose proof (get_of_entries _ W k f' Hf'). congruence.
  Qed.

  (* ---------- the finished files ---------- *)
  Definition mult (D : N -> list pair_t) (g : N -> N) (x : N) : N :=
    if functionalb (D x) then 0 else logmult (N.of_nat (length (D x))) (N.of_nat (ndistinct (D x)) + g x).
  Lemma mult_small D g x : mult D g x < 256.
  Proof. unfold mult. destruct (functionalb (D x)); [lia|apply Hlog]. Qed.
  Definition served (p : list N * rmap) (D : N -> list pair_t) (c1 c2 : N -> N) : Prop :=
    exists m, load_permutation p = Ok m /\
      (forall x, In x (map first vec) -> exists f ob, get_rmd x m = Ok (f, ob) /\ stored per (fst p) f ob (D x) /\ good (D x) /\
         is_functional (f_word f) = functionalb (D x) /\ col1 (f_word f) = c1 x /\ col2 (f_word f) = c2 x /\
         has_blocks (f_word f) = negb (functionalb (D x)) && Nat.ltb thr (length (D x))) /\
      (forall x, ~ In x (map first vec) -> match kd with None => True | Some n => (N.to_nat x < n)%nat end ->
         relation_exists x m = Ok false).

  Lemma half_done D g c2 h ys d : (D = D1 \/ D = D2) -> hinv per kd h (R D ys) -> hstat D g h ys ->
    (forall x, In x ys <-> In x (map first vec)) -> rsim (i_data (h_meta h)) d -> (forall x, c2 x < 256) ->
    (forall x f, In x ys -> rmap_get x (i_data (h_meta h)) = Ok f -> rmap_get x d = Ok (set_full_col2 (c2 x) f)) ->
    NoDup ys ->
    exists file, finish_file (statistics (h_meta h)) d (h_out h) = Ok (file, d) /\ served (file, d) D (mult D g) c2.
  Proof.
    intros HD H Hst Hys Hs Hc2 Hget Hn. pose proof (stat_wf D h ys HD H) as W1.
    assert (W : wf (with_data d (statistics (h_meta h)))) by (apply wf_sim; auto).
    assert (Lout : N.of_nat (length (h_out h)) < W64).
    { pose proof (hi_len _ _ _ _ H) as L. pose proof (R_total_bound D ys HD Hn) as T. assert (P40 : 2 ^ 40 = 1099511627776) by reflexivity.
      rewrite P40 in Hsize. unfold W64. lia. }
    destruct (C26_round_trip (h_out h) _ W Lout) as (file & Ha & m' & Hr & Hsame & _).
    exists file. unfold finish_file. rewrite Ha. split; [reflexivity|].
    assert (Hpre : exists more, file = h_out h ++ more).
    { unfold append_to_file in Ha. destruct (imd_bytes (with_data d (statistics (h_meta h)))) as [out| |]; cbn [bind] in Ha; try discriminate.
      injection Ha as <-. eexists. reflexivity. }
    destruct Hpre as (more & Hfile).
    exists m'. split; [exact Hr|]. split.
    - intros x Hx. apply Hys in Hx. destruct (hi_rel _ _ _ _ H x (D x)) as (f & ob & Hg & Hsto); [now apply R_in|].
      destruct (Hst x Hx) as (f' & ob' & Hg' & S1 & S2 & S3). assert (f' = f /\ ob' = ob) as [-> ->] by (rewrite Hg in Hg'; injection Hg'; auto).
      assert (Hgf : rmap_get x (i_data (h_meta h)) = Ok f).
      { unfold get_rmd in Hg. destruct (rmap_get x (i_data (h_meta h))) as [f0| |]; cbn [bind] in Hg; try discriminate.
        destruct (has_blocks (f_word f0)); [destruct (amap_get x _)|]; congruence. }
      pose proof (alike_col2 (c2 x) f (Hc2 x)) as A. exists (set_full_col2 (c2 x) f), ob.
      destruct (C26_same_answers _ _ Hsame x) as (_ & G & _). pose proof (Hget x f Hx Hgf) as Hg2.
      split.
      { rewrite G. unfold get_rmd in *. cbn [with_data i_data i_blocks statistics]. rewrite Hg2, Hgf in *. cbn [bind] in *.
        destruct A as (_ & _ & _ & A4 & _). rewrite A4. destruct (has_blocks (f_word f)); [destruct (amap_get x _)|]; congruence. }
      split; [cbn [fst]; rewrite Hfile; apply stored_app; now apply stored_alike with f|].
      split; [apply (hi_good _ _ _ _ H x); now apply R_in|].
      destruct A as (A1 & A2 & A3 & A4 & A5 & A6 & A7). rewrite A4, A5, A6. split; auto. split; auto. split; auto.
      cbn [set_full_col2 f_word]. now apply col2_set.
    - intros x Hx Hk. destruct (C26_same_answers _ _ Hsame x) as (G & _). rewrite G. unfold relation_exists. cbn [with_data i_data].
      assert (He : forall f, ~ In (x, f) (rmap_entries d)).
      { intros f Hi. apply Hx. apply Hys. rewrite <- (R_keys D ys). apply (hi_keys _ _ _ _ H).
        destruct (Forall2_in _ _ _ (rsim_entries _ _ Hs) _ Hi) as ([k f0] & Hi0 & Q & _). cbn [fst] in Q. subst k. exists f0. exact Hi0. }
      pose proof (rsim_kind _ _ Hs) as Kd. rewrite (hi_kind _ _ _ _ H) in Kd. unfold rmap_count. destruct d as [l|s v]; cbn [kind rmap_entries] in *.
      + destruct (amap_get x l) eqn:E; auto. exfalso. apply (He f). unfold amap_get in E. destruct (find (fun e => fst e =? x) l) as [[k' f']|] eqn:E'; [|discriminate].
        apply find_some in E'. destruct E' as [E1 E2]. cbn in E, E2. injection E as <-. replace x with k' by lia. exact E1.
      + subst kd. destruct (nth_error v (N.to_nat x)) as [v0|] eqn:E; [|apply nth_error_None in E; lia].
        destruct (full_eqb v0 empty_full) eqn:E0; auto. exfalso. apply (He v0). apply dense_entries_in. split; [lia|]. rewrite N.sub_0_r. split; auto.
        intros ->. rewrite (proj2 (full_eqb_eq _ _) eq_refl) in E0. discriminate.
  Qed.

  Lemma hinv_new data0 : (data0 = Hmap [] \/ exists n, data0 = Dense 0 (repeat empty_full n) /\ N.of_nat n < W64) -> kind data0 = kd -> forall D,
    hinv per kd {| h_off := 0; h_meta := new_imd data0; h_out := [] |} (R D []).
  Proof.
    intros Hd Hk D. constructor; cbn [h_off h_meta h_out R map]; auto; try (intros x d []; fail).
    - destruct Hd as [->|(n & -> & Hn)]; [apply C26_new|now apply C26_new].
    - intros k. split; [intros (f & Hf)|intros []]. destruct Hd as [->|(n & -> & Hn)]; cbn [new_imd i_data rmap_entries] in Hf; [destruct Hf|].
      rewrite entries_empty in Hf. destruct Hf.
    - constructor.
  Qed.

  Lemma pair_ok data0 t v : (data0 = Hmap [] \/ exists n, data0 = Dense 0 (repeat empty_full n) /\ N.of_nat n < W64) -> kind data0 = kd ->
    vec = t :: v -> x0 = first t ->
    exists p1 p2, permutation_pair per thr logmult sort2 data0 vec = Ok (Some (p1, p2)) /\
      served p1 D1 (mult D1 g1) (mult D2 g2) /\ served p2 D2 (mult D2 g2) (mult D1 g1).
  Proof.
    intros Hd Hk Hv Hx0. unfold permutation_pair, create_pair. destruct t as [[x y] z].
    assert (M : forall (A : Type) (a : A) (b : N -> A), match vec with [] => a | (x, _, _) :: _ => b x end = b x) by (intros; rewrite Hv; reflexivity).
    rewrite M. clear M. unfold first in Hx0. cbn [fst] in Hx0.
    pose proof (hinv_new data0 Hd Hk D1) as I1. pose proof (hinv_new data0 Hd Hk D2) as I2.
    set (h0 := {| h_off := 0; h_meta := new_imd data0; h_out := [] |}) in *.
    set (s0 := {| s_rel := x; s_buf := []; s_fun := true; s_dist := 1; s_last := MAX64; s_h1 := h0; s_h2 := h0 |}).
    assert (L0 : linv [] s0 []).
    { constructor; unfold s0; cbn [s_rel s_buf s_fun s_dist s_last s_h1 s_h2]; auto; try (intros ? []; fail).
      - constructor.
      - intros x'. cbn. tauto.
      - unfold g1. rewrite Hx0, N.eqb_refl. reflexivity. }
    destruct (loop_ok vec [] s0 [] eq_refl L0) as (h1 & h2 & ys & Hl & Hn & Hys & J1 & J2 & S1 & S2).
    { rewrite Hv. discriminate. }
    { exists (x, y, z), v. rewrite Hx0. auto. }
    rewrite Hl. cbn [bind fst snd statistics i_data].
    assert (Gx : forall D h, hinv per kd h (R D ys) -> forall id, In id ys -> exists f, rmap_get id (i_data (h_meta h)) = Ok f /\ f_rel f < MAX64).
    { intros D h J id Hid. assert (Hid' := Hid). rewrite <- (R_keys D ys) in Hid'. apply (hi_keys _ _ _ _ J) in Hid'. destruct Hid' as (f & Hf).
      exists f. split; [apply get_of_entries; auto; apply J|]. destruct (wf_full _ (hi_wf _ _ _ _ J) id f Hf) as (-> & _).
      apply Hys in Hid. apply in_map_iff in Hid. destruct Hid as (t' & <- & Ht'). apply (Hids t' Ht'). }
    assert (Mk : forall D h, hinv per kd h (R D ys) -> mkeys (i_data (h_meta h))).
    { intros D h J. pose proof (wf_keys _ (hi_wf _ _ _ _ J)) as K. destruct (i_data (h_meta h)); cbn; auto. }
    pose proof (keys_perm per kd h1 _ J1) as Kp. rewrite R_keys in Kp.
    destruct (exchange_ok (rmap_entries (i_data (h_meta h1))) (i_data (h_meta h1)) (i_data (h_meta h2))) as (m1 & m2 & He & R1 & R2 & Hin & _).
    { apply entries_keys, J1. }
    { now apply (Mk D1). }
    { now apply (Mk D2). }
    { intros id Hid. apply (Permutation_in _ Kp) in Hid. destruct (Gx D1 h1 J1 id Hid) as (f1 & A1 & B1). destruct (Gx D2 h2 J2 id Hid) as (f2 & A2 & B2). exists f1, f2. auto. }
    rewrite He. cbn [bind fst snd].
    assert (C : forall D g h, hinv per kd h (R D ys) -> hstat D g h ys -> forall id f, In id ys -> rmap_get id (i_data (h_meta h)) = Ok f -> col1 (f_word f) = mult D g id).
    { intros D g h J St id f Hid Hf. destruct (St id Hid) as (f' & ob & Hg & _ & Hc & _). unfold get_rmd in Hg. rewrite Hf in Hg. cbn [bind] in Hg.
      assert (f' = f) by (destruct (has_blocks (f_word f)); [destruct (amap_get id _)|]; congruence). subst f'. exact Hc. }
    destruct (half_done D1 g1 (mult D2 g2) h1 ys m1 (or_introl eq_refl) J1 S1 Hys R1 (mult_small D2 g2)) as (file1 & F1 & V1).
    { intros id f1 Hid Hf1. destruct (Gx D2 h2 J2 id Hid) as (f2 & A2 & _). destruct (Hin id f1 f2) as [Q _]; auto.
      - apply (Permutation_in _ (Permutation_sym Kp)); auto.
      - rewrite Q, (C D2 g2 h2 J2 S2 id f2 Hid A2). reflexivity. }
    { exact Hn. }
    destruct (half_done D2 g2 (mult D1 g1) h2 ys m2 (or_intror eq_refl) J2 S2 Hys R2 (mult_small D1 g1)) as (file2 & F2 & V2).
    { intros id f2 Hid Hf2. destruct (Gx D1 h1 J1 id Hid) as (f1 & A1 & _). destruct (Hin id f1 f2) as [_ Q]; auto.
      - apply (Permutation_in _ (Permutation_sym Kp)); auto.
      - rewrite Q, (C D1 g1 h1 J1 S1 id f1 Hid A1). reflexivity. }
    { exact Hn. }
    rewrite F1. cbn [bind]. rewrite F2. cbn [bind]. exists (file1, m1), (file2, m2). auto.
  Qed.
End Pair.
