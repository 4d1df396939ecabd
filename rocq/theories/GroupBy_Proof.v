From Coq Require Import String List NArith ZArith Arith Bool Lia Sorted Permutation ZifyBool ZifyN ZifyNat.
From Verif Require Import Table_Spec Std_Model Ops_Spec Filter_Model Ops_Model Float32 GroupBy_Spec
  GroupBy_Model ListAux Lex_Proof Ops_Proof.
Import ListNotations.
Open Scope N_scope.

(* ---- values without repetitions ---- *)

Definition unseen (seen l : list N) : list N := filter (fun y => negb (mem y seen)) (uniq l).

Lemma filter_filter {A} (f g : A -> bool) l : filter f (filter g l) = filter (fun x => g x && f x) l.
Proof.
  induction l as [|x l IH]; simpl; auto. destruct (g x); simpl; [destruct (f x); now rewrite IH|auto].
Qed.

Lemma unseen_nil l : unseen [] l = uniq l.
Proof. unfold unseen. induction (uniq l) as [|x u IH]; [reflexivity|]. cbn in IH |- *. now rewrite IH. Qed.

Lemma unseen_cons_seen seen v l : mem v seen = true -> unseen seen (v :: l) = unseen seen l.
Proof.
  intros H. unfold unseen. simpl. rewrite H. simpl. rewrite filter_filter. apply filter_ext_In.
  intros x _. destruct (mem x seen) eqn:E; simpl; [apply andb_false_r|].
  destruct (N.eqb_spec x v) as [->|]; auto. congruence.
Qed.

Lemma unseen_cons_new seen v l : mem v seen = false ->
  unseen seen (v :: l) = v :: unseen (v :: seen) l.
Proof.
  intros H. unfold unseen. simpl. rewrite H. simpl. f_equal. rewrite filter_filter.
  apply filter_ext_In. intros x _. simpl. now rewrite negb_orb.
Qed.

Lemma uniq_In l x : In x (uniq l) <-> In x l.
Proof.
  induction l as [|y l IH]; simpl; [tauto|]. rewrite filter_In, IH.
  destruct (N.eqb_spec x y); subst; simpl; intuition congruence.
Qed.

(* ---- sums ---- *)

Definition all_numbers (xs : list (option float32)) : bool :=
  forallb (fun x => match x with Some _ => true | None => false end) xs.
Definition add_up (xs : list (option float32)) (s : float32) : float32 :=
  fold_left (fun s x => match x with Some y => float_add s y | None => s end) xs s.

Lemma sum_loop_distinct num : forall vs seen s,
  sum_loop num true seen vs s =
  if all_numbers (map num (unseen seen vs)) then add_up (map num (unseen seen vs)) s else float_nan.
Proof.
  induction vs as [|v vs IH]; intros seen s; [reflexivity|]. cbn [sum_loop andb].
  destruct (mem v seen) eqn:E.
  - rewrite unseen_cons_seen by auto. apply IH.
  - rewrite unseen_cons_new by auto. cbn [map all_numbers forallb]. destruct (num v); simpl; [rewrite IH|]; reflexivity.
Qed.

Lemma sum_loop_all num : forall vs seen s,
  sum_loop num false seen vs s =
  if all_numbers (map num vs) then add_up (map num vs) s else float_nan.
Proof.
  induction vs as [|v vs IH]; intros seen s; [reflexivity|]. simpl.
  destruct (num v); simpl; auto.
Qed.

Lemma sum_loop_spec num distinct vs :
  sum_loop num distinct [] vs float_zero =
  float_sum (map num (if distinct then uniq vs else vs)).
Proof.
  unfold float_sum. destruct distinct.
  - rewrite sum_loop_distinct, unseen_nil. reflexivity.
  - rewrite sum_loop_all. reflexivity.
Qed.

Lemma sum_values_spec env t distinct vs : vs <> [] ->
  sum_values env t distinct vs = float_sum (numbers env t (if distinct then uniq vs else vs)).
Proof.
  intros Hne. unfold sum_values, numbers.
  destruct t; try apply sum_loop_spec;
    (destruct distinct; destruct vs; [congruence|reflexivity|congruence|reflexivity]).
Qed.

Lemma count_distinct_spec : forall vs seen, count_distinct seen vs = length (unseen seen vs).
Proof.
  induction vs as [|v vs IH]; intros seen; auto. cbn [count_distinct].
  destruct (mem v seen) eqn:E.
  - now rewrite unseen_cons_seen.
  - rewrite unseen_cons_new by auto. simpl. now rewrite IH.
Qed.

(* ---- concatenation ---- *)

Lemma string_app_nil s : (s ++ "")%string = s.
Proof. induction s; simpl; congruence. Qed.

Lemma concat_all_spec sh delim vs :
  concat_all_but_last sh delim vs = String.concat delim (map sh vs).
Proof.
  induction vs as [|v [|w vs] IH]; auto.
  change (concat_all_but_last sh delim (v :: w :: vs))
    with (sh v ++ delim ++ concat_all_but_last sh delim (w :: vs))%string.
  rewrite IH. reflexivity.
Qed.

Lemma mem_spec v s : mem v s = true <-> In v s.
Proof.
  unfold mem. rewrite existsb_exists. split.
  - intros (x & H & E). apply N.eqb_eq in E. now subst.
  - intros H. exists v. split; auto. apply N.eqb_refl.
Qed.

Lemma mem_false v s : mem v s = false <-> ~ In v s.
Proof. rewrite <- mem_spec. destruct (mem v s); intuition congruence. Qed.

Lemma concat_distinct_spec sh delim : forall vs seen z,
  ~ In z vs -> ~ In z seen ->
  concat_distinct sh delim "" seen (vs ++ [z]) = String.concat delim (map sh (unseen seen (vs ++ [z]))).
Proof.
  induction vs as [|v vs IH]; intros seen z Hn Hs.
  - simpl app. assert (E : mem z seen = false) by now apply mem_false.
    rewrite unseen_cons_new by auto. simpl. rewrite E. apply string_app_nil.
  - simpl in Hn.
    assert (G : concat_distinct sh delim "" seen ((v :: vs) ++ [z]) =
      if mem v seen then concat_distinct sh delim "" seen (vs ++ [z])
      else (sh v ++ delim ++ concat_distinct sh delim "" (v :: seen) (vs ++ [z]))%string).
    { simpl. destruct (vs ++ [z]) eqn:E; auto. destruct vs; discriminate. }
    rewrite G. cbn [app]. destruct (mem v seen) eqn:E.
    + rewrite unseen_cons_seen by auto. apply IH; tauto.
    + rewrite unseen_cons_new by auto. rewrite IH; cbn [In map String.concat]; [|tauto|intuition].
      assert (Hne : unseen (v :: seen) (vs ++ [z]) <> []).
      { intros H0. assert (In z (unseen (v :: seen) (vs ++ [z]))).
        { unfold unseen. apply filter_In. split; [apply uniq_In, in_or_app; simpl; auto|].
          apply negb_true_iff, mem_false. simpl. intuition. }
        rewrite H0 in H. destruct H. }
      destruct (unseen (v :: seen) (vs ++ [z])); [congruence|]. reflexivity.
Qed.

(* ---- minimum and maximum ---- *)

Lemma fold_max_spec : forall vs m, vs <> [] ->
  let r := fold_left N.max vs m in
  (r = m \/ In r vs) /\ m <= r /\ (forall w, In w vs -> w <= r).
Proof.
  induction vs as [|v vs IH]; intros m Hne; [congruence|]. simpl.
  destruct vs as [|v2 vs].
  - cbn [fold_left In]. split; [lia|]. split; [lia|]. intros w [<-|[]]. lia.
  - destruct (IH (N.max m v) ltac:(discriminate)) as (A & B & C).
    split; [|split].
    + destruct A as [A|A]; [|auto]. rewrite A. lia.
    + lia.
    + intros w [<-|Hw]; [lia|]. apply C, Hw.
Qed.
Lemma fold_min_spec : forall vs m, vs <> [] ->
  let r := fold_left N.min vs m in
  (r = m \/ In r vs) /\ r <= m /\ (forall w, In w vs -> r <= w).
Proof.
  induction vs as [|v vs IH]; intros m Hne; [congruence|]. simpl.
  destruct vs as [|v2 vs].
  - cbn [fold_left In]. split; [lia|]. split; [lia|]. intros w [<-|[]]. lia.
  - destruct (IH (N.min m v) ltac:(discriminate)) as (A & B & C).
    split; [|split].
    + destruct A as [A|A]; [|auto]. rewrite A. lia.
    + lia.
    + intros w [<-|Hw]; [lia|]. apply C, Hw.
Qed.

Lemma float_value_mod id : float_value (id mod 2 ^ 32) = float_value id.
Proof. unfold float_value. rewrite N.mod_mod by discriminate. reflexivity. Qed.

Lemma fold_float_max_spec : forall vs m x, float_value m = Some x ->
  Forall finite_float vs ->
  exists r, float_value (fold_left float_max vs m) = Some r /\
    (r = x \/ exists w, In w vs /\ float_value w = Some r) /\ (x <= r)%Z /\
    (forall w y, In w vs -> float_value w = Some y -> (y <= r)%Z).
Proof.
  induction vs as [|v vs IH]; intros m x Hm Hf; simpl.
  - exists x. split; [auto|]. split; [auto|]. split; [lia|]. intros w y [].
  - inversion Hf as [|? ? Hv Hf']; subst. destruct Hv as (xv & Hv & _).
    assert (G : float_value (float_max m v) = Some (Z.max x xv)).
    { unfold float_max. rewrite Hm, Hv. simpl. destruct (Z.ltb_spec x xv).
      - rewrite float_value_mod, Hv. f_equal. lia.
      - rewrite Hm. f_equal. lia. }
    destruct (IH _ _ G Hf') as (r & E & A & B & C). exists r. split; auto. split; [|split].
    + destruct A as [A|(w & A1 & A2)]; [|right; exists w; auto].
      destruct (Z.max_spec x xv) as [[_ E2]|[_ E2]]; rewrite E2 in A; [right; exists v; subst; auto|auto].
    + lia.
    + intros w y [<-|Hw] Hy; [rewrite Hv in Hy; injection Hy as <-; lia|eauto].
Qed.
Lemma fold_float_min_spec : forall vs m x, float_value m = Some x ->
  Forall finite_float vs ->
  exists r, float_value (fold_left float_min vs m) = Some r /\
    (r = x \/ exists w, In w vs /\ float_value w = Some r) /\ (r <= x)%Z /\
    (forall w y, In w vs -> float_value w = Some y -> (r <= y)%Z).
Proof.
  induction vs as [|v vs IH]; intros m x Hm Hf; simpl.
  - exists x. split; [auto|]. split; [auto|]. split; [lia|]. intros w y [].
  - inversion Hf as [|? ? Hv Hf']; subst. destruct Hv as (xv & Hv & _).
    assert (G : float_value (float_min m v) = Some (Z.min x xv)).
    { unfold float_min. rewrite Hm, Hv. simpl. destruct (Z.ltb_spec xv x).
      - rewrite float_value_mod, Hv. f_equal. lia.
      - rewrite Hm. f_equal. lia. }
    destruct (IH _ _ G Hf') as (r & E & A & B & C). exists r. split; auto. split; [|split].
    + destruct A as [A|(w & A1 & A2)]; [|right; exists w; auto].
      destruct (Z.min_spec x xv) as [[_ E2]|[_ E2]]; rewrite E2 in A; [auto|right; exists v; subst; auto].
    + lia.
    + intros w y [<-|Hw] Hy; [rewrite Hv in Hy; injection Hy as <-; lia|eauto].
Qed.

Lemma float_max_greatest vs : vs <> [] -> Forall finite_float vs ->
  is_greatest FLOAT vs (fold_left float_max vs float_lowest).
Proof.
  intros Hne Hf. destruct (fold_float_max_spec vs float_lowest (-2139095039)%Z eq_refl Hf) as (r & E & A & B & C).
  split.
  - destruct A as [A|(w & A1 & A2)].
    + destruct vs as [|v vs]; [congruence|]. inversion Hf as [|? ? (x & Hx & Hr) _]; subst.
      exists v. split; [simpl; auto|]. simpl in *. rewrite E, Hx. f_equal.
      specialize (C v x (or_introl eq_refl) Hx). lia.
    + exists w. split; auto. simpl. congruence.
  - intros w x y Hw Hx Hy. simpl in Hx, Hy. specialize (C w y Hw Hy). rewrite E in Hx. injection Hx as <-. lia.
Qed.
Lemma float_min_least vs : vs <> [] -> Forall finite_float vs ->
  is_least FLOAT vs (fold_left float_min vs float_highest).
Proof.
  intros Hne Hf. destruct (fold_float_min_spec vs float_highest 2139095039%Z eq_refl Hf) as (r & E & A & B & C).
  split.
  - destruct A as [A|(w & A1 & A2)].
    + destruct vs as [|v vs]; [congruence|]. inversion Hf as [|? ? (x & Hx & Hr) _]; subst.
      exists v. split; [simpl; auto|]. simpl in *. rewrite E, Hx. f_equal.
      specialize (C v x (or_introl eq_refl) Hx). lia.
    + exists w. split; auto. simpl. congruence.
  - intros w x y Hw Hx Hy. simpl in Hx, Hy. specialize (C w y Hw Hy). rewrite E in Hx. injection Hx as <-. lia.
Qed.

(* ---- one aggregate over one group ---- *)

Lemma in_block (d g r : table) : g <> [] ->
  block (d ++ g ++ r) (length d) (length d + length g - 1) = Some g.
Proof.
  intros Hne. assert (1 <= length g)%nat by (destruct g; simpl; [congruence|lia]).
  unfold block. rewrite !app_length.
  destruct (Nat.ltb_spec (length d + length g - 1) (length d + (length g + length r))); [|lia].
  f_equal. rewrite skipn_app, skipn_all, Nat.sub_diag. simpl.
  replace (length d + length g - 1 + 1 - length d)%nat with (length g) by lia.
  rewrite firstn_app, Nat.sub_diag, firstn_all. simpl. apply app_nil_r.
Qed.

Lemma last_In {A} (l : list A) d : l <> [] -> In (last l d) l.
Proof. intros H. rewrite (app_removelast_last d H) at 2. apply in_or_app. simpl. auto. Qed.

Lemma nth_error_rev_last (l : list N) d : l <> [] -> nth_error (rev l) 0 = Some (last l d).
Proof. intros H. rewrite (app_removelast_last d H) at 1. rewrite rev_app_distr. reflexivity. Qed.

Lemma process_group_ok env types a s e input g vocab :
  block input s e = Some g -> g <> [] -> (e - s + 1 = length g)%nat ->
  supported (a_type a) (a_distinct a) (type_of types (a_in a)) (map (col (a_in a)) g) ->
  exists v vocab', process_group env types a s e input vocab = Some (v, vocab') /\
    (exists ext, vocab' = vocab ++ ext) /\
    forall ext, aggregate_ok env (vocab' ++ ext) (a_type a) (a_distinct a) (a_delim a)
                  (type_of types (a_in a)) (map (col (a_in a)) g) v.
Proof.
  intros Hb Hne Hlen Hsup. unfold process_group.
  set (t := type_of types (a_in a)) in *.
  set (vs := map (col (a_in a)) g) in *.
  assert (Hvs : vs <> []) by (unfold vs; destruct g; [congruence|discriminate]).
  assert (Hlv : length vs = length g) by (unfold vs; apply map_length).
  assert (Huse : exists v vocab', match block input s e with
      | None => None
      | Some g =>
          let vs := map (col (a_in a)) g in
          match a_type a with
          | AVG => Some (float_bits (float_div (sum_values env t (a_distinct a) vs)
                                               (float_of_N (N.of_nat (e - s + 1)))), vocab)
          | COUNT => Some (N.of_nat (count_distinct [] vs), vocab)
          | GROUP_CONCAT =>
              Some (N.of_nat (length vocab),
                    vocab ++ [group_concat env t (a_distinct a) (a_delim a) vs])
          | MAX => match t with
                   | TEXT | LOCAL_VOCAB => Some (UNBOUND, vocab)
                   | FLOAT => Some (fold_left float_max vs float_lowest, vocab)
                   | _ => Some (fold_left N.max vs 0, vocab)
                   end
          | MIN => match t with
                   | TEXT | LOCAL_VOCAB => Some (UNBOUND, vocab)
                   | FLOAT => Some (fold_left float_min vs float_highest, vocab)
                   | _ => Some (fold_left N.min vs (2 ^ 64 - 1), vocab)
                   end
          | SUM => Some (float_bits (sum_values env t (a_distinct a) vs), vocab)
          | FIRST => Some (hd 0 vs, vocab)
          | SAMPLE | LAST => Some (last vs 0, vocab)
          end
      end = Some (v, vocab') /\ (exists ext, vocab' = vocab ++ ext) /\
      (match a_type a, a_distinct a with
       | COUNT, false => True
       | _, _ => forall ext, aggregate_ok env (vocab' ++ ext) (a_type a) (a_distinct a) (a_delim a) t vs v end)).
  { rewrite Hb. fold vs. cbv zeta.
    assert (Same : exists ext : list string, vocab = vocab ++ ext) by (exists []; now rewrite app_nil_r).
    destruct (a_type a); cbn [supported] in Hsup.
    - eexists _, _. split; [reflexivity|]. split; auto. destruct (a_distinct a); auto. intros ext. cbn.
      now rewrite count_distinct_spec, unseen_nil.
    - eexists _, _. split; [reflexivity|]. split; [eauto|]. intros ext. cbn.
      rewrite Nnat.Nat2N.id, <- app_assoc, nth_error_app2, Nat.sub_diag by auto. cbn. f_equal.
      unfold group_concat. destruct (a_distinct a).
      + destruct (Hsup eq_refl) as [H1 H2].
        replace (match t with VERBATIM => a_delim a | _ => ""%string end) with ""%string by (destruct t; congruence).
        rewrite <- unseen_nil. rewrite (app_removelast_last 0 Hvs).
        apply concat_distinct_spec; auto.
      + apply concat_all_spec.
    - eexists _, _. split; [reflexivity|]. split; auto. intros ext. cbn. destruct vs; [congruence|reflexivity].
    - eexists _, _. split; [reflexivity|]. split; auto. intros ext. cbn [aggregate_ok].
      apply nth_error_rev_last; auto.
    - eexists _, _. split; [reflexivity|]. split; auto. intros ext. cbn [aggregate_ok]. now apply last_In.
    - destruct t; (eexists _, _; split; [reflexivity|]; split; auto; intros ext; cbn [aggregate_ok]; auto).
      + destruct (fold_min_spec vs (2 ^ 64 - 1) Hvs) as (A & B & C).
        split.
        * destruct A as [A|A]; [|exists (fold_left N.min vs (2 ^ 64 - 1)); auto].
          destruct vs as [|v vs']; [congruence|]. exists v. split; [simpl; auto|]. f_equal.
          inversion Hsup; subst. specialize (C v (or_introl eq_refl)). lia.
        * intros w x y Hw Hx Hy. specialize (C w Hw). apply (f_equal (fun o => match o with Some z => z | None => 0%Z end)) in Hx, Hy. cbn [entry_value] in Hx, Hy. lia.
      + destruct (fold_min_spec vs (2 ^ 64 - 1) Hvs) as (A & B & C).
        split.
        * destruct A as [A|A]; [|exists (fold_left N.min vs (2 ^ 64 - 1)); auto].
          destruct vs as [|v vs']; [congruence|]. exists v. split; [simpl; auto|]. f_equal.
          inversion Hsup; subst. specialize (C v (or_introl eq_refl)). lia.
        * intros w x y Hw Hx Hy. specialize (C w Hw). apply (f_equal (fun o => match o with Some z => z | None => 0%Z end)) in Hx, Hy. cbn [entry_value] in Hx, Hy. lia.
      + apply float_min_least; auto.
    - destruct t; (eexists _, _; split; [reflexivity|]; split; auto; intros ext; cbn [aggregate_ok]; auto).
      + destruct (fold_max_spec vs 0 Hvs) as (A & B & C).
        split.
        * destruct A as [A|A]; [|exists (fold_left N.max vs 0); auto].
          destruct vs as [|v vs']; [congruence|]. exists v. split; [simpl; auto|]. f_equal.
          specialize (C v (or_introl eq_refl)). lia.
        * intros w x y Hw Hx Hy. specialize (C w Hw). apply (f_equal (fun o => match o with Some z => z | None => 0%Z end)) in Hx, Hy. cbn [entry_value] in Hx, Hy. lia.
      + destruct (fold_max_spec vs 0 Hvs) as (A & B & C).
        split.
        * destruct A as [A|A]; [|exists (fold_left N.max vs 0); auto].
          destruct vs as [|v vs']; [congruence|]. exists v. split; [simpl; auto|]. f_equal.
          specialize (C v (or_introl eq_refl)). lia.
        * intros w x y Hw Hx Hy. specialize (C w Hw). apply (f_equal (fun o => match o with Some z => z | None => 0%Z end)) in Hx, Hy. cbn [entry_value] in Hx, Hy. lia.
      + apply float_max_greatest; auto.
    - eexists _, _. split; [reflexivity|]. split; auto. intros ext. cbn [aggregate_ok].
      now rewrite sum_values_spec.
    - eexists _, _. split; [reflexivity|]. split; auto. intros ext. cbn [aggregate_ok].
      rewrite sum_values_spec by auto. rewrite Hsup. do 3 f_equal. lia. }
  destruct Huse as (v & vocab' & E & Hext & Hok).
  destruct (a_type a); try (exists v, vocab'; auto; fail).
  destruct (a_distinct a); [exists v, vocab'; auto|].
  exists (N.of_nat (e - s + 1)), vocab. split; auto. split; [exists []; now rewrite app_nil_r|].
  intros ext. cbn. lia.
Qed.

Lemma process_aggregates_ok env types s e input g : block input s e = Some g -> g <> [] ->
  (e - s + 1 = length g)%nat ->
  forall aggs r vocab,
  NoDup (map a_out aggs) -> Forall (fun a => (a_out a < length r)%nat) aggs ->
  Forall (fun a => supported (a_type a) (a_distinct a) (type_of types (a_in a)) (map (col (a_in a)) g)) aggs ->
  exists r' vocab', process_aggregates env types aggs s e input r vocab = Some (r', vocab') /\
    length r' = length r /\ (exists ext, vocab' = vocab ++ ext) /\
    (forall c, ~ In c (map a_out aggs) -> col c r' = col c r) /\
    (forall ext a, In a aggs ->
       aggregate_ok env (vocab' ++ ext) (a_type a) (a_distinct a) (a_delim a)
         (type_of types (a_in a)) (map (col (a_in a)) g) (col (a_out a) r')).
Proof.
  intros Hb Hne Hlen. induction aggs as [|a aggs IH]; intros r vocab Hd Hw Hs; simpl.
  - exists r, vocab. repeat split; auto; try (exists []; now rewrite app_nil_r). intros ext a [].
  - inversion Hd as [|? ? Hn Hd']; subst. inversion Hw as [|? ? Hwa Hw']; subst.
    inversion Hs as [|? ? Hsa Hs']; subst.
    destruct (process_group_ok env types a s e input g vocab Hb Hne Hlen Hsa) as (v & v1 & E & (x1 & ->) & Hok).
    rewrite E. destruct (list_set_spec r (a_out a) v Hwa) as (r1 & E1 & Hl1 & Hn1). rewrite E1.
    destruct (IH r1 (vocab ++ x1) Hd') as (r' & v' & E2 & Hl2 & (x2 & ->) & Hkeep & Hok2); auto.
    { rewrite Hl1. exact Hw'. }
    exists r', ((vocab ++ x1) ++ x2). split; auto. split; [lia|]. split; [exists (x1 ++ x2); now rewrite app_assoc|].
    split.
    + intros c Hc. rewrite Hkeep by tauto. unfold col. rewrite Hn1.
      destruct (Nat.eqb_spec c (a_out a)); auto. subst. tauto.
    + intros ext b [<-|Hin]; auto. rewrite Hkeep by auto. unfold col. rewrite Hn1, Nat.eqb_refl.
      rewrite <- app_assoc. apply Hok.
Qed.

(* ---- the groups ---- *)

Fixpoint runs (cs : list nat) (g rest : table) : list table :=
  match rest with
  | [] => [g]
  | r :: rest' =>
      if key_is cs (cols cs (hd [] g)) r then runs cs (g ++ [r]) rest' else g :: runs cs [r] rest'
  end.

Lemma key_is_true cs k r : key_is cs k r = true <-> cols cs r = k.
Proof. unfold key_is. destruct (list_eq_dec N.eq_dec (cols cs r) k); intuition congruence. Qed.

Lemma runs_spec cs : forall rest g k, g <> [] -> Forall (fun r => cols cs r = k) g ->
  ksorted (cols cs) (g ++ rest) ->
  exists ks, StronglySorted lex_lt ks /\
    (forall k', In k' ks <-> exists r, In r (g ++ rest) /\ cols cs r = k') /\
    hd_error ks = Some k /\
    Forall2 (fun k' h => h = group cs k' (g ++ rest)) ks (runs cs g rest).
Proof.
  induction rest as [|r rest IH]; intros g k Hne Hk Hs; simpl.
  - exists [k]. split; [repeat constructor|]. rewrite app_nil_r. split; [|split; auto].
    + intros k'. simpl. split.
      * intros [<-|[]]. destruct g as [|r g]; [congruence|]. exists r. inversion Hk; subst. simpl; auto.
      * intros (r & Hr & E). rewrite Forall_forall in Hk. left. rewrite <- E. symmetry. auto.
    + constructor; [|constructor]. unfold group. symmetry. clear Hs Hne.
      induction Hk as [|r g E _ IHk]; simpl; auto. rewrite (proj2 (key_is_true cs k r) E). now rewrite IHk.
  - assert (Hhd : cols cs (hd [] g) = k) by (destruct g; [congruence|]; now inversion Hk).
    rewrite Hhd. destruct (key_is cs k r) eqn:E.
    + apply key_is_true in E. destruct (IH (g ++ [r]) k) as (ks & H1 & H2 & H3 & H4).
      * destruct g; discriminate.
      * apply Forall_app. split; auto.
      * rewrite <- app_assoc. exact Hs.
      * exists ks. rewrite <- app_assoc in H2, H4. auto.
    + assert (Hkr : lex_lt k (cols cs r)).
      { destruct (ksorted_app_inv _ _ _ Hs) as (_ & _ & Hle).
        destruct g as [|r1 g]; [congruence|]. inversion Hk; subst.
        specialize (Hle r1 r (or_introl eq_refl) (or_introl eq_refl)).
        apply lex_le_cases in Hle. destruct Hle as [Hlt|Heq]; auto.
        exfalso. assert (key_is cs (cols cs r1) r = true) by now apply key_is_true. congruence. }
      assert (Hs2 : ksorted (cols cs) ([r] ++ rest)) by now apply ksorted_app_r in Hs.
      destruct (IH [r] (cols cs r)) as (ks & H1 & H2 & H3 & H4); auto; try discriminate.
      assert (Hge : forall s, In s ([r] ++ rest) -> lex_lt k (cols cs s)).
      { intros s Hin. eapply lex_lt_le_trans; [exact Hkr|]. eapply ksorted_head; eauto. }
      exists (k :: ks). split; [|split; [|split]].
      * constructor; auto. apply Forall_forall. intros k' Hin. apply H2 in Hin.
        destruct Hin as (s & Hin & <-). auto.
      * intros k'. simpl. split.
        -- intros [<-|Hin].
           ++ destruct g as [|r1 g]; [congruence|]. inversion Hk; subst. exists r1. simpl; auto.
           ++ apply H2 in Hin. destruct Hin as (s & Hin & Es). exists s. split; auto.
              apply in_or_app. right. exact Hin.
        -- intros (s & Hin & Es). apply in_app_or in Hin. destruct Hin as [Hin|Hin].
           ++ left. rewrite Forall_forall in Hk. rewrite <- Es. symmetry; auto.
           ++ right. apply H2. exists s. auto.
      * reflexivity.
      * assert (Hgrp : forall k', group cs k' (g ++ r :: rest) = group cs k' g ++ group cs k' (r :: rest))
          by (intros; apply filter_app).
        constructor.
        -- rewrite Hgrp. replace (group cs k (r :: rest)) with (@nil row).
           ++ rewrite app_nil_r. unfold group. symmetry. clear -Hk. induction Hk as [|s g Es _ IHk]; simpl; auto.
              rewrite (proj2 (key_is_true cs k s) Es). now rewrite IHk.
           ++ symmetry. apply filter_none_iff. intros s Hin. destruct (key_is cs k s) eqn:Es; auto.
              apply key_is_true in Es. specialize (Hge s Hin). rewrite Es in Hge. now apply lex_lt_irrefl in Hge.
        -- clear IH H3. assert (Hin : forall k', In k' ks -> lex_lt k k').
           { intros k' Hin. apply H2 in Hin. destruct Hin as (s & Hin & <-). auto. }
           clear H1 H2. induction H4 as [|k' h ks hs Eh H4 IH4]; constructor.
           ++ rewrite Eh. rewrite Hgrp. replace (group cs k' g) with (@nil row); auto.
              symmetry. apply filter_none_iff. intros s Hs'. destruct (key_is cs k' s) eqn:Es; auto.
              apply key_is_true in Es. rewrite Forall_forall in Hk. rewrite (Hk s Hs') in Es. subst k'.
              specialize (Hin k (or_introl eq_refl)). now apply lex_lt_irrefl in Hin.
           ++ apply IH4. intros k'' Hk''. apply Hin. simpl. auto.
Qed.

Lemma forallb_cur cs k r : length k = length cs ->
  forallb (fun p => col (fst p) r =? snd p) (combine cs k) = key_is cs k r.
Proof.
  intros Hl. apply eq_true_iff_eq. rewrite key_is_true. revert k Hl.
  induction cs as [|c cs IH]; intros [|x k] Hl; simpl in *; try discriminate; [tauto|].
  rewrite andb_true_iff, N.eqb_eq, IH by congruence. split.
  - intros [-> <-]. reflexivity.
  - intros H. injection H as -> H. auto.
Qed.

(* what one group contributes *)
Definition group_ok env types aggs vocab (g : table) (r : row) : Prop :=
  forall a, In a aggs -> aggregate_ok env vocab (a_type a) (a_distinct a) (a_delim a)
    (type_of types (a_in a)) (map (col (a_in a)) g) (col (a_out a) r).
Definition group_supported types aggs (g : table) : Prop :=
  Forall (fun a => supported (a_type a) (a_distinct a) (type_of types (a_in a)) (map (col (a_in a)) g)) aggs.

Lemma add_group_ok env types aggs blank w d g rest res vocab :
  (forall i, length (blank i) = w) -> NoDup (map a_out aggs) ->
  Forall (fun a => (a_out a < w)%nat) aggs -> g <> [] -> group_supported types aggs g ->
  exists r ext, add_group env types aggs blank (length d) (length d + length g - 1) (d ++ g ++ rest) (res, vocab)
    = Some (res ++ [r], vocab ++ ext) /\ length r = w /\
    forall ext', group_ok env types aggs ((vocab ++ ext) ++ ext') g r.
Proof.
  intros Hb Hd Hw Hne Hs. unfold add_group.
  assert (1 <= length g)%nat by (destruct g; simpl; [congruence|lia]).
  destruct (process_aggregates_ok env types (length d) (length d + length g - 1) (d ++ g ++ rest) g
    (in_block d g rest Hne) Hne ltac:(lia) aggs (blank (length res)) vocab Hd) as (r & v & E & Hl & (x & ->) & _ & Hok); auto.
  { now rewrite Hb. }
  rewrite E. exists r, x. split; auto. split; [congruence|]. intros ext' a Ha. apply Hok, Ha.
Qed.

Lemma group_loop_ok env types aggs blank w cs : (forall i, length (blank i) = w) ->
  NoDup (map a_out aggs) -> Forall (fun a => (a_out a < w)%nat) aggs ->
  forall rest d g k res vocab, g <> [] -> Forall (fun r => cols cs r = k) g ->
  Forall (group_supported types aggs) (runs cs g rest) ->
  exists out ext,
    group_loop env types aggs blank (d ++ g ++ rest) rest (length d + length g) (length d)
      (combine cs k) (res, vocab) = Some (res ++ out, vocab ++ ext) /\ width w out /\
    forall ext', Forall2 (group_ok env types aggs ((vocab ++ ext) ++ ext')) (runs cs g rest) out.
Proof.
  intros Hb Hd Hw. induction rest as [|r rest IH]; intros d g k res vocab Hne Hk Hs; cbn [group_loop runs].
  - rewrite app_nil_r. assert (1 <= length g)%nat by (destruct g; simpl; [congruence|lia]).
    rewrite app_length.
    replace (length d + length g - 1)%nat with (length d + length g - 1)%nat by lia.
    simpl in Hs. inversion Hs as [|? ? Hs1 _]; subst.
    destruct (add_group_ok env types aggs blank w d g [] res vocab Hb Hd Hw Hne Hs1) as (r & x & E & Hl & Hok).
    rewrite app_nil_r in E. rewrite E. exists [r], x. split; auto. split; [repeat constructor; auto|].
    intros ext'. repeat constructor. apply Hok.
  - assert (Hhd : cols cs (hd [] g) = k) by (destruct g; [congruence|]; now inversion Hk).
    assert (Hlk : length k = length cs) by (rewrite <- Hhd; apply map_length).
    rewrite forallb_cur by auto. simpl in Hs. rewrite Hhd in Hs |- *. destruct (key_is cs k r) eqn:E.
    + apply key_is_true in E.
      destruct (IH d (g ++ [r]) k res vocab) as (out & x & E2 & Hwid & Hok).
      * destruct g; discriminate.
      * apply Forall_app; auto.
      * exact Hs.
      * exists out, x. split; [|auto]. rewrite <- E2. rewrite <- app_assoc. simpl.
        rewrite app_length. simpl. now rewrite Nat.add_assoc.
    + inversion Hs as [|? ? Hs1 Hs2]; subst.
      destruct (add_group_ok env types aggs blank w d g (r :: rest) res vocab Hb Hd Hw Hne Hs1) as (r1 & x & E1 & Hl & Hok).
      rewrite E1.
      destruct (IH (d ++ g) [r] (cols cs r) (res ++ [r1]) (vocab ++ x)) as (out & x2 & E2 & Hwid & Hok2); auto; try discriminate.
      exists (r1 :: out), (x ++ x2). split; [|split].
      * rewrite (app_assoc vocab). replace (res ++ r1 :: out) with ((res ++ [r1]) ++ out) by (now rewrite <- app_assoc).
        rewrite <- E2. rewrite <- !app_assoc. simpl. rewrite !app_length. simpl.
        f_equal. clear -Hlk. revert Hlk. generalize (cols cs (hd [] g)). intros k Hlk.
        revert k Hlk. induction cs as [|c cs IHc]; intros [|y k] Hl; simpl in *; try discriminate; auto.
        f_equal. apply IHc. congruence.
      * constructor; auto.
      * intros ext'. constructor.
        -- specialize (Hok (x2 ++ ext')). rewrite !app_assoc in *. exact Hok.
        -- specialize (Hok2 ext'). rewrite !app_assoc in *. exact Hok2.
Qed.

Lemma do_group_by_ok env types cs aggs blank w input :
  cs <> [] -> (forall i, length (blank i) = w) -> NoDup (map a_out aggs) ->
  Forall (fun a => (a_out a < w)%nat) aggs -> sorted_lex cs input ->
  (forall k, (exists r, In r input /\ cols cs r = k) -> group_supported types aggs (group cs k input)) ->
  exists out vocab ks, do_group_by env types cs aggs blank input = Some (out, vocab) /\ width w out /\
    StronglySorted lex_lt ks /\ (forall k, In k ks <-> exists r, In r input /\ cols cs r = k) /\
    Forall2 (fun k r => group_ok env types aggs vocab (group cs k input) r) ks out.
Proof.
  intros Hcs Hb Hd Hw Hs Hsup. destruct input as [|r0 rest].
  - exists [], [], []. repeat split; try constructor. + intros []. + intros (r & [] & _).
  - apply sorted_lex_ksorted in Hs.
    destruct (runs_spec cs rest [r0] (cols cs r0)) as (ks & H1 & H2 & _ & H3); auto; try discriminate.
    assert (Hsr : Forall (group_supported types aggs) (runs cs [r0] rest)).
    { apply Forall_forall. intros h Hh. simpl in H3, H2.
      assert (exists k, In k ks /\ h = group cs k (r0 :: rest)) as (k & Hk & ->).
      { clear -H3 Hh. induction H3 as [|k h' ks hs E H3 IH]; simpl in *; [tauto|].
        destruct Hh as [->|Hh]; [eauto|]. destruct (IH Hh) as (k' & ? & ?). eauto. }
      apply Hsup. apply H2, Hk. }
    destruct (group_loop_ok env types aggs blank w cs Hb Hd Hw rest [] [r0] (cols cs r0) [] []) as (out & x & E & Hwid & Hok); auto; try discriminate.
    exists out, x, ks. split; [|split; [auto|split; [auto|split; [auto|]]]].
    + unfold do_group_by. destruct cs as [|c cs']; [congruence|]. refine (eq_trans _ E). cbn [app length Nat.add]. f_equal.
      generalize (c :: cs'). clear. intros l. induction l as [|c l IH]; simpl; congruence.
    + specialize (Hok []). rewrite app_nil_r in Hok. simpl in Hok, H3. clear -H3 Hok. revert out Hok.
      induction H3 as [|k h ks hs Eh H3 IH]; intros out Hok; inversion Hok; subst; constructor; auto.
Qed.
