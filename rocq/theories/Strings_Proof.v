(* Proofs about the string utilities. *)
From Coq Require Import List NArith ZArith Arith Bool Lia ZifyBool ZifyN ZifyNat.
From Verif Require Import ListAux Strings_Model Strings_Spec.
Import ListNotations.
Open Scope N_scope.

(* ---- glue ---- *)
Lemma glue_cons {A} (j p : list A) ps : ps <> [] -> glue j (p :: ps) = p ++ j ++ glue j ps.
Proof. destruct ps; [congruence | reflexivity]. Qed.
Lemma first_sep {A} (sep : A) p p' r r' : ~ In sep p -> ~ In sep p' ->
  p ++ sep :: r = p' ++ sep :: r' -> p = p' /\ r = r'.
Proof.
  revert p'; induction p as [|x p IH]; intros [|x' p'] H H' E; cbn in *.
  - injection E; auto.
  - injection E as -> ->. exfalso; apply H'; auto.
  - injection E as -> E. exfalso; apply H; auto.
  - injection E as -> E. destruct (IH p') as [-> ->]; auto.
Qed.
Lemma no_sep {A} (sep : A) p p' r' : ~ In sep p -> p <> p' ++ sep :: r'.
Proof. intros H ->. apply H, in_or_app; right; left; reflexivity. Qed.
Lemma glue_unique {A} (sep : A) ps qs : ps <> [] -> qs <> [] ->
  Forall (fun p => ~ In sep p) ps -> Forall (fun p => ~ In sep p) qs ->
  glue [sep] ps = glue [sep] qs -> ps = qs.
Proof.
  revert qs; induction ps as [|p ps IH]; intros qs Hp Hq Fp Fq E; [congruence|].
  destruct qs as [|q qs]; [congruence|]. inversion_clear Fp. inversion_clear Fq.
  destruct ps as [|p2 ps], qs as [|q2 qs].
  - cbn in E. congruence.
  - rewrite (glue_cons _ q) in E by discriminate. cbn [glue app] in E. exfalso; eapply no_sep, E; auto.
  - rewrite (glue_cons _ p) in E by discriminate. symmetry in E. cbn [glue app] in E.
    exfalso; eapply no_sep, E; auto.
  - rewrite !glue_cons in E by discriminate. cbn [app] in E. apply first_sep in E as [-> E]; auto.
    f_equal. apply IH; auto; discriminate.
Qed.
Lemma join_glue ps j : join ps j = glue j ps.
Proof.
  destruct ps as [|p ps]; [reflexivity|]. cbn [join].
  revert p; induction ps as [|q ps IH]; intros p; [reflexivity|].
  cbn [fold_left]. rewrite IH. rewrite (glue_cons j p) by discriminate.
  destruct ps as [|r ps].
  - cbn [glue]. rewrite <- ?app_assoc. reflexivity.
  - rewrite (glue_cons j (p ++ j ++ q)), (glue_cons j q) by discriminate.
    rewrite <- ?app_assoc. reflexivity.
Qed.

(* ---- find ---- *)
Lemma find_char_some p s i : find_char p s = Some i ->
  exists a c b, s = a ++ c :: b /\ length a = i /\ p c = true /\ Forall (fun x => p x = false) a.
Proof.
  revert i; induction s as [|c s IH]; intros i; cbn [find_char]; [discriminate|].
  destruct (p c) eqn:P.
  - intros H; injection H as <-. exists [], c, s. auto.
  - destruct (find_char p s) as [j|]; [|discriminate]. intros H; injection H as <-.
    destruct (IH j eq_refl) as (a & d & b & -> & <- & ? & ?). exists (c :: a), d, b. cbn; auto.
Qed.
Lemma find_char_none p s : find_char p s = None -> Forall (fun x => p x = false) s.
Proof.
  induction s as [|c s IH]; cbn [find_char]; [constructor|].
  destruct (p c) eqn:P; [discriminate|]. destruct (find_char p s); [discriminate|]. auto.
Qed.
Lemma find_char_app p a c b : Forall (fun x => p x = false) a -> p c = true ->
  find_char p (a ++ c :: b) = Some (length a).
Proof.
  intros H Hc; induction H as [|x a Hx H IH]; cbn.
  - now rewrite Hc.
  - now rewrite Hx, IH.
Qed.
Lemma find_char_all p s : Forall (fun x => p x = false) s -> find_char p s = None.
Proof. induction 1 as [|x a Hx H IH]; cbn; [auto|]. now rewrite Hx, IH. Qed.
Lemma firstn_len {A} (a b : list A) : firstn (length a) (a ++ b) = a.
Proof. rewrite firstn_app, firstn_all, Nat.sub_diag. apply app_nil_r. Qed.
Lemma skipn_len {A} (a b : list A) : skipn (length a) (a ++ b) = b.
Proof. rewrite skipn_app, skipn_all, Nat.sub_diag. reflexivity. Qed.

(* ---- split ---- *)
Lemma split_loop_ok fuel : forall sep a s, (length s < fuel)%nat ->
  exists ps, split_loop fuel (a ++ s) sep (length a) = Some ps /\ ps <> [] /\ glue [sep] ps = s /\
    Forall (fun p => ~ In sep p) ps.
Proof.
  induction fuel as [|fuel IH]; intros sep a s H; [lia|].
  cbn [split_loop]. unfold find_from. rewrite skipn_len.
  destruct (find_char (N.eqb sep) s) as [i|] eqn:F; cbn [option_map].
  - apply find_char_some in F as (w & c & b & -> & <- & C & W).
    apply N.eqb_eq in C. subst c.
    replace (length a + length w - length a)%nat with (length w) by lia.
    unfold substr. rewrite skipn_len, firstn_len.
    destruct (IH sep (a ++ w ++ [sep]) b) as (ps & E & N & G & Q).
    { rewrite app_length in H; cbn in H; lia. }
    rewrite !app_length in E. cbn [length] in E. rewrite Nat.add_assoc in E.
    rewrite <- !app_assoc in E. cbn [app] in E. rewrite E. cbn [option_map].
    exists (w :: ps). split; [reflexivity|]. split; [discriminate|].
    split; [now rewrite glue_cons, G|]. constructor; auto.
    rewrite Forall_forall in W. intros I. apply W in I. lia.
  - apply find_char_none in F. exists [s]. split; [reflexivity|]. split; [discriminate|].
    split; [reflexivity|]. constructor; auto. rewrite Forall_forall in F. intros I. apply F in I. lia.
Qed.
Lemma split_ok s sep : s <> [] ->
  exists ps, split s sep = Some ps /\ ps <> [] /\ glue [sep] ps = s /\ Forall (fun p => ~ In sep p) ps.
Proof.
  intros H. destruct s as [|c s']; [congruence|]. unfold split.
  apply (split_loop_ok (S (length (c :: s'))) sep [] (c :: s')). lia.
Qed.

(* ---- pieces ---- *)
Section Pieces.
  Context {A : Type} (sep : A -> Prop).
  Hypothesis dec : forall c, {sep c} + {~ sep c}.
  Lemma pieces_grow t s ts : t <> [] -> Forall (fun c => ~ sep c) t -> pieces sep s ts ->
    exists ts', pieces sep (t ++ s) ts'.
  Proof.
    intros H F P. inversion P; subst.
    - rewrite app_nil_r. exists [t]. now apply pieces_last.
    - exists (t :: ts). now apply pieces_next.
    - exists [t ++ s]. apply pieces_last; [destruct t; discriminate || congruence | now apply Forall_app].
    - rewrite app_assoc. exists ((t ++ t0) :: ts0).
      apply pieces_next; auto; [destruct t; discriminate || congruence | now apply Forall_app].
  Qed.
  Lemma pieces_total s : exists ts, pieces sep s ts.
  Proof.
    induction s as [|c s [ts IH]]; [exists []; constructor|].
    destruct (dec c) as [C|C]; [exists ts; now constructor|].
    change (c :: s) with ([c] ++ s). eapply pieces_grow; eauto. discriminate.
  Qed.
  Lemma first_sep_prop (t : list A) c s t' c' s' : Forall (fun c => ~ sep c) t -> Forall (fun c => ~ sep c) t' ->
    sep c -> sep c' -> t ++ c :: s = t' ++ c' :: s' -> t = t' /\ c = c' /\ s = s'.
  Proof.
    revert t'; induction t as [|x t IH]; intros [|x' t'] H H' C C' E; cbn in E.
    - injection E; auto.
    - injection E as -> ->. inversion H'; contradiction.
    - injection E as -> E. inversion H; contradiction.
    - injection E as -> E. inversion H; inversion H'; subst.
      destruct (IH t') as (-> & -> & ->); auto.
  Qed.
  Lemma no_sep_prop (t : list A) t' c s : Forall (fun c => ~ sep c) t -> sep c -> t <> t' ++ c :: s.
  Proof. intros F C ->. apply Forall_app in F as [_ F]. inversion F; contradiction. Qed.
  Lemma pieces_unique s ts ts' : pieces sep s ts -> pieces sep s ts' -> ts = ts'.
  Proof.
    intros P; revert ts'. induction P as [|c s ts C P IH|t T F|t c s ts T F C P IH]; intros ts' Q.
    - inversion Q; subst; auto; try congruence. destruct t; discriminate.
    - inversion Q; subst; auto.
      + inversion H0; contradiction.
      + destruct t as [|x t]; [congruence|]. cbn in H. injection H as -> H. inversion H1; contradiction.
    - inversion Q; subst; auto; try congruence.
      + inversion F; contradiction.
      + exfalso. revert F. intros F. apply Forall_app in F as [_ F]. inversion F; contradiction.
    - inversion Q as [E|c' s' ts'' C' P' E|t' T' F' E|t' c' s' ts'' T' F' C' P' E]; subst.
      + destruct t; discriminate.
      + destruct t as [|x t]; [congruence|]. cbn in E. injection E as -> E. inversion F; contradiction.
      + exfalso. apply Forall_app in F' as [_ F']. inversion F'; contradiction.
      + apply first_sep_prop in E as (-> & -> & ->); auto. f_equal. now apply IH.
  Qed.
  Lemma pieces_skip a s ts : Forall sep a -> pieces sep (a ++ s) ts -> pieces sep s ts.
  Proof.
    induction 1 as [|c a C F IH]; cbn; auto. intros P. apply IH.
    inversion P; subst; auto.
    - inversion H0; contradiction.
    - destruct t as [|x t]; [congruence|]. cbn in H. injection H as -> H. inversion H1; contradiction.
  Qed.
  Lemma pieces_head t c s ts : Forall (fun c => ~ sep c) t -> sep c -> pieces sep (t ++ c :: s) ts ->
    exists ts', pieces sep (c :: s) ts' /\ ts = match t with [] => ts' | _ => t :: ts' end.
  Proof.
    intros F C P. destruct (pieces_total (c :: s)) as [ts' P']. exists ts'. split; auto.
    destruct t as [|x t]; [now apply (pieces_unique _ _ _ P)|].
    apply (pieces_unique _ _ _ P). apply pieces_next; auto; [discriminate|].
    apply (pieces_skip [c]); [auto | exact P'].
  Qed.
  Lemma pieces_end t ts : Forall (fun c => ~ sep c) t -> pieces sep t ts ->
    ts = match t with [] => [] | _ => [t] end.
  Proof.
    intros F P. destruct t as [|x t]; [apply (pieces_unique _ _ _ P); constructor|].
    apply (pieces_unique _ _ _ P). now apply pieces_last.
  Qed.
End Pieces.

Lemma isspace_iff c : isspace c = true <-> whitespace c.
Proof. unfold isspace, whitespace; cbn [In]. lia. Qed.
Lemma ws_dec c : {whitespace c} + {~ whitespace c}.
Proof.
  destruct (isspace c) eqn:E; [left; now apply isspace_iff | right].
  intros H. apply isspace_iff in H. congruence.
Qed.

Lemma at_app a c b : at_ (a ++ c :: b) (length a) = c.
Proof. unfold at_. now rewrite app_nth2, Nat.sub_diag by lia. Qed.
Lemma skip_ws_ok fuel : forall a s, (length s <= fuel)%nat ->
  exists b r, s = b ++ r /\ Forall whitespace b /\ (r = [] \/ exists c r', r = c :: r' /\ ~ whitespace c) /\
    skip_ws fuel (a ++ s) (length a) = (length a + length b)%nat.
Proof.
  induction fuel as [|fuel IH]; intros a s H.
  - destruct s; [|cbn in H; lia]. exists [], []. cbn. rewrite Nat.add_0_r. auto.
  - cbn [skip_ws]. destruct s as [|c s].
    { exists [], []. rewrite (app_nil_r a), Nat.ltb_irrefl. cbn. rewrite Nat.add_0_r. auto. }
    rewrite at_app. rewrite (proj2 (Nat.ltb_lt _ _)) by (rewrite app_length; cbn; lia). cbn [andb].
    destruct (isspace c) eqn:C.
    + destruct (IH (a ++ [c]) s) as (b & r & -> & B & R & E); [cbn in H; lia|].
      rewrite app_length in E; cbn [length] in E. rewrite <- app_assoc in E; cbn [app] in E.
      exists (c :: b), r. split; [reflexivity|]. split; [constructor; [now apply isspace_iff | auto]|].
      split; auto. rewrite E. cbn [length]. lia.
    + exists [], (c :: s). split; [reflexivity|]. split; [auto|]. split; [|cbn; lia].
      right. exists c, s. split; auto. intros W. apply isspace_iff in W. congruence.
Qed.

Lemma splitWs_loop_ok fuel : forall a w r out ts,
  Forall (fun c => ~ whitespace c) w -> pieces whitespace (w ++ r) ts -> (length r < fuel)%nat ->
  splitWs_loop fuel (a ++ w ++ r) (length a) (length a + length w)%nat out = Some (out ++ ts).
Proof.
  induction fuel as [|fuel IH]; intros a w r out ts F P H; [lia|]. cbn [splitWs_loop].
  destruct r as [|c r].
  - rewrite app_nil_r in *. rewrite app_length, Nat.ltb_irrefl.
    apply pieces_end in P as ->; auto using ws_dec.
    destruct w as [|x w]; cbn [length].
    + rewrite Nat.add_0_r, Nat.eqb_refl, app_nil_r. auto.
    + rewrite (proj2 (Nat.eqb_neq _ _)) by lia. now rewrite skipn_len.
  - rewrite (proj2 (Nat.ltb_lt _ _)) by (rewrite !app_length; cbn; lia).
    replace (at_ (a ++ w ++ c :: r) (length a + length w)) with c
      by (rewrite app_assoc, <- app_length; symmetry; apply at_app).
    destruct (isspace c) eqn:C.
    + assert (W : whitespace c) by now apply isspace_iff.
      destruct (skip_ws_ok (length (a ++ w ++ c :: r)) (a ++ w) (c :: r))
        as (b & r' & E & B & R & K); [rewrite !app_length; lia|].
      rewrite <- app_assoc, (app_length a w) in K. rewrite K.
      apply pieces_head in P as (ts' & P' & ->); auto using ws_dec.
      assert (b <> []).
      { intros ->. cbn in E. subst r'. destruct R as [R|(x & ? & R & N)]; [discriminate|].
        injection R as -> ->. contradiction. }
      rewrite E in *. apply pieces_skip in P'; auto.
      set (out' := if Nat.eqb _ _ then out else _).
      assert (E' : Some (out ++ match w with [] => ts' | _ => w :: ts' end) = Some (out' ++ ts')).
      { f_equal. unfold out'. destruct w as [|x w]; cbn [length].
        - now rewrite Nat.add_0_r, Nat.eqb_refl.
        - rewrite (proj2 (Nat.eqb_neq _ _)) by lia. rewrite <- app_assoc. f_equal. cbn [app]. f_equal.
          unfold substr. rewrite skipn_len. replace (_ - _)%nat with (length (x :: w)) by (cbn [length]; lia).
          now rewrite app_comm_cons, firstn_len. }
      rewrite E'. clearbody out'.
      assert (L : length (c :: r) = (length b + length r')%nat) by (rewrite E; apply app_length).
      rewrite <- E in H. cbn [length] in L, H. destruct b as [|y b]; [congruence|]. cbn [length] in L.
      destruct R as [->|(x & r'' & -> & N)].
      * destruct fuel as [|fuel]; [lia|]. cbn [splitWs_loop].
        rewrite (proj2 (Nat.ltb_ge _ _)) by (rewrite !app_length; cbn [length]; lia).
        rewrite (proj2 (Nat.eqb_eq _ _)) by (rewrite !app_length; cbn [length]; lia).
        assert (ts' = []) by (apply (pieces_unique whitespace _ _ _ P'); constructor). subst ts'.
        now rewrite app_nil_r.
      * cbn [length] in L. specialize (IH (a ++ w ++ y :: b) [x] r'' out' ts'). cbn [length] in IH.
        replace (length (a ++ w ++ y :: b)) with (length a + length w + length (y :: b))%nat in IH
          by (rewrite !app_length; lia).
        rewrite <- !app_assoc in IH. cbn [app] in IH |- *. rewrite <- ?app_assoc.
        cbn [app]. apply IH; [auto | exact P' | lia].
    + assert (W : ~ whitespace c) by (intros W; apply isspace_iff in W; congruence).
      specialize (IH a (w ++ [c]) r out ts). rewrite app_length in IH. cbn [length] in IH.
      rewrite <- app_assoc in IH. cbn [app] in IH. rewrite <- Nat.add_assoc. apply IH; auto.
      * apply Forall_app; auto.
      * cbn in H. lia.
Qed.
Lemma splitWs_ok s ts : pieces whitespace s ts -> splitWs s = Some ts.
Proof.
  intros P. unfold splitWs. destruct s as [|c s].
  - f_equal. eapply pieces_unique; [constructor | exact P].
  - apply (splitWs_loop_ok _ [] [] (c :: s) [] ts); auto.
Qed.

(* ---- splitAny ---- *)
Lemma splitAny_loop_ok chars sep : (forall c, chars c = true <-> sep c) ->
  forall r a w out ts, Forall (fun c => ~ sep c) w -> pieces sep (w ++ r) ts ->
  splitAny_loop r chars (a ++ w ++ r) (length a) (length a + length w) out = out ++ ts.
Proof.
  intros S. assert (D : forall c, {sep c} + {~ sep c}).
  { intros c. destruct (chars c) eqn:E; [left; now apply S | right; intros H; apply S in H; congruence]. }
  induction r as [|c r IH]; intros a w out ts F P; cbn [splitAny_loop].
  - rewrite app_nil_r in *. rewrite app_length. apply pieces_end in P as ->; auto.
    destruct w as [|x w]; cbn [length].
    + rewrite Nat.add_0_r, Nat.ltb_irrefl, app_nil_r. auto.
    + rewrite (proj2 (Nat.ltb_lt _ _)) by lia. now rewrite skipn_len.
  - destruct (chars c) eqn:C.
    + apply S in C. apply pieces_head in P as (ts' & P' & ->); auto.
      apply (pieces_skip sep [c]) in P'; auto.
      specialize (IH (a ++ w ++ [c]) []). rewrite !app_length in IH. cbn [length] in IH.
      rewrite Nat.add_0_r, <- !app_assoc in IH. cbn [app] in IH.
      rewrite Nat.add_assoc in IH. rewrite IH with (ts := ts'); auto.
      destruct w as [|x w]; cbn [length].
      * now rewrite Nat.add_0_r, Nat.ltb_irrefl.
      * rewrite (proj2 (Nat.ltb_lt _ _)) by lia. rewrite <- app_assoc. f_equal. cbn [app]. f_equal.
        unfold substr. rewrite skipn_len. replace (_ - _)%nat with (length (x :: w)) by (cbn [length]; lia).
        now rewrite app_comm_cons, firstn_len.
    + assert (W : ~ sep c) by (intros W; apply S in W; congruence).
      specialize (IH a (w ++ [c]) out ts). rewrite app_length in IH. cbn [length] in IH.
      rewrite <- app_assoc in IH. cbn [app] in IH. rewrite <- Nat.add_assoc. apply IH; auto.
      apply Forall_app; auto.
Qed.
Lemma splitAny_ok s seps ts : Forall (fun c => c < 128) seps -> pieces (fun c => In c seps) s ts ->
  splitAny s seps = Some ts.
Proof.
  intros F P. unfold splitAny.
  replace (forallb _ seps) with true.
  2:{ symmetry. apply forallb_forall. intros c I. rewrite Forall_forall in F. specialize (F _ I). lia. }
  f_equal. apply (splitAny_loop_ok _ (fun c => In c seps)) with (a := []) (w := []) (out := []); auto.
  intros c. rewrite existsb_exists. split.
  - intros (x & I & E). apply N.eqb_eq in E. now subst.
  - intros I. exists c. split; auto. apply N.eqb_refl.
Qed.
