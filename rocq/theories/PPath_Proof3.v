(* The tokens of a property path. *)
From Coq Require Import List Arith NArith Bool Lia ZifyBool ZifyN ZifyNat.
From Verif Require Import Conv_Model Keys_Model PPath_Model PPath_Spec.
Import ListNotations.
Open Scope N_scope.

Lemma delimiter_iff c : delimiter c = true <-> delim c.
Proof.
  unfold delimiter, delim, QUESTION, STAR, PLUS, SLASH, BAR, OPEN, CLOSE, CARET. cbn [In]. lia.
Qed.
Lemma delimiter_false c : ~ delim c -> delimiter c = false.
Proof. intros H. destruct (delimiter c) eqn:E; auto. apply delimiter_iff in E. contradiction. Qed.
Lemma valid_graphic c : graphic c -> valid c = true.
Proof. unfold graphic, valid, isgraph. intros H. apply orb_true_iff. right. lia. Qed.
Lemma valid_delim c : delim c -> valid c = true.
Proof. intros H. apply delimiter_iff in H. unfold valid. rewrite H. reflexivity. Qed.
Lemma isdigit_iff c : isdigit c = true <-> digit c.
Proof. unfold isdigit, digit. lia. Qed.

Lemma digits_app ds r : Forall digit ds -> (forall c r', r = c :: r' -> isdigit c = false) -> digits (ds ++ r) = (ds, r).
Proof.
  intros H Hr. induction H as [|d ds Hd H IH]; cbn [app].
  - destruct r as [|c r]; [reflexivity|]. cbn [digits]. rewrite (Hr c r eq_refl). reflexivity.
  - cbn [digits]. rewrite (proj2 (isdigit_iff d) Hd), IH. reflexivity.
Qed.
Lemma digits_spec l : forall ds r, digits l = (ds, r) -> l = ds ++ r /\ Forall digit ds /\ (forall c r', r = c :: r' -> isdigit c = false).
Proof.
  induction l as [|c l IH]; intros ds r H; cbn [digits] in H.
  - injection H as <- <-. split; auto. split; auto. intros c r' H. discriminate H.
  - destruct (isdigit c) eqn:E.
    + destruct (digits l) as [ds' r'] eqn:D. injection H as <- <-. destruct (IH _ _ eq_refl) as (A & B & C). subst l.
      split; auto. split; auto. constructor; auto. apply isdigit_iff. auto.
    + injection H as <- <-. split; auto. split; auto. intros c' r' H. injection H as -> ->. auto.
Qed.

(* one name part *)
Lemma iri_chars cs : Forall (fun c => graphic c /\ c <> 62) cs -> forall f cur rest toks,
  tokenize_loop (length cs + f) false true false cur (cs ++ rest) toks = tokenize_loop f false true false (cur ++ cs) rest toks.
Proof.
  induction 1 as [|c cs [Hg Hc] H IH]; intros f cur rest toks; cbn [length Nat.add app].
  - rewrite app_nil_r. reflexivity.
  - cbn [tokenize_loop]. rewrite (valid_graphic c Hg). cbn [negb]. unfold LESS, GREATER.
    replace (c =? 62) with false by lia. replace (if c =? 60 then true else if false then false else true) with true by (destruct (c =? 60); reflexivity).
    cbn [negb andb]. rewrite IH, <- app_assoc. reflexivity.
Qed.
Lemma part_step w : name_part w -> forall f st cur rest toks,
  tokenize_loop (length w + f) st false false cur (w ++ rest) toks = tokenize_loop f false false false (cur ++ w) rest toks.
Proof.
  intros [c Hg Hd Hl Hr Hb|c Hg Hl Hr|cs H] f st cur rest toks.
  - cbn [length Nat.add app tokenize_loop]. rewrite (valid_graphic c Hg). unfold LESS, GREATER, BACKSLASH.
    replace (c =? 60) with false by lia. replace (c =? 62) with false by lia. replace (c =? 92) with false by lia.
    rewrite (delimiter_false c Hd). reflexivity.
  - cbn [length Nat.add app tokenize_loop]. change (valid 92) with true. change (92 =? LESS) with false. change (92 =? GREATER) with false.
    change (92 =? BACKSLASH) with true. cbn [negb andb]. rewrite (valid_graphic c Hg). unfold LESS, GREATER, BACKSLASH.
    replace (c =? 60) with false by lia. replace (c =? 62) with false by lia. cbn [negb andb].
    assert (R : (cur ++ [92]) ++ [c] = cur ++ [92; c]) by (rewrite <- app_assoc; reflexivity).
    destruct (c =? 92); [rewrite R; reflexivity|]. destruct (delimiter c); cbn [andb]; rewrite R; reflexivity.
  - cbn [length Nat.add app tokenize_loop]. change (valid 60) with true. change (60 =? LESS) with true. cbn [negb andb].
    rewrite app_length. cbn [length]. rewrite <- app_assoc. replace (length cs + 1 + f)%nat with (length cs + (1 + f))%nat by lia.
    rewrite iri_chars by auto. cbn [Nat.add app tokenize_loop]. change (valid 62) with true. change (62 =? LESS) with false.
    change (62 =? GREATER) with true. change (62 =? BACKSLASH) with false. change (delimiter 62) with false. cbn [negb andb].
    replace (((cur ++ [60]) ++ cs) ++ [62]) with (cur ++ 60 :: cs ++ [62]) by (rewrite <- !app_assoc; reflexivity). reflexivity.
Qed.
Lemma parts_step parts : Forall name_part parts -> forall f st cur rest toks, parts <> [] ->
  tokenize_loop (length (concat parts) + f) st false false cur (concat parts ++ rest) toks = tokenize_loop f false false false (cur ++ concat parts) rest toks.
Proof.
  induction 1 as [|w parts Hw H IH]; intros f st cur rest toks NE; [congruence|]. cbn [concat]. rewrite app_length, <- Nat.add_assoc, <- app_assoc, part_step by auto.
  destruct parts as [|w' parts]; [cbn [concat length Nat.add app]; rewrite app_nil_r; reflexivity|].
  rewrite IH by congruence. rewrite <- app_assoc. reflexivity.
Qed.
Lemma word_step w : link_text w -> forall f st cur rest toks,
  tokenize_loop (length w + f) st false false cur (w ++ rest) toks = tokenize_loop f false false false (cur ++ w) rest toks.
Proof. intros (parts & NE & F & -> & _) f st cur rest toks. apply parts_step; auto. Qed.
Lemma part_first w : name_part w -> exists c r, w = c :: r /\ ~ delim c.
Proof.
  intros [c Hg Hd Hl Hr Hb|c Hg Hl Hr|cs H]; eexists; eexists; (split; [reflexivity|]); auto; unfold delim; cbn [In]; intuition discriminate.
Qed.
Lemma word_first w : link_text w -> exists c r, w = c :: r /\ ~ delim c /\ isdigit c = false.
Proof.
  intros (parts & NE & F & -> & D). destruct F as [|p parts Hp F]; [congruence|]. destruct (part_first p Hp) as (c & r & -> & H).
  exists c, (r ++ concat parts). split; [reflexivity|]. split; auto. destruct (isdigit c) eqn:E; auto. apply isdigit_iff in E. exfalso. eapply D; [reflexivity|auto].
Qed.

Definition delim_token (t : list N) : Prop := exists c ds, t = c :: ds /\ delim c /\ (ds = [] \/ (c = 42 /\ ds <> [] /\ Forall digit ds)).
Definition shape (t : list N) : Prop := delim_token t \/ link_text t.
Fixpoint separated (ts : list (list N)) : Prop :=
  match ts with
  | a :: ts' => match ts' with b :: _ => (delim_token a \/ delim_token b) | [] => True end /\ separated ts'
  | [] => True
  end.

Lemma word_not_delim w : link_text w -> ~ delim_token w.
Proof. intros H (c & ds & -> & D & _). destruct (word_first _ H) as (c' & r & E & ND & _). injection E as <- <-. auto. Qed.

(* the longest run of delimiters at the start *)
Lemma run_split ts : Forall shape ts -> exists run rest, ts = run ++ rest /\ Forall delim_token run /\ (rest = [] \/ exists w r, rest = w :: r /\ link_text w).
Proof.
  induction 1 as [|t ts H F IH]; [exists [], []; auto|]. destruct H as [H|H].
  - destruct IH as (run & rest & -> & A & B). exists (t :: run), rest. auto.
  - exists [], (t :: ts). split; auto. split; auto. right. exists t, ts. auto.
Qed.
Lemma counts_run run : forall first rest, counts_in_star_runs (Some first) (run ++ rest) -> Forall delim_token run -> rest = [] \/ (exists w r, rest = w :: r /\ link_text w) ->
  Forall (fun t => exists c ds, t = c :: ds /\ (ds = [] \/ first = 42)) run /\ counts_in_star_runs None rest.
Proof.
  induction run as [|t run IH]; intros first rest C F R; cbn [app] in C.
  - split; auto. destruct R as [->|(w & r & -> & Hw)]; [exact I|]. cbn [counts_in_star_runs] in C |- *.
    destruct (word_first _ Hw) as (c & w' & -> & ND & _). destruct C as [[D _]|C]; [contradiction|]. auto.
  - inversion F as [|? ? (c & ds & -> & D & S) F']; subst. cbn [counts_in_star_runs] in C. destruct C as [(_ & Q & C)|[ND _]]; [|contradiction].
    destruct (IH first rest C F' R) as [A B]. split; auto. constructor; auto. exists c, ds. auto.
Qed.
Definition starts_plain (l : list N) : Prop := forall c r, l = c :: r -> ~ delim c /\ isdigit c = false.
Lemma delim_not_digit c : delim c -> isdigit c = false.
Proof. unfold delim, isdigit. cbn [In]. lia. Qed.
Lemma run_lemma run : forall first fuel rest, Forall delim_token run -> Forall (fun t => exists c ds, t = c :: ds /\ (ds = [] \/ first = 42)) run ->
  starts_plain rest -> (length (concat run) < fuel)%nat -> delimiter_run fuel first (concat run ++ rest) = Val (run, rest).
Proof.
  induction run as [|t run IH]; intros first fuel rest F Q P L.
  - destruct fuel; [cbn in L; lia|]. cbn [concat app delimiter_run]. destruct rest as [|c r]; [reflexivity|].
    destruct (P c r eq_refl) as [ND _]. rewrite (delimiter_false c ND). reflexivity.
  - inversion F as [|? ? (c & ds & -> & D & S) F']; subst. inversion Q as [|? ? (c0 & ds0 & E0 & Q0) Q']; subst. injection E0 as <- <-.
    destruct fuel; [cbn in L; lia|]. cbn [concat]. rewrite <- app_assoc. cbn [app delimiter_run]. rewrite (proj2 (delimiter_iff c) D).
    assert (DG : Forall digit ds). { destruct S as [->|(_ & _ & S)]; auto. }
    assert (NX : forall x r', concat run ++ rest = x :: r' -> isdigit x = false).
    { intros x r' E. destruct run as [|t' run]; [apply (P x r' E)|]. inversion F' as [|? ? (c' & ds' & -> & D' & _) _]; subst.
      cbn in E. injection E as <- _. apply delim_not_digit. auto. }
    assert (X : (if first =? STAR then digits (ds ++ concat run ++ rest) else ([], ds ++ concat run ++ rest)) = (ds, concat run ++ rest)).
    { unfold STAR. destruct (first =? 42) eqn:E; [apply digits_app; auto|]. destruct Q0 as [->| ->]; [reflexivity|discriminate E]. }
    rewrite X. rewrite IH; auto. cbn [concat length] in L. rewrite app_length in L. cbn [length] in L. lia.
Qed.

Lemma concat_plain rest : rest = [] \/ (exists w r, rest = w :: r /\ link_text w) -> starts_plain (concat rest).
Proof.
  intros [->|(w & r & -> & Hw)] c t E; [discriminate E|]. destruct (word_first _ Hw) as (c' & w' & -> & ND & NG). cbn in E. injection E as <- _. auto.
Qed.

(* the loop at the first delimiter of a run *)
Lemma run_step run t rest fuel st cur toks : Forall delim_token (t :: run) -> counts_in_star_runs None ((t :: run) ++ rest) ->
  rest = [] \/ (exists w r, rest = w :: r /\ link_text w) -> (cur <> [] -> st = false) ->
  (st = true -> match t with c :: _ => c <> 63 | [] => True end) ->
  (length (concat (t :: run)) + 1 < fuel)%nat ->
  tokenize_loop fuel st false false cur (concat (t :: run) ++ concat rest) toks =
  tokenize_loop (fuel - 1) false false false [] (concat rest) ((match cur with [] => toks | _ => toks ++ [cur] end) ++ t :: run) /\ counts_in_star_runs None rest.
Proof.
  intros F C R HS HQ L. inversion F as [|? ? (c & ds & E & D & S) F']; subst.
  assert (C' : counts_in_star_runs (Some c) (((c :: ds) :: run) ++ rest)).
  { cbn [app counts_in_star_runs] in C |- *. destruct C as [(_ & Q & C)|[ND _]]; [|contradiction]. left. auto. }
  destruct (counts_run _ _ _ C' F R) as [Q CR]. split; auto.
  destruct fuel as [|fuel]; [lia|]. replace (Datatypes.S fuel - 1)%nat with fuel by lia.
  assert (RL : delimiter_run fuel c (concat ((c :: ds) :: run) ++ concat rest) = Val ((c :: ds) :: run, concat rest)).
  { apply run_lemma; auto; [apply concat_plain; auto|lia]. }
  cbn [concat] in *. rewrite <- app_assoc in *. cbn [app] in *. cbn [tokenize_loop]. rewrite (valid_delim c D). cbn [negb].
  unfold LESS, GREATER, BACKSLASH, QUESTION.
  assert (N1 : c <> 60 /\ c <> 62 /\ c <> 92) by (revert D; unfold delim; cbn [In]; lia).
  replace (c =? 60) with false by lia. replace (c =? 62) with false by lia. replace (c =? 92) with false by lia.
  rewrite (proj2 (delimiter_iff c) D). cbn [negb andb].
  replace (negb st || negb (c =? 63)) with true by (destruct st; [specialize (HQ eq_refl); cbn in HQ; lia|reflexivity]).
  rewrite RL. cbn [bind]. reflexivity.
Qed.

Lemma concat_length_app {A} (a b : list (list A)) : length (concat (a ++ b)) = (length (concat a) + length (concat b))%nat.
Proof. rewrite concat_app, app_length. reflexivity. Qed.

Lemma tokens_loop : forall k ts, (length ts <= k)%nat -> Forall shape ts -> separated ts -> counts_in_star_runs None ts ->
  forall st fuel toks, (st = true -> match ts with (c :: _) :: _ => c <> 63 | _ => True end) -> (length (concat ts) + 2 <= fuel)%nat ->
  tokenize_loop fuel st false false [] (concat ts) toks = Val (toks ++ ts).
Proof.
  induction k as [|k IH]; intros ts Lk F S C st fuel toks HQ Lf.
  { destruct ts; [|cbn in Lk; lia]. destruct fuel; [lia|]. cbn. rewrite app_nil_r. reflexivity. }
  destruct ts as [|t ts]; [destruct fuel; [lia|]; cbn; rewrite app_nil_r; reflexivity|].
  (* after a run *)
  assert (RUN : forall us cur st fuel toks, (length us <= Datatypes.S k)%nat -> us <> [] -> Forall shape us -> separated us -> counts_in_star_runs None us ->
     (exists u r, us = u :: r /\ delim_token u) -> (cur <> [] -> st = false) -> (st = true -> match us with (c :: _) :: _ => c <> 63 | _ => True end) ->
     (length (concat us) + 2 <= fuel)%nat ->
     tokenize_loop fuel st false false cur (concat us) toks = Val ((match cur with [] => toks | _ => toks ++ [cur] end) ++ us)).
  { clear - IH. intros us cur st fuel toks L NE F S C (u & r & -> & Hu) HS HQ Lf. inversion F as [|? ? _ F']; subst.
    destruct (run_split r F') as (run & rest & -> & A & B).
    assert (FD : Forall delim_token (u :: run)) by auto.
    destruct (run_step run u rest fuel st cur toks FD C B HS) as [E CR].
    { intros Z. specialize (HQ Z). destruct u; auto. }
    { change (u :: run ++ rest) with ((u :: run) ++ rest) in Lf. rewrite concat_length_app in Lf. destruct Hu as (c & ds & -> & _).
      destruct rest as [|w rest]; [cbn in Lf |- *; lia|]. destruct B as [B|(w' & r' & B & Hw)]; [discriminate B|]. injection B as -> ->.
      destruct (word_first _ Hw) as (c' & w'' & -> & _). cbn [concat] in Lf. rewrite !app_length in Lf. cbn [length] in Lf. cbn [concat]. rewrite app_length. cbn [length]. lia. }
    change (u :: run ++ rest) with ((u :: run) ++ rest). rewrite concat_app. rewrite E.
    rewrite IH; auto.
    - rewrite <- app_assoc. reflexivity.
    - cbn [length] in L. rewrite app_length in L. lia.
    - apply Forall_app in F'. tauto.
    - clear - S. revert u S. induction run as [|v run IHr]; intros u S; cbn [app] in S; destruct S as [_ S]; auto. apply (IHr v). auto.
    - discriminate.
    - change (u :: run ++ rest) with ((u :: run) ++ rest) in Lf. rewrite concat_length_app in Lf. cbn [concat] in Lf. rewrite app_length in Lf. destruct Hu as (c & ds & -> & _). cbn [length] in Lf. lia. }
  inversion F as [|? ? Ht F']; subst. destruct Ht as [Ht|Ht].
  - rewrite (RUN (t :: ts) [] st fuel toks); auto; try congruence. exists t, ts. auto.
  - (* a word *)
    cbn [concat]. cbn [concat] in Lf. rewrite app_length in Lf.
    replace fuel with (length t + (fuel - length t))%nat by lia. rewrite word_step by auto. cbn [app].
    destruct (word_first _ Ht) as (c & w & -> & ND & NG).
    assert (C' : counts_in_star_runs None ts). { cbn [counts_in_star_runs] in C. destruct C as [[D _]|[_ C]]; [contradiction|auto]. }
    destruct ts as [|u ts].
    + destruct (fuel - length (c :: w))%nat eqn:Z; [lia|]. reflexivity.
    + destruct S as [[S1|S1] S2]; [destruct (word_not_delim _ Ht S1)|].
      rewrite (RUN (u :: ts) (c :: w) false (fuel - length (c :: w))%nat toks); auto.
      * rewrite <- app_assoc. reflexivity.
      * cbn [length] in Lk |- *. lia.
      * congruence.
      * exists u, ts. auto.
      * discriminate.
      * lia.
Qed.

Lemma tokenize_tokens ts : Forall shape ts -> separated ts -> counts_in_star_runs None ts ->
  match ts with (c :: _) :: _ => c <> 63 | _ => True end -> tokenize (concat ts) = Val ts.
Proof. intros F S C H. unfold tokenize. rewrite (tokens_loop (length ts)); auto; lia. Qed.

(* what tokenize returns in general *)
Definition any_shape (t : list N) : Prop := t <> [] /\ forall ds, t = 42 :: ds -> Forall digit ds.
Lemma delimiter_run_any fuel : forall first rest toks r, delimiter_run fuel first rest = Val (toks, r) ->
  Forall any_shape toks /\ rest = concat toks ++ r /\ (forall c t, r = c :: t -> delimiter c = false).
Proof.
  induction fuel as [|fuel IH]; intros first rest toks r H; [discriminate H|]. cbn [delimiter_run] in H.
  destruct rest as [|d rest]; [injection H as <- <-; split; auto; split; auto; intros c t E; discriminate E|].
  destruct (delimiter d) eqn:D.
  - destruct (if first =? STAR then digits rest else ([], rest)) as [ds rest'] eqn:E.
    destruct (delimiter_run fuel first rest') as [[toks' r']| | | | |] eqn:E'; try discriminate H. cbn [bind] in H. injection H as <- <-.
    apply IH in E'. destruct E' as (A & -> & B).
    assert (X : rest = ds ++ concat toks' ++ r' /\ Forall digit ds).
    { destruct (first =? STAR); [apply digits_spec in E; tauto|]. injection E as <- <-. auto. }
    destruct X as [-> X]. split; [constructor; auto; split; [congruence|]; intros ds' Q; injection Q as _ <-; auto|]. split; auto.
    cbn [concat app]. rewrite <- app_assoc. reflexivity.
  - injection H as <- <-. split; auto. split; auto. intros c t E. injection E as -> ->. auto.
Qed.
Lemma delimiter_42 : delimiter 42 = true. Proof. reflexivity. Qed.
Lemma tokenize_any fuel : forall st ins esc cur rest toks out, tokenize_loop fuel st ins esc cur rest toks = Val out ->
  Forall any_shape toks -> (cur = [] -> ins = false /\ esc = false) -> (forall r, cur <> 42 :: r) ->
  Forall any_shape out /\ concat out = concat toks ++ cur ++ rest.
Proof.
  induction fuel as [|fuel IH]; intros st ins esc cur rest toks out H F HC H42; [discriminate H|]. cbn [tokenize_loop] in H.
  destruct rest as [|c rest].
  - injection H as <-. destruct cur as [|x cur]; [rewrite !app_nil_r; auto|]. split.
    + apply Forall_app. split; auto. constructor; auto. split; [congruence|]. intros ds E. exfalso. apply (H42 ds E).
    + rewrite concat_app. cbn [concat]. rewrite !app_nil_r. reflexivity.
  - destruct (negb (valid c)); [discriminate H|].
    set (ins' := if c =? LESS then true else if c =? GREATER then false else ins) in *.
    assert (GO : forall esc' out, tokenize_loop fuel false ins' esc' (cur ++ [c]) rest toks = Val out -> (cur = [] -> c <> 42) ->
       Forall any_shape out /\ concat out = concat toks ++ cur ++ c :: rest).
    { intros esc' o Ho Hc. apply IH in Ho; auto.
      - destruct Ho as [A B]. split; auto. rewrite B, <- app_assoc. reflexivity.
      - intros Z. destruct cur; discriminate Z.
      - intros r E. destruct cur as [|x cur]; [cbn in E; injection E as -> _; apply Hc; auto|]. cbn in E. injection E as -> E. apply (H42 cur eq_refl). }
    destruct (negb ins' && (c =? BACKSLASH)) eqn:B1.
    { apply (GO _ _ H). intros _ ->. unfold BACKSLASH in B1. cbn in B1. rewrite andb_false_r in B1. discriminate B1. }
    destruct (negb ins' && delimiter c && esc) eqn:B2.
    { apply (GO _ _ H). intros Z ->. destruct (HC Z) as [_ ->]. rewrite andb_false_r in B2. discriminate B2. }
    destruct (negb ins' && delimiter c && (negb st || negb (c =? QUESTION))) eqn:B3.
    + destruct (delimiter_run fuel c (c :: rest)) as [[run r]| | | | |] eqn:R; try discriminate H. cbn [bind] in H.
      apply delimiter_run_any in R. destruct R as (A & B & _). apply IH in H.
      * destruct H as [H1 H2]. split; auto. rewrite H2, concat_app, B. cbn [app].
        destruct cur as [|x cur]; [rewrite <- !app_assoc; reflexivity|]. rewrite concat_app. cbn [concat]. rewrite app_nil_r, <- !app_assoc. reflexivity.
      * apply Forall_app. split; auto. destruct cur as [|x cur]; auto. apply Forall_app. split; auto. constructor; auto.
        split; [congruence|]. intros ds E. exfalso. apply (H42 ds E).
      * intros _. apply andb_true_iff in B3. destruct B3 as [B3 _]. apply andb_true_iff in B3. destruct B3 as [B3 _]. destruct ins'; [discriminate B3|auto].
      * intros r' E. discriminate E.
    + apply (GO _ _ H). intros Z ->. destruct (HC Z) as [I E]. unfold ins' in B3. rewrite I in B3. change (42 =? LESS) with false in B3. change (42 =? GREATER) with false in B3.
      cbn in B3. destruct st; discriminate B3.
Qed.
