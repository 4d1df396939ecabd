(* What the consumer sees. *)
From Coq Require Import List Arith Bool Lia.
From Verif Require Import ListAux Pipe_Model Pipe_Spec Pipe_Proof Pipe_Proof2 Pipe_Proof3 Pipe_Proof4.
Import ListNotations.

Section Pipe.
  Context {V C S : Type}.
  Variable next : C -> made V C.
  Notation transformer := (S -> V -> option (V * S)).
  Variable bs : nat.
  Hypothesis BS : 0 < bs.
  Notation yields := (yields next).
  Notation setup c ts := (setupParallelPipeline V C S bs c ts).
  Notation execution := (execution V C S next bs).

  Lemma seen_correct c (ts : stages V S) y tr : seen next bs (seqsetup (SB c) ts) y tr -> correct next bs c ts tr.
  Proof.
    intros H. destruct H as [x taken q vs V1 P G CT PB F|x taken q j V1 P G PB F PR|x taken b q q' vs j V1 P G PR BG CT PB F J K].
    - destruct (sequential next bs BS c ts taken q P G) as (l & c1 & Y & _ & TH & _). rewrite CT in TH. now apply c_values with l c1 (skipn (bufferPosition V C S x) (buffer V C S x)).
    - destruct (sequential next bs BS c ts taken q P G) as (l & c1 & Y & _ & TH & R). rewrite PR in R. destruct R as (more & c2 & Y2 & LM & R).
      now apply c_thrown with l c1 more c2.
    - destruct (sequential next bs BS c ts taken q P G) as (l & c1 & Y & _ & TH & R). rewrite PR, BG in R. destruct R as (more & c2 & Y2 & TH2 & E).
      rewrite contents_snoc in CT. pose proof (yields_app next _ _ _ _ _ Y Y2) as Y3. destruct j as [|j].
      + cbn [repeat]. rewrite app_nil_r. rewrite CT in TH2. now apply c_values with (l ++ more) c2 (skipn (bufferPosition V C S x) (buffer V C S x)).
      + rewrite <- (Nat.add_1_r j). rewrite J, skipn_all, app_nil_r in CT by lia. rewrite CT in TH2. eapply c_all; eauto.
  Qed.
  Lemma order c (ts : stages V S) tr y : Forall stage_ok ts -> execution (setup c ts) tr y -> correct next bs c ts tr.
  Proof. intros OK E. apply (seen_correct c ts y). now apply execution_seen. Qed.

  (* ---- exactly the values ---- *)
  Lemma yields_prefix c l c1 : yields c l c1 -> forall l2 c2 e, yields c l2 c2 -> next c2 = End e \/ next c2 = Raise -> exists more, l2 = l ++ more /\ yields c1 more c2.
  Proof.
    induction 1 as [c|c v c1 l c3 N H IH]; intros l2 c2 e Y2 E; [exists l2; auto|].
    inversion Y2 as [?|? v' c1' l2' ? N' Y2']; subst; [destruct E; congruence|]. rewrite N in N'. injection N' as <- <-.
    destruct (IH _ _ e Y2' E) as (more & -> & Y). exists more. auto.
  Qed.
  Lemma transformed_prefix who (fs : list transformer) l1 : forall l2 ss k r, transformed who fs ss k (l1 ++ l2) = Some r -> exists r1 r2, transformed who fs ss k l1 = Some r1 /\ fst r = fst r1 ++ r2.
  Proof.
    intros l2 ss k [r ss'] H. rewrite transformed_app in H. destruct (transformed who fs ss k l1) as [[r1 ss1]|]; [|discriminate].
    destruct (transformed who fs ss1 (k + length l1) l2) as [[r2 ss2]|]; [|discriminate]. injection H as <- <-. exists (r1, ss1), r2. auto.
  Qed.
  Lemma through_prefix (ts : stages V S) : forall l1 l2 r, through bs ts (l1 ++ l2) = Some r -> exists r1 r2, through bs ts l1 = Some r1 /\ r = r1 ++ r2.
  Proof.
    induction ts as [|[[n fs] ss] ts IH]; intros l1 l2 r H; cbn [through] in *; [injection H as <-; eauto|].
    destruct (transformed (responsible bs n fs) fs ss 0 (l1 ++ l2)) as [[m ssm]|] eqn:T; [|discriminate].
    destruct (transformed_prefix _ _ _ _ _ _ _ T) as ([m1 ss1] & m2 & T1 & E). cbn in E. subst m. rewrite T1. eauto.
  Qed.
  Lemma complete c (ts : stages V S) l c' c'' vs tr y : Forall stage_ok ts -> yields c l c' -> next c' = End c'' -> through bs ts l = Some vs ->
    execution (setup c ts) tr y -> tr = firstn (length tr) (map (Got V) vs ++ repeat (Nothing V) (length tr)).
  Proof.
    intros OK Y E T X. pose proof (order c ts tr y OK X) as K.
    assert (FN : forall l1 l2 l3 : list (event V), l1 ++ l2 = l3 -> l1 = firstn (length l1) l3) by (intros l1 l2 l3 <-; rewrite firstn_app, Nat.sub_diag, firstn_O, firstn_all; now rewrite app_nil_r).
    destruct K as [l0 c0 us rest Y0 T0|l0 c0 c0' us j Y0 E0 T0|l0 c1 us more c2 j Y0 T0 Y2 LM R].
    - destruct (yields_prefix _ _ _ Y0 _ _ c'' Y (or_introl E)) as (m & -> & _). destruct (through_prefix ts _ _ _ T) as (r1 & r2 & T1 & ->). rewrite T0 in T1. injection T1 as <-.
      eapply FN. rewrite map_app, map_app, <- !app_assoc. reflexivity.
    - destruct (yields_prefix _ _ _ Y0 _ _ c'' Y (or_introl E)) as (m & -> & Ym). inversion Ym; subst; [|congruence]. rewrite app_nil_r in T. rewrite T0 in T. injection T as <-.
      apply (FN _ (repeat (Nothing V) (length us))). rewrite <- app_assoc. f_equal. rewrite <- repeat_app. f_equal. rewrite app_length, map_length, repeat_length. lia.
    - exfalso. pose proof (yields_app next _ _ _ _ _ Y0 Y2) as Y3. destruct (yields_prefix _ _ _ Y3 _ _ c'' Y (or_introl E)) as (m & -> & Ym).
      destruct R as [R|R].
      + inversion Ym; subst; congruence.
      + destruct (through_prefix ts _ _ _ T) as (r1 & r2 & T1 & _). congruence.
  Qed.

  (* ---- every call returns ---- *)
  Inductive internals : extractor V C S -> extractor V C S -> Prop :=
  | is_none x : internals x x
  | is_more x y z : internal V C S next bs x y -> internals y z -> internals x z.
  Lemma returns x : xalive x -> exists y e z, internals x y /\ getNextValue V C S y = Some (e, z).
  Proof.
    intros A. pose proof (internal_acc next bs x) as AC. induction AC as [x _ IH].
    destruct (getNextValue V C S x) as [[e z]|] eqn:G; [exists x, e, z; split; [constructor|exact G]|].
    destruct (waiting_progress next bs x A G) as (y & I). destruct (IH y I) as (y' & e & z & R & G'); [eapply internal_alive; eauto|].
    exists y', e, z. split; [econstructor; eauto|exact G'].
  Qed.
  Lemma execution_internals x tr y z : execution x tr y -> internals y z -> execution x tr z.
  Proof. intros E I. revert E. induction I as [y|y y' z I1 I2 IH]; intros E; [exact E|]. apply IH. eapply e_internal; eauto. Qed.
  Lemma executions c (ts : stages V S) k : Forall stage_ok ts -> exists tr y, execution (setup c ts) tr y /\ length tr = k.
  Proof.
    intros OK. induction k as [|k (tr & y & E & L)]; [exists [], (setup c ts); split; [constructor|reflexivity]|].
    destruct (returns y) as (y' & e & z & I & G); [eapply execution_alive; eauto|]. exists (tr ++ [e]), z. split; [|rewrite app_length; cbn; lia].
    eapply e_call; [|exact G]. eapply execution_internals; eauto.
  Qed.

  (* ---- pure transformers ---- *)
  Definition computes (g : V -> V) (f : transformer) : Prop := forall s v, exists s', f s v = Some (g v, s').
  Lemma responsible_lt n (fs : list transformer) ss k : stage_ok (n, fs, ss) -> responsible bs n fs k < length fs.
  Proof.
    intros (N & L & D). unfold responsible, part. destruct (n =? length fs) eqn:E.
    - apply Nat.eqb_eq in E. destruct (bs / n =? 0); lia.
    - apply Nat.eqb_neq in E. destruct D as [D|[D _]]; lia.
  Qed.
  Lemma pure_stage n (fs : list transformer) g : Forall (computes g) fs -> forall l ss k, stage_ok (n, fs, ss) -> exists ss', transformed (responsible bs n fs) fs ss k l = Some (map g l, ss').
  Proof.
    intros F. induction l as [|v l IH]; intros ss k OK; cbn [transformed map]; [eauto|]. pose proof (responsible_lt n fs ss k OK) as R. assert (LS : length ss = length fs) by apply OK.
    destruct (nth_error fs (responsible bs n fs k)) as [f|] eqn:E1; [|apply nth_error_None in E1; lia]. destruct (nth_error ss (responsible bs n fs k)) as [s|] eqn:E2; [|apply nth_error_None in E2; lia].
    rewrite Forall_forall in F. destruct (F f (nth_error_In _ _ E1) s v) as (s' & ->). destruct (IH (set_nth (responsible bs n fs k) s' ss) (Datatypes.S k)) as (ss' & ->); [now apply ok_set|]. eauto.
  Qed.
  Lemma pure_through (ts : stages V S) gs : Forall stage_ok ts -> Forall2 (fun (t : nat * list transformer * list S) g => Forall (computes g) (snd (fst t))) ts gs -> forall l, through bs ts l = Some (fold_left (fun l g => map g l) gs l).
  Proof.
    intros OK F. induction F as [|[[n fs] ss] g ts gs H F IH]; intros l; cbn [through fold_left]; [reflexivity|]. inversion OK; subst.
    destruct (pure_stage n fs g H l ss 0) as (ss' & ->); auto.
  Qed.
  Lemma fold_map (gs : list (V -> V)) : forall l, fold_left (fun l g => map g l) gs l = map (fun v => fold_left (fun v g => g v) gs v) l.
  Proof. induction gs as [|g gs IH]; intros l; cbn [fold_left]; [now rewrite map_id|]. rewrite IH, map_map. reflexivity. Qed.

  (* ---- where the creator stands ---- *)
  Lemma creator_eq p : pipe_creator p = @creator V C S p.
  Proof. induction p; cbn; auto. Qed.
  Lemma creator_after c (ts : stages V S) tr y : Forall stage_ok ts -> execution (setup c ts) tr y -> In (Nothing V) tr ->
    exists l c' c'', yields c l c' /\ next c' = End c'' /\ calls next c'' (pipe_creator (pipeline V C S y)).
  Proof.
    intros OK E I. pose proof (execution_seen next bs BS c ts tr y OK E) as H. destruct H as [x taken q vs V1 P G CT PB F|x taken q j V1 P G PB F PR|x taken b q q' vs j V1 P G PR BG CT PB F J K].
    - apply in_map_iff in I as (v & X & _). discriminate.
    - apply in_app_iff in I as [I|[I|I]]; [apply in_map_iff in I as (v & X & _); discriminate | discriminate|]. apply repeat_spec in I. discriminate.
    - destruct (sequential next bs BS c ts taken q P G) as (l & c1 & Y & _ & TH & R). rewrite PR, BG in R. destruct R as (more & c2 & Y2 & TH2 & EN).
      exists (l ++ more), c2, (screator q'). split; [now apply yields_app with c1|]. split; [exact EN|]. now rewrite creator_eq.
  Qed.
End Pipe.

(* ---- the parser ---- *)
Section Parser.
  Context {V S : Type}.
  Variables bs max : nat.
  Hypothesis BS : 0 < bs.
  Notation next := (@parser_batcher V max).
  Lemma parser_yields l c c' : yields next c l c' -> forall parser parsed e, c = (parser, parsed, e) ->
    exists parser', parser = l ++ parser' /\ c' = (parser', parsed + length l, e) /\ (l = [] \/ parsed + length l <= max).
  Proof.
    induction 1 as [c|c v c1 l c2 N H IH]; intros parser parsed e E; subst; [exists parser; rewrite Nat.add_0_r; auto|].
    unfold parser_batcher in N. destruct (max <=? parsed) eqn:M; [discriminate|]. apply Nat.leb_gt in M. destruct parser as [|t parser]; [discriminate|]. injection N as <- <-.
    destruct (IH parser (parsed + 1) e eq_refl) as (parser' & -> & -> & D). exists parser'. split; [reflexivity|]. cbn [length]. split; [f_equal; f_equal; lia|]. right. destruct D as [->|D]; cbn [length]; lia.
  Qed.
  Lemma parser_all triples : exists c', yields next (triples, 0, false) (firstn max triples) c' /\ next c' = End (skipn max triples, length (firstn max triples), length triples <? max).
  Proof.
    assert (G : forall t parsed, parsed <= max -> exists c', yields next (t, parsed, false) (firstn (max - parsed) t) c' /\
      next c' = End (skipn (max - parsed) t, parsed + length (firstn (max - parsed) t), parsed + length t <? max)).
    { induction t as [|x t IH]; intros parsed L.
      - rewrite firstn_nil, skipn_nil. exists ([], parsed, false). split; [constructor|]. unfold parser_batcher. cbn [length]. rewrite Nat.add_0_r. rewrite Nat.ltb_antisym. destruct (max <=? parsed); reflexivity.
      - destruct (Nat.eq_dec parsed max) as [->|N].
        + rewrite Nat.sub_diag. cbn [firstn skipn length]. exists (x :: t, max, false). split; [constructor|]. unfold parser_batcher. rewrite Nat.leb_refl, Nat.add_0_r.
          replace (max + Datatypes.S (length t) <? max) with false by (symmetry; apply Nat.ltb_ge; lia). reflexivity.
        + replace (max - parsed) with (Datatypes.S (max - (parsed + 1))) by lia. cbn [firstn skipn length]. destruct (IH (parsed + 1)) as (c' & Y & E); [lia|]. exists c'. split.
          * econstructor; [|exact Y]. unfold parser_batcher. replace (max <=? parsed) with false by (symmetry; apply Nat.leb_gt; lia). reflexivity.
          * rewrite E. rewrite <- !Nat.add_assoc. reflexivity. }
    destruct (G triples 0 ltac:(lia)) as (c' & Y & E). rewrite Nat.sub_0_r in *. eauto.
  Qed.
  Lemma calls_fixed c c' : calls next c c' -> next c = End c -> c' = c.
  Proof. intros H E. induction H as [c|c v c1 c2 H IH N|c c1 c2 H IH N]; [reflexivity| |]; rewrite (IH E) in N; congruence. Qed.
  Lemma parser_done triples (ts : stages V S) tr y : Forall stage_ok ts ->
    execution V _ S next bs (setupParallelPipeline V _ S bs (triples, 0, false) ts) tr y -> In (Nothing V) tr ->
    pipe_creator (pipeline V _ S y) = (skipn max triples, length (firstn max triples), length triples <? max).
  Proof.
    intros OK X I. destruct (creator_after next bs BS (triples, 0, false) ts tr y OK X I) as (l & c' & c'' & Y & E & K).
    destruct (parser_all triples) as (c1 & Y1 & E1). destruct (yields_prefix next _ _ _ Y _ _ _ Y1 (or_introl E1)) as (m & EM & Ym).
    inversion Ym; subst; [|congruence]. rewrite E in E1. injection E1 as ->. apply calls_fixed in K; [exact K|].
    unfold parser_batcher. destruct (max <=? length (firstn max triples)) eqn:M; [reflexivity|]. apply Nat.leb_gt in M. assert (LT : length triples < max) by (rewrite firstn_length in M; lia).
    rewrite skipn_all2 by lia. replace (length triples <? max) with true by (symmetry; apply Nat.ltb_lt; lia). reflexivity.
  Qed.
  Lemma round_result triples (ts : stages V S) vs rest e : Forall stage_ok ts -> round bs max ts triples vs rest e ->
    through bs ts (firstn max triples) = Some vs /\ rest = skipn max triples /\ e = (length triples <? max).
  Proof.
    intros OK (y & parsed & X & P). pose proof (parser_done triples ts _ y OK X) as D. rewrite P in D. specialize (D ltac:(apply in_app_iff; right; now left)). injection D as -> _ ->.
    split; [|auto]. pose proof (order next bs BS _ ts _ y OK X) as K. remember (map (Got V) vs ++ [Nothing V]) as tr eqn:TR.
    assert (INJ : forall a b : list V, map (Got V) a = map (Got V) b -> a = b) by (induction a as [|x a IH]; intros [|z b] Q; cbn in Q; try discriminate; [reflexivity|]; injection Q as <- Q; f_equal; auto).
    destruct K as [l0 c0 us rest Y0 T0|l0 c0 c0' us j Y0 E0 T0|l0 c1 us more c2 j Y0 T0 Y2 LM R].
    - exfalso. assert (Q : In (Nothing V) (map (Got V) us)) by (rewrite TR; apply in_app_iff; right; now left). apply in_map_iff in Q as (? & ? & _). discriminate.
    - assert (U : us = vs).
      { rewrite <- repeat_snoc, app_assoc in TR. apply app_inj_tail in TR as [TR _]. destruct j as [|j]; [cbn in TR; rewrite app_nil_r in TR; now apply INJ|].
        exfalso. assert (Q : In (Nothing V) (map (Got V) vs)) by (rewrite <- TR; apply in_app_iff; right; now left). apply in_map_iff in Q as (? & ? & _). discriminate. }
      subst us. destruct (parser_all triples) as (c1 & Y1 & E1). destruct (yields_prefix next _ _ _ Y0 _ _ _ Y1 (or_introl E1)) as (m & EM & Ym).
      inversion Ym; subst; [|congruence]. rewrite app_nil_r in EM. now rewrite EM.
    - exfalso. assert (Q : In (Thrown V) (map (Got V) vs ++ [Nothing V])) by (rewrite <- TR; apply in_app_iff; right; now left).
      apply in_app_iff in Q as [Q|[Q|[]]]; [apply in_map_iff in Q as (? & ? & _)|]; discriminate.
  Qed.
  Lemma round_exists triples (ts : stages V S) vs : Forall stage_ok ts -> through bs ts (firstn max triples) = Some vs -> round bs max ts triples vs (skipn max triples) (length triples <? max).
  Proof.
    intros OK T. destruct (executions next bs BS (triples, 0, false) ts (length vs + 1) OK) as (tr & y & X & L). destruct (parser_all triples) as (c' & Y & E).
    pose proof (complete next bs BS _ ts _ _ _ vs tr y OK Y E T X) as TR. rewrite L in TR.
    assert (TR2 : tr = map (Got V) vs ++ [Nothing V]).
    { rewrite TR, firstn_app, firstn_all2 by (rewrite map_length; lia). f_equal. rewrite map_length. replace (length vs + 1 - length vs) with 1 by lia. rewrite Nat.add_1_r. reflexivity. }
    exists y, (length (firstn max triples)). rewrite <- TR2. split; [exact X|]. apply (parser_done triples ts tr y OK X). rewrite TR2. apply in_app_iff. right. now left.
  Qed.
  Lemma rounds_positive (ts : stages V S) triples vss rest : Forall stage_ok ts -> rounds bs max ts triples vss rest -> 0 < max.
  Proof.
    intros OK. induction 1 as [p vs p' R|p vs p' vss p'' R H IH]; [|exact IH]. destruct (round_result p ts vs p' true OK R) as (_ & _ & E). symmetry in E. apply Nat.ltb_lt in E. lia.
  Qed.
  Lemma rounds_result (ts : stages V S) triples vss rest : Forall stage_ok ts -> rounds bs max ts triples vss rest ->
    rest = [] /\ exists chunks, concat chunks = triples /\ Forall (fun ch => length ch <= max) chunks /\ Forall2 (fun ch vs => through bs ts ch = Some vs) chunks vss /\ length vss = length triples / max + 1.
  Proof.
    intros OK. induction 1 as [p vs p' R|p vs p' vss p'' R H IH].
    - destruct (round_result p ts vs p' true OK R) as (T & -> & E). symmetry in E. apply Nat.ltb_lt in E. rewrite skipn_all2 by lia. split; [reflexivity|].
      exists [firstn max p]. rewrite firstn_all2 in * by lia. cbn [concat]. rewrite app_nil_r. split; [reflexivity|]. split; [constructor; [lia|constructor]|]. split; [constructor; [exact T|constructor]|].
      rewrite Nat.div_small by lia. reflexivity.
    - destruct (round_result p ts vs p' false OK R) as (T & -> & E). symmetry in E. apply Nat.ltb_ge in E. destruct IH as (-> & chunks & CC & FL & F2 & LV). split; [reflexivity|].
      exists (firstn max p :: chunks). cbn [concat]. rewrite CC. split; [apply firstn_skipn|]. split; [constructor; [rewrite firstn_length; lia|exact FL]|]. split; [constructor; assumption|].
      cbn [length]. rewrite LV, skipn_length. pose proof (rounds_positive ts _ _ _ OK H) as M.
      assert (LP : length p = length p - max + 1 * max) by lia. rewrite LP at 2. rewrite Nat.div_add by lia. lia.
  Qed.
  Lemma rounds_exist (ts : stages V S) : 0 < max -> Forall stage_ok ts -> (forall l, through bs ts l <> None) -> forall triples, exists vss, rounds bs max ts triples vss [].
  Proof.
    intros M OK T triples. remember (length triples) as n eqn:L. revert triples L. induction n as [n IH] using lt_wf_ind. intros triples L.
    destruct (through bs ts (firstn max triples)) as [vs|] eqn:E; [|now apply T in E]. pose proof (round_exists triples ts vs OK E) as R.
    destruct (length triples <? max) eqn:LT.
    - apply Nat.ltb_lt in LT. rewrite skipn_all2 in R by lia. exists [vs]. now apply r_last.
    - apply Nat.ltb_ge in LT. destruct (IH (length (skipn max triples))) with (triples := skipn max triples) as (vss & RS); [rewrite skipn_length; lia|reflexivity|].
      exists (vs :: vss). eapply r_more; eauto.
  Qed.
End Parser.
