(* The values of the result of a join are values of its operands. *)
From Coq Require Import List NArith Arith Bool Lia Permutation.
From Verif Require Import Std_Model Std_Proof Table_Spec Join_Model MultiJoin_Model.
Import ListNotations.
Open Scope N_scope.

Section Values.
Variable Q : N -> Prop.
Hypothesis Q0 : Q 0.
Definition okr (r : row) : Prop := Forall Q r.
Definition okt (t : table) : Prop := Forall okr t.

Lemma okt_in t r : okt t -> In r t -> okr r.
Proof. intros H. rewrite (Forall_forall okr t) in H. auto. Qed.
Lemma okt_incl t t' : okt t -> incl t' t -> okt t'.
Proof. intros H I. apply Forall_forall. intros r Hr. apply (okt_in t); auto. Qed.
Lemma okr_col c r : okr r -> Q (col c r).
Proof.
  intros H. unfold col. destruct (nth_in_or_default c r 0) as [I| ->]; auto. unfold okr in H. rewrite Forall_forall in H. auto.
Qed.
Lemma okr_cols cs r : okr r -> okr (cols cs r).
Proof. intros H. apply Forall_forall. intros x Hx. apply in_map_iff in Hx as (c & <- & _). now apply okr_col. Qed.
Lemma okr_app a b : okr a -> okr b -> okr (a ++ b).
Proof. intros. now apply Forall_app. Qed.
Lemma okr_incl a b : okr a -> incl b a -> okr b.
Proof. intros H I. apply Forall_forall. unfold okr in H. rewrite Forall_forall in H. auto. Qed.
Lemma okt_app a b : okt a -> okt b -> okt (a ++ b).
Proof. intros. now apply Forall_app. Qed.
Lemma drop_while_incl {A} (f : A -> bool) l : incl (drop_while f l) l.
Proof. induction l as [|a l IH]; cbn; [apply incl_refl|]. destruct (f a); [now apply incl_tl|apply incl_refl]. Qed.
Lemma take_while_incl {A} (f : A -> bool) l : incl (take_while f l) l.
Proof. induction l as [|a l IH]; cbn; [apply incl_refl|]. destruct (f a); [|easy]. intros x [<-|H]; [now left|right; auto]. Qed.
Lemma firstn_incl {A} n (l : list A) : incl (firstn n l) l.
Proof. intros x Hx. rewrite <- (firstn_skipn n l). apply in_or_app. now left. Qed.
Lemma skipn_incl {A} n (l : list A) : incl (skipn n l) l.
Proof. intros x Hx. rewrite <- (firstn_skipn n l). apply in_or_app. now right. Qed.
Lemma okt_drop f t : okt t -> okt (drop_while f t).
Proof. intros H. apply (okt_incl t); auto. apply drop_while_incl. Qed.
Lemma okt_take f t : okt t -> okt (take_while f t).
Proof. intros H. apply (okt_incl t); auto. apply take_while_incl. Qed.
Lemma okt_skipn n t : okt t -> okt (skipn n t).
Proof. intros H. apply (okt_incl t); auto. apply skipn_incl. Qed.
Lemma okt_map f t : (forall r, okr r -> okr (f r)) -> okt t -> okt (map f t).
Proof. intros F H. apply Forall_forall. intros r Hr. apply in_map_iff in Hr as (x & <- & Hx). apply F. now apply (okt_in t). Qed.
Lemma okt_perm a b : Permutation a b -> okt a -> okt b.
Proof. intros P H. apply (okt_incl a); auto. intros r Hr. now apply (Permutation_in _ (Permutation_sym P)). Qed.
Lemma okt_filter f t : okt t -> okt (filter f t).
Proof. intros H. apply (okt_incl t); auto. intros r Hr. now apply filter_In in Hr. Qed.

Lemma okr_result jc ra rb : okr ra -> okr rb -> okr (result_row jc ra rb).
Proof.
  intros A B. unfold result_row. apply okr_app; auto. apply okr_app; (eapply okr_incl; [exact B|]); [apply firstn_incl|apply skipn_incl].
Qed.
Definition okl (r : loop_result) : Prop :=
  match r with Finish out => okt out | Cont sa sb out => okt sa /\ okt sb /\ okt out | UB => True end.
Lemma okl_emit out r : okt out -> okl r -> okl (emit out r).
Proof. intros H. destruct r as [o|sa sb o|]; cbn; auto; intros; [now apply okt_app|]. intuition. now apply okt_app. Qed.
Lemma match_loop_ok jc1 jc2 : forall sa sb, okt sa -> okt sb -> okl (match_loop jc1 jc2 sa sb).
Proof.
  induction sa as [|ra sa IH]; intros sb A B; [destruct sb; exact I|]. destruct sb as [|rb sb]; [exact I|]. cbn [match_loop].
  inversion A as [|? ? A1 A2]; subst. destruct (col jc1 ra =? col jc2 rb); [|cbn; intuition; constructor].
  assert (O : okt (map (result_row jc2 ra) (take_while (fun r => col jc1 ra =? col jc2 r) (rb :: sb)))).
  { apply okt_map; [intros r Hr; now apply okr_result|]. now apply okt_take. }
  assert (D : okt (drop_while (fun r => col jc1 ra =? col jc2 r) (rb :: sb))) by now apply okt_drop.
  destruct sa as [|ra' sa]; [exact O|]. destruct (col jc1 ra' =? col jc2 rb).
  - apply okl_emit; auto.
  - destruct (drop_while (fun r => col jc1 ra =? col jc2 r) (rb :: sb)) as [|x l] eqn:E; [exact O|]. apply okl_emit; auto.
Qed.
Lemma option_app (out : table) x t : option_map (app out) x = Some t -> exists o, x = Some o /\ t = out ++ o.
Proof. destruct x as [o|]; [|discriminate]. intros E. injection E as <-. eauto. Qed.
Lemma zipper_ok jc1 jc2 : forall fuel sa sb t, okt sa -> okt sb -> zipper fuel jc1 jc2 sa sb = Some t -> okt t.
Proof.
  induction fuel as [|fuel IH]; intros sa sb t A B E; [discriminate|]. cbn [zipper] in E.
  destruct sa as [|ra sa]; [injection E as <-; constructor|]. destruct sb as [|rb sb]; [injection E as <-; constructor|].
  pose proof (okt_drop (fun r => col jc1 r <? col jc2 rb) _ A) as A1. destruct (drop_while _ (ra :: sa)) as [|ra1 sa1] in E, A1; [injection E as <-; constructor|].
  pose proof (okt_drop (fun r => col jc2 r <? col jc1 ra1) _ B) as B1. destruct (drop_while _ (rb :: sb)) as [|rb1 sb1] in E, B1; [injection E as <-; constructor|].
  pose proof (match_loop_ok jc1 jc2 _ _ A1 B1) as M. destruct (match_loop jc1 jc2 (ra1 :: sa1) (rb1 :: sb1)) as [out|sa2 sb2 out|]; [injection E as <-; exact M| |discriminate].
  destruct M as (M1 & M2 & M3). apply option_app in E as (o & E & ->). apply okt_app; auto. eapply IH; [| |exact E]; auto.
Qed.
Lemma gallop_right_ok jc1 jc2 l2 : okt l2 -> forall fuel sa j t, okt sa -> gallop_right fuel jc1 jc2 l2 sa j = Some t -> okt t.
Proof.
  intros B. induction fuel as [|fuel IH]; intros sa j t A E; [discriminate|]. cbn [gallop_right] in E.
  destruct sa as [|ra sa]; [injection E as <-; constructor|]. destruct (Nat.leb (length l2) j); [injection E as <-; constructor|].
  destruct (key_at l2 jc2 j) as [y|]; [|discriminate].
  pose proof (okt_drop (fun r => col jc1 r <? y) _ A) as A1. destruct (drop_while _ (ra :: sa)) as [|ra1 sa1] in E, A1; [injection E as <-; constructor|].
  destruct (gallop _ _ _ _ _ _ _) as [[[j1 last]|]|]; [|injection E as <-; constructor|discriminate].
  destruct (settle _ _ _ _ _) as [j2|]; [|discriminate].
  pose proof (match_loop_ok jc1 jc2 _ _ A1 (okt_skipn j2 l2 B)) as M.
  destruct (match_loop _ _ _ _) as [out|sa2 sb2 out|]; [injection E as <-; exact M| |discriminate].
  destruct M as (M1 & M2 & M3). apply option_app in E as (o & E & ->). apply okt_app; auto. eapply IH; [|exact E]; auto.
Qed.
Lemma gallop_left_ok jc1 jc2 l1 l2 : okt l1 -> okt l2 -> forall fuel i j t, gallop_left fuel jc1 jc2 l1 l2 i j = Some t -> okt t.
Proof.
  intros A B. induction fuel as [|fuel IH]; intros i j t E; [discriminate|]. cbn [gallop_left] in E.
  destruct (Nat.leb (length l1) i || Nat.leb (length l2) j); [injection E as <-; constructor|].
  destruct (key_at l2 jc2 j) as [x|]; [|discriminate].
  destruct (gallop _ _ _ _ _ _ _) as [[[i1 last]|]|]; [|injection E as <-; constructor|discriminate].
  destruct (settle _ _ _ _ _) as [i2|]; [|discriminate]. destruct (key_at l1 jc1 i2) as [y|]; [|discriminate].
  pose proof (okt_drop (fun r => col jc2 r <? y) _ (okt_skipn j l2 B)) as B1.
  destruct (drop_while _ (skipn j l2)) as [|rb1 sb1] in E, B1; [injection E as <-; constructor|].
  pose proof (match_loop_ok jc1 jc2 _ _ (okt_skipn i2 l1 A) B1) as M.
  destruct (match_loop _ _ _ _) as [out|sa2 sb2 out|]; [injection E as <-; exact M| |discriminate].
  destruct M as (M1 & M2 & M3). apply option_app in E as (o & E & ->). apply okt_app; auto. eapply IH. exact E.
Qed.
Lemma join_ok a jc1 b jc2 t : okt a -> okt b -> join a jc1 b jc2 = Some t -> okt t.
Proof.
  intros A B E. unfold join in E. destruct a as [|ra a]; [injection E as <-; constructor|]. destruct b as [|rb b]; [injection E as <-; constructor|].
  cbv zeta in E. destruct (GALLOP_THRESHOLD <? _); [eapply gallop_left_ok; [| |exact E]; auto|].
  destruct (GALLOP_THRESHOLD <? _); [eapply gallop_right_ok; [| |exact E]; auto|]. eapply zipper_ok; [| |exact E]; auto.
Qed.

Lemma cross_ok ls rs : okt ls -> okt rs -> okt (cross_product ls rs).
Proof.
  intros A B. apply Forall_forall. intros r Hr. unfold cross_product in Hr. apply in_flat_map in Hr as (l & Hl & Hr). apply in_map_iff in Hr as (x & <- & Hx).
  apply okr_app; [now apply (okt_in ls)|now apply (okt_in rs)].
Qed.
Lemma full_loop_ok cp c (P : N -> Prop) : (forall id g, P id -> okt g -> okt (cp id g)) -> forall ndr current group,
  P current -> (forall r, In r ndr -> P (col c r)) -> okt group -> okt ndr -> okt (full_scan_loop cp c current group ndr).
Proof.
  intros F. induction ndr as [|r ndr IH]; intros current group Pc Hp G H; cbn [full_scan_loop]; [now apply F|].
  inversion H as [|? ? H1 H2]; subst. destruct (col c r =? current).
  - apply IH; auto; [intros; apply Hp; now right|]. apply okt_app; auto. repeat (constructor; auto).
  - apply okt_app; [now apply F|]. apply IH; auto; [apply Hp; now left|intros; apply Hp; now right|repeat (constructor; auto)].
Qed.
Lemma full_left_ok scan ndr rc : (forall r, In r ndr -> okt (scan (col rc r))) -> okt ndr -> okt (full_scan_left scan ndr rc).
Proof.
  intros S H. unfold full_scan_left. destruct ndr as [|r ndr]; [constructor|].
  apply (full_loop_ok _ _ (fun id => okt (scan id))); auto; [|apply S; now left|constructor]. intros id g P G. now apply cross_ok.
Qed.
Lemma full_right_ok scan ndr lc : (forall r, In r ndr -> okt (scan (col lc r))) -> okt ndr -> okt (full_scan_right scan ndr lc).
Proof.
  intros S H. unfold full_scan_right. destruct ndr as [|r ndr]; [constructor|].
  apply (full_loop_ok _ _ (fun id => okt (scan id))); auto; [|apply S; now left|constructor]. intros id g P G. now apply cross_ok.
Qed.
(* only the scans for the ids of the other operand matter *)
Lemma full_loop_ext cp cp' c : forall ndr current group, cp current = cp' current -> (forall r, In r ndr -> cp (col c r) = cp' (col c r)) ->
  full_scan_loop cp c current group ndr = full_scan_loop cp' c current group ndr.
Proof.
  induction ndr as [|r ndr IH]; intros current group E H; cbn [full_scan_loop]; [now rewrite E|]. destruct (col c r =? current).
  - apply IH; auto. intros; apply H; now right.
  - rewrite E. f_equal. apply IH; [apply H; now left|intros; apply H; now right].
Qed.
Lemma full_left_ext scan scan' ndr rc : (forall r, In r ndr -> scan (col rc r) = scan' (col rc r)) ->
  full_scan_left scan ndr rc = full_scan_left scan' ndr rc.
Proof.
  intros H. unfold full_scan_left. destruct ndr as [|r ndr]; [reflexivity|]. apply full_loop_ext; [rewrite H; [reflexivity|now left]|].
  intros s Hs. now rewrite H.
Qed.
Lemma full_right_ext scan scan' ndr lc : (forall r, In r ndr -> scan (col lc r) = scan' (col lc r)) ->
  full_scan_right scan ndr lc = full_scan_right scan' ndr lc.
Proof.
  intros H. unfold full_scan_right. destruct ndr as [|r ndr]; [reflexivity|]. apply full_loop_ext; [rewrite H; [reflexivity|now left]|].
  intros s Hs. now rewrite H.
Qed.

Lemma cross_loop_ok jcs both : (forall ra rb, okr ra -> okr rb -> okr (both ra rb)) -> forall sa sb, okt sa -> okt sb ->
  let '(out, sa', sb') := cross_loop jcs both sa sb in okt out /\ okt sa' /\ okt sb'.
Proof.
  intros F. induction sa as [|ra sa IH]; intros sb A B; [cbn; intuition; constructor|]. destruct sb as [|rb sb]; [cbn; intuition; constructor|].
  inversion A as [|? ? A1 A2]; subst. inversion B as [|? ? B1 B2]; subst. cbn [cross_loop].
  assert (O : okt (map (both ra) (rb :: take_while (rows_match jcs ra) sb))).
  { apply okt_map; [auto|]. constructor; auto. now apply okt_take. }
  assert (D : okt (drop_while (rows_match jcs ra) sb)) by now apply okt_drop.
  destruct sa as [|ra' sa]; [split; [exact O|split; [constructor|exact D]]|]. destruct (rows_match jcs ra' rb); [|split; [exact O|split; [exact A2|exact D]]].
  specialize (IH (rb :: sb) A2 B). destruct (cross_loop jcs both (ra' :: sa) (rb :: sb)) as [[o sa'] sb']. destruct IH as (I1 & I2 & I3).
  split; [now apply okt_app|split; auto].
Qed.
Lemma multi_loop_ok jcs both : (forall ra rb, okr ra -> okr rb -> okr (both ra rb)) -> forall fuel sa sb t, okt sa -> okt sb ->
  multi_loop fuel jcs both sa sb = Some t -> okt t.
Proof.
  intros F. induction fuel as [|fuel IH]; intros sa sb t A B E; [discriminate|]. cbn [multi_loop] in E. destruct (hd (0%nat, 0%nat) jcs) as [c0 d0].
  destruct sa as [|ra sa]; [injection E as <-; constructor|]. destruct sb as [|rb sb]; [injection E as <-; constructor|].
  pose proof (okt_drop (fun r => col c0 r <? col d0 rb) _ A) as A1. destruct (drop_while _ (ra :: sa)) as [|ra1 sa1] in E, A1; [injection E as <-; constructor|].
  pose proof (okt_drop (fun r => col d0 r <? col c0 ra1) _ B) as B1. destruct (drop_while _ (rb :: sb)) as [|rb1 sb1] in E, B1; [injection E as <-; constructor|].
  pose proof (cross_loop_ok jcs both F _ _ A1 B1) as C. inversion A1 as [|? ? A2 A3]; subst. inversion B1 as [|? ? B2 B3]; subst.
  assert (G : exists out sa2 sb2, okt out /\ okt sa2 /\ okt sb2 /\ option_map (app out) (multi_loop fuel jcs both sa2 sb2) = Some t).
  { destruct (compare_rows jcs ra1 rb1).
    - destruct (cross_loop jcs both (ra1 :: sa1) (rb1 :: sb1)) as [[out sa2] sb2]. exists out, sa2, sb2. intuition.
    - exists [], sa1, (rb1 :: sb1). repeat split; auto. constructor.
    - exists [], (ra1 :: sa1), sb1. repeat split; auto. constructor. }
  destruct G as (out & sa2 & sb2 & G1 & G2 & G3 & G4). apply option_app in G4 as (o & G4 & ->). apply okt_app; auto. eapply IH; [| |exact G4]; auto.
Qed.
Lemma multi_ok wb a b jcs t : okt a -> okt b -> multi_column_join wb a b jcs = Some t -> okt t.
Proof.
  intros A B E. unfold multi_column_join in E. destruct a as [|ra a]; [injection E as <-; constructor|]. destruct b as [|rb b]; [injection E as <-; constructor|].
  destruct (bitmap (map snd jcs)) as [m|]; [|discriminate]. destruct (forallb _ _); [|discriminate].
  eapply multi_loop_ok; [| | |exact E]; auto. intros x y X Y. unfold row_both, rest_of_b. apply okr_app; auto. now apply okr_cols.
Qed.

Lemma filter_equal_ok fc1 fc2 : forall fuel sv sf out sv' sf', okt sv -> filter_equal_loop fuel fc1 fc2 sv sf = Some (out, sv', sf') ->
  okt out /\ okt sv'.
Proof.
  induction fuel as [|fuel IH]; intros sv sf out sv' sf' A E; [discriminate|]. cbn [filter_equal_loop] in E.
  destruct sv as [|v sv]; [discriminate|]. destruct sf as [|f sf]; [discriminate|]. inversion A as [|? ? A1 A2]; subst.
  destruct (col fc1 v =? col 0 f); [|injection E as <- <- <-; split; [constructor|exact A]].
  assert (G : exists o sv1 sf1, okt o /\ okt sv1 /\
    match sv1, sf1 with
    | [], _ => Some (o, sv1, sf1)
    | _, [] => Some (o, sv1, sf1)
    | _, _ => option_map (fun '(o', x, y) => (o ++ o', x, y)) (filter_equal_loop fuel fc1 fc2 sv1 sf1)
    end = Some (out, sv', sf')).
  { assert (O : okt [v]) by (repeat (constructor; auto)). assert (Z : okt []) by constructor.
    destruct (col fc2 v =? col 1 f); [exists [v], sv, (f :: sf); auto|].
    destruct (col fc2 v <? col 1 f); [exists [], sv, (f :: sf); auto|exists [], (v :: sv), sf; auto]. }
  clear E. destruct G as (o & sv1 & sf1 & G1 & G2 & E).
  destruct sv1 as [|v1 sv1]; [injection E as <- <- <-; auto|]. destruct sf1 as [|f1 sf1]; [injection E as <- <- <-; auto|].
  destruct (filter_equal_loop fuel fc1 fc2 (v1 :: sv1) (f1 :: sf1)) as [[[o' x] y]|] eqn:L; [|discriminate]. injection E as <- <- <-.
  destruct (IH _ _ _ _ _ G2 L) as [I1 I2]. split; auto. now apply okt_app.
Qed.
Lemma filter_loop_ok fc1 fc2 : forall fuel sv sf t, okt sv -> filter_loop fuel fc1 fc2 sv sf = Some t -> okt t.
Proof.
  induction fuel as [|fuel IH]; intros sv sf t A E; [discriminate|]. cbn [filter_loop] in E.
  destruct sv as [|v sv]; [injection E as <-; constructor|]. destruct sf as [|f sf]; [injection E as <-; constructor|].
  pose proof (okt_drop (fun r => col fc1 r <? col 0 f) _ A) as A1. destruct (drop_while _ (v :: sv)) as [|v1 sv1] in E, A1; [injection E as <-; constructor|].
  destruct (drop_while _ (f :: sf)) as [|f1 sf1]; [injection E as <-; constructor|].
  destruct (filter_equal_loop _ fc1 fc2 (v1 :: sv1) (f1 :: sf1)) as [[[out sv2] sf2]|] eqn:L; [|discriminate].
  destruct (filter_equal_ok _ _ _ _ _ _ _ _ A1 L) as [L1 L2]. apply option_app in E as (o & E & ->). apply okt_app; auto. eapply IH; [|exact E]. exact L2.
Qed.
Lemma engine_filter_ok v fc1 fc2 f t : okt v -> engine_filter v fc1 fc2 f = Some t -> okt t.
Proof.
  intros A E. unfold engine_filter in E. destruct v as [|r v]; [injection E as <-; constructor|]. destruct f as [|s f]; [injection E as <-; constructor|].
  eapply filter_loop_ok; [|exact E]. exact A.
Qed.
Lemma two_ok wl wr l r a b c d t : okt l -> okt r -> two_column_join wl wr l r a b c d = TcjTable (Some t) -> okt t.
Proof.
  intros A B E. unfold two_column_join in E. destruct (_ || _); [|discriminate].
  destruct (Nat.eqb wr 2 && Nat.eqb c 0 && Nat.eqb d 1); injection E as E; (eapply engine_filter_ok; [|exact E]); auto.
Qed.
End Values.
