From Coq Require Import String List NArith Arith Bool Lia.
From Verif Require Strings_Model Strings_Thm Lines_Model Lines_Proof.
From Verif Require Import Factors_Spec Factors_Model.
Import ListNotations.
Local Open Scope list_scope.

Section Read.
Context {D : Type}.
Variables (zero : D) (atof : list N -> D).
Lemma find_assign (f : factors D) k d key : find key (assign f k d) = if list_eq_dec N.eq_dec key k then Some d else find key f.
Proof. unfold find, assign. cbn [List.find fst]. unfold same at 1. now destruct (list_eq_dec N.eq_dec key k). Qed.
Lemma find_line (f : factors D) k d key : find key (assign (touch zero f k) k d) = if list_eq_dec N.eq_dec key k then Some d else find key f.
Proof.
  rewrite find_assign. destruct (list_eq_dec N.eq_dec key k) as [E|E]; [reflexivity|]. unfold touch. destruct (find k f); [reflexivity|].
  rewrite find_assign. now destruct (list_eq_dec N.eq_dec key k).
Qed.
Lemma split_line e : plain (fst e) -> plain (snd e) -> Strings_Model.split (line_of e) 9 = Some [fst e; snd e].
Proof.
  intros [H1 _] [H2 _]. apply (Strings_Thm.C39_split_join [fst e; snd e] 9%N); try discriminate. repeat constructor; assumption.
Qed.
Lemma split_two l k v : Strings_Model.split l 9 = Some [k; v] -> count_occ N.eq_dec l 9%N = 1.
Proof.
  intros E. destruct l as [|c l]; [discriminate|]. destruct (Strings_Thm.C39_split (c :: l) 9%N ltac:(discriminate)) as (ps & E' & _ & J & F).
  rewrite E in E'. injection E' as <-. rewrite <- J. inversion F as [|? ? F1 F']; subst. inversion F' as [|? ? F2 _]; subst.
  cbn [Strings_Model.join fold_left]. rewrite !count_occ_app. apply (count_occ_not_In N.eq_dec) in F1, F2. rewrite F1, F2. reflexivity.
Qed.
Lemma read_says es : Forall (fun e => plain (fst e) /\ plain (snd e)) es -> forall f, exists f',
  read_lines zero atof (map line_of es) f = Ok f' /\ (forall key v, says es key v -> find key f' = Some (atof v)) /\ (forall key, silent es key -> find key f' = find key f).
Proof.
  induction 1 as [|e es [P1 P2] F IH]; intros f; cbn [map read_lines].
  - exists f. split; [reflexivity|]. split; [intros key v H; inversion H|reflexivity].
  - rewrite split_line by assumption. destruct (IH (assign (touch zero f (fst e)) (fst e) (atof (snd e)))) as (f' & E & S & Q). exists f'. split; [exact E|]. split.
    + intros key v H. inversion H as [es' k v' N|e' es' k v' N]; subst.
      * rewrite (Q key N), find_line. cbn [fst snd]. destruct (list_eq_dec N.eq_dec key key); congruence.
      * now apply S.
    + intros key N. rewrite Q by (intros v I; apply (N v); now right). rewrite find_line. destruct (list_eq_dec N.eq_dec key (fst e)) as [->|]; [|reflexivity].
      elim (N (snd e)). left. now destruct e.
Qed.
Lemma read_throws ls : (exists l, In l ls /\ count_occ N.eq_dec l 9%N <> 1) -> forall f, read_lines zero atof ls f = Throw.
Proof.
  induction ls as [|x ls IH]; intros (l & I & C) f; [destruct I|]. cbn [read_lines].
  destruct (Strings_Model.split x 9) as [[|k [|v [|w r]]]|] eqn:E; try reflexivity. destruct I as [->|I].
  - elim C. exact (split_two l k v E).
  - apply IH. exists l. auto.
Qed.
Lemma read_keeps ls key : forall f f', read_lines zero atof ls f = Ok f' -> find key f <> None -> find key f' <> None.
Proof.
  induction ls as [|x ls IH]; intros f f' E H; cbn [read_lines] in E; [injection E as <-; exact H|].
  destruct (Strings_Model.split x 9) as [[|k [|v [|w r]]]|]; try discriminate. apply IH in E; [exact E|]. rewrite find_line. now destruct (list_eq_dec N.eq_dec key k).
Qed.
End Read.
