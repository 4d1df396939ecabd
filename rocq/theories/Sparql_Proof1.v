(* Proofs about the SPARQL parser: the tokens before the parser. *)
From Coq Require Import Ascii String List NArith ZArith Arith Bool Lia ZifyBool ZifyN ZifyNat.
From Verif Require Import Strings_Model SLex_Model Sparql_Model SLex_Spec Sparql_Spec SLex_Proof SLex_Proof2 SLex_Proof3.
From Verif Require Conv_Model Turtle_Model Turtle_Spec Turtle_Proof.
Import ListNotations.
Open Scope N_scope.
Open Scope list_scope.

Definition possible (k : kind) (v : text) : Prop := exists w f, token_text k w v f.
(* The lexer stands before these items. *)
Definition At (is : list item) (l : lexer) : Prop :=
  match is with
  | [] => type (next l) = WS /\ rest l = [] /\ Forall is_blank (raw (next l))
  | Tok k v :: is' => next l = T v (type_of k) /\ possible k v /\ written_as is' (rest l)
  | Raw w :: is' => exists k w1 w2 c d, w = w1 ++ w2 /\ next l = T w1 (type_of k) /\ possible k w1 /\ (k = KIri \/ w1 = [40] \/ w1 = [94]) /\
      rest l = w2 ++ c :: d /\ Forall (fun x => ~ is_space x) w2 /\ is_blank c /\ written_as is' (c :: d)
  end.
Lemma read_items is d : written_as is d -> forall c n, exists l, readNext (L c n d) = Ok l /\ current l = n /\ At is l.
Proof.
  intros H c n. destruct H as [g G|k w v f is g d G H W D|k w1 w2 f is g c' d G H K Sp F B W].
  - destruct (read_end c n g G) as (r & E & R). rewrite E. eexists; repeat split; auto.
  - rewrite (read_token c n g k w v f d) by auto. eexists; repeat split; auto. exists w, f; auto.
  - rewrite (read_token c n g k w1 w1 f (w2 ++ c' :: d)) by auto. eexists; repeat split.
    exists k, w1, w2, c', d. repeat split; auto. exists w1, f; auto.
Qed.
Lemma read_tok k v is l : At (Tok k v :: is) l -> exists l', readNext l = Ok l' /\ current l' = T v (type_of k) /\ At is l'.
Proof.
  intros (Nx & _ & W). destruct l as [c n d]. cbn [next rest] in *. subst n.
  destruct (read_items is d W c (T v (type_of k))) as (l' & E & C & A). eauto.
Qed.
Lemma until_space_ok w c d : Forall (fun x => ~ is_space x) w -> is_blank c -> until_space (w ++ c :: d) = (w, c :: d).
Proof.
  intros F B. induction F as [|x w Hx _ IH]; cbn [app until_space].
  - replace (isspace c) with true; [reflexivity|]. unfold isspace. cbn in B. lia.
  - replace (isspace x) with false. 2: { symmetry. unfold is_space in Hx. unfold isspace. lia. }
    rewrite IH. reflexivity.
Qed.
Lemma read_raw w is l : At (Raw w :: is) l ->
  exists l', readNext (expandNextUntilWhitespace l) = Ok l' /\ raw (current l') = w /\ At is l'.
Proof.
  intros (k & w1 & w2 & c & d & -> & Nx & _ & _ & R & Sp & B & W). destruct l as [cu n r]. cbn [next rest] in *. subst.
  unfold expandNextUntilWhitespace. cbn [next rest current]. rewrite until_space_ok by auto. cbn [raw type].
  destruct (read_items is (c :: d) W cu (T (w1 ++ w2) (type_of k))) as (l' & E & C & A). exists l'. rewrite C. auto.
Qed.

(* Texts that the parser looks for *)
Definition not_value (s : text) : bool :=
  match s with
  | [] => false
  | a :: r =>
      negb (existsb (N.eqb a) [63; 34; 64; 103; 9; 10; 13; 32] || Turtle_Model.digit a) &&
      match r with [] => negb (a =? 58) | b :: _ => negb ((a =? 111) && (b =? 114)) && (negb (a =? 124) && (negb (Turtle_Model.digit b) &&
        (negb (existsb (N.eqb 58) s) && negb (existsb (N.eqb 62) s)))) end
  end.
Definition differs (i : item) (s : text) : bool :=
  match i with
  | Tok (KWord | KSymbol | KAggregate) v => negb (text_eqb v s)
  | Tok _ _ => not_value s
  | Raw _ => not_value s && negb (text_eqb s [40]) && negb (text_eqb s [94])
  end.
Lemma text_eqb_refl s : text_eqb s s = true.
Proof. apply text_eqb_ok. reflexivity. Qed.
Lemma text_eqb_no a b : a <> b -> text_eqb a b = false.
Proof. intros H. destruct (text_eqb a b) eqn:E; auto. apply text_eqb_ok in E. contradiction. Qed.
Lemma value_differs k v s : possible k v -> not_value s = true -> ~ In k [KWord; KSymbol; KAggregate] -> v <> s.
Proof.
  intros (w & f & H) Nv Nk E. subst s. destruct H; try (exfalso; apply Nk; cbn; tauto).
  - (* group by *) cbn in Nv. discriminate.
  - (* order by *) cbn in Nv. discriminate.
  - cbn in Nv. discriminate.
  - destruct H as [u B|p l P Lo].
    + cbn [app] in Nv. unfold not_value in Nv. destruct (u ++ [62]) as [|b r] eqn:E; [destruct u; discriminate|].
      replace (existsb (N.eqb 62) (60 :: b :: r)) with true in Nv; [rewrite !andb_false_r in Nv; discriminate|].
      symmetry. apply existsb_exists. exists 62. split; [|reflexivity]. right. rewrite <- E. apply in_or_app. right. left. reflexivity.
    + destruct (p ++ [58] ++ l) as [|a r] eqn:E; [discriminate|]. assert (I : In 58 (a :: r)) by (rewrite <- E; apply in_or_app; right; left; reflexivity).
      unfold not_value in Nv. destruct r as [|b r].
      * destruct I as [->|[]]. discriminate.
      * replace (existsb (N.eqb 58) (a :: b :: r)) with true in Nv.
        { cbn [negb andb] in Nv. rewrite !andb_false_r in Nv. discriminate. }
        symmetry. apply existsb_exists. exists 58. split; auto.
  - cbn in Nv. discriminate.
  - cbn in Nv. discriminate.
  - destruct ds as [|d ds]; [contradiction|]. assert (D : Turtle_Model.digit d = true).
    { assert (Hd := Forall_inv H1). unfold Turtle_Model.digit, Turtle_Model.between. do 2 red in Hd. lia. }
    destruct H as [-> | ->]; cbn [app] in Nv; unfold not_value in Nv; rewrite D in Nv; rewrite ?orb_true_r in Nv; cbn [negb andb] in Nv;
      rewrite ?andb_false_r in Nv; discriminate.
  - destruct ds as [|d ds]; [contradiction|]. assert (D : Turtle_Model.digit d = true).
    { assert (Hd := Forall_inv H1). unfold Turtle_Model.digit, Turtle_Model.between. do 2 red in Hd. lia. }
    destruct H as [-> | ->]; cbn [app] in Nv; unfold not_value in Nv; rewrite D in Nv; rewrite ?orb_true_r in Nv; cbn [negb andb] in Nv;
      rewrite ?andb_false_r in Nv; discriminate.
  - cbn in Nv. discriminate.
Qed.
Definition head_differs (is : list item) (s : text) : bool :=
  match is with
  | [] => match s with c :: _ => negb (Turtle_Model.blank c) | [] => false end
  | i :: _ => differs i s
  end.
Lemma at_differs is l s : At is l -> head_differs is s = true -> text_eqb (raw (next l)) s = false.
Proof.
  intros A D. apply text_eqb_no. destruct is as [|[k v|w] is]; cbn [head_differs] in D.
  - destruct A as (_ & _ & B). destruct s as [|c s]; [discriminate|]. intros E. rewrite E in B. inversion B; subst.
    unfold Turtle_Model.blank in D. cbn in H1. lia.
  - destruct A as (-> & P & _). cbn [raw]. intros E. destruct (in_dec (fun a b : kind => ltac:(decide equality)) k [KWord; KSymbol; KAggregate]) as [I|I].
    + replace (differs (Tok k v) s) with (negb (text_eqb v s)) in D by (cbn in I; destruct I as [<- | [<- | [<- |[]]]]; reflexivity).
      subst. rewrite text_eqb_refl in D. discriminate.
    + apply (value_differs k v s P); auto. destruct k; auto; exfalso; apply I; cbn; tauto.
  - destruct A as (k & w1 & w2 & c & d & -> & -> & P & K & _). cbn [raw]. cbn [differs] in D. apply andb_true_iff in D as [D D3].
    apply andb_true_iff in D as [D1 D2]. intros ->. destruct K as [-> | [-> | ->]].
    + apply (value_differs KIri s s P); auto. cbn. intuition discriminate.
    + discriminate.
    + discriminate.
Qed.
Lemma accept_no s is l : At is l -> head_differs is s = true -> accept_raw s l = Ok (false, l).
Proof. intros A D. unfold accept_raw. rewrite (at_differs is l s A D). reflexivity. Qed.
Lemma accept_yes s k is l : At (Tok k s :: is) l ->
  exists l', accept_raw s l = Ok (true, l') /\ current l' = T s (type_of k) /\ At is l'.
Proof.
  intros A. destruct (read_tok _ _ _ _ A) as (l' & E & C & A'). exists l'. unfold accept_raw. destruct A as (-> & _).
  cbn [raw]. rewrite text_eqb_refl, E. auto.
Qed.
Lemma expect_yes s k is l : At (Tok k s :: is) l -> exists l', expect_raw s l = Ok l' /\ current l' = T s (type_of k) /\ At is l'.
Proof.
  intros A. destruct (read_tok _ _ _ _ A) as (l' & E & C & A'). exists l'. unfold expect_raw. destruct A as (-> & _).
  cbn [raw]. rewrite text_eqb_refl. auto.
Qed.
(* types *)
Definition type_differs (is : list item) (t : ttype) : bool :=
  match is with
  | [] => negb (ttype_eqb WS t)
  | Tok k _ :: _ => negb (ttype_eqb (type_of k) t)
  | Raw _ :: _ => negb (ttype_eqb IRI t) && negb (ttype_eqb SYMBOL t)
  end.
Lemma symbol_type k c : possible k [c] -> c = 40 \/ c = 94 -> type_of k = SYMBOL.
Proof.
  intros (w & f & H) C. remember [c] as v eqn:E. destruct H; auto; exfalso.
  - subst k. vm_compute in H. repeat (destruct H as [H|H]; [discriminate|]). destruct H.
  - subst k. vm_compute in H. repeat (destruct H as [H|H]; [discriminate|]). destruct H.
  - discriminate.
  - discriminate.
  - injection E as <- E. destruct C; discriminate.
  - destruct H; [destruct u; discriminate|]. destruct p; [|destruct p; discriminate]. injection E as <- ->. destruct C; discriminate.
  - injection E as <- E. destruct C; discriminate.
  - injection E as <- E. destruct C; discriminate.
  - destruct H as [-> | ->]; [|destruct ds; [contradiction|discriminate]]. cbn in E. subst ds. assert (Hd := Forall_inv H1). do 2 red in Hd. destruct C; lia.
  - destruct H as [-> | ->]; [|destruct ds; discriminate]. destruct ds; [contradiction|]. destruct ds; discriminate.
  - discriminate.
Qed.
Lemma accept_type_no t is l : At is l -> type_differs is t = true -> accept_type t l = Ok (false, l).
Proof.
  intros A D. unfold accept_type. replace (ttype_eqb (type (next l)) t) with false; [reflexivity|]. symmetry.
  destruct is as [|[k v|w] is]; cbn [type_differs] in D.
  - destruct A as (-> & _). destruct (ttype_eqb WS t); auto.
  - destruct A as (-> & _). cbn [type]. destruct (ttype_eqb _ t); auto.
  - destruct A as (k & w1 & w2 & c & d & -> & -> & P & K & _). cbn [type]. apply andb_true_iff in D as [D1 D2].
    destruct K as [-> |K]; [cbn [type_of]; destruct (ttype_eqb IRI t); auto|]. replace (type_of k) with SYMBOL; [destruct (ttype_eqb SYMBOL t); auto|].
    symmetry. destruct K as [-> | ->]; eapply symbol_type; eauto.
Qed.
Lemma ttype_refl t : ttype_eqb t t = true.
Proof. destruct t; reflexivity. Qed.
Lemma accept_type_yes t k v is l : At (Tok k v :: is) l -> type_of k = t ->
  exists l', accept_type t l = Ok (true, l') /\ current l' = T v t /\ At is l'.
Proof.
  intros A <-. destruct (read_tok _ _ _ _ A) as (l' & E & C & A'). exists l'. unfold accept_type. destruct A as (-> & _).
  cbn [type]. rewrite ttype_refl, E. auto.
Qed.
Lemma expect_type_yes t k v is l : At (Tok k v :: is) l -> type_of k = t ->
  exists l', expect_type t l = Ok l' /\ current l' = T v t /\ At is l'.
Proof.
  intros A <-. destruct (read_tok _ _ _ _ A) as (l' & E & C & A'). exists l'. unfold expect_type. destruct A as (-> & _).
  cbn [type]. rewrite ttype_refl. auto.
Qed.

(* lengths *)
Lemma possible_nonempty k v : possible k v -> v <> [].
Proof.
  intros (w & f & H) E. destruct H; try discriminate.
  - subst k. vm_compute in H. repeat (destruct H as [H|H]; [discriminate|]). destruct H.
  - subst k. vm_compute in H. repeat (destruct H as [H|H]; [discriminate|]). destruct H.
  - destruct H; [discriminate|]. destruct p; discriminate.
  - apply app_eq_nil in E. destruct E as [_ E]. contradiction.
  - apply app_eq_nil in E. destruct E as [_ E]. destruct ds; discriminate.
Qed.
Lemma text_nonempty k w v f : token_text k w v f -> w <> [].
Proof.
  intros H E. destruct H; try discriminate.
  - subst w. inversion H0; subst. vm_compute in H. repeat (destruct H as [H|H]; [discriminate|]). destruct H.
  - subst w. inversion H0; subst. vm_compute in H. repeat (destruct H as [H|H]; [discriminate|]). destruct H.
  - apply app_eq_nil in E. destruct E as [-> _]. inversion H.
  - apply app_eq_nil in E. destruct E as [-> _]. inversion H.
  - destruct H; [discriminate|]. destruct p; discriminate.
  - apply app_eq_nil in E. destruct E as [_ E]. contradiction.
  - apply app_eq_nil in E. destruct E as [_ E]. destruct ds; discriminate.
Qed.
Lemma items_length is d : written_as is d -> (length is <= length d)%nat.
Proof.
  induction 1 as [|k w v f is g d G H _ IH D|k w1 w2 f is g c d G H K Sp F B W IH]; cbn [length]; [lia| |]; rewrite !app_length.
  - apply text_nonempty in H. destruct w; [contradiction|]. cbn [length]. lia.
  - apply text_nonempty in H. destruct w1; [contradiction|]. cbn [length] in *. lia.
Qed.
Lemma at_length is l : At is l -> (length is <= S (length (rest l)))%nat.
Proof.
  destruct is as [|[k v|w] is]; cbn [length]; intros A; [lia| |].
  - destruct A as (_ & _ & W). apply items_length in W. lia.
  - destruct A as (k & w1 & w2 & c & d & _ & _ & _ & _ & -> & _ & _ & W). apply items_length in W. rewrite app_length. cbn [length] in *. lia.
Qed.
Lemma at_not_empty i j is l : At (i :: j :: is) l -> empty l = false.
Proof.
  intros A. apply at_length in A. cbn [length] in A. unfold empty. destruct (rest l); [cbn in A; lia|reflexivity].
Qed.
Lemma at_empty l : At [] l -> empty l = true.
Proof. intros (_ & E & _). unfold empty. rewrite E. reflexivity. Qed.
