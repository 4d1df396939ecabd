(* Proofs about requests. *)
From Coq Require Import String List NArith Arith Bool Lia ZifyBool ZifyN ZifyNat.
From Verif Require Import Strings_Model Strings_Spec Http_Model Http_Spec.
From Verif Require Strings_Proof Strings_Proof3 Strings_Thm Lines_Proof.
From Verif Require Import Conv_Model(bytes).
Import ListNotations.
Open Scope N_scope.

Lemma lowercase_ok n n' : Forall2 upper_of n n' -> lowercase n = n'.
Proof.
  induction 1 as [|a b n n' [[-> H]|[H ->]] _ IH]; [reflexivity| |]; cbn [lowercase map]; unfold lowercase in IH; rewrite IH; f_equal; unfold tolower.
  - destruct (N.leb_spec 65 b), (N.leb_spec b 90); cbn [andb]; auto; lia.
  - destruct (N.leb_spec 65 a), (N.leb_spec a 90); cbn [andb]; auto; lia.
Qed.
Lemma contains_ok m k : contains m k = true <-> In k (map fst m).
Proof.
  unfold contains. rewrite existsb_exists. split.
  - intros (e & I & E). destruct (list_eq_dec N.eq_dec (fst e) k) as [<-|]; [|discriminate]. now apply in_map.
  - intros I. apply in_map_iff in I as (e & <- & I). exists e. split; auto. destruct (list_eq_dec N.eq_dec (fst e) (fst e)); congruence.
Qed.
Lemma substr_to_mid a t r n : n = length (a ++ t) -> substr_to (a ++ t ++ r) (length a) n = t.
Proof.
  intros ->. unfold substr_to. replace (Nat.ltb (length (a ++ t)) (length a)) with false. 2: { symmetry. apply Nat.ltb_ge. rewrite app_length. lia. }
  apply Lines_Proof.substr_mid.
Qed.
Lemma find_gone a c r : ~ In c r -> find_from (N.eqb c) (a ++ r) (length a) = None.
Proof.
  intros H. unfold find_from. rewrite Strings_Proof.skipn_len, Strings_Proof.find_char_all; [reflexivity|]. rewrite Forall_forall. intros x I. destruct (N.eqb_spec c x); congruence.
Qed.

(* one parameter between an index and another one *)
Lemma one_ok p t a r m index last : param_text p t -> S index = length a -> last = length (a ++ t) -> ~ In (fst p) (map fst m) ->
  one_param (a ++ t ++ r) index last m = Ok (m ++ [p]).
Proof.
  intros [n n' v u Hn H61 H38 Hu Hu38] Ia Il Nm. unfold one_param. replace (index + 1)%nat with (length a) by lia.
  replace ((n ++ 61 :: u) ++ r) with (n ++ 61 :: u ++ r) by (rewrite <- app_assoc; reflexivity). rewrite Lines_Proof.find_mid by auto.
  rewrite (substr_to_mid a n (61 :: u ++ r)) by reflexivity. rewrite (lowercase_ok _ _ Hn).
  replace (a ++ n ++ 61 :: u ++ r) with ((a ++ n ++ [61]) ++ u ++ r) by (rewrite <- !app_assoc; reflexivity).
  replace (length (a ++ n) + 1)%nat with (length (a ++ n ++ [61])) by (rewrite !app_length; cbn [length]; lia).
  rewrite (substr_to_mid _ u r) by (subst last; rewrite !app_length; cbn [length]; rewrite ?app_length; cbn [length]; lia).
  rewrite (Strings_Thm.C45_decode_encoded _ _ Hu). cbn [fst] in Nm.
  destruct (contains m n') eqn:E; [apply contains_ok in E; contradiction|reflexivity].
Qed.
Lemma param_no_amp p t : param_text p t -> ~ In 38 t.
Proof. intros [n n' v u Hn H61 H38 Hu Hu38] I. apply in_app_iff in I as [I|[I|I]]; auto. discriminate. Qed.
Lemma loop_ok ps t : params_text ps t -> forall fuel a m index, (length t < fuel)%nat -> S index = length a -> NoDup (map fst (m ++ ps)) ->
  params_loop fuel (a ++ t ++ [32]) index m = Ok (m ++ ps).
Proof.
  induction 1 as [p t H|p t ps ts H _ IH]; intros fuel a m index Hf Ia Nd; (destruct fuel as [|fuel]; [lia|]); cbn [params_loop]; replace (index + 1)%nat with (length a) by lia.
  - rewrite find_gone. 2: { intros I. apply in_app_iff in I as [I|[I|[]]]; [now apply param_no_amp in H|discriminate]. }
    apply one_ok; auto; [rewrite !app_length; cbn [length]; lia|]. rewrite map_app in Nd. apply NoDup_remove_2 in Nd. rewrite app_nil_r in Nd. exact Nd.
  - replace (a ++ (t ++ 38 :: ts) ++ [32]) with (a ++ t ++ 38 :: ts ++ [32]) by (rewrite <- !app_assoc; reflexivity).
    rewrite Lines_Proof.find_mid by (now apply param_no_amp in H). rewrite (one_ok p t a _ m); auto.
    + replace (a ++ t ++ 38 :: ts ++ [32]) with ((a ++ t ++ [38]) ++ ts ++ [32]) by (rewrite <- !app_assoc; reflexivity). rewrite IH.
      * now rewrite <- app_assoc.
      * rewrite app_length in Hf. cbn [length] in Hf. lia.
      * rewrite !app_length. cbn [length]. lia.
      * now rewrite <- app_assoc.
    + rewrite map_app in Nd. cbn [map] in Nd. apply NoDup_remove_2 in Nd. intros I. apply Nd, in_app_iff. now left.
Qed.

(* ---- the first HTTP ---- *)
Lemma find_str_first pat a b : (forall q, (q < length a)%nat -> ~ Strings_Proof3.occurs pat (a ++ pat ++ b) q) -> find_str pat (a ++ pat ++ b) = Some (length a).
Proof.
  intros H. destruct (find_str pat (a ++ pat ++ b)) as [p|] eqn:E.
  - apply Strings_Proof3.find_str_some in E as [O F]. destruct (Nat.lt_trichotomy p (length a)) as [L|[->|L]]; [|reflexivity|].
    + exfalso. exact (H p L O).
    + exfalso. apply (F (length a) L). exists a, b. auto.
  - exfalso. apply (Strings_Proof3.find_str_none _ _ E (length a)). exists a, b. auto.
Qed.
Lemma app_split {A} (a b c d : list A) : a ++ b = c ++ d -> (length a <= length c)%nat -> exists m, c = a ++ m /\ b = m ++ d.
Proof.
  revert c. induction a as [|x a IH]; intros c E L; [exists c; auto|]. destruct c as [|y c]; [cbn [length] in L; lia|].
  injection E as -> E. cbn [length] in L. destruct (IH c E) as (m & -> & ->); [lia|]. exists m. auto.
Qed.
Lemma no_http_before t (version : text) q : ~ part_of (bytes "HTTP") t -> (q < length (bytes "GET /?" ++ t ++ [32%N]))%nat ->
  ~ Strings_Proof3.occurs (bytes "HTTP") ((bytes "GET /?" ++ t ++ [32]) ++ bytes "HTTP" ++ version) q.
Proof.
  intros H L (a & b & E & <-). set (P := bytes "GET /?" ++ t ++ [32]) in *.
  (* the occurrence begins in P; its four letters are not blanks, so it ends in GET /?t *)
  destruct (Nat.le_gt_cases (length a + 4) (length (bytes "GET /?" ++ t))) as [B|B].
  - symmetry in E. rewrite app_assoc in E. apply app_split in E as (m & E & _). 2: { subst P. rewrite !app_length in *. change (length (bytes "HTTP")) with 4%nat. cbn [length]. lia. }
    assert (E' : bytes "GET /?" ++ t = (a ++ bytes "HTTP") ++ removelast m).
    { subst P. rewrite app_assoc in E. destruct m as [|x m] using rev_ind.
      - exfalso. apply (f_equal (@length N)) in E. repeat rewrite app_length in E. repeat rewrite app_length in B. cbn [length] in E. change (length (bytes "HTTP")) with 4%nat in E. change (length (bytes "GET /?")) with 6%nat in *. cbn [length] in E. lia.
      - rewrite removelast_last. rewrite app_assoc in E. apply app_inj_tail in E as [E _]. exact E. }
    rewrite <- app_assoc in E'. change (bytes "GET /?") with [71; 69; 84; 32; 47; 63] in E'. change (bytes "HTTP") with [72; 84; 84; 80] in *.
    destruct a as [|a1 a]; [discriminate|]. destruct a as [|a2 a]; [discriminate|]. destruct a as [|a3 a]; [discriminate|]. destruct a as [|a4 a]; [discriminate|].
    destruct a as [|a5 a]; [discriminate|]. destruct a as [|a6 a]; [discriminate|]. injection E' as _ _ _ _ _ _ E'. apply H. exists a, (removelast m). exact E'.
  - (* one of the letters is the blank after t *)
    assert (G : nth_error (P ++ bytes "HTTP" ++ version) (length (bytes "GET /?" ++ t)) = Some 32).
    { subst P. replace ((bytes "GET /?" ++ t ++ [32]) ++ bytes "HTTP" ++ version) with ((bytes "GET /?" ++ t) ++ 32 :: bytes "HTTP" ++ version) by (rewrite <- !app_assoc; reflexivity).
      rewrite nth_error_app2 by lia. rewrite Nat.sub_diag. reflexivity. }
    rewrite E in G. rewrite nth_error_app2 in G by (subst P; rewrite app_assoc, app_length in L; cbn [length] in L; lia).
    assert (K : (length (bytes "GET /?" ++ t) - length a < 4)%nat) by lia. set (k := (length (bytes "GET /?" ++ t) - length a)%nat) in *. clearbody k.
    destruct k as [|[|[|[|k]]]]; try discriminate. lia.
Qed.
Lemma find_http t version : ~ part_of (bytes "HTTP") t -> find_str (bytes "HTTP") (bytes "GET /?" ++ t ++ bytes " HTTP" ++ version) = Some (length (bytes "GET /?" ++ t ++ [32])).
Proof.
  intros H. replace (bytes "GET /?" ++ t ++ bytes " HTTP" ++ version) with ((bytes "GET /?" ++ t ++ [32]) ++ bytes "HTTP" ++ version).
  - apply find_str_first. intros q. now apply no_http_before.
  - rewrite <- !app_assoc. reflexivity.
Qed.
Lemma parse_ok r ps : asks r ps -> parseHttpRequest r = Ok ps.
Proof.
  intros [ps' t version H Nd Nh]. unfold parseHttpRequest. rewrite find_http by auto.
  change (find_str (bytes "GET") (bytes "GET /?" ++ t ++ bytes " HTTP" ++ version)) with (Some 0%nat). cbn beta iota.
  replace (substr_to _ (0 + 3) _) with ([32; 47; 63] ++ t ++ [32]).
  - change (find_from (N.eqb 63) ([32; 47; 63] ++ t ++ [32]) 0) with (Some 2%nat). cbn beta iota. apply (loop_ok ps' t H); auto. cbn [app length]. rewrite app_length. lia.
  - symmetry. change (0 + 3)%nat with (length [71; 69; 84]). replace (bytes "GET /?" ++ t ++ bytes " HTTP" ++ version) with ([71; 69; 84] ++ ([32; 47; 63] ++ t ++ [32]) ++ bytes "HTTP" ++ version).
    + apply substr_to_mid. reflexivity.
    + change (bytes "GET /?") with ([71; 69; 84] ++ [32; 47; 63]). change (bytes " HTTP") with ([32] ++ bytes "HTTP"). rewrite <- !app_assoc. reflexivity.
Qed.
Lemma process_ok r ps : asks r ps -> process r = Params ps.
Proof.
  intros A. unfold process. rewrite (parse_ok r ps A). destruct A as [ps' t version H Nd Nh]. rewrite find_http by auto.
  change (find_str (bytes "GET") (bytes "GET /?" ++ t ++ bytes " HTTP" ++ version)) with (Some 0%nat). cbn beta iota.
  change (find_from (N.eqb 63) (bytes "GET /?" ++ t ++ bytes " HTTP" ++ version) 0) with (Some 5%nat). cbn beta iota.
  replace (Nat.ltb 5 (length (bytes "GET /?" ++ t ++ [32]))) with true by (symmetry; apply Nat.ltb_lt; rewrite app_length; change (length (bytes "GET /?")) with 6%nat; lia).
  replace (Nat.ltb (length (bytes "GET /?" ++ t ++ bytes " HTTP" ++ version)) (0 + 5)) with false by (symmetry; apply Nat.ltb_ge; rewrite app_length; change (length (bytes "GET /?")) with 6%nat; lia).
  change (substr_to (bytes "GET /?" ++ t ++ bytes " HTTP" ++ version) (0 + 5) (5 + 1 - 1)) with (@nil N).
  change (at_ (bytes "GET /?" ++ t ++ bytes " HTTP" ++ version) (0 + 5)) with 63. reflexivity.
Qed.

(* ---- receiving ---- *)
Lemma find_crlf_line line rest : ~ In 13 line -> find_str CRLF (line ++ CRLF ++ rest) = Some (length line).
Proof.
  intros H. apply find_str_first. intros q L (a & b & E & <-). apply H.
  apply (nth_error_In line (length a)). rewrite <- (nth_error_app1 line (CRLF ++ rest)) by auto. rewrite E, nth_error_app2, Nat.sub_diag by lia. reflexivity.
Qed.
Lemma find_str_part pat s : part_of pat s -> exists p, find_str pat s = Some p.
Proof.
  intros (a & b & E). destruct (find_str pat s) as [p|] eqn:F; eauto. exfalso. apply (Strings_Proof3.find_str_none _ _ F (length a)). exists a, b. auto.
Qed.
(* while headers are read *)
Lemma receive_line line : line <> [] -> part_of (bytes "HTTP") line -> forall chunks data, fst (fst (receive line data chunks)) = line.
Proof.
  intros Nl P. destruct (find_str_part _ _ P) as [i Fi]. induction chunks as [|c chunks IH]; intros data; cbn [receive]; [reflexivity|].
  destruct line as [|x line]; [congruence|]. cbn [length Nat.eqb Nat.ltb Nat.leb]. rewrite Fi. destruct (find_str (CRLF ++ CRLF) (data ++ c)); [reflexivity|]. apply IH.
Qed.
Lemma find_crlf_before line rest data more : ~ In 13 line -> data ++ more = line ++ CRLF ++ rest -> (length data < length line + 2)%nat -> find_str CRLF data = None.
Proof.
  intros H E L. destruct (find_str CRLF data) as [p|] eqn:F; [|reflexivity]. exfalso. apply Strings_Proof3.find_str_some in F as [(a & b & -> & <-) _].
  assert (Q : nth_error (line ++ CRLF ++ rest) (length a) = Some 13). { rewrite <- E, <- !app_assoc, nth_error_app2, Nat.sub_diag by lia. reflexivity. }
  rewrite !app_length in L. change (length CRLF) with 2%nat in L. rewrite nth_error_app1 in Q by lia. apply H. now apply nth_error_In in Q.
Qed.
Lemma receive_ok line rest : ~ In 13 line -> line <> [] -> part_of (bytes "HTTP") line -> forall chunks data, data ++ concat chunks = line ++ CRLF ++ rest ->
  (length data < length line + 2)%nat -> fst (fst (receive [] data chunks)) = line.
Proof.
  intros H Nl P. induction chunks as [|c chunks IH]; intros data E L.
  - exfalso. cbn [concat] in E. rewrite app_nil_r in E. subst data. rewrite !app_length in L. change (length CRLF) with 2%nat in L. lia.
  - cbn [concat] in E. cbn [receive length Nat.eqb]. destruct (Nat.lt_ge_cases (length (data ++ c)) (length line + 2)) as [B|B].
    + rewrite (find_crlf_before line rest (data ++ c) (concat chunks)); auto. 2: now rewrite <- app_assoc. cbn [length Nat.ltb Nat.leb]. apply IH; auto. now rewrite <- app_assoc.
    + assert (exists r', data ++ c = line ++ CRLF ++ r') as [r' Er].
      { rewrite app_assoc in E. symmetry in E. rewrite (app_assoc line) in E. apply app_split in E as (m & E & _). 2: { rewrite app_length. change (length CRLF) with 2%nat. lia. }
        exists m. now rewrite <- app_assoc in E. }
      rewrite Er, find_crlf_line by auto. unfold substr. cbn [skipn]. rewrite Strings_Proof.firstn_len, Strings_Proof.skipn_len. destruct (find_str_part _ _ P) as [i Fi].
      rewrite Fi. replace (Nat.ltb 0 (length line)) with true by (destruct line; [congruence|reflexivity]). destruct (find_str (CRLF ++ CRLF) (CRLF ++ r')); [reflexivity|].
      now apply receive_line.
Qed.
Lemma get_request_ok line rest chunks : ~ In 13 line -> line <> [] -> part_of (bytes "HTTP") line -> concat chunks = line ++ CRLF ++ rest ->
  fst (fst (getHTTPRequest chunks)) = line.
Proof. intros H Nl P E. apply (receive_ok line rest H Nl P chunks []); auto. cbn [length]. lia. Qed.

