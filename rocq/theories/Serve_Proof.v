(* Proofs about the responses to queries: texts and strings, the text of a query and its triples for the planner. *)
From Coq Require Import Ascii String List NArith ZArith Arith Bool Lia ZifyBool ZifyN ZifyNat.
From Verif Require Conv_Model PPath_Model SLex_Model Sparql_Model Output_Model Vocab_Model Sparql_Thm SPrefix_Thm Turtle_Spec Conv_Proof5 Strings_Model Strings_Proof3 Whole_Spec Plan_Model Plan_Thm Collate_Model Collate_Proof.
From Verif Require Import SLex_Spec PPath_Spec Sparql_Spec SPrefix_Spec Serve_Spec Serve_Model.
Import ListNotations.
Open Scope N_scope.

(* ---- texts and strings ---- *)
Definition byte (c : N) : Prop := c < 256.
Lemma bytes_str l : Forall byte l -> Conv_Model.bytes (str l) = l.
Proof.
  induction 1 as [|c l H _ IH]; [reflexivity|]. cbn [str Conv_Model.bytes]. rewrite IH. f_equal. now apply N_ascii_embedding.
Qed.
Lemma str_inj a b : Forall byte a -> Forall byte b -> str a = str b -> a = b.
Proof. intros Ha Hb E. rewrite <- (bytes_str a Ha), <- (bytes_str b Hb). congruence. Qed.
Lemma is_var_str l : Forall byte l -> Plan_Model.is_var (str l) = match l with c :: _ => c =? 63 | [] => false end.
Proof.
  destruct l as [|c l]; [reflexivity|]. intros H. inversion H as [|? ? Hc _]; subst. cbn [str Plan_Model.is_var].
  destruct (Ascii.eqb_spec (ascii_of_N c) "?"%char) as [E|E]; destruct (N.eqb_spec c 63) as [F|F]; auto.
  - exfalso. apply F. apply (f_equal N_of_ascii) in E. rewrite N_ascii_embedding in E by exact Hc. exact E.
  - subst c. now elim E.
Qed.

Lemma nodup_app_l {A} (a b : list A) : NoDup (a ++ b) -> NoDup a.
Proof. induction a as [|x a IH]; cbn [app]; intros H; [constructor|]. inversion H as [|? ? N H2]; subst. constructor; auto. intros I. apply N. apply in_app_iff. now left. Qed.

(* ---- the triples of a query ---- *)
Definition triple_of (t : node * predicate * node) : Sparql_Model.triple :=
  let '(s, p, o) := t in Sparql_Model.Triple (node_text s) (predicate_path p) (node_text o).
Definition triple_fine (t : node * predicate * node) : Prop :=
  let '(s, p, o) := t in node_ok s /\ predicate_ok p /\ node_ok o /\ ~ contains_word p.

Lemma more_fine ms : forall s p, Forall triple_fine (more_triples s p ms) -> Forall more_ok ms.
Proof.
  induction ms as [|[q o|o] ms IH]; intros s p H; [apply Forall_nil| |]; cbn [more_triples] in H; inversion H as [|? ? D H4]; subst; destruct D as (H1 & H2 & H3 & _); (apply Forall_cons; [cbn [more_ok]; auto|eauto]).
Qed.
Lemma adds_more l : forall ts, NoDup (ts ++ map triple_of l) -> Forall triple_fine l ->
  adds l [Sparql_Model.Basic ts] [Sparql_Model.Basic (ts ++ map triple_of l)].
Proof.
  induction l as [|[[s p] o] l IH]; intros ts ND F; [cbn [map]; rewrite app_nil_r; constructor|].
  inversion F as [|? ? D F2]; subst. destruct D as (_ & _ & _ & C). cbn [map] in *.
  apply (adds_cons s p o (node_text o) l _ [Sparql_Model.Basic (ts ++ [triple_of (s, p, o)])]).
  - apply ov_other. now left.
  - left. exists [], ts, (ts ++ [triple_of (s, p, o)]). split; [reflexivity|]. split; [|reflexivity]. right. split; [|reflexivity].
    apply NoDup_remove_2 in ND. intros I. apply ND. apply in_app_iff. now left.
  - replace (ts ++ triple_of (s, p, o) :: map triple_of l) with ((ts ++ [triple_of (s, p, o)]) ++ map triple_of l) in * by now rewrite <- app_assoc.
    now apply IH.
Qed.
(* the first triples of a pattern *)
Lemma adds_first t l : NoDup (map triple_of (t :: l)) -> Forall triple_fine (t :: l) -> adds (t :: l) [] [Sparql_Model.Basic (map triple_of (t :: l))].
Proof.
  destruct t as [[s p] o]. intros ND F. inversion F as [|? ? D F2]; subst. destruct D as (_ & _ & _ & C).
  apply (adds_cons s p o (node_text o) l _ [Sparql_Model.Basic [triple_of (s, p, o)]]).
  - apply ov_other. now left.
  - right. split; [intros [|? ?] ts E; discriminate|]. exists [triple_of (s, p, o)]. split; [|reflexivity]. right. split; [intros []|reflexivity].
  - apply (adds_more l [triple_of (s, p, o)]); auto.
Qed.
Definition filter_of (c : compared) : Sparql_Model.filter := let '(x, r, y) := c in Sparql_Model.Filter r x (operand_text y) [] [] false false.
Lemma means_triples g l cs : made_of g l cs -> forall ts n fs, NoDup (ts ++ map triple_of l) -> Forall triple_fine l ->
  means g n fs [Sparql_Model.Basic ts] n (fs ++ map filter_of cs) [Sparql_Model.Basic (ts ++ map triple_of l)].
Proof.
  induction 1 as [|s p o ms e r l cs H IH|k x c y dot r l cs K R H IH]; intros ts n fs ND F; [cbn [map]; rewrite !app_nil_r; constructor| |].
  2: { eapply me_filter; [split; [exact K|exact R]|apply fa_other, fm_compare|]. cbn [operand_text map]. change (filter_of (x, c, y) :: map filter_of cs) with ([filter_of (x, c, y)] ++ map filter_of cs).
       rewrite app_assoc. now apply IH. }
  rewrite app_comm_cons in *. rewrite map_app in *. rewrite app_assoc in *. apply Forall_app in F as [F1 F2].
  inversion F1 as [|? ? D F3]; subst. destruct D as (A1 & A2 & A3 & A4). eapply me_triples; [exact A1|exact A2|exact A3|now apply (more_fine ms s p)| |].
  - apply adds_more; [|exact F1]. now apply nodup_app_l in ND.
  - now apply IH.
Qed.
Lemma means_pattern g l cs : made_of g l cs -> forall n fs, l <> [] -> NoDup (map triple_of l) -> Forall triple_fine l ->
  means g n fs [] n (fs ++ map filter_of cs) [Sparql_Model.Basic (map triple_of l)].
Proof.
  induction 1 as [|s p o ms e r l cs H _|k x c y dot r l cs K R H IH]; intros n fs NE ND F; [now elim NE| |].
  2: { eapply me_filter; [split; [exact K|exact R]|apply fa_other, fm_compare|]. cbn [operand_text map]. change (filter_of (x, c, y) :: map filter_of cs) with ([filter_of (x, c, y)] ++ map filter_of cs).
       rewrite app_assoc. now apply IH. }
  rewrite app_comm_cons in *. rewrite map_app in *. apply Forall_app in F as [F1 F2].
  inversion F1 as [|? ? D F3]; subst. destruct D as (A1 & A2 & A3 & A4). eapply me_triples; [exact A1|exact A2|exact A3|now apply (more_fine ms s p)| |].
  - apply adds_first; [|exact F1]. now apply nodup_app_l in ND.
  - now apply means_triples.
Qed.

(* ---- the parsed query ---- *)
Definition number_text (n : option N) : text := match n with Some n => Conv_Model.decimal n | None => [] end.
Definition head_of (ps : list (text * text)) (sel : list text) (dis : bool) (keys : list (text * bool)) (l o : option N) (red : bool) : Sparql_Model.head :=
  Sparql_Model.Head ps sel [] 1 keys [] (number_text l) [] (number_text o) red dis [].
Lemma decimal_digits n : Forall is_digit (Conv_Model.decimal n).
Proof.
  unfold Conv_Model.decimal. generalize (N.size_nat n + 1)%nat. intros f. revert n. induction f as [|f IH]; intros n; cbn [Conv_Model.decimal_loop]; [constructor|].
  destruct (N.ltb_spec n 10); [constructor; [unfold Turtle_Spec.is_digit, Turtle_Spec.range; lia|constructor]|]. apply Forall_app. split; [apply IH|]. constructor; [|constructor].
  assert (n mod 10 < 10) by (apply N.mod_lt; discriminate). unfold Turtle_Spec.is_digit, Turtle_Spec.range. generalize dependent (n mod 10). intros. lia.
Qed.
Lemma slicing_means ms l o ps sel dis keys red : slicing ms l o -> Forall modifier_ok ms /\
  modify_all ms (Sparql_Model.Head ps sel [] 1 keys [] [] [] [] red dis []) (head_of ps sel dis keys l o red).
Proof.
  unfold head_of. destruct 1; (split; [repeat (constructor; [apply decimal_digits|]); constructor|]); cbn [number_text];
    repeat (eapply ma_cons; [constructor|]); constructor.
Qed.
Lemma plain_keys ks : Forall plain_key ks -> Forall key_ok ks /\ concat (map key_alias ks) = [] /\
  forall se, Forall (fun k => match k with KeyAlias _ a => ~ In (ca_out a) se | _ => True end) ks.
Proof.
  induction 1 as [|k ks H F (I1 & I2 & I3)]; [repeat split; constructor|]. destruct k; destruct H; (split; [constructor; auto; exact I|]); (split; [exact I2|]); intros se; constructor; auto.
Qed.
Lemma modifying_means ms keys l o ps sel dis red : modifying ms keys l o -> Forall modifier_ok ms /\
  modify_all ms (Sparql_Model.Head ps sel [] 1 [] [] [] [] [] red dis []) (head_of ps sel dis keys l o red).
Proof.
  destruct 1 as [ms l o S|k ks ms l o P S]; [now apply slicing_means|]. destruct (plain_keys _ P) as (K1 & K2 & K3).
  destruct (slicing_means ms l o ps sel dis (map key_means (k :: ks)) red S) as [S1 S2]. split; [constructor; auto|].
  eapply ma_cons; [apply mo_order, K3|]. rewrite K2. exact S2.
Qed.
Lemma column_names sel : map column_name (map ColVar sel) = sel /\ concat (map column_alias (map ColVar sel)) = [] /\ Forall column_ok (map ColVar sel).
Proof. induction sel as [|v sel (I1 & I2 & I3)]; cbn; [auto|]. rewrite I1, I2. repeat split; constructor; auto. exact I. Qed.
Lemma query_parsed ps sel dis keys g l cs ms lim off red is d :
  query_items ps (Select dis red (map ColVar sel) g ms) is -> written_as is d -> sel <> [] ->
  made_of g l cs -> l <> [] -> NoDup (map triple_of l) -> Forall triple_fine l -> modifying ms keys lim off ->
  Sparql_Model.parse d = SLex_Model.Ok (Sparql_Model.Query (head_of ps sel dis keys lim off red) (Sparql_Model.Pattern false 0 (map filter_of cs) [Sparql_Model.Basic (map triple_of l)])).
Proof.
  intros Q W NS OT NE ND F S. apply (Sparql_Thm.C65_parses_partial ps _ is d _ Q W).
  destruct (column_names sel) as (C1 & C2 & C3). destruct (modifying_means ms keys lim off ps sel dis red S) as (M1 & M2).
  apply (sm dis red (map ColVar sel) g ms ps 1); auto.
  - destruct sel; [now elim NS|discriminate].
  - exact (means_pattern g l cs OT 1%N [] NE ND F).
  - rewrite C1, C2. exact M2.
  - now left.
  - intros a [].
Qed.

(* ---- prefixes ---- *)
Section Prefixes.
Variable ps : list (text * text).
Definition term_text (t : term) : text := match t with TVar v => v | TWord w => w end.
(* a term after the prefixes are expanded and before setObject *)
Lemma reads_stands x t : reads ps x t -> stands ps (node_text x) (term_text t).
Proof. destruct 1; cbn [node_text term_text]; [apply st_variable|now apply st_name]. Qed.
Lemma object_stands x t : reads_object ps x t -> exists o, stands ps (node_text x) o /\ set_object o = Conv_Model.Ok (term_text t).
Proof.
  destruct 1 as [x t H|s H|l s x w H1 H2 H3 H4].
  - exists (term_text t). split; [now apply reads_stands|]. unfold set_object.
    replace (Conv_Model.isXsdValue (term_text t)) with false; [reflexivity|]. destruct H as [v|i w H]; [|destruct H]; cbn [term_text]; unfold Conv_Model.isXsdValue;
    destruct (Conv_Model.rfind _ _); reflexivity.
  - exists (34 :: s). split; [now apply st_literal|]. unfold set_object. replace (Conv_Model.isXsdValue (34 :: s)) with false; [reflexivity|]. symmetry.
    unfold Conv_Model.isXsdValue. destruct (Conv_Model.rfind 34 (34 :: s)) as [q|]; [|reflexivity].
    destruct (Strings_Model.find_str_from [94; 94] (34 :: s) q) as [p|] eqn:E; [|apply andb_false_r]. exfalso.
    apply Strings_Proof3.find_from_some in E as (_ & (a & b & E & _) & _). destruct a as [|c a]; [discriminate|]. injection E as _ E. exact (H _ _ E).
  - exists (34 :: s ++ [34; 94; 94] ++ x). split; [exact H1|]. unfold set_object.
    replace (Conv_Model.isXsdValue (34 :: s ++ [34; 94; 94] ++ x)) with true; [exact H4|]. symmetry.
    unfold Conv_Model.isXsdValue. assert (R : Conv_Model.rfind 34 (34 :: s ++ [34; 94; 94] ++ x) = Some (length (34 :: s))).
    { apply (Conv_Proof5.rfind_last 34 (34 :: s) ([94; 94] ++ x)). apply Forall_forall. intros c [<-|[<-|I]]; try reflexivity.
      apply N.eqb_neq. intros <-. contradiction. }
    rewrite R. cbn [length Nat.ltb Nat.leb]. change (Strings_Model.at_ (34 :: s ++ [34; 94; 94] ++ x) 0 =? 34) with true. cbn [andb].
    destruct (Strings_Model.find_str_from [94; 94] (34 :: s ++ [34; 94; 94] ++ x) (S (length s))) eqn:E; [reflexivity|]. exfalso.
    apply (Strings_Proof3.find_from_none _ _ _ E (length (34 :: s ++ [34]))); [cbn [length]; rewrite app_length; cbn [length]; lia|].
    exists (34 :: s ++ [34]), x. split; [cbn [app]; f_equal; rewrite <- app_assoc; reflexivity|reflexivity].
Qed.

Lemma rep_link i : predicate_path (PPath [i] (Link i)) = PPath_Model.leaf i.
Proof. reflexivity. Qed.
Lemma predicate_stands p t : reads_predicate ps p t -> ~ contains_word p /\
  exists i, predicate_path p = PPath_Model.leaf i /\ stands ps i (term_text t) /\ ~ in_context (PPath_Model.leaf (term_text t)) /\
    other_operation (term_text t) = false.
Proof.
  destruct 1 as [v H|i w H1 H2 H3 H4].
  - split; [intros [E|[E|[]]]; discriminate|]. exists (63 :: v). split; [reflexivity|]. split; [apply st_variable|]. cbn [term_text]. split.
    + intros (a & b & E). exact (H a b E).
    + reflexivity.
  - split; [exact H2|]. exists i. split; [reflexivity|]. split; [now apply st_name|]. cbn [term_text]. split.
    + intros (a & b & E). exact (H4 a b E).
    + unfold other_operation. apply not_true_is_false. intros E. apply existsb_exists in E as (x & I & E). destruct (list_eq_dec _ _ w) as [<-|]; [|discriminate].
      apply H3. unfold internal_predicates. now apply in_map.
Qed.
End Prefixes.

(* ---- the triples after expandPrefixes and for the planner ---- *)
Definition ptext (t : term) : string := str (term_text t).
Definition ptriple (t : tpattern) : Plan_Model.triple := let '(s, p, o) := t in Plan_Model.T (ptext s) (ptext p) (ptext o).
Lemma expanded ps l pats : Forall2 (reads_triple ps) l pats ->
  exists us, Forall2 (triple_stands ps) (map triple_of l) us /\ map plan_triple us = map Some (map ptriple pats) /\ Forall (fun t => let '(_, p, _) := t in ~ contains_word p) l.
Proof.
  induction 1 as [|[[s p] o] [[s' p'] o'] l pats D F (us & IH1 & IH2 & IH3)]; [exists []; repeat split; constructor|].
  destruct D as (R1 & R2 & R3).
  destruct (predicate_stands ps p p' R2) as (C & i & P1 & P2 & P3 & P4). destruct (object_stands ps o o' R3) as (x & O1 & O2).
  exists (Sparql_Model.Triple (term_text s') (PPath_Model.leaf (term_text p')) x :: us). split; [|split].
  - constructor; [|exact IH1]. cbn [triple_of]. rewrite P1. apply ts_triple; [now apply reads_stands| |exact P3|exact O1].
    unfold PPath_Model.leaf. now apply ps_link.
  - cbn [map]. f_equal; [|exact IH2]. unfold plan_triple. cbn [Sparql_Model.t_p Sparql_Model.t_o Sparql_Model.t_s PPath_Model.leaf]. now rewrite P4, O2.
  - constructor; auto.
Qed.
(* ---- constants of conditions ---- *)
Lemma value_literal s x : ~ In 34 x -> Conv_Model.isXsdValue (34 :: s ++ [34; 94; 94] ++ x) = true.
Proof.
  intros H2. unfold Conv_Model.isXsdValue. assert (R : Conv_Model.rfind 34 (34 :: s ++ [34; 94; 94] ++ x) = Some (length (34 :: s))).
  { apply (Conv_Proof5.rfind_last 34 (34 :: s) ([94; 94] ++ x)). apply Forall_forall. intros c [<-|[<-|I]]; try reflexivity.
    apply N.eqb_neq. intros <-. contradiction. }
  rewrite R. cbn [length Nat.ltb Nat.leb]. change (Strings_Model.at_ (34 :: s ++ [34; 94; 94] ++ x) 0 =? 34) with true. cbn [andb].
  destruct (Strings_Model.find_str_from [94; 94] (34 :: s ++ [34; 94; 94] ++ x) (S (length s))) eqn:E; [reflexivity|]. exfalso.
  apply (Strings_Proof3.find_from_none _ _ _ E (length (34 :: s ++ [34]))); [cbn [length]; rewrite app_length; cbn [length]; lia|].
  exists (34 :: s ++ [34]), x. split; [cbn [app]; f_equal; rewrite <- app_assoc; reflexivity|reflexivity].
Qed.
Lemma plain_literal s : no_carets s -> Conv_Model.isXsdValue (34 :: s) = false.
Proof.
  intros H. unfold Conv_Model.isXsdValue. destruct (Conv_Model.rfind 34 (34 :: s)) as [q|]; [|reflexivity].
  destruct (Strings_Model.find_str_from [94; 94] (34 :: s) q) as [p|] eqn:E; [|apply andb_false_r]. exfalso.
  apply Strings_Proof3.find_from_some in E as (_ & (a & b & E & _) & _). destruct a as [|c a]; [discriminate|]. injection E as _ E. exact (H _ _ E).
Qed.
Lemma other_xsd c s : c <> 34 -> Conv_Model.isXsdValue (c :: s) = false.
Proof.
  intros H. unfold Conv_Model.isXsdValue. assert (E : Strings_Model.at_ (c :: s) 0 =? 34 = false) by now apply N.eqb_neq. rewrite E. destruct (Conv_Model.rfind _ _); reflexivity.
Qed.
Lemma not_numeric c s : c < 43 \/ 57 < c -> Conv_Model.isNumeric (c :: s) = false.
Proof.
  intros H. unfold Conv_Model.isNumeric. replace ((c =? 45) || (c =? 43)) with false by lia. unfold Strings_Model.find_from. cbn [skipn Strings_Model.find_char].
  assert (E : Conv_Model.isdigit c = false) by (unfold Conv_Model.isdigit; lia). rewrite E. cbn [negb option_map].
  change (Strings_Model.at_ (c :: s) (0 + 0)) with c. replace (c =? 46) with false by lia. reflexivity.
Qed.
Definition starts (t : text) : Prop := exists c r, t = c :: r /\ c <> 63 /\ c < 256.
Lemma starts_variable t : starts t -> Plan_Model.is_var (str t) = false.
Proof.
  intros (c & r & -> & N & B). assert (E : Plan_Model.is_var (str [c]) = (c =? 63)) by (apply is_var_str; constructor; [exact B|constructor]). cbn [str] in *. unfold Plan_Model.is_var in *.
  rewrite E. now apply N.eqb_neq.
Qed.
Lemma digits_found a r : Forall is_digit a -> (forall c r', r = c :: r' -> Conv_Model.isdigit c = false) ->
  Strings_Model.find_char (fun c => negb (Conv_Model.isdigit c)) (a ++ r) = match r with [] => None | _ => Some (length a) end.
Proof.
  intros F H. induction F as [|c a D F IH]; cbn [app Strings_Model.find_char length].
  - destruct r as [|c r]; [reflexivity|]. cbn [Strings_Model.find_char]. rewrite (H c r eq_refl). reflexivity.
  - unfold is_digit, Turtle_Spec.range in D. replace (Conv_Model.isdigit c) with true by (unfold Conv_Model.isdigit; lia). cbn [negb]. rewrite IH. now destruct r.
Qed.
Lemma at_end a c r : Strings_Model.at_ (a ++ c :: r) (length a) = c.
Proof. unfold Strings_Model.at_. rewrite app_nth2 by lia. now rewrite Nat.sub_diag. Qed.
Lemma number_numeric t : is_number t -> Conv_Model.isNumeric t = true /\ ~ In 58 t /\ exists c r, t = c :: r /\ 43 <= c <= 57.
Proof.
  intros (sign & a & HS & NA & FA & HT). destruct a as [|d a]; [now elim NA|]. inversion FA as [|? ? FD FA']; subst. unfold is_digit, Turtle_Spec.range in FD.
  assert (ST : forall r, exists c r', sign ++ (d :: a) ++ r = c :: r' /\ 43 <= c <= 57 /\ (if (c =? 45) || (c =? 43) then 1%nat else 0%nat) = length sign).
  { intros r. destruct HS as [->|[->| ->]]; cbn [app]; eexists _, _; (split; [reflexivity|]); split; try lia; try reflexivity.
    replace ((d =? 45) || (d =? 43)) with false by lia. reflexivity. }
  assert (NS : ~ In 58 sign) by (destruct HS as [->|[->| ->]]; cbn; intuition discriminate).
  assert (ND : forall x, Forall is_digit x -> ~ In 58 x). { intros x F I. rewrite Forall_forall in F. apply F in I. unfold is_digit, Turtle_Spec.range in I. lia. }
  destruct HT as [->|(b & NB & FB & ->)].
  - destruct (ST []) as (c & r & E & R & S). rewrite app_nil_r in E. split; [|split; [|eauto]].
    + unfold Conv_Model.isNumeric. rewrite E, S, <- E. cbv zeta. unfold Strings_Model.find_from. rewrite skipn_app, skipn_all, Nat.sub_diag. cbn [app skipn].
      rewrite <- (app_nil_r (d :: a)). rewrite digits_found; [reflexivity|now constructor|discriminate].
    + intros I. apply in_app_iff in I as [I|I]; [contradiction|]. exact (ND _ FA I).
  - destruct (ST (46 :: b)) as (c & r & E & R & S). split; [|split; [|eauto]].
    + unfold Conv_Model.isNumeric. rewrite E, S, <- E. cbv zeta. unfold Strings_Model.find_from. rewrite skipn_app, skipn_all, Nat.sub_diag, app_nil_l. cbn [skipn].
      rewrite digits_found by (try exact FA; intros c0 r' X; injection X as <- _; reflexivity). cbn [option_map].
      replace (sign ++ (d :: a) ++ 46 :: b) with ((sign ++ d :: a) ++ 46 :: b) by (rewrite <- app_assoc; reflexivity).
      rewrite <- app_length, at_end. change (46 =? 46) with true. cbv iota. replace (length (sign ++ d :: a) + 1)%nat with (length ((sign ++ d :: a) ++ [46])) by (rewrite (app_length _ [46]); reflexivity).
      replace ((sign ++ d :: a) ++ 46 :: b) with (((sign ++ d :: a) ++ [46]) ++ b) by (rewrite <- app_assoc; reflexivity).
      rewrite skipn_app, skipn_all, Nat.sub_diag, app_nil_l. cbn [skipn]. rewrite (app_length _ b). destruct b as [|x b]; [now elim NB|].
      replace (Nat.ltb _ _) with true by (symmetry; apply Nat.ltb_lt; cbn [length]; lia). unfold Conv_Model.all_digits. apply forallb_forall. intros y I.
      rewrite Forall_forall in FB. apply FB in I. unfold is_digit, Turtle_Spec.range in I. unfold Conv_Model.isdigit. lia.
    + intros I. apply in_app_iff in I as [I|I]; [contradiction|]. apply in_app_iff in I as [I|[I|I]]; [exact (ND _ FA I)|discriminate|exact (ND _ FB I)].
Qed.
Lemma constant_number ps t w : is_number t -> Conv_Model.convertNumericToIndexWord t = Conv_Model.Ok w -> stands ps t t /\ constant_word t = Conv_Model.Ok w /\ starts t.
Proof.
  intros H1 H2. destruct (number_numeric t H1) as (N & C & c & r & -> & R). split; [|split].
  - apply st_other; [exact C|]. intros r' E. injection E as -> _. lia.
  - unfold constant_word. rewrite other_xsd by lia. rewrite N. exact H2.
  - exists c, r. repeat split; lia.
Qed.
Lemma keep_quotes t : (forall r, t <> 34 :: 60 :: r) -> (count_occ N.eq_dec t 34%N <= 2)%nat -> strip_quotes t = t.
Proof.
  intros H C. unfold strip_quotes. replace (Nat.ltb 2 (count_occ N.eq_dec t 34)) with false by (symmetry; apply Nat.ltb_ge; exact C).
  destruct t as [|c [|d t]]; [reflexivity|reflexivity|]. cbv zeta.
  change (Strings_Model.at_ (c :: d :: t) 1) with d. change (Strings_Model.at_ (c :: d :: t) 0) with c.
  assert (X : (d =? 60) && (c =? 34) = false). { apply andb_false_iff. destruct (N.eqb_spec d 60) as [->|]; [|now left]. destruct (N.eqb_spec c 34) as [->|]; [|now right]. now elim (H t). }
  rewrite <- (andb_assoc (Nat.ltb _ _) (d =? 60)), X, andb_false_r. reflexivity.
Qed.
Lemma keep_iri u : strip_quotes (60 :: u ++ [62]) = 60 :: u ++ [62].
Proof.
  unfold strip_quotes. cbv zeta. assert (L : Strings_Model.at_ (60 :: u ++ [62]) (length (60 :: u ++ [62]) - 1) = 62).
  { cbn [length]. rewrite app_length. cbn [length]. replace (S (length u + 1) - 1)%nat with (length (60 :: u)) by (cbn [length]; lia). apply (at_end (60 :: u) 62 []). }
  rewrite L. rewrite !andb_false_r. reflexivity.
Qed.
Lemma constant_stands ps a t w : reads_constant ps a t w -> stands ps (operand_text a) t /\ constant_word t = Conv_Model.Ok w /\ starts t.
Proof.
  destruct 1 as [i w H HE|s H1 H2 H3|l s x w H1 H2 H3|t w H1 H2|t w H1 H2]; cbn [operand_text]; [| | |now apply constant_number|now apply constant_number].
  - split; [now apply st_name|]. destruct HE as (u & ->). split; [|exists 60, (u ++ [62]); repeat split; lia].
    unfold constant_word. rewrite other_xsd by lia. rewrite not_numeric by lia. now rewrite keep_iri.
  - split; [now apply st_literal|]. split; [|exists 34, s; repeat split; lia]. unfold constant_word. rewrite plain_literal by exact H1. rewrite not_numeric by lia.
    rewrite keep_quotes; [reflexivity| |].
    + intros r E. injection E as E. exact (H2 r E).
    + cbn [count_occ]. destruct (N.eq_dec 34 34); lia.
  - split; [exact H1|]. split; [|eexists 34, _; repeat split; lia]. unfold constant_word. rewrite value_literal by exact H2. exact H3.
Qed.
Definition given_text (y : given) : text := match y with GVar y => y | GWord t _ => t end.
(* the conditions after the prefixes are expanded *)
Definition filter_to (c : condition) : Sparql_Model.filter := let '(x, r, y) := c in Sparql_Model.Filter r x (given_text y) [] [] false false.
Definition given_fine (r : Sparql_Model.filter_type) (y : given) : Prop :=
  match y with GVar y => exists b, y = 63 :: b | GWord t w => r <> Sparql_Model.NE /\ constant_word t = Conv_Model.Ok w /\ starts t end.
Definition condition_fine (c : condition) : Prop := let '(x, r, y) := c in is_relation r /\ (exists a, x = 63 :: a) /\ given_fine r y.
Lemma conditions_stand ps cs conds : Forall2 (reads_condition ps) cs conds -> Forall condition_fine conds -> Forall2 (filter_stands ps) (map filter_of cs) (map filter_to conds).
Proof.
  induction 1 as [|c d cs conds H F IH]; intros C; [constructor|]. inversion C as [|? ? C1 C2]; subst. cbn [map]. constructor; [|now apply IH].
  destruct H as [x r y|x r a t w N H]; destruct C1 as (R & (a' & ->) & G); cbn [filter_of filter_to given_text operand_text].
  - destruct G as (b & ->). apply fs_other; [|apply st_variable|apply st_variable]. intros ->. unfold is_relation in R. cbn in R. intuition discriminate.
  - apply fs_other; [|apply st_variable|now apply (constant_stands ps a t w)]. intros ->. unfold is_relation in R. cbn in R. intuition discriminate.
Qed.
Lemma query_expanded ps sel dis keys lim off red l us cs conds : Forall good_declaration ps -> Forall2 (triple_stands ps) l us -> Forall2 (reads_condition ps) cs conds -> Forall condition_fine conds ->
  Sparql_Model.expandPrefixes (Sparql_Model.Query (head_of ps sel dis keys lim off red) (Sparql_Model.Pattern false 0 (map filter_of cs) [Sparql_Model.Basic l])) =
  SLex_Model.Ok (Sparql_Model.Query (head_of ps sel dis keys lim off red) (Sparql_Model.Pattern false 0 (map filter_to conds) [Sparql_Model.Basic us])).
Proof.
  intros G F RC C. apply SPrefix_Thm.C68_expand_partial; [exact G| |].
  - apply qs; [apply hs; constructor|]. apply pt; [now apply conditions_stand|]. apply oss_cons; [now apply os_basic|apply oss_nil].
  - apply qn; [constructor|]. apply ons_cons; [apply on_basic|apply ons_nil].
Qed.

(* ---- conditions for the planner, and on words ---- *)
Definition before_b (loc : Collate_Model.icu) (dk : text -> bool) (a b : text) : bool :=
  (negb (dk a) && dk b) || (Bool.eqb (dk a) (dk b) && match Collate_Model.compare loc a b Collate_Model.TOTAL with Lt => true | _ => false end).
Lemma before_reflect loc dk a b : before_b loc dk a b = true <-> comes_before loc dk a b.
Proof.
  unfold before_b, comes_before. rewrite <- Collate_Proof.compare_precedes. rewrite orb_true_iff, !andb_true_iff, negb_true_iff, eqb_true_iff.
  destruct (Collate_Model.compare loc a b Collate_Model.TOTAL); intuition discriminate.
Qed.
Definition same (a b : text) : bool := if list_eq_dec N.eq_dec a b then true else false.
Definition related_b (before : text -> text -> bool) (r : Sparql_Model.filter_type) (a b : text) : bool :=
  match r with
  | Sparql_Model.EQ => same a b | Sparql_Model.NE => negb (same a b)
  | Sparql_Model.LT => before a b | Sparql_Model.LE => before a b || same a b
  | Sparql_Model.GT => before b a | Sparql_Model.GE => before b a || same a b
  | _ => false
  end.
Lemma same_reflect a b : same a b = true <-> a = b.
Proof. unfold same. destruct (list_eq_dec N.eq_dec a b); split; congruence. Qed.
Lemma related_reflect loc dk r a b : related_b (before_b loc dk) r a b = true <-> related (comes_before loc dk) r a b.
Proof.
  destruct r; cbn [related_b related]; rewrite ?orb_true_iff, ?before_reflect, ?same_reflect; try reflexivity; try (split; [discriminate|intros []]).
  rewrite negb_true_iff, <- not_true_iff_false, same_reflect. reflexivity.
Qed.
Definition below_b (loc : Collate_Model.icu) (a b : text) : bool := Collate_Model.before loc a b Collate_Model.QUARTERNARY.
Definition alike_b (loc : Collate_Model.icu) (a b : text) : bool := match Collate_Model.compare loc a b Collate_Model.QUARTERNARY with Eq => true | _ => false end.
Definition constant_b (loc : Collate_Model.icu) (dk : text -> bool) (r : Sparql_Model.filter_type) (a w : text) : bool :=
  match r with
  | Sparql_Model.EQ => negb (dk a) && alike_b loc a w
  | Sparql_Model.LT => negb (dk a) && below_b loc a w
  | Sparql_Model.LE => negb (dk a) && (below_b loc a w || alike_b loc a w)
  | Sparql_Model.GT => dk a || below_b loc w a
  | Sparql_Model.GE => dk a || (below_b loc w a || alike_b loc a w)
  | _ => false
  end.
Lemma compare_quaternary loc a b : Collate_Model.compare loc a b Collate_Model.QUARTERNARY =
  Collate_Model.or_else (Collate_Model.first_char (Collate_Model.extractComparable a) ?= Collate_Model.first_char (Collate_Model.extractComparable b))
    (Collate_Model.icu_compare loc Collate_Model.Quaternary (Collate_Model.inner (Collate_Model.extractComparable a)) (Collate_Model.inner (Collate_Model.extractComparable b))).
Proof.
  unfold Collate_Model.compare, Collate_Model.compare_split, Collate_Model.locale_compare. cbn [Collate_Model.is_total Collate_Model.collator].
  destruct (_ ?= _); cbn [Collate_Model.or_else]; auto. destruct (Collate_Model.icu_compare _ _ _ _); reflexivity.
Qed.
Lemma below_reflect loc a b : below_b loc a b = true <-> lower loc a b.
Proof.
  unfold below_b, Collate_Model.before. rewrite Collate_Proof.less_iff, compare_quaternary, Collate_Proof.or_else_lt. unfold lower. rewrite N.compare_lt_iff, N.compare_eq_iff. split.
  - intros H. do 6 eexists. split; [apply Collate_Proof.split_parts|]. split; [apply Collate_Proof.split_parts|exact H].
  - intros (c & v & t & c' & v' & t' & P1 & P2 & H). apply Collate_Proof.parts_split in P1, P2. rewrite P1, P2. exact H.
Qed.
Lemma alike_reflect loc a b : alike_b loc a b = true <-> alike loc a b.
Proof.
  unfold alike_b, alike. assert (E : (match Collate_Model.compare loc a b Collate_Model.QUARTERNARY with Eq => true | _ => false end = true) <-> Collate_Model.compare loc a b Collate_Model.QUARTERNARY = Eq)
    by (destruct (Collate_Model.compare _ _ _ _); intuition discriminate). rewrite E, compare_quaternary, Collate_Proof.or_else_eq, N.compare_eq_iff. clear E. split.
  - intros [H1 H2]. do 5 eexists. split; [apply Collate_Proof.split_parts|]. split; [rewrite H1; apply Collate_Proof.split_parts|exact H2].
  - intros (c & v & t & v' & t' & P1 & P2 & H). apply Collate_Proof.parts_split in P1, P2. rewrite P1, P2. auto.
Qed.
Lemma constant_reflect loc dk r a w : constant_b loc dk r a w = true <-> related_constant loc dk r a w.
Proof.
  destruct r; cbn [constant_b related_constant]; rewrite ?andb_true_iff, ?orb_true_iff, ?negb_true_iff, ?below_reflect, ?alike_reflect; try reflexivity; try (split; [discriminate|intros []]).
Qed.
Definition pfilter (i : nat) (c : condition) : Plan_Model.filt := let '(x, r, y) := c in Plan_Model.F i (str x) [] (str (given_text y)).
Fixpoint pfilters (i : nat) (cs : list condition) : list Plan_Model.filt :=
  match cs with [] => [] | c :: cs' => pfilter i c :: pfilters (S i) cs' end.
Definition word_sat (loc : Collate_Model.icu) (dk : text -> bool) (cs : list condition) (f : Plan_Model.filt) (l : list (option text)) : bool :=
  match nth_error cs (Plan_Model.f_id f), l with
  | Some (_, r, GVar _), [Some a; Some b] => related_b (before_b loc dk) r a b
  | Some (_, r, GWord _ w), [Some a] => constant_b loc dk r a w
  | _, _ => false
  end.
Lemma pfilters_in f cs : forall i, In f (pfilters i cs) <-> exists k c, nth_error cs k = Some c /\ f = pfilter (i + k) c.
Proof.
  induction cs as [|c cs IH]; intros i; cbn [pfilters In].
  - split; [intros []|]. intros (k & c & E & _). destruct k; discriminate.
  - rewrite IH. split.
    + intros [<-|(k & c' & E & ->)]; [exists 0%nat, c; rewrite Nat.add_0_r; auto|]. exists (S k), c'. split; auto. f_equal. lia.
    + intros ([|k] & c' & E & ->); [left; injection E as ->; f_equal; lia|]. right. exists k, c'. split; auto. f_equal. lia.
Qed.

(* ---- answers ---- *)
Definition term_fine (t : term) : Prop :=
  Forall byte (term_text t) /\ match t with TVar v => exists r, v = 63 :: r | TWord w => forall r, w <> 63 :: r end.
Definition pattern_fine (t : tpattern) : Prop := let '(s, p, o) := t in term_fine s /\ term_fine p /\ term_fine o.
Lemma names_fine ps i w : names ps i w -> forall r, w <> 63 :: r.
Proof. destruct 1; intros r' E; discriminate. Qed.
Lemma reads_fine ps x t : reads ps x t -> Forall byte (term_text t) -> term_fine t.
Proof. intros H B. split; [exact B|]. destruct H as [v|i w H]; [eauto|now apply (names_fine ps i)]. Qed.
Lemma object_fine ps x t : reads_object ps x t -> Forall byte (term_text t) -> term_fine t.
Proof. destruct 1 as [x t H|s H|l s x w H1 H2 H3 H4]; [now apply (reads_fine ps x)| |]; intros B; split; auto. intros r E. discriminate. Qed.
Lemma predicate_fine ps x t : reads_predicate ps x t -> Forall byte (term_text t) -> term_fine t.
Proof. intros H B. split; [exact B|]. destruct H as [v H|i w H1 H2 H3 H4]; [eauto|now apply (names_fine ps i)]. Qed.
Definition pattern_bytes (t : tpattern) : Prop := let '(s, p, o) := t in Forall byte (term_text s) /\ Forall byte (term_text p) /\ Forall byte (term_text o).
Lemma triples_fine ps l pats : Forall2 (reads_triple ps) l pats -> Forall pattern_bytes pats -> Forall pattern_fine pats.
Proof.
  induction 1 as [|[[s p] o] [[s' p'] o'] l pats D F IH]; intros B; [constructor|]. inversion B as [|? ? B1 B2]; subst. destruct B1 as (B1 & B3 & B4). destruct D as (R1 & R2 & R3).
  constructor; [|now apply IH]. split; [now apply (reads_fine ps s)|]. split; [now apply (predicate_fine ps p)|now apply (object_fine ps o)].
Qed.

Lemma is_var_term t : term_fine t -> Plan_Model.is_var (ptext t) = is_variable t.
Proof.
  intros [B F]. unfold ptext. rewrite is_var_str by exact B. destruct t as [v|w]; cbn [term_text is_variable] in *.
  - destruct F as (r & ->). reflexivity.
  - destruct w as [|c w]; [reflexivity|]. apply N.eqb_neq. intros ->. now apply (F w).
Qed.
Lemma ptext_inj a b : term_fine a -> term_fine b -> ptext a = ptext b -> a = b.
Proof.
  intros Fa Fb E. pose proof (is_var_term a Fa) as Va. pose proof (is_var_term b Fb) as Vb. rewrite E in Va. apply str_inj in E; [|apply Fa|apply Fb].
  destruct a, b; cbn [term_text is_variable] in *; congruence.
Qed.
Section Answers.
Variable U : list text.
Hypothesis HU : forall v, In v U -> term_fine (TVar v).
Variable pats : list tpattern.
Hypothesis HP : Forall pattern_fine pats.
Hypothesis HV : variables U pats.
Lemma value_str mu v : term_fine (TVar v) -> (forall u, In u U -> term_fine (TVar u)) -> Whole_Spec.value_in (map str U) mu (str v) = value U mu v.
Proof.
  intros Fv. clear HU HV. revert mu. induction U as [|u U' IH]; intros mu F; [reflexivity|]. destruct mu as [|w mu]; [reflexivity|]. cbn [map Whole_Spec.value_in value].
  destruct (String.eqb_spec (str u) (str v)) as [E|E].
  - apply str_inj in E; [|apply (F u); now left|apply Fv]. subst. destruct (list_eq_dec N.eq_dec v v); [reflexivity|contradiction].
  - destruct (list_eq_dec N.eq_dec u v) as [->|N]; [contradiction|]. apply IH. intros x Hx. apply F. now right.
Qed.
Lemma meaning_str mu t : term_fine t -> Whole_Spec.meaning Plan_Model.is_var Conv_Model.bytes (map str U) mu (ptext t) = meaning U mu t.
Proof.
  intros F. unfold Whole_Spec.meaning. rewrite is_var_term by exact F. destruct t as [v|w]; cbn [is_variable meaning].
  - apply value_str; auto.
  - unfold ptext. rewrite bytes_str by apply F. reflexivity.
Qed.
Definition condition_in (c : condition) : Prop :=
  let '(x, r, y) := c in is_relation r /\ In x U /\ match y with GVar y => In y U | GWord t w => given_fine r y end.
Lemma pfilters_planned cs : (forall c, In c cs -> condition_in c) -> forall i, plan_filters i (map filter_to cs) = map Some (pfilters i cs).
Proof.
  clear HV HP. intros H. induction cs as [|[[x r] y] cs IH]; intros i; [reflexivity|]. cbn [map plan_filters pfilters]. f_equal; [|apply IH; intros; apply H; now right].
  destruct (H (x, r, y) (or_introl eq_refl)) as (R & _ & Iy). unfold plan_filter. cbn [filter_to Sparql_Model.f_type Sparql_Model.f_additionalLhs Sparql_Model.f_lhsAsString Sparql_Model.f_rhs Sparql_Model.f_lhs].
  unfold is_relation in R. destruct y as [y|t w]; cbn [given_text].
  - change (str y) with (ptext (TVar y)). rewrite is_var_term by auto. cbn [is_variable]. 
    destruct R as [<-|[<-|[<-|[<-|[<-|[<-|[]]]]]]]; reflexivity.
  - destruct Iy as (NE & CW & ST). rewrite starts_variable, CW by exact ST. destruct R as [<-|[<-|[<-|[<-|[<-|[<-|[]]]]]]]; try reflexivity. now elim NE.
Qed.
Variable conds : list condition.
Hypothesis HC : forall c, In c conds -> condition_in c.
Definition given_vars (y : given) : list string := match y with GVar y => [str y] | GWord _ _ => [] end.
Lemma pfilter_vars i x r y : In (x, r, y) conds -> Plan_Model.filter_vars (pfilter i (x, r, y)) = str x :: given_vars y.
Proof.
  intros I. destruct (HC _ I) as (_ & _ & Iy). unfold Plan_Model.filter_vars, pfilter. cbn [Plan_Model.f_lhs Plan_Model.f_additional Plan_Model.f_rhs app].
  destruct y as [y|t w]; cbn [given_text given_vars].
  - change (str y) with (ptext (TVar y)). rewrite is_var_term by auto. reflexivity.
  - destruct Iy as (_ & _ & ST). rewrite starts_variable by exact ST. reflexivity.
Qed.
Lemma answer_str loc dk facts mu :
  Whole_Spec.answer Plan_Model.is_var Conv_Model.bytes facts (map str U) (map (fun t => (Plan_Model.t_s t, Plan_Model.t_p t, Plan_Model.t_o t)) (map ptriple pats))
    (map (fun f => (Plan_Model.filter_vars f, word_sat loc dk conds f)) (pfilters 0 conds)) mu <->
  answer loc dk facts U pats conds mu.
Proof.
  unfold Whole_Spec.answer, answer. rewrite map_length.
  assert (T : forall t, In t pats -> (Whole_Spec.true_pattern Plan_Model.is_var Conv_Model.bytes facts (map str U) mu
      (Plan_Model.t_s (ptriple t), Plan_Model.t_p (ptriple t), Plan_Model.t_o (ptriple t)) <-> true_in facts U mu t)).
  { intros [[s p] o] I. rewrite Forall_forall in HP. destruct (HP _ I) as (F1 & F2 & F3). unfold Whole_Spec.true_pattern, true_in, ptriple. cbn [Plan_Model.t_s Plan_Model.t_p Plan_Model.t_o].
    rewrite !meaning_str by assumption. reflexivity. }
  assert (C : (forall f, In f (map (fun f => (Plan_Model.filter_vars f, word_sat loc dk conds f)) (pfilters 0 conds)) -> snd f (map (Whole_Spec.value_in (map str U) mu) (fst f)) = true) <->
    (forall c, In c conds -> fulfilled loc dk U mu c)).
  { assert (G : forall k x r y, nth_error conds k = Some (x, r, y) ->
      (word_sat loc dk conds (pfilter k (x, r, y)) (map (Whole_Spec.value_in (map str U) mu) (Plan_Model.filter_vars (pfilter k (x, r, y)))) = true <-> fulfilled loc dk U mu (x, r, y))).
    { intros k x r y E. assert (I := nth_error_In _ _ E). destruct (HC _ I) as (_ & Ix & Iy). rewrite pfilter_vars by exact I.
      unfold word_sat. cbn [pfilter Plan_Model.f_id]. rewrite E. cbn [fulfilled]. destruct y as [y|t w]; cbn [given_vars map]; rewrite !value_str by auto; destruct (value U mu x) as [a|].
      - destruct (value U mu y) as [b|].
        + rewrite related_reflect. split; [eauto|]. intros (a' & E1 & b' & E2 & R). injection E1 as ->. injection E2 as ->. exact R.
        + split; [discriminate|]. intros (a' & E1 & b' & E2 & R). discriminate.
      - split; [destruct (value U mu y); discriminate|]. intros (a' & E1 & R). discriminate.
      - rewrite constant_reflect. split; [eauto|]. intros (a' & E1 & R). injection E1 as ->. exact R.
      - split; [discriminate|]. intros (a' & E1 & R). discriminate. }
    split.
    - intros H [[x r] y] I. destruct (In_nth_error _ _ I) as (k & E). apply (G k); [exact E|].
      apply (H (Plan_Model.filter_vars (pfilter k (x, r, y)), word_sat loc dk conds (pfilter k (x, r, y)))). apply in_map_iff. exists (pfilter k (x, r, y)). split; [reflexivity|].
      apply pfilters_in. exists k, (x, r, y). auto.
    - intros H f I. apply in_map_iff in I as (g & <- & I). apply pfilters_in in I as (k & [[x r] y] & E & ->). cbn [fst snd Nat.add]. apply G; [exact E|]. apply H. eapply nth_error_In; eauto. }
  rewrite C. clear C. split.
  - intros (L & H & HF). split; [exact L|]. split; [|exact HF]. intros t I. apply T; [exact I|]. apply H. rewrite map_map. now apply (in_map (fun t => (Plan_Model.t_s (ptriple t), Plan_Model.t_p (ptriple t), Plan_Model.t_o (ptriple t)))).
  - intros (L & H & HF). split; [exact L|]. split; [|exact HF]. intros t I. rewrite map_map in I. apply in_map_iff in I as (x & <- & I). apply T; auto.
Qed.
(* the planner's conditions on the triples *)
Lemma triple_vars_str t : pattern_fine t -> length (Plan_Model.triple_vars (ptriple t)) = length (variables_of t).
Proof.
  destruct t as [[s p] o]. intros (F1 & F2 & F3). unfold Plan_Model.triple_vars, variables_of, ptriple. cbn [Plan_Model.t_s Plan_Model.t_p Plan_Model.t_o].
  set (l := [s; p; o]). change [ptext s; ptext p; ptext o] with (map ptext l). assert (FL : forall x, In x l -> term_fine x) by (intros x [<-|[<-|[<-|[]]]]; assumption).
  clearbody l. clear - FL.
  assert (E : filter Plan_Model.is_var (map ptext l) = map ptext (filter is_variable l)).
  { induction l as [|x l IH]; [reflexivity|]. cbn [map filter]. rewrite is_var_term by (apply FL; now left). rewrite IH by (intros; apply FL; now right). now destruct (is_variable x). }
  rewrite E. assert (FL' : forall x, In x (filter is_variable l) -> term_fine x) by (intros x Hx; apply filter_In in Hx as [Hx _]; auto).
  revert FL'. generalize (filter is_variable l). clear. intros l FL. induction l as [|x l IH]; [reflexivity|]. cbn [map nodup].
  assert (FT : forall y, In y l -> term_fine y) by (intros; apply FL; now right).
  destruct (in_dec string_dec (ptext x) (map ptext l)) as [I|I]; destruct (in_dec term_dec x l) as [J|J].
  - now apply IH.
  - exfalso. apply in_map_iff in I as (y & E & I). apply ptext_inj in E; [subst; contradiction|auto|apply FL; now left].
  - exfalso. apply I. now apply in_map.
  - cbn [length]. f_equal. now apply IH.
Qed.
Lemma query_ok_str : (forall s p o, In (s, p, o) pats -> is_variable p = true -> p <> s /\ p <> o) -> Plan_Thm.query_ok (map str U) (map ptriple pats) (pfilters 0 conds).
Proof.
  intros Hp. destruct HV as [ND HI]. rewrite Forall_forall in HP. split; [|split; [|split]].
  - assert (G : forall l, (forall v, In v l -> In v U) -> NoDup l -> NoDup (map str l)).
    { induction l as [|x l IH]; intros S N; [constructor|]. inversion N as [|? ? N1 N2]; subst. cbn [map]. constructor; [|apply IH; auto; intros; apply S; now right].
      intros I. apply in_map_iff in I as (y & E & I). apply str_inj in E; [subst; contradiction|apply (HU y), S; now right|apply (HU x), S; now left]. }
    apply G; auto.
  - intros v. split.
    + intros I. apply in_map_iff in I as (u & <- & I). split; [exact (is_var_term (TVar u) (HU u I))|]. apply HI in I as ([[s p] o] & I & IP).
      exists (ptriple (s, p, o)). split; [now apply in_map|]. unfold Plan_Thm.term_of, ptriple. cbn [Plan_Model.t_s Plan_Model.t_p Plan_Model.t_o].
      destruct IP as [<-|[<-|<-]]; auto.
    + intros (V & t & I & TO). apply in_map_iff in I as ([[s p] o] & <- & I). destruct (HP _ I) as (F1 & F2 & F3). unfold Plan_Thm.term_of, ptriple in TO. cbn [Plan_Model.t_s Plan_Model.t_p Plan_Model.t_o] in TO.
      assert (G : forall x, term_fine x -> In x [s; p; o] -> v = ptext x -> In v (map str U)).
      { intros x Fx Ix ->. rewrite is_var_term in V by exact Fx. destruct x as [u|]; [|discriminate]. unfold ptext. apply in_map. apply HI. exists (s, p, o). split; [exact I|].
        unfold in_pattern. destruct Ix as [E|[E|[E|[]]]]; rewrite E; auto. }
      destruct TO as [E|[E|E]]; [apply (G s)|apply (G p)|apply (G o)]; auto; cbn; auto.
  - intros t I V. apply in_map_iff in I as ([[s p] o] & <- & I). destruct (HP _ I) as (F1 & F2 & F3). unfold ptriple in *. cbn [Plan_Model.t_s Plan_Model.t_p Plan_Model.t_o] in *.
    rewrite is_var_term in V by exact F2. destruct (Hp _ _ _ I V) as [N1 N2]. split; intros E; apply ptext_inj in E; auto.
  - intros f v I Iv. apply pfilters_in in I as (k & [[x r] y] & E & ->). assert (I := nth_error_In _ _ E). rewrite pfilter_vars in Iv by exact I.
    destruct (HC _ I) as (_ & Ix & Iy). destruct Iv as [<-|Iv]; [now apply in_map|]. destruct y as [y|t w]; [|destruct Iv]. destruct Iv as [<-|[]]; now apply in_map.
Qed.
Lemma tree_str : tree_shaped U pats ->
  (length (map str U) + length (map ptriple pats) = 1 + list_sum (map (fun t => length (Plan_Model.triple_vars t)) (map ptriple pats)))%nat.
Proof.
  unfold tree_shaped. rewrite !map_length, map_map. intros ->. f_equal. f_equal. apply map_ext_in. intros t I. symmetry. apply triple_vars_str. rewrite Forall_forall in HP. auto.
Qed.
End Answers.
