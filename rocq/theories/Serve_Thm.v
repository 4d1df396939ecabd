(* Property C82: the responses to the texts of queries. *)
From Coq Require Import Ascii String List NArith ZArith Arith Bool Lia ZifyBool ZifyN ZifyNat Permutation.
From Verif Require Strings_Model Conv_Model PPath_Model SLex_Model Sparql_Model Output_Model Output_Spec Output_Thm Vocab_Model Vocab_Thm Vocab_Spec Perm_Model Perm_Thm Merge_Thm Collate_Model Plan_Spec Plan_Proof2
  Whole_Spec Whole_Proof2 Whole_Proof3 Whole_Proof4 Whole_Proof5 Whole_Thm SLex_Thm Sparql_Thm SPrefix_Thm Collate_Thm Meta_Model Plan_Exec Plan_Proof4 Query_Spec Query_Model Query_Proof.
From Verif Require Import Table_Spec Ops_Model Plan_Model Plan_Proof3 Plan_Proof5 Plan_Thm Whole_Model.
From Verif Require Import SLex_Spec PPath_Spec Sparql_Spec SPrefix_Spec Serve_Spec Serve_Model Serve_Proof Serve_Proof2 Serve_Proof3.
Import ListNotations.
Local Open Scope nat_scope.

Lemma nodup_triples ps l : forall pats, Forall2 (reads_triple ps) l pats -> NoDup (map triple_text l) -> NoDup (map triple_of l).
Proof.
  induction l as [|a l' IH]; intros pats Hr Hdiff; [constructor|]. inversion Hr as [|? b ? pats' R R']; subst. inversion Hdiff as [|? ? N1 N2]; subst.
  cbn [map]. constructor; [|now apply (IH pats')]. intros I. apply N1. apply in_map_iff in I as (b' & E & I). apply in_map_iff. exists b'. split; auto.
  assert (X : exists c, reads_triple ps b' c). { clear - R' I. induction R' as [|x y l l' H F IHF]; [destruct I|]. destruct I as [<-|I]; eauto. }
  destruct X as (c & X). destruct a as [[s p] x], b' as [[s' p'] x'], b as [[? ?] ?], c as [[? ?] ?]. destruct R as (_ & R & _), X as (_ & X & _).
  cbn [triple_of] in E. unfold triple_text. destruct R, X; cbn [predicate_path predicate_text] in E |- *; rewrite ?rep_link in E; unfold PPath_Model.leaf in E; injection E; intros; cbn [concat]; rewrite ?app_nil_r; congruence.
Qed.

Lemma value_shown (f : string -> option Vocab_Model.text) U u : forall mu,
  map f (map str U) = map (fun w => Some (Vocab_Model.Word w)) mu -> In u U ->
  exists w, value U mu u = Some w /\ f (str u) = Some (Vocab_Model.Word w).
Proof.
  induction U as [|a U' IH]; intros [|w mu] EQ Iu; try discriminate; [destruct Iu|].
  cbn [map] in EQ. injection EQ as EQ1 EQ2. cbn [value]. destruct (list_eq_dec N.eq_dec a u) as [->|NE]; [eauto|].
  destruct Iu as [E|Iu]; [now elim NE|]. now apply IH.
Qed.

Lemma row_shown {A B} (P Q : A -> B -> Prop) l : (forall a, In a l -> exists b, P a b /\ Q a b) -> exists bs, Forall2 P l bs /\ Forall2 Q l bs.
Proof.
  induction l as [|a l IH]; intros H; [exists []; split; constructor|]. destruct IH as (bs & I1 & I2); [intros; apply H; now right|].
  destruct (H a (or_introl eq_refl)) as (b & H1 & H2). exists (b :: bs). split; constructor; auto.
Qed.

Lemma literal_parts s t : (~ In 34 s /\ ~ In 92 s)%N -> Collate_Spec.parts (34 :: s ++ 34 :: t)%N 34%N s t.
Proof.
  intros [N1 N2]. apply (Collate_Spec.parts_literal 34%N s t).
  - exists []; now left.
  - exists s, 0, t. split; [reflexivity|]. split; [|split; [now exists 0|lia]].
    destruct (rev s) as [|c u] eqn:E; [left; rewrite <- (rev_involutive s), E; reflexivity|]. right. exists c. split.
    + intros <-. apply N2. apply in_rev. rewrite E. now left.
    + exists (rev u). rewrite <- (rev_involutive s), E. reflexivity.
  - intros q L (a & k & b & E & _ & _ & Q). apply N1. assert (X : nth_error (s ++ [34%N] ++ t) q = Some 34%N).
    { rewrite E, app_assoc. rewrite nth_error_app2; [|rewrite app_length, repeat_length; lia]. rewrite app_length, repeat_length. replace (q - (length a + k)) with 0 by lia. reflexivity. }
    rewrite nth_error_app1 in X by exact L. eapply nth_error_In; eauto.
Qed.
Lemma modifying_given ms keys lim off : modifying ms keys lim off -> Output_Spec.number_given (number_text lim) lim /\ Output_Spec.number_given (number_text off) off.
Proof. destruct 1 as [? ? ? S|? ? ? ? ? _ S]; destruct S; cbn [number_text]; split; try apply Output_Spec.ng_none; now apply Output_Spec.ng_some. Qed.

Section Theorems.
Variable loc : Collate_Model.icu.
Variable numMaps : nat.
Variable linesPerPartial : N.
Variable bufferSize : nat.
Variable parts : list (list (nat * (list N * (list N * list N * list N)))).
Variables per thr : nat.
Variable logmult : N -> N -> N.
Variable sort2 : list (N * N) -> list (N * N).
Variable sort3 : (N * N * N -> N * N * N) -> list (N * N * N) -> list (N * N * N).
Variable prefixes : list (list N).
Variable ix : Perm_Model.index.
Variable v : vocabulary.
(* the index: as for C79 *)
Hypothesis Hin : Merge_Thm.input_ok loc numMaps linesPerPartial parts.
Hypothesis Hmark : Whole_Proof5.marked (v_externalize v) parts.
Hypothesis Hpre : Forall Vocab_Spec.no_newline prefixes.
Hypothesis Hper : 0 < per.
Hypothesis Hlog : forall a b, (logmult a b < 256)%N.
Hypothesis Hsorts : Perm_Thm.sorts sort2 sort3.
Hypothesis Hbuilt : index_built loc numMaps linesPerPartial bufferSize parts per thr logmult sort2 sort3 prefixes ix v.
Hypothesis Honce : Whole_Proof5.once_on_disk (v_external v).
Hypothesis Hsize : (N.of_nat (length (v_words v) + length (Vocab_Model.ext_file (v_external v))) < 2 ^ 63)%N.
Hypothesis Hfew : (N.of_nat (length (Merge_Thm.all_triples parts)) < 2 ^ 40)%N.
Hypothesis Hdis : displayable (Whole_Proof5.facts_of parts).
(* the query: its text d, its triples l, which are the patterns pats with the variables U, and its conditions *)
Variable o : oracle.
Variables (ps : list (list N * list N)) (sel : list (list N)) (g : elements) (ms : list modifier) (dis red : bool) (is : list item) (d : list N).
Variable l : list (node * predicate * node).
Variables (U : list (list N)) (pats : list tpattern) (comps : list compared) (conds : list condition) (keys : list (list N * bool)) (lim off : option N).
Hypothesis Hitems : query_items ps (Select dis red (map ColVar sel) g ms) is.
Hypothesis Htext : written_as is d.
Hypothesis Hgood : Forall good_declaration ps.
Hypothesis Htriples : made_of g l comps.
Hypothesis Hsome : l <> [].
Hypothesis Hdiff : NoDup (map triple_text l).
Hypothesis Hok : Forall triple_ok l.
Hypothesis Hslice : modifying ms keys lim off.
Hypothesis Hreads : Forall2 (reads_triple ps) l pats.
Hypothesis Hcomps : Forall2 (reads_condition ps) comps conds.
Hypothesis Hbytes : Forall bytes_only pats.
Hypothesis Hvars : variables U pats.
Hypothesis Hplain : plain_predicates pats.
Hypothesis Hsel : sel <> [] /\ incl sel U.
Hypothesis Hconds : forall x r y, In (x, r, y) conds -> In x U /\ match y with GVar y => In y U | GWord _ _ => True end.
(* For <= and > not all words of the index are greater than the constant. Otherwise see C15_first_word_refuted. *)
Hypothesis Hfirst : forall x r t w, In (x, r, GWord t w) conds -> r = Sparql_Model.LE \/ r = Sparql_Model.GT -> exists u, In u (v_words v) /\ ~ lower (v_loc v) w u.
Hypothesis Hkeys : incl (map fst keys) U.
Hypothesis Hor : oracle_ok o (map str U).
(* what the request says about the number of rows *)
Variables (send : option (list N)) (m : N).
Hypothesis Hsend : match send with Some s => Output_Spec.number_given s (Some m) | None => m = 100000%N end.

Lemma fine : Forall pattern_fine pats /\ (forall u, In u U -> term_fine (TVar u)).
Proof using Hreads Hbytes Hvars.
  assert (F : Forall pattern_fine pats).
  { apply (triples_fine ps l); auto. revert Hbytes. apply Forall_impl. intros [[a b] c]. unfold bytes_only, pattern_bytes. destruct a, b, c; auto. }
  split; auto. intros u I. apply Hvars in I as ([[s p] x] & I & IP). rewrite Forall_forall in F. destruct (F _ I) as (F1 & F2 & F3).
  destruct IP as [E|[E|E]]; rewrite E; auto.
Qed.
Lemma made_relations g' l' cs : made_of g' l' cs -> forall x r y, In (x, r, y) cs -> is_relation r.
Proof using.
  induction 1 as [|s p z ms' e r l0 cs H IH|k x c y dot r l0 cs K R H IH]; intros x' r' y' I; [destruct I|eauto|]. destruct I as [E|I]; [|eauto]. injection E as <- <- <-. exact R.
Qed.
Lemma conditions_ok : forall c, In c conds -> condition_in U c.
Proof using Htriples Hconds Hcomps.
  intros [[x r] y] I. destruct (Hconds x r y I) as (Ix & Iy).
  assert (X : exists a, In (x, r, a) comps /\ reads_condition ps (x, r, a) (x, r, y)).
  { clear - Hcomps I. induction Hcomps as [|c d' cs ds H F IH]; [destruct I|]. destruct I as [->|I]; [|destruct (IH F I) as (a & A1 & A2); exists a; split; [now right|exact A2]].
    inversion H; subst; eexists; (split; [now left|exact H]). }
  destruct X as (a & Ia & RD). split; [eapply made_relations; eauto|]. split; [exact Ix|].
  destruct y as [y|t w]; [exact Iy|]. inversion RD; subst. split; [assumption|]. now apply (constant_stands ps a).
Qed.
Lemma conditions_fine : Forall condition_fine conds.
Proof using Htriples Hconds Hcomps Hreads Hbytes Hvars.
  apply Forall_forall. intros [[x r] y] I. destruct (conditions_ok _ I) as (R & Ix & Iy). destruct fine as [_ FU].
  split; [exact R|]. split; [apply (FU x Ix)|]. destruct y as [y|t w]; [apply (FU y Iy)|exact Iy].
Qed.
(* The patterns that the response is about. *)
Definition node_of (t : tree) (tab : table) : Query_Model.node := Query_Model.Node (vars o t) (width_of t) (sorted_of t) tab.
Lemma evaluated_inv h res : evaluated o v ix d h res ->
  exists t tab mid, planned o (map ptriple pats) (pfilters 0 conds) [] t /\ runs o v ix (filter_holds v (map filter_to conds)) t tab /\
    Query_Model.distinct_step (query_of (head_of ps sel dis keys lim off red)) (node_of t tab) mid /\
    Query_Model.order_step (query_of (head_of ps sel dis keys lim off red)) mid res /\
    h = head_of ps sel dis keys lim off red.
Proof using Hitems Htext Hgood Htriples Hcomps Hsome Hdiff Hok Hslice Hreads Hsel Hbytes Hvars Hconds.
  intros R. destruct (expanded ps l pats Hreads) as (us & E1 & E2 & E3).
  assert (P : Sparql_Model.parse d = SLex_Model.Ok (Sparql_Model.Query (head_of ps sel dis keys lim off red) (Sparql_Model.Pattern false 0 (map filter_of comps) [Sparql_Model.Basic (map triple_of l)]))).
  { eapply query_parsed; eauto; [apply Hsel|now apply (nodup_triples ps l pats)|]. clear - Hok E3. induction Hok as [|[[s p] x] l' H F IH]; constructor; inversion E3; subst; auto.
    destruct H as (K1 & K2 & K3). unfold triple_fine. auto. }
  destruct R as [x h gs us' ts fs t tab mid res R1 R2 _ _ _ R3 RF R4 R5 R6 R7]. rewrite P in R1. injection R1 as <-.
  rewrite (query_expanded ps sel dis keys lim off red _ us _ _ Hgood E1 Hcomps conditions_fine) in R2. injection R2 as <- <- <-. rewrite E2 in R3.
  rewrite (pfilters_planned U (proj2 fine) conds conditions_ok 0) in RF.
  assert (SI : forall (A : Type) (a b : list A), map Some a = map Some b -> a = b).
  { clear. induction a as [|x a IH]; intros [|y b] E; try discriminate; auto. cbn in E. injection E as <- E. f_equal. auto. }
  apply SI in R3, RF. subst ts fs.
  exists t, tab, mid. auto.
Qed.

Definition most : N := N.min (match lim with Some n => n | None => 100000%N end) m.
Definition first : N := match off with Some n => n | None => 0%N end.
(* sols are the answers in the order that ORDER BY asks for, win those that LIMIT and OFFSET choose *)
Definition answered (r : Conv_Model.outcome (list (list (option (list N))))) : Prop :=
  exists sols win out, solutions dis U sel (answer (v_loc v) (v_externalize v) (Whole_Proof5.facts_of parts) U pats conds) sols /\
    in_order (comes_before (v_loc v) (v_externalize v)) U keys sols /\
    Output_Spec.window (Some most) first sols win /\ Forall2 (row_of U sel) win out /\ r = Conv_Model.Ok out.

Definition cut {A} (n : option N) (rows : list A) : list A := match n with Some k => firstn (N.to_nat k) rows | None => rows end.
Lemma window_cut {A} (n : option N) k (rows : list A) : Output_Spec.window n k rows (cut n (skipn (N.to_nat k) rows)).
Proof using.
  clear. destruct n as [n|]; [apply window_slice|]. intros i. cbn [cut]. generalize (N.to_nat k). intros j. revert rows. induction j as [|j IH]; intros [|a rows]; cbn; auto.
  now destruct i.
Qed.
Lemma cut_in {A} (n : option N) (rows : list A) x : In x (cut n rows) -> In x rows.
Proof using. clear. destruct n as [n|]; [|auto]. cbn [cut]. intros I. rewrite <- (firstn_skipn (N.to_nat n) rows). apply in_app_iff. now left. Qed.
(* the rows that are shown, for any limit *)
Lemma shown_rows n t tab mid res : planned o (map ptriple pats) (pfilters 0 conds) [] t -> tree_ok o t = true -> runs o v ix (filter_holds v (map filter_to conds)) t tab ->
  Query_Model.distinct_step (query_of (head_of ps sel dis keys lim off red)) (node_of t tab) mid ->
  Query_Model.order_step (query_of (head_of ps sel dis keys lim off red)) mid res ->
  exists sols win tw out, solutions dis U sel (answer (v_loc v) (v_externalize v) (Whole_Proof5.facts_of parts) U pats conds) sols /\
    in_order (comes_before (v_loc v) (v_externalize v)) U keys sols /\ length sols = length (Query_Model.n_rows res) /\
    Output_Spec.window n first sols win /\ Forall2 (row_of U sel) win out /\ Output_Spec.window n first (Query_Model.n_rows res) tw /\
    Forall2 (fun row => Forall2 (Output_Spec.cell (world_of v) (shown_result res) row) sel) tw out.
Proof using Hin Hmark Hpre Hper Hlog Hsorts Hbuilt Honce Hsize Hfew Hdis Htriples Hcomps Hconds Hfirst Hreads Hbytes Hvars Hplain Hsel Hkeys Hor.
  clear Hsend m Htext d. intros P T R DS OS. destruct fine as [F FU].
  assert (Q : query_ok (map str U) (map ptriple pats) (pfilters 0 conds)) by (apply query_ok_str; auto using conditions_ok).
  destruct (Whole_Proof5.built_ok loc numMaps linesPerPartial bufferSize parts per thr logmult sort2 sort3 prefixes ix v Hin Hmark Hpre Hbuilt Honce Hsize Hfew)
    as (disk & ids & WF & ND & FF & OK & CI & _).
  assert (SH : Plan_Proof2.full (vars o t) (width_of t) /\ width (width_of t) tab /\ Table_Spec.sorted_lex (sorted_of t) tab).
  { assert (Hvoc : forall t id, id_of v t = Meta_Model.Ok (Some id) -> (id < N.of_nat (length (v_words v ++ disk)))%N).
    { intros t0 id H. apply (Whole_Proof4.id_low v disk WF) in H. unfold Whole_Proof4.low in H. lia. }
    destruct (Whole_Proof3.runs_computes per thr logmult sort2 sort3 Hper Hlog Hsorts _ ids OK ix CI v Hvoc o (filter_holds v (map filter_to conds)) (fun _ _ => False) t tab R) as [C _].
    assert (IX : index_of (Plan_Exec.ix_of (nodup Perm_Thm.triple_dec ids)) (nodup Perm_Thm.triple_dec ids)).
    { split; [apply NoDup_nodup|]. intros ord. apply Plan_Exec.ix_of_ok. }
    exact (plan_shape o _ _ _ _ _ (map str U) _ _ IX Hor Q t tab P T C). }
  destruct SH as ((_ & CW & _) & W & SL).
  destruct (Whole_Thm.whole loc numMaps linesPerPartial bufferSize parts per thr logmult sort2 sort3 prefixes ix v Hin Hmark Hpre Hper Hlog Hsorts Hbuilt Honce Hsize Hfew
    o (map str U) (map ptriple pats) (pfilters 0 conds) (filter_holds v (map filter_to conds)) (word_sat (v_loc v) (v_externalize v) conds)) with (t := t) (tab := tab) as (sols & E & L); auto.
  { apply (filter_words v disk WF ND U).
    - intros u Iu. destruct (FU u Iu) as [B (r & ->)]. exists r. auto.
    - intros [[x r] y] I. split; [now apply conditions_ok|]. destruct y as [y|t' w]; [exact Logic.I|]. intros HR. eapply Hfirst; eauto. }
  assert (L' : Whole_Spec.lists sols (answer (v_loc v) (v_externalize v) (Whole_Proof5.facts_of parts) U pats conds)).
  { destruct L as [L1 L2]. split; auto. intros mu. rewrite L2. unfold Whole_Thm.query_answer. apply answer_str; auto using conditions_ok. }
  clear L.
  destruct (words_rows v U (vars o t) tab sols E) as (KN & WS).
  assert (HU : forall u, In u U -> exists r, u = 63%N :: r) by (intros u Iu; destruct (FU u Iu) as [_ X]; exact X).
  destruct (modified v disk WF ND U sel HU (proj2 Hsel) dis keys (node_of t tab) mid res (answer (v_loc v) (v_externalize v) (Whole_Proof5.facts_of parts) U pats conds)) as (M1 & M2 & M3 & M4 & M5 & M6); auto.
  { split; [exact SL|exact CW]. }
  { unfold Query_Proof.sols. cbn [node_of Query_Model.n_vars Query_Model.n_rows]. now rewrite WS. }
  set (sols' := map (words_of v U) (Query_Proof.sols res)) in *.
  set (win := cut n (skipn (N.to_nat first) sols')).
  set (tw := cut n (skipn (N.to_nat first) (Query_Model.n_rows res))).
  set (R' := shown_result res).
  assert (X : exists out, Forall2 (fun row => Forall2 (Output_Spec.cell (world_of v) R' row) sel) tw out /\
    Forall2 (row_of U sel) win out).
  { apply (forall2_split (fun r mu => mu = words_of v U (Query_Model.value (Query_Model.n_vars res) r))).
    { assert (FC : forall (A B : Type) (P0 : A -> B -> Prop) l1 l2, Forall2 P0 l1 l2 -> Forall2 P0 (cut n l1) (cut n l2)) by (intros; destruct n; [now apply forall2_firstn|assumption]). apply FC, forall2_skipn. unfold sols', Query_Proof.sols. generalize (Query_Model.n_rows res). clear. intros rows. induction rows; cbn [map]; constructor; auto. }
    intros r mu Ir Im EQ.
    assert (Ir' : In r (Query_Model.n_rows res)). { unfold tw in Ir. apply cut_in in Ir. rewrite <- (firstn_skipn (N.to_nat first) (Query_Model.n_rows res)). apply in_app_iff; now right. }
    assert (Ks : known v U (Query_Model.value (Query_Model.n_vars res) r)). { rewrite Forall_forall in M3. apply M3. unfold Query_Proof.sols. now apply in_map. }
    assert (A : answer (v_loc v) (v_externalize v) (Whole_Proof5.facts_of parts) U pats conds mu).
    { assert (Im' : In mu sols'). { rewrite EQ. unfold sols', Query_Proof.sols. apply in_map. now apply in_map. }
      clear - M1 Im'. unfold solutions in M1. destruct dis; [destruct M1 as (_ & M1 & _); auto|]. now apply M1. }
    destruct A as (A1 & A2 & _).
    assert (CE : forall u, In u U -> exists w x, value U mu u = Some w /\ displays w x /\ Output_Spec.cell (world_of v) R' r u (Some x)).
    { intros u Iu. destruct (value_words v U _ u Ks Iu) as (w & V1 & V2). rewrite <- EQ in V1.
      assert (D : exists x, displays w x).
      { apply Hvars in Iu as ([[s p] x] & It & IP). destruct (A2 _ It) as (a & b & c & N1 & N2 & N3 & IF).
        apply (Hdis a b c w IF). destruct IP as [<-|[<-|<-]]; cbn [meaning] in *; [left|right; left|right; right; left]; congruence. }
      destruct D as (x & D). exists w, x. split; auto. split; auto.
      rewrite Query_Proof.value_find in V2. rewrite M4 in V2. cbn [node_of Query_Model.n_vars] in V2. destruct (var_find (vars o t) (str u)) as [c|] eqn:VF; [|elim (unbound_shown v disk WF w V2)].
      destruct (FU u Iu) as [B HR]. unfold R', shown_result. rewrite M4, M5. cbn [node_of Query_Model.n_vars Query_Model.n_width].
      apply (cell_shown v _ _ _ r u c w x VF (CW _ _ VF)); auto.
      unfold width in W. rewrite Forall_forall in W. apply W. apply M6 in Ir'. exact Ir'. }
    unfold row_of. apply row_shown. intros u Iu. destruct (CE u) as (w & x & C1 & C2 & C3); [now apply Hsel|]. exists (Some x). split; eauto. }
  destruct X as (out & X1 & X2). exists sols', win, tw, out. split; [exact M1|]. split; [exact M2|].
  split; [unfold sols', Query_Proof.sols; now rewrite !map_length|]. split; [apply window_cut|]. split; [exact X2|]. split; [apply window_cut|exact X1].
Qed.
Lemma response t tab mid res : planned o (map ptriple pats) (pfilters 0 conds) [] t -> tree_ok o t = true -> runs o v ix (filter_holds v (map filter_to conds)) t tab ->
  Query_Model.distinct_step (query_of (head_of ps sel dis keys lim off red)) (node_of t tab) mid ->
  Query_Model.order_step (query_of (head_of ps sel dis keys lim off red)) mid res ->
  answered (Output_Model.responseJson (world_of v) (shown_result res) sel (number_text lim) (number_text off) send).
Proof using Hin Hmark Hpre Hper Hlog Hsorts Hbuilt Honce Hsize Hfew Hdis Htriples Hcomps Hconds Hfirst Hslice Hreads Hbytes Hvars Hplain Hsel Hkeys Hor Hsend.
  clear Htext d. intros P T R DS OS. destruct (shown_rows (Some most) t tab mid res P T R DS OS) as (sols & win & tw & out & S & O & _ & W & X2 & WT & X1).
  exists sols, win, out. split; [exact S|]. split; [exact O|]. split; [exact W|]. split; [exact X2|].
  destruct (modifying_given _ _ _ _ Hslice) as [N1 N2].
  apply (Output_Thm.C69_json (world_of v) (shown_result res) sel _ _ send lim off m tw out N1 N2 Hsend); [apply Hsel|exact WT|exact X1].
Qed.

(* The response to the text of a query has the words of the selected variables of the answers over the triples of the
   input that LIMIT and OFFSET choose: for every plan that the planner can choose, if the triples have the shape of a
   tree. The answers make the conditions of FILTER true: comparisons of variables with variables and constants. *)
Theorem C82_responds r : tree_shaped U pats -> responds o v ix d send r -> answered r.
Proof using Hin Hmark Hpre Hper Hlog Hsorts Hbuilt Honce Hsize Hfew Hdis Hitems Htext Hgood Htriples Hcomps Hsome Hdiff Hok Hslice Hreads Hbytes Hvars Hplain Hsel Hconds Hfirst Hkeys Hor Hsend.
  intros TS R. destruct R as [h res EV]. apply evaluated_inv in EV as (t & tab & mid & P & R & D & O & ->). apply (response t tab mid); auto. destruct fine as [F FU].
  apply (tree_pattern_ok o (fun _ => None) (Plan_Exec.ix_of []) (fun _ _ => true) (fun _ _ => False) [] (map str U) (map ptriple pats) (pfilters 0 conds) (ix_index [] eq_refl) Hor); auto.
  - apply query_ok_str; auto using conditions_ok.
  - now apply tree_str.
Qed.
(* Any pattern, if every plan that the planner can choose has no join on two or more columns with inputs sorted by other
   columns (tree_ok). Missing: that premise, see C62_two_column_refuted. *)
Theorem C82_responds_partial r : (forall t, planned o (map ptriple pats) (pfilters 0 conds) [] t -> tree_ok o t = true) ->
  responds o v ix d send r -> answered r.
Proof using Hin Hmark Hpre Hper Hlog Hsorts Hbuilt Honce Hsize Hfew Hdis Hitems Htext Hgood Htriples Hcomps Hsome Hdiff Hok Hslice Hreads Hbytes Hvars Hplain Hsel Hconds Hfirst Hkeys Hor Hsend.
  intros TS R. destruct R as [h res EV]. apply evaluated_inv in EV as (t & tab & mid & P & R & D & O & ->). apply (response t tab mid); auto.
Qed.

(* A condition ?x = w loses the answers in which ?x is w, if the word w is kept on disk. *)
Theorem C82_constant_on_disk_refuted x t w r : In (x, Sparql_Model.EQ, GWord t w) conds -> v_externalize v w = true -> tree_shaped U pats -> responds o v ix d send r ->
  exists sols win out, solutions dis U sel (answer (v_loc v) (v_externalize v) (Whole_Proof5.facts_of parts) U pats conds) sols /\
    Output_Spec.window (Some most) first sols win /\ Forall2 (row_of U sel) win out /\ r = Conv_Model.Ok out /\ forall mu, In mu sols -> value U mu x <> Some w.
Proof using Hin Hmark Hpre Hper Hlog Hsorts Hbuilt Honce Hsize Hfew Hdis Hitems Htext Hgood Htriples Hcomps Hsome Hdiff Hok Hslice Hreads Hbytes Hvars Hplain Hsel Hconds Hfirst Hkeys Hor Hsend.
  intros I D TS R. destruct (C82_responds r TS R) as (sols & win & out & S & _ & W & F & E). exists sols, win, out. split; [exact S|]. split; [exact W|]. split; [exact F|]. split; [exact E|].
  intros mu Im V. assert (A : answer (v_loc v) (v_externalize v) (Whole_Proof5.facts_of parts) U pats conds mu).
  { clear - S Im. unfold solutions in S. destruct dis; [destruct S as (_ & S & _); auto|]. now apply S. }
  destruct A as (_ & _ & A). destruct (A _ I) as (a & V' & DA & _). rewrite V in V'. injection V' as <-. rewrite D in DA. discriminate.
Qed.
(* A condition ?x = w for a literal w with a language keeps the answers in which ?x is the same text in another language. *)
Theorem C82_language_refuted x s l1 l2 mu r : let other := (34 :: s ++ 34 :: 64 :: l2)%N in
  (~ In 34 s /\ ~ In 92 s)%N -> conds = [(x, Sparql_Model.EQ, GWord (34 :: s ++ 34 :: 64 :: l1) (34 :: s ++ 34 :: 64 :: l1))%N] ->
  length mu = length U -> (forall t, In t pats -> true_in (Whole_Proof5.facts_of parts) U mu t) -> value U mu x = Some other -> v_externalize v other = false ->
  dis = false -> tree_shaped U pats -> responds o v ix d send r ->
  exists sols win out, In mu sols /\ Output_Spec.window (Some most) first sols win /\ Forall2 (row_of U sel) win out /\ r = Conv_Model.Ok out.
Proof using Hin Hmark Hpre Hper Hlog Hsorts Hbuilt Honce Hsize Hfew Hdis Hitems Htext Hgood Htriples Hcomps Hsome Hdiff Hok Hslice Hreads Hbytes Hvars Hplain Hsel Hconds Hfirst Hkeys Hor Hsend.
  intros other NS EC LM TP V DK ED TS R. destruct (C82_responds r TS R) as (sols & win & out & S & _ & W & F & E). exists sols, win, out. split; [|auto].
  rewrite ED in S. apply S. split; [exact LM|]. split; [exact TP|]. intros c I. rewrite EC in I. destruct I as [<-|[]]. exists other. split; [exact V|]. split; [exact DK|].
  assert (G : forall q, Collate_Spec.parts (34 :: s ++ 34 :: 64 :: q)%N 34%N s (64 :: q)%N) by (intros q; now apply literal_parts).
  exists 34%N, s, (64 :: l2)%N, s, (64 :: l1)%N. split; [apply G|]. split; [apply G|].
  destruct (Whole_Proof5.built_ok loc numMaps linesPerPartial bufferSize parts per thr logmult sort2 sort3 prefixes ix v Hin Hmark Hpre Hbuilt Honce Hsize Hfew) as (disk & ids & (IC & _) & _).
  exact (proj1 (Collate_Proof.pre_icu (v_loc v) Collate_Model.Quaternary IC) s).
Qed.

(* lines instead of Json: sols and win are as before, but there is no limit without LIMIT *)
Definition exported (sep : N) (r : Conv_Model.outcome reply) : Prop :=
  exists sols win out, solutions dis U sel (answer (v_loc v) (v_externalize v) (Whole_Proof5.facts_of parts) U pats conds) sols /\
    in_order (comes_before (v_loc v) (v_externalize v)) U keys sols /\
    Output_Spec.window lim first sols win /\ Forall2 (row_of U sel) win out /\ r = Conv_Model.Ok (Lines (concat (map (Output_Spec.line sep) out))).
Lemma lower_same a w : Forall2 same_letter a w -> Forall (fun c => ~ (65 <= c <= 90))%N w -> SLex_Model.lowercase a = w.
Proof using.
  clear. induction 1 as [|c w' a w H F IH]; intros N; [reflexivity|]. inversion N; subst. unfold SLex_Model.lowercase in *. cbn [map]. f_equal; [|now apply IH].
  unfold Strings_Model.tolower. destruct H as [->|[H E]]; [replace ((65 <=? w') && (w' <=? 90))%N with false by lia; reflexivity|].
  replace ((65 <=? c) && (c <=? 90))%N with true by lia. exact E.
Qed.
Lemma asked_separator action sep : asks_for_lines action sep -> separator action = Some sep.
Proof using.
  clear. intros [[F ->]|[F ->]]; apply lower_same in F; try (apply Forall_forall; intros c I; vm_compute in I; repeat (destruct I as [<-|I]; [lia|]); destruct I).
  - unfold separator. rewrite F. reflexivity.
  - unfold separator. rewrite F. reflexivity.
Qed.
(* An export as CSV or TSV has a line for each answer that LIMIT and OFFSET choose, with the words of the selected
   variables. Missing: OFFSET without LIMIT, see C82_export_refuted. *)
Theorem C82_export_partial action sep r : tree_shaped U pats -> asks_for_lines action sep -> (lim = None -> off = None \/ off = Some 0%N) ->
  (forall sols, solutions dis U sel (answer (v_loc v) (v_externalize v) (Whole_Proof5.facts_of parts) U pats conds) sols -> (N.of_nat (length sols) < 2 ^ 63)%N) ->
  replies o v ix d action send r -> exported sep r.
Proof using Hin Hmark Hpre Hper Hlog Hsorts Hbuilt Honce Hsize Hfew Hdis Hitems Htext Hgood Htriples Hcomps Hsome Hdiff Hok Hslice Hreads Hbytes Hvars Hplain Hsel Hconds Hfirst Hkeys Hor.
  intros TS AS LO FS R. apply asked_separator in AS. destruct R as [sep' h res AS' EV|r' AS' _]; [|congruence].
  rewrite AS in AS'. injection AS' as <-. apply evaluated_inv in EV as (t & tab & mid & P & R & D & O & ->).
  assert (T : tree_ok o t = true).
  { destruct fine as [F FU].
    apply (tree_pattern_ok o (fun _ => None) (Plan_Exec.ix_of []) (fun _ _ => true) (fun _ _ => False) [] (map str U) (map ptriple pats) (pfilters 0 conds) (ix_index [] eq_refl) Hor); auto.
    - apply query_ok_str; auto using conditions_ok.
    - now apply tree_str. }
  destruct (shown_rows lim t tab mid res P T R D O) as (sols & win & tw & out & S & IO & LS & W & X2 & WT & X1).
  exists sols, win, out. split; [exact S|]. split; [exact IO|]. split; [exact W|]. split; [exact X2|].
  destruct (modifying_given _ _ _ _ Hslice) as [N1 N2].
  assert (E := Output_Thm.C69_lines_partial (world_of v) (shown_result res) sel (number_text lim) (number_text off) sep lim off tw out N1 N2 (proj1 Hsel)).
  cbn [head_of Sparql_Model.selected Sparql_Model.limit Sparql_Model.offset]. rewrite E; [reflexivity| |exact LO|exact WT|exact X1].
  assert (BS := FS sols S). rewrite LS in BS. exact BS.
Qed.
(* An export of a query with OFFSET and without LIMIT is empty, whatever the answers are. *)
Theorem C82_export_refuted action sep n r : lim = None -> off = Some n -> (0 < n)%N -> asks_for_lines action sep ->
  replies o v ix d action send r -> r = Conv_Model.Ok (Lines []).
Proof using Hitems Htext Hgood Htriples Hcomps Hsome Hdiff Hok Hslice Hreads Hbytes Hvars Hsel Hconds.
  intros EL EO PN AS R. apply asked_separator in AS. destruct R as [sep' h res AS' EV|r' AS' _]; [|congruence].
  apply evaluated_inv in EV as (t & tab & mid & P & R & D & O & ->). cbn [head_of Sparql_Model.selected Sparql_Model.limit Sparql_Model.offset].
  destruct (modifying_given _ _ _ _ Hslice) as [_ N2]. rewrite EL, EO in *. cbn [number_text]. inversion N2; subst.
  rewrite Output_Thm.C69_offset_refuted; [reflexivity|exact PN|assumption].
Qed.
End Theorems.
Print Assumptions C82_export_partial.
Print Assumptions C82_export_refuted.
Print Assumptions C82_responds.
Print Assumptions C82_responds_partial.
Print Assumptions C82_constant_on_disk_refuted.
Print Assumptions C82_language_refuted.

(* ---------- an example: a query to the index of the example for C79 ---------- *)
Import Whole_Thm Plan_Exec Vocab_Thm Whole_Proof3 Whole_Proof4.
Import SLex_Thm Sparql_Thm.
Definition z_comps : list compared := [([63; 120], Sparql_Model.LT, OVar [63; 122]); ([63; 120], Sparql_Model.LE, OIri (iri 97))]%N.
Definition z_conds : list condition := [([63; 120], Sparql_Model.LT, GVar [63; 122]); ([63; 120], Sparql_Model.LE, GWord (iri 97) (iri 97))]%N.
Definition z_tree : tree := (FilterT (FilterT (JoinT (Plan_Model.Scan POS ["<p>"] ["?y"; "?x"]) (Plan_Model.Scan PSO ["<p>"] ["?y"; "?z"]) 0 0) (F 0 "?x" [] "?z")) (F 1 "?x" [] "<a>"))%string.
Lemma e_runs : exists ix,
  index_built Collate_Thm.example_icu 4 3 10 e_parts 2 3 Perm_Thm.ex_log (Ops_Proof.sort_by Perm_Model.pair_less) Perm_Thm.ex_sort3 [[60%N]] ix e_voc /\
  runs x_o e_voc ix (filter_holds e_voc (map filter_to z_conds)) z_tree
    [[1; 0; 1]; [1; 0; 2]]%N.
Proof.
  destruct e_built as (ix & BI & CI). exists ix. split; [exact BI|].
  assert (VO : forall t0 id, id_of e_voc t0 = Meta_Model.Ok (Some id) -> (id < N.of_nat 7)%N).
  { intros t0 id H. assert (WF : well_formed (v_loc e_voc) (v_externalize e_voc) (v_words e_voc) [] (v_external e_voc)).
    { split; [apply Collate_Thm.example_icu_ok|]. split; [|split; [constructor|]].
      - cbn [v_words v_loc e_voc]. unfold e_words. repeat constructor; apply Collate_Proof.compare_precedes; vm_compute; reflexivity.
      - split; [apply Forall_forall; reflexivity|]. split; [constructor|]. split; [reflexivity|]. apply Vocab_Proof.init_ok. reflexivity. }
    apply (id_low e_voc [] WF) in H. unfold low in H. cbn [e_voc v_words app e_words length] in H. lia. }
  destruct (computes_runs 2 3 Perm_Thm.ex_log (Ops_Proof.sort_by Perm_Model.pair_less) Perm_Thm.ex_sort3 (Nat.lt_0_succ 1) (fun a b => N.mod_lt _ 256 ltac:(discriminate))
    Perm_Thm.ex_sorts 7 e_ids e_perm ix CI e_voc VO x_o (filter_holds e_voc (map filter_to z_conds)) (fun _ _ => False)
    z_tree
    [[1; 0; 1]; [1; 0; 2]]%N) as [R _]; [| | |exact R].
  { apply exec_computes. vm_compute. reflexivity. }
  { assert (IP : id_of e_voc "<p>"%string <> Meta_Model.UB) by (assert (Z : id_of e_voc "<p>"%string = Meta_Model.Ok (Some 4%N)) by (vm_compute; reflexivity); rewrite Z; discriminate).
    split; exact IP. }
  { split; exact I. }
Qed.
Definition z_text : list N := bytes "SELECT DISTINCT ?z WHERE {?x <p> ?y . ?y <p> ?z . FILTER(?x < ?z) FILTER(?x <= <a>)} ORDER BY DESC(?z) LIMIT 3".
Definition z_p : predicate := PPath [bytes "<p>"] (PPath_Spec.Link (bytes "<p>")).
Definition z_l : list (node * predicate * node) := [(NVar [63; 120], z_p, NVar [63; 121]); (NVar [63; 121], z_p, NVar [63; 122])]%N.
Definition z_g : elements := (Triples (NVar [63; 120]) z_p (NVar [63; 121]) [] Dot (Triples (NVar [63; 121]) z_p (NVar [63; 122]) [] Dot (Condition (Compare 1 false (OVar [63; 120]) Sparql_Model.LT (OVar [63; 122])) false (Condition (Compare 1 false (OVar [63; 120]) Sparql_Model.LE (OIri (iri 97))) false Done))))%N.
Definition z_U : list (list N) := [[63; 120]; [63; 121]; [63; 122]]%N.
Definition z_pats : list tpattern := [(TVar [63; 120], TWord (bytes "<p>"), TVar [63; 121]); (TVar [63; 121], TWord (bytes "<p>"), TVar [63; 122])]%N.
Definition z_ms : list modifier := [OrderBy (KeyCall true [63; 122]) []; Limit (Conv_Model.decimal 3)]%N.
Definition z_sel : list (list N) := [[63; 122]]%N.
Definition z_keys : list (list N * bool) := [([63; 122]%N, true)].
Definition z_out : list (list (option (list N))) := map (map (fun c => Some (iri c))) [[99]; [98]]%N.
Ltac digit_tac c := apply (tk_integer [] [c]); [left; reflexivity|discriminate|fa_tac].
Lemma z_written : exists is, query_items [] (Select true false (map ColVar z_sel) z_g z_ms) is /\ written_as is z_text.
Proof.
  eexists. split.
  - apply qi_select. eapply si.
    + unfold z_g. apply ei_triples; [now left|]. apply ei_triples; [now left|]. apply ei_filter, ei_filter, ei_done.
    + apply (mi_cons (bytes "order by")), (mi_cons []), mi_nil.
  - match goal with |- written_as ?is ?t => let is' := eval vm_compute in is in let t' := eval vm_compute in t in change (written_as is' t') end.
    wtok 0%nat 6%nat; [gap_tac|word_tac| |head_tac].
    wtok 1%nat 8%nat; [gap_tac|word_tac| |head_tac].
    wtok 1%nat 2%nat; [gap_tac|var_tac 122%N| |head_tac].
    wtok 1%nat 5%nat; [gap_tac|word_tac| |head_tac].
    wtok 1%nat 1%nat; [gap_tac|sym_tac| |exact I].
    wtok 0%nat 2%nat; [gap_tac|var_tac 120%N| |head_tac].
    wpath 1%nat 3%nat 0%nat; [gap_tac|iri_tac|now left|spaces|exact I|small|].
    wtok 1%nat 2%nat; [gap_tac|var_tac 121%N| |head_tac].
    wtok 1%nat 1%nat; [gap_tac|sym_tac| |exact I].
    wtok 1%nat 2%nat; [gap_tac|var_tac 121%N| |head_tac].
    wpath 1%nat 3%nat 0%nat; [gap_tac|iri_tac|now left|spaces|exact I|small|].
    wtok 1%nat 2%nat; [gap_tac|var_tac 122%N| |head_tac].
    wtok 1%nat 1%nat; [gap_tac|sym_tac| |exact I].
    wtok 1%nat 6%nat; [gap_tac|word_tac| |head_tac].
    wtok 0%nat 1%nat; [gap_tac|sym_tac| |exact I].
    wtok 0%nat 2%nat; [gap_tac|var_tac 120%N| |head_tac].
    wtok 1%nat 1%nat; [gap_tac|apply tk_less| |intros u r E; exists 32%N; destruct u as [|c u]; [discriminate|]; injection E as <- E; split; [now left|left; lia]].
    wtok 1%nat 2%nat; [gap_tac|var_tac 122%N| |head_tac].
    wtok 0%nat 1%nat; [gap_tac|sym_tac| |exact I].
    wtok 1%nat 6%nat; [gap_tac|word_tac| |head_tac].
    wtok 0%nat 1%nat; [gap_tac|sym_tac| |exact I].
    wtok 0%nat 2%nat; [gap_tac|var_tac 120%N| |head_tac].
    wtok 1%nat 1%nat; [gap_tac|apply tk_less| |intros u r E; exists 32%N; destruct u as [|c [|c' u]]; [discriminate|discriminate|]; injection E as <- <- E; split; [right; now left|left; lia]].
    wtok 0%nat 1%nat; [gap_tac|sym_tac| |exact I].
    wtok 1%nat 3%nat; [gap_tac|iri_tac| |exact I].
    wtok 0%nat 1%nat; [gap_tac|sym_tac| |exact I].
    wtok 0%nat 1%nat; [gap_tac|sym_tac| |exact I].
    wtok 1%nat 8%nat; [gap_tac|order_tac| |exact I].
    wtok 1%nat 4%nat; [gap_tac|word_tac| |head_tac].
    wtok 0%nat 1%nat; [gap_tac|sym_tac| |exact I].
    wtok 0%nat 2%nat; [gap_tac|var_tac 122%N| |head_tac].
    wtok 0%nat 1%nat; [gap_tac|sym_tac| |exact I].
    wtok 1%nat 5%nat; [gap_tac|word_tac| |head_tac].
    wtok 1%nat 1%nat; [gap_tac|digit_tac 51%N| |split; intros; discriminate].
    apply wa_end, eg_gap, gap_nil.
Qed.

Example C82_example : exists ix is r,
  Merge_Thm.input_ok Collate_Thm.example_icu 4 3 e_parts /\ Whole_Proof5.marked (v_externalize e_voc) e_parts /\
  index_built Collate_Thm.example_icu 4 3 10 e_parts 2 3 Perm_Thm.ex_log (Ops_Proof.sort_by Perm_Model.pair_less) Perm_Thm.ex_sort3 [[60%N]] ix e_voc /\
  Whole_Proof5.once_on_disk (v_external e_voc) /\ displayable (Whole_Proof5.facts_of e_parts) /\
  query_items [] (Select true false (map ColVar z_sel) z_g z_ms) is /\ written_as is z_text /\ made_of z_g z_l z_comps /\ Forall2 (reads_condition []) z_comps z_conds /\ NoDup (map triple_text z_l) /\
  Forall triple_ok z_l /\ modifying z_ms z_keys (Some 3%N) None /\ Forall2 (reads_triple []) z_l z_pats /\ Forall bytes_only z_pats /\
  variables z_U z_pats /\ plain_predicates z_pats /\ incl z_sel z_U /\ (forall x r y, In (x, r, y) z_conds -> In x z_U /\ match y with GVar y => In y z_U | GWord _ _ => True end) /\
  (forall x r t w, In (x, r, GWord t w) z_conds -> r = Sparql_Model.LE \/ r = Sparql_Model.GT -> exists u, In u (v_words e_voc) /\ ~ lower (v_loc e_voc) w u) /\ incl (map fst z_keys) z_U /\ oracle_ok x_o (map str z_U) /\ tree_shaped z_U z_pats /\
  responds x_o e_voc ix z_text None r /\ r = Conv_Model.Ok z_out /\
  asks_for_lines (bytes "CSV_export") 44 /\ replies x_o e_voc ix z_text (bytes "CSV_export") None (Conv_Model.Ok (Lines (iri 99 ++ [10] ++ iri 98 ++ [10])%N)).
Proof.
  destruct e_runs as (ix & BI & R). destruct z_written as (is & Q & W). exists ix, is, (Conv_Model.Ok z_out).
  split; [apply e_input|]. split; [apply e_marked|]. split; [exact BI|]. split; [apply e_once|].
  split. { intros x y z w H I. exists w. left. split; [|reflexivity]. intros t E. subst w. cbn in H.
    repeat (destruct H as [H|H]; [injection H as <- <- <-; cbn in I; intuition discriminate|]). destruct H. }
  split; [exact Q|]. split; [exact W|]. split; [apply (mo_triples (NVar [63; 120]%N) z_p (NVar [63; 121]%N) []), (mo_triples (NVar [63; 121]%N) z_p (NVar [63; 122]%N) []), (mo_condition 1); [lia|cbn; tauto|apply (mo_condition 1); [lia|cbn; tauto|apply mo_done]]|].
  split.
  { apply Forall2_cons; [apply rc_variable|]. apply Forall2_cons; [|apply Forall2_nil]. apply rc_constant; [discriminate|]. apply rk_iri; [|exists [97%N]; reflexivity].
    apply (nm_iri [] [97; 62]%N). intros a b E. assert (X : In 94%N [97; 62]%N) by (rewrite E; apply in_app_iff; right; now left). cbn in X. intuition discriminate. }
  split. { unfold z_l. cbn. constructor; [intros [E|[]]; discriminate|]. constructor; [intros []|constructor]. }
  split.
  { assert (P : predicate_ok z_p).
    { split; [|cbn -[PPath_Spec.delim]; right; split; [unfold PPath_Spec.delim; cbn; lia|exact I]].
      apply PPath_Spec.path_one, PPath_Spec.seq_one, PPath_Spec.step_elt, PPath_Spec.elt_primary, PPath_Spec.primary_link, (PPath_Thm.iri_link [112%N]). PPath_Thm.graphics. }
    unfold z_l. apply Forall_cons; [|apply Forall_cons; [|apply Forall_nil]]; cbn -[predicate_ok]; auto. }
  split; [apply (mf_order (KeyCall true [63; 122]%N) []); [repeat constructor|apply sl_limit; reflexivity]|].
  assert (NM : reads_predicate [] z_p (TWord (bytes "<p>"))).
  { apply rp_iri.
    - apply (nm_iri [] [112; 62]%N). intros a b E. assert (X : In 94%N [112; 62]%N) by (rewrite E; apply in_app_iff; right; now left). cbn in X. intuition discriminate.
    - unfold contains_word. cbn. intuition discriminate.
    - unfold internal_predicates. cbn. intuition discriminate.
    - intros a b E. apply (f_equal (@length N)) in E. rewrite !app_length in E. cbn in E. lia. }
  split. { unfold z_l, z_pats. apply Forall2_cons; [|apply Forall2_cons; [|apply Forall2_nil]]; (split; [apply rd_variable|split; [exact NM|apply ro_node, rd_variable]]). }
  split. { unfold z_pats. apply Forall_cons; [|apply Forall_cons; [|apply Forall_nil]]; cbn; repeat split; repeat (apply Forall_cons; [lia|]); apply Forall_nil. }
  split.
  { split; [unfold z_U; repeat constructor; cbn; intuition discriminate|]. intros u. unfold z_U, z_pats. split.
    - intros [<-|[<-|[<-|[]]]]; (eexists; split; [now left|cbn; tauto]) || (eexists; split; [right; now left|cbn; tauto]).
    - intros (t & [<-|[<-|[]]] & [E|[E|E]]); try discriminate; injection E as ->; cbn; auto. }
  split. { intros s p x [E|[E|[]]] V; injection E as <- <- <-; discriminate. }
  split. { intros u [<-|[]]; cbn; auto. }
  split. { intros x r y [E|[E|[]]]; injection E as <- <- <-; cbn; auto. }
  split. { intros x r t w [E|[E|[]]] _; [discriminate|]. injection E as <- <- <- <-. exists (iri 97). split; [now left|]. rewrite <- below_reflect. vm_compute. discriminate. }
  split. { intros u [<-|[]]; cbn; auto. }
  split. { apply ex_oracle. intros u H. cbn in H. destruct H as [<-|[<-|[<-|[]]]]; split; discriminate. }
  split; [reflexivity|].
  assert (EV : exists h m, evaluated x_o e_voc ix z_text h (Query_Model.Node m 3 [] [[1; 0; 2]; [1; 0; 1]]%N) /\ m = vars x_o z_tree /\
    Sparql_Model.selected h = z_sel /\ Sparql_Model.limit h = [51%N] /\ Sparql_Model.offset h = []).
  { do 2 eexists. split; [eapply (Evaluated _ _ _ _ _ _ _ _ e_ts [F 0 "?x" [] "?z"; F 1 "?x" [] "<a>"]%string _ _ (Query_Model.Node _ 3 [2%nat] [[1; 0; 1]; [1; 0; 2]]%N) (Query_Model.Node _ 3 [] [[1; 0; 2]; [1; 0; 1]]%N));
      [vm_compute; reflexivity|vm_compute; reflexivity|reflexivity|reflexivity|reflexivity|vm_compute; reflexivity|vm_compute; reflexivity| |exact R| |]|].
    + apply Plan_Proof4.pattern_planned. vm_compute. reflexivity.
    + exists [[1; 0; 1]; [1; 0; 2]]%N, [[1; 0; 1]; [1; 0; 2]]%N. split; [|split; reflexivity].
      split; [apply Permutation_refl|]. repeat constructor; vm_compute; congruence.
    + exists [(2%nat, true)], [[1; 0; 2]; [1; 0; 1]]%N. split; [reflexivity|]. split; [|reflexivity]. split; [apply perm_swap|]. repeat constructor; vm_compute; congruence.
    + split; [reflexivity|]. split; [reflexivity|]. split; reflexivity. }
  destruct EV as (h & mm & EV & EM & E1 & E2 & E3). split.
  { assert (RS := Responds _ _ _ _ None h _ EV). rewrite E1, E2, E3, EM in RS.
    match type of RS with responds _ _ _ _ _ ?r => assert (ER : r = Conv_Model.Ok z_out) by (vm_compute; reflexivity) end. rewrite ER in RS. exact RS. }
  split; [reflexivity|].
  split.
  - left. split; [|reflexivity]. unfold same_letter. cbn. repeat (apply Forall2_cons; [lia|]). apply Forall2_nil.
  - replace (Conv_Model.Ok (Lines (iri 99 ++ [10] ++ iri 98 ++ [10])%N)) with
      (as_reply Lines (Output_Model.responseSepValues (world_of e_voc) (shown_result (Query_Model.Node mm 3 [] [[1; 0; 2]; [1; 0; 1]]%N)) (Sparql_Model.selected h) (Sparql_Model.limit h) (Sparql_Model.offset h) 44%N)).
    + apply ReplyLines; [reflexivity|exact EV].
    + rewrite E1, E2, E3, EM. vm_compute. reflexivity.
Qed.
