(* Proofs about the SPARQL parser: patterns and whole queries. *)
From Coq Require Import Ascii String List NArith ZArith Arith Bool Lia ZifyBool ZifyN ZifyNat.
From Verif Require Import Strings_Model SLex_Model Sparql_Model SLex_Spec Sparql_Spec SLex_Proof SLex_Proof3 Sparql_Proof1 Sparql_Proof2 Sparql_Proof3 Sparql_Proof4.
Import ListNotations.
Open Scope N_scope.
Open Scope list_scope.

(* ---- triples ---- *)
Definition pre (m : nat) (s : node) (p : predicate) (o : node) : list item :=
  match m with O => [node_item s; predicate_item p; node_item o] | S O => [predicate_item p; node_item o] | _ => [node_item o] end.
Definition last_s (m : nat) (s : node) : text := match m with O => [] | _ => node_text s end.
Definition last_p (m : nat) (p : predicate) : text := match m with O | S O => [] | _ => predicate_text p end.
Definition known (m : nat) (s : node) (p : predicate) : Prop :=
  match m with O => True | S O => node_possible s | _ => node_possible s /\ predicate_possible p end.
Definition ending_items (e : ending) : list item := match e with Dot => [Sym "."] | NoDot => [] | Semicolon => [Sym ";"] end.
Lemma node_nonempty s : node_possible s -> node_text s <> [].
Proof. destruct s; apply possible_nonempty. Qed.
Lemma predicate_nonempty p : predicate_possible p -> predicate_text p <> [].
Proof. destruct p; cbn; auto. apply possible_nonempty. Qed.
(* the items that a triple begins with are no keywords *)
Lemma pre_differs m s p o is w : In w ["}"; "optional"; "bind"; "minus"; "{"; "filter"; "values"; ";"; ","; "."]%string ->
  head_differs (pre m s p o ++ is) (bytes w) = true.
Proof.
  intros I. cbn [In] in I. repeat (destruct I as [<-|I]; [destruct m as [|[|m]]; [destruct s|destruct p|destruct o]; reflexivity|]). destruct I.
Qed.
Lemma subject_step m s p o is l : node_ok s -> known m s p -> At (pre m s p o ++ is) l ->
  exists l', match last_s m s with [] => parse_node l | _ => Ok (last_s m s, l) end = Ok (node_text s, l') /\
    At (match m with O => [predicate_item p; node_item o] | _ => pre m s p o end ++ is) l' /\ node_possible s.
Proof.
  intros K Kn A. destruct m as [|m]; cbn [last_s pre app] in *.
  - assert (P := at_node _ _ _ A). destruct (node_step s _ _ K A) as (l' & E & A'). eauto.
  - assert (P : node_possible s) by (destruct m; cbn [known] in Kn; tauto). assert (Nn := node_nonempty _ P). destruct (node_text s); [contradiction|]. eauto.
Qed.
Lemma object_step m s p o is l : known m s p -> At (match m with O => [predicate_item p; node_item o] | _ => pre m s p o end ++ is) l ->
  exists l', match last_p m p with [] => parse_predicate l | _ => Ok (last_p m p, l) end = Ok (predicate_text p, l') /\
    At (node_item o :: is) l' /\ predicate_possible p.
Proof.
  intros Kn A. destruct m as [|[|m]]; cbn [last_p pre app known] in *.
  - assert (P := at_predicate _ _ _ A). destruct (predicate_step p _ _ A) as (l' & E & A'). eauto.
  - assert (P := at_predicate _ _ _ A). destruct (predicate_step p _ _ A) as (l' & E & A'). eauto.
  - assert (Nn := predicate_nonempty _ (proj2 Kn)). destruct (predicate_text p); [contradiction|]. exists l. tauto.
Qed.
Lemma triples_step ms : forall m s p o e is fuel n fs cs cs1 r k l,
  (e = Dot -> forall fuel l, (length is < fuel)%nat -> At (is ++ Sym "}" :: k) l ->
     exists l', parseWhere fuel n fs cs1 [] [] l = Ok (r, l') /\ At k l') ->
  (e <> Dot -> is = [] /\ r = (n, fs, cs1)) ->
  node_ok s -> predicate_ok p -> node_ok o -> Forall more_ok ms -> known m s p ->
  adds ((s, p, o) :: more_triples s p ms) cs cs1 ->
  (length (pre m s p o ++ concat (map more_items ms) ++ ending_items e ++ is) < fuel)%nat ->
  At ((pre m s p o ++ concat (map more_items ms) ++ ending_items e ++ is) ++ Sym "}" :: k) l ->
  exists l', parseWhere fuel n fs cs (last_s m s) (last_p m p) l = Ok (r, l') /\ At k l'.
Proof.
  induction ms as [|x ms IH]; intros m s p o e is [|fuel] n fs cs cs1 r k l Hd He Ks Kp Ko Km Kn Ha F A; try lia; cbn [parseWhere];
    rewrite <- app_assoc in A.
  all: repeat (rewrite (accept_no _ _ _ A) by (apply pre_differs; cbn; tauto); cbn [bind]).
  all: rewrite (at_two _ _ A) by (rewrite !app_length; cbn [length]; destruct m as [|[|m]]; cbn [pre length]; lia).
  all: repeat (rewrite (accept_no _ _ _ A) by (apply pre_differs; cbn; tauto); cbn [bind]).
  all: destruct (subject_step _ _ _ _ _ _ Ks Kn A) as (l1 & E1 & A1 & Ps); rewrite E1; cbn [bind].
  all: destruct (object_step _ _ _ _ _ _ Kn A1) as (l2 & E2 & A2 & Pp); rewrite E2; cbn [bind].
  all: assert (Po := at_node _ _ _ A2); destruct (node_step _ _ _ Ko A2) as (l3 & E3 & A3); rewrite E3; cbn [bind].
  all: inversion Ha as [|s' p' o' x' ts cs0 cs' cs2 Hv Hb Hr]; subst.
  all: rewrite (triple_ok _ _ _ _ Ko Po Kp Pp Hv); cbn [bind].
  all: rewrite (last_basic_ok _ _ _ _ (push_new_ok _) Hb).
  - cbn [map concat app more_triples] in *. inversion Hr; subst. destruct e; cbn [ending_items app] in *.
    + steps. apply (Hd eq_refl); auto. rewrite !app_length in F. cbn [length] in F. lia.
    + destruct (He ltac:(discriminate)) as [-> ->]. cbn [app] in *. steps. eauto.
    + destruct (He ltac:(discriminate)) as [-> ->]. cbn [app] in *. step. destruct fuel as [|fuel]; [rewrite !app_length in F; cbn [length] in F; lia|]. cbn [parseWhere]. steps. eauto.
  - inversion Km as [|? ? K1 K2]; subst. cbn [map concat] in *. rewrite <- app_assoc in A3. destruct x as [p1 o1|o1]; cbn [more_items more_triples more_ok app] in *.
    + step. apply (IH 1%nat s p1 o1 e is fuel n fs cs' cs1 r k); auto; try tauto.
      * rewrite !app_length in F. cbn [length] in F. rewrite !app_length in F. cbn [pre app length]. rewrite !app_length. lia.
      * cbn [pre app]. rewrite <- !app_assoc in *. exact A0.
    + step. step. apply (IH 2%nat s p o1 e is fuel n fs cs' cs1 r k); auto; try tauto.
      * cbn [known]. auto.
      * rewrite !app_length in F. cbn [length] in F. rewrite !app_length in F. cbn [pre app length]. rewrite !app_length. lia.
      * cbn [pre app]. rewrite <- !app_assoc in *. assumption.
Qed.

(* ---- patterns ---- *)
Scheme means_ind2 := Minimality for means Sort Prop with select_means_ind2 := Minimality for select_means Sort Prop.
Combined Scheme means_both from means_ind2, select_means_ind2.

Lemma elements_head g is k w : elements_items g is -> In w ["."; "select"]%string -> head_differs (is ++ Sym "}" :: k) (bytes w) = true.
Proof.
  intros E I. assert (D : forall s p o x, head_differs ([node_item s; predicate_item p; node_item o] ++ x) (bytes w) = true).
  { intros s p o x. destruct I as [<-|[<-|[]]]; destruct s; reflexivity. }
  destruct E; [|rewrite <- app_assoc; apply D|..]; destruct I as [<-|[<-|[]]]; reflexivity.
Qed.
Lemma dot_step dot g is k l : elements_items g is -> At (dotted dot ++ is ++ Sym "}" :: k) l ->
  exists l', skip_dot l = Ok l' /\ At (is ++ Sym "}" :: k) l'.
Proof.
  intros E A. unfold skip_dot. destruct dot; cbn [dotted app] in A.
  - step. eauto.
  - rewrite (accept_no _ _ _ A) by (eapply elements_head; eauto; cbn; tauto). cbn [bind]. eauto.
Qed.
Lemma columns_length cols : (length cols <= length (concat (map column_items cols)))%nat.
Proof.
  induction cols as [|c cols IH]; [cbn; lia|]. cbn [map concat length]. rewrite app_length. destruct c; cbn [column_items app length]; lia.
Qed.
Lemma select_step distinct reduced columns i is ps l : columns <> [] -> Forall column_ok columns ->
  At ((if distinct : bool then [Word "distinct"] else []) ++ (if reduced : bool then [Word "reduced"] else []) ++ concat (map column_items columns) ++
      Word "where" :: i :: is) l ->
  exists l', parseSelect (empty_head ps) l =
    Ok (Head ps (map column_name columns) [] 1 [] [] [] [] [] reduced distinct (concat (map column_alias columns)), l') /\ At (i :: is) l'.
Proof.
  intros Nc K A. unfold parseSelect.
  assert (Hc : forall w, In w ["distinct"; "reduced"]%string -> head_differs (concat (map column_items columns) ++ Word "where" :: i :: is) (bytes w) = true).
  { intros w I. destruct columns as [|c columns]; [contradiction|]. destruct I as [<-|[<-|[]]]; destruct c; reflexivity. }
  assert (G : exists l1, (let* (d, l) := accept_raw (bytes "distinct") l in let* (r, l) := accept_raw (bytes "reduced") l in Ok (d, r, l)) = Ok (distinct, reduced, l1) /\
    At (concat (map column_items columns) ++ Word "where" :: i :: is) l1).
  { destruct distinct, reduced; cbn [app] in A; steps; eauto.
    - rewrite (accept_no _ _ _ A0) by (apply Hc; cbn; tauto). cbn [bind]. eauto.
    - repeat (rewrite (accept_no _ _ _ A) by (apply Hc; cbn; tauto); cbn [bind]). eauto. }
  destruct G as (l1 & G & A1). destruct (accept_raw (bytes "distinct") l) as [[d l2]| | | | ]; cbn [bind] in *; try discriminate.
  destruct (accept_raw (bytes "reduced") l2) as [[r l3]| | | | ]; cbn [bind] in *; try discriminate. injection G as -> -> ->.
  assert (Len := at_length _ _ A1). rewrite app_length in Len. assert (Lc := columns_length columns).
  destruct (selected_step columns K (length (rest l1) + 2) [] [] i is l1 ltac:(lia) A1) as (l4 & E4 & A4).
  cbn [empty_head Sparql_Model.selected Sparql_Model.aliases]. rewrite E4. cbn [bind prefixes having numPatterns orderBy groupBy limit textLimit offset Sparql_Model.reduced Sparql_Model.distinct app].
  rewrite !orb_false_r. eauto.
Qed.
Lemma modifiers_length ms is : modifiers_items ms is -> (length ms <= length is)%nat.
Proof. induction 1 as [|b m ms is _ IH]; [cbn; lia|]. cbn [length]. rewrite app_length. assert (T := modifier_two b m). lia. Qed.

Ltac flat A := repeat (cbn [app] in A; rewrite <- app_assoc in A); cbn [app] in A.
Ltac len F := do 4 (rewrite ?app_length in F; cbn [app length] in F).
Lemma parse_means :
  (forall g n fs cs n' fs' cs', means g n fs cs n' fs' cs' -> forall is fuel k l, elements_items g is -> (length is < fuel)%nat ->
     At (is ++ Sym "}" :: k) l -> exists l', parseWhere fuel n fs cs [] [] l = Ok (n', fs', cs', l') /\ At k l') /\
  (forall q ps x, select_means q ps x -> forall is fuel k l, select_items q is -> (length is < fuel)%nat ->
     At (is ++ k) l -> k = [] \/ (exists k', k = Sym "}" :: k' /\ k' <> []) ->
     exists l', parseQuery fuel (empty_head ps) l = Ok (x, l') /\ (k = [] -> At [] l') /\ (forall k', k = Sym "}" :: k' -> At k' l')).
Proof.
  apply means_both.
  - (* the end *) intros n fs cs is [|fuel] k l E F A; [lia|]. inversion E; subst. cbn [app parseWhere] in *. steps. eauto.
  - (* triples *) intros s p o ms e r n fs cs cs1 n2 fs2 cs2 Ks Kp Ko Km Ha Hr IH is fuel k l E F A. inversion E as [|? ? ? ? ? ? js He Hj| | | | | | |]; subst.
    apply (triples_step ms 0%nat s p o e js fuel n fs cs cs1 (n2, fs2, cs2) k l); auto.
    + intros -> fuel' l' F' A'. eapply IH; eauto.
    + intros Ne. destruct He as [He|He]; [contradiction|]. subst r. inversion Hj; subst. inversion Hr; subst. auto.
    + exact I.
  - (* optional *) intros g dot r n fs cs n1 fs1 cs1 n2 fs2 cs2 _ IH1 _ IH2 is [|fuel] k l E F A; [lia|]. inversion E as [| |? ? ? i1 i2 Hi Hj| | | | | |]; subst.
    len F. flat A. cbn [parseWhere].
    step. rewrite (at_two _ _ A) by (cbn [length]; lia). steps.
    destruct (IH1 i1 fuel _ l1 Hi ltac:(lia) A1) as (l2 & E2 & A2). rewrite E2. cbn [bind].
     destruct (dot_step _ _ _ _ _ Hj A2) as (l3 & E3 & A3). rewrite E3. cbn [bind]. apply IH2 with i2; auto. lia.
  - (* minus *) intros g dot r n fs cs n1 fs1 cs1 n2 fs2 cs2 _ IH1 _ IH2 is [|fuel] k l E F A; [lia|]. inversion E as [| | |? ? ? i1 i2 Hi Hj| | | | |]; subst.
    len F. flat A. cbn [parseWhere].
    step. rewrite (at_two _ _ A) by (cbn [length]; lia). steps.
    destruct (IH1 i1 fuel _ l1 Hi ltac:(lia) A1) as (l2 & E2 & A2). rewrite E2. cbn [bind].
     destruct (dot_step _ _ _ _ _ Hj A2) as (l3 & E3 & A3). rewrite E3. cbn [bind]. apply IH2 with i2; auto. lia.
  - (* union *) intros a b dot r n fs cs n1 fs1 cs1 n2 fs2 cs2 n3 fs3 cs3 _ IH1 _ IH2 _ IH3 is [|fuel] k l E F A; [lia|]. inversion E as [| | | |? ? ? ? i1 i2 i3 Hi Hj Hk| | | |]; subst.
    len F.
    flat A. cbn [parseWhere].
    step. rewrite (at_two _ _ A) by (cbn [length]; rewrite app_length; cbn [length]; lia). steps.
    rewrite (accept_no _ _ _ A0) by (apply (elements_head _ _ _ _ Hi); cbn; tauto). cbn [bind].
    destruct (IH1 i1 fuel _ l0 Hi ltac:(lia) A0) as (l2 & E2 & A2). rewrite E2. cbn [bind]. steps.
   
    match goal with A' : At (i2 ++ _) ?l' |- _ => destruct (IH2 i2 fuel _ l' Hj ltac:(lia) A') as (l5 & E5 & A5) end. rewrite E5. cbn [bind].
     destruct (dot_step _ _ _ _ _ Hk A5) as (l6 & E6 & A6). rewrite E6. cbn [bind]. apply IH3 with i3; auto. lia.
  - (* subquery *) intros q x dot r n fs cs n2 fs2 cs2 _ IH1 _ IH2 is [|fuel] k l E F A; [lia|]. inversion E as [| | | | |? ? ? i1 i2 Hi Hj| | |]; subst.
    len F. flat A. cbn [parseWhere].
    step. rewrite (at_two _ _ A) by (cbn [length]; lia). steps. 
    assert (Nk : dotted dot ++ i2 ++ Sym "}" :: k <> []) by (destruct dot, i2; discriminate).
    destruct (IH1 i1 fuel (Sym "}" :: dotted dot ++ i2 ++ Sym "}" :: k) l1 Hi ltac:(lia) A1 (or_intror (ex_intro _ _ (conj eq_refl Nk)))) as (l2 & E2 & _ & A2).
    specialize (A2 _ eq_refl). rewrite E2. cbn [bind].
    destruct (dot_step _ _ _ _ _ Hj A2) as (l3 & E3 & A3). rewrite E3. cbn [bind]. apply IH2 with i2; auto. lia.
  - (* filter *) intros f dot r n fs cs fs1 cs1 n2 fs2 cs2 K Hf _ IH is [|fuel] k l E F A; [lia|]. inversion E as [| | | | | |? ? ? i1 Hi| |]; subst.
    len F. flat A. cbn [parseWhere].
    step. rewrite (at_two _ _ A) by (cbn [length]; rewrite app_length; assert (T := filter_one f); lia). steps.
    destruct (filter_step f fs cs fs1 cs1 true _ _ K Hf A0) as (l2 & E2 & A2). rewrite E2. cbn [bind].
    destruct (dot_step _ _ _ _ _ Hi A2) as (l3 & E3 & A3). rewrite E3. cbn [bind]. apply IH with i1; auto. lia.
  - (* values *) intros d dot r n fs cs n2 fs2 cs2 K _ IH is [|fuel] k l E F A; [lia|]. inversion E as [| | | | | | |? ? ? i1 Hi|]; subst.
    len F. flat A. cbn [parseWhere].
    step. rewrite (at_two _ _ A) by (destruct d; cbn [data_items app length]; lia). steps.
    destruct (values_step d _ _ K A0) as (l2 & E2 & A2). rewrite E2. cbn [bind].
    destruct (dot_step _ _ _ _ _ Hi A2) as (l3 & E3 & A3). rewrite E3. cbn [bind]. apply IH with i1; auto. lia.
  - (* bind *) intros b e v dot r n fs cs n2 fs2 cs2 K _ IH is [|fuel] k l E F A; [lia|]. inversion E as [| | | | | | | |? ? ? ? i1 Hi]; subst.
    len F. flat A. cbn [parseWhere].
    step. rewrite (at_two _ _ A) by (cbn [length]; lia). steps. 
    destruct (bind_step b e v _ _ K A0) as (l2 & E2 & A2). rewrite E2. cbn [bind].
    destruct (dot_step _ _ _ _ _ Hi A2) as (l3 & E3 & A3). rewrite E3. cbn [bind]. apply IH with i1; auto. lia.
  - (* a query *) intros distinct reduced columns g ms ps n fs cs h Nc Kc Km _ IH Mo Gr On is [|fuel] k l E F A Hk; [lia|]. inversion E as [? ? ? ? ? i1 i2 Hi Hj]; subst.
    len F. flat A. cbn [parseQuery].
    destruct (select_step distinct reduced columns _ _ ps l Nc Kc A) as (l1 & E1 & A1). rewrite E1. cbn [bind numPatterns]. steps.
    
    destruct (IH i1 fuel _ l0 Hi ltac:(lia) A0) as (l2 & E2 & A2). rewrite E2. cbn [bind]. unfold set_num.
    cbn [prefixes Sparql_Model.selected having numPatterns orderBy groupBy limit textLimit offset Sparql_Model.reduced Sparql_Model.distinct Sparql_Model.aliases].
    assert (Len := at_length _ _ A2). rewrite app_length in Len. assert (Lm := modifiers_length _ _ Hj).
    destruct (modifiers_step ms i2 Hj (length (rest l2) + 2) _ h cs l2 k Km Mo ltac:(lia) A2 Hk) as (l3 & E3 & A3). rewrite E3. cbn [bind].
    rewrite (group_ok_ok _ Gr), (alias_ok_ok _ On). cbn [andb]. eauto.
Qed.

(* ---- whole queries ---- *)
Lemma drop_last_one (p : text) c : drop_last 1 (p ++ [c]) = p.
Proof. unfold drop_last. rewrite app_length. cbn [length]. replace (length p + 1 - 1)%nat with (length p + 0)%nat by lia. rewrite firstn_app_2. cbn. apply app_nil_r. Qed.
Lemma prologue_step ps q is : query_items ps q is -> forall fuel ps0 l, (length is < fuel)%nat -> At is l ->
  exists is' l', parsePrologue fuel ps0 l = Ok (ps0 ++ ps, l') /\ select_items q is' /\ At (Word "select" :: is') l' /\ (length is' <= length is)%nat.
Proof.
  induction 1 as [q is H|p i ps q is H IH]; intros [|fuel] ps0 l F A; try lia; cbn [parsePrologue].
  - step. exists is, l. rewrite app_nil_r. split; [reflexivity|]. split; [exact H|]. split; [exact A|]. cbn [length]; lia.
  - cbn [app] in A. steps. rewrite drop_last_one. cbn [length app] in F.
    destruct (IH fuel (ps0 ++ [(p, i)]) l2 ltac:(lia) A2) as (is' & l3 & E & Hs & A3 & Ln).
    rewrite E, <- app_assoc. exists is', l3. split; [reflexivity|]. split; [exact Hs|]. split; [exact A3|]. cbn [length app]; lia.
Qed.
Theorem parses ps q is d x : query_items ps q is -> written_as is d -> select_means q ps x -> parse d = Ok x.
Proof.
  intros Q W M. unfold parse, start. destruct (read_items is d W (T [] IRI) (T [] IRI)) as (l & E & _ & A). rewrite E. cbn [bind].
  assert (Len := items_length _ _ W). destruct (prologue_step ps q is Q (length d + 2) [] l ltac:(lia) A) as (is' & l1 & E1 & Hs & A1 & Ln).
  rewrite E1. cbn [bind app]. step. rewrite <- (app_nil_r is') in A0.
  destruct (proj2 parse_means q ps x M is' (2 * length d + 4)%nat [] l0 Hs ltac:(lia) A0 (or_introl eq_refl)) as (l2 & E2 & A2 & _).
  rewrite E2. cbn [bind]. unfold expectEmpty. rewrite (at_empty _ (A2 eq_refl)). reflexivity.
Qed.
