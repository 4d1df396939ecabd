(* Property C47: a result table behaves like a list of rows. *)
From Coq Require Import List NArith Arith Lia Bool.
From Coq Require Import ZifyBool ZifyN ZifyNat.
From Verif Require Import Bytes ListAux IdTable_Model IdTable_Proof.
Import ListNotations.
Open Scope N_scope.

(* ---------- specification: operations on a list of rows of a fixed width ---------- *)
(* what may be asked of a table holding the rows l *)
Definition legal (o : op) (t : tab) (l : list (list N)) : Prop :=
  let width := t_cols t in
  let rows := N.of_nat (length l) in
  match o with
  | O_push row => N.of_nat (length row) = width /\ rows + 1 < 2 ^ 62
  | O_blank => rows + 1 < 2 ^ 62
  | O_own_ref i => i < rows /\ rows + 1 < 2 ^ 62 /\ t_size t + 1 < t_cap t    (* the storage does not grow *)
  | O_from src i => (exists ls, rep src ls) /\ t_cols src = width /\ i < t_size src /\ rows + 1 < 2 ^ 62
  | O_own i => i < rows /\ rows + 1 < 2 ^ 62
  | O_insert pos src b e => (exists ls, rep src ls) /\ t_cols src = width /\ e <= t_size src /\
                            rows + (e - b) < 2 ^ 62 /\ (rows + (e - b)) * width < W
  | O_reserve n | O_resize n => n < 2 ^ 62 /\ n * width < W
  | O_set r c v => r < rows /\ c < width
  | O_pop | O_erase _ _ | O_clear => True
  end.

(* the effect on the list of rows; the contents of rows that are only made room for are arbitrary *)
Definition effect (width : N) (o : op) (l l' : list (list N)) : Prop :=
  match o with
  | O_push row => l' = l ++ [row]
  | O_blank => exists row, N.of_nat (length row) = width /\ l' = l ++ [row]
  | O_own_ref i | O_own i => l' = l ++ [nth (N.to_nat i) l []]
  | O_from src i => forall ls, rep src ls -> l' = l ++ [nth (N.to_nat i) ls []]
  | O_pop => l' = removelast l
  | O_insert pos src b e => forall ls, rep src ls ->
      l' = firstn (N.to_nat pos) l ++ firstn (N.to_nat (e - b)) (skipn (N.to_nat b) ls) ++ skipn (N.to_nat pos) l
  | O_erase b e =>
      let e := match e with Some e => e | None => b + 1 end in
      l' = if b <? e then firstn (N.to_nat b) l ++ skipn (N.to_nat e) l else l
  | O_clear => l' = []
  | O_reserve _ => l' = l
  | O_resize n => exists junk, l' = firstn (N.to_nat n) l ++ junk /\ length l' = N.to_nat n
  | O_set r c v =>
      l' = firstn (N.to_nat r) l ++
           [firstn (N.to_nat c) (nth (N.to_nat r) l []) ++ [v] ++ skipn (S (N.to_nat c)) (nth (N.to_nat r) l [])] ++
           skipn (S (N.to_nat r)) l
  end.

Section Theorems.
  Variable maxlen : N.
  Hypothesis maxlen_small : maxlen < 2 ^ 60.

  (* one operation: never UB; unless memory runs out the effect is the one on the list *)
  Theorem C47_operation o t l :
    rep t l -> fits maxlen t -> legal o t l ->
    match exec maxlen o t with
    | Ok t' => exists l', rep t' l' /\ effect (t_cols t) o l l' /\ t_cols t' = t_cols t /\ fits maxlen t'
    | Throw => True
    | UB => False
    end.
  Proof.
    intros R F L. pose proof (r_size _ _ R) as Hs.
    destruct o as [row| |i|src i|i| |pos src b e|b e| |n|n|r c v]; cbn [exec legal effect] in *.
    - destruct L as [L1 L2]. unfold push. pose proof (grow_one maxlen maxlen_small t l R F ltac:(lia)) as G.
      destruct (grow_if _ _ _ _) as [t1| |]; cbn [bind]; auto. destruct G as (R1 & G1 & G2 & G3 & G4).
      assert (E : load row 0 (N.to_nat (t_cols t1)) = Some row).
      { unfold load. replace (_ <=? _)%nat with true by (symmetry; apply Nat.leb_le; lia).
        f_equal. cbn [skipn]. apply firstn_all2. lia. }
      rewrite E. destruct (store_row t1 l row R1 G1 ltac:(lia)) as (t' & E' & R' & C1 & C2). rewrite E'.
      exists (l ++ [row]). repeat (split; [auto; congruence|]). unfold fits in *. rewrite C1, C2. exact G4.
    - unfold push_blank. pose proof (grow_one maxlen maxlen_small t l R F ltac:(lia)) as G.
      destruct (grow_if _ _ _ _) as [t1| |]; cbn [bind]; auto. destruct G as (R1 & G1 & G2 & G3 & G4).
      destruct (resize_rep t1 l (t_size t1 + 1) R1 G1) as [junk R2].
      assert (E : firstn (N.to_nat (t_size t1 + 1)) l = l) by (apply firstn_all2; lia). rewrite E in R2.
      exists (l ++ junk). split; [exact R2|]. split; [|split; [exact G2|exact G4]].
      pose proof (r_size _ _ R2) as S2. cbn [t_size] in S2. rewrite app_length in S2.
      destruct junk as [|x [|y junk]]; cbn [length] in S2; try lia.
      exists x. split; auto. pose proof (r_width _ _ R2) as W2. cbn [t_cols] in W2.
      apply Forall_app in W2. destruct W2 as [_ W2]. inversion W2. lia.
    - destruct L as (L1 & L2 & L3). unfold push_own_ref.
      replace (t_cap t <=? t_size t + 1) with false by lia.
      rewrite off_nat. rewrite (load_own t l) by (auto; lia).
      destruct (store_row t l (nth (N.to_nat i) l []) R ltac:(lia)) as (t' & E' & R' & C1 & C2).
      { apply (nth_width t); auto. lia. }
      rewrite E'. exists (l ++ [nth (N.to_nat i) l []]). repeat (split; [auto; congruence|]).
      unfold fits in *. rewrite C1, C2. exact F.
    - destruct L as ([ls Rs] & L1 & L2 & L3). unfold push_from.
      pose proof (grow_one maxlen maxlen_small t l R F ltac:(lia)) as G.
      destruct (grow_if _ _ _ _) as [t1| |]; cbn [bind]; auto. destruct G as (R1 & G1 & G2 & G3 & G4).
      pose proof (r_size _ _ Rs) as Hss.
      replace (off t1 i) with (N.to_nat i * N.to_nat (t_cols src))%nat by (rewrite off_nat; congruence).
      replace (N.to_nat (t_cols t1)) with (N.to_nat (t_cols src)) by congruence.
      rewrite (load_own src ls) by (auto; lia).
      assert (Wr : length (nth (N.to_nat i) ls []) = N.to_nat (t_cols src)) by (apply (nth_width src); auto; lia).
      destruct (store_row t1 l (nth (N.to_nat i) ls []) R1 G1) as (t' & E' & R' & C1 & C2); [congruence|].
      rewrite E'. exists (l ++ [nth (N.to_nat i) ls []]). split; [exact R'|].
      split; [|split; [congruence|unfold fits in *; rewrite C1, C2; exact G4]].
      intros ls' Rs'. destruct (N.eq_dec (t_cols src) 0) as [Z|Z].
      + (* no columns: every row is empty *)
        assert (Hz : forall l0, rep src l0 -> nth (N.to_nat i) l0 [] = []).
        { intros l0 R0. pose proof (r_size _ _ R0). assert (X : (N.to_nat i < length l0)%nat) by lia.
          pose proof (nth_width src l0 _ R0 X) as Y. rewrite Z in Y. destruct (nth (N.to_nat i) l0 []); auto. discriminate. }
        now rewrite !Hz.
      + now rewrite (rep_unique src ls ls' Z Rs Rs').
    - destruct L as [L1 L2]. unfold push_own. pose proof (grow_one maxlen maxlen_small t l R F ltac:(lia)) as G.
      destruct (grow_if _ _ _ _) as [t1| |]; cbn [bind]; auto. destruct G as (R1 & G1 & G2 & G3 & G4).
      rewrite off_nat. rewrite (load_own t1 l) by (auto; lia).
      destruct (store_row t1 l (nth (N.to_nat i) l []) R1 G1) as (t' & E' & R' & C1 & C2).
      { apply (nth_width t1); auto. lia. }
      rewrite E'. exists (l ++ [nth (N.to_nat i) l []]). repeat (split; [auto; congruence|]).
      unfold fits in *. rewrite C1, C2. exact G4.
    - unfold pop. destruct (resize_rep t l (if 0 <? t_size t then t_size t - 1 else t_size t) R) as [junk R2].
      { pose proof (r_cap _ _ R). destruct (0 <? t_size t); lia. }
      assert (E : firstn (N.to_nat (if 0 <? t_size t then t_size t - 1 else t_size t)) l = removelast l).
      { rewrite removelast_firstn_len. f_equal. destruct (N.ltb_spec 0 (t_size t)); lia. }
      rewrite E in R2. pose proof (r_size _ _ R2) as S2. cbn [t_size] in S2.
      assert (J : junk = []).
      { destruct junk as [|x junk]; auto. exfalso. rewrite app_length in S2. cbn [length] in S2.
        rewrite removelast_firstn_len, firstn_length in S2. destruct (N.ltb_spec 0 (t_size t)); lia. }
      subst junk. rewrite app_nil_r in R2. exists (removelast l). split; [exact R2|]. repeat split; auto; apply F.
    - destruct L as ([ls Rs] & L1 & L2 & L3 & L4).
      pose proof (insert_ok maxlen t l pos src ls b e R F Rs L1 L2) as I.
      rewrite Hs in I. specialize (I L3 L4). destruct (insert _ _ _ _ _ _) as [t'| |]; auto.
      destruct I as (R' & C & Fi). eexists. split; [exact R'|]. split; [|auto].
      intros ls' Rs'. do 2 f_equal. destruct (N.eq_dec (t_cols src) 0) as [Z|Z].
      + assert (Hz : forall l0, rep src l0 -> firstn (N.to_nat (e - b)) (skipn (N.to_nat b) l0) =
                                          repeat [] (Nat.min (N.to_nat (e - b)) (length l0 - N.to_nat b))).
        { intros l0 R0. pose proof (r_width _ _ R0) as W0. rewrite Z in W0.
          rewrite <- skipn_length, <- firstn_length.
          assert (W1 : Forall (fun r : list N => length r = 0%nat) (firstn (N.to_nat (e - b)) (skipn (N.to_nat b) l0)))
            by apply Forall_first, Forall_skip, W0.
          clear -W1. induction W1 as [|x l' Hx _ IH]; simpl; auto. destruct x; [|discriminate]. now rewrite <- IH. }
        rewrite !Hz by assumption. pose proof (r_size _ _ Rs). pose proof (r_size _ _ Rs').
        do 3 f_equal. lia.
      + now rewrite (rep_unique src ls ls' Z Rs Rs').
    - pose proof (erase_ok maxlen t l b e R F) as I. cbv zeta in I. destruct (erase b e t) as [t'| |]; auto.
      destruct I as (R' & C & Fi). eexists. split; [exact R'|]. split; [reflexivity|]. split; [exact C|exact Fi].
    - exists []. split; [|repeat split; auto; apply F]. constructor; simpl; auto.
      + exists (t_data t). reflexivity.
      + apply R.
      + lia.
    - destruct L as [L1 L2]. pose proof (reserve_ok maxlen t l n R F L1 L2) as I.
      destruct (reserve _ _ _) as [t'| |]; auto. destruct I as (R' & C & C2 & C3 & Fi). eauto.
    - destruct L as [L1 L2]. unfold resize. pose proof (reserve_ok maxlen t l n R F L1 L2) as I.
      destruct (N.ltb_spec (t_size t) n) as [H|H].
      + destruct (reserve _ _ _) as [t1| |]; cbn [bind]; auto. destruct I as (R' & C & C2 & C3 & Fi).
        destruct (resize_rep t1 l n R' C3) as [junk R2]. eexists. split; [exact R2|].
        split; [|split; [exact C|exact Fi]]. exists junk. split; auto.
        pose proof (r_size _ _ R2) as S2. cbn [t_size] in S2. lia.
      + destruct (resize_rep t l n R) as [junk R2]. { pose proof (r_cap _ _ R). lia. }
        eexists. split; [exact R2|]. split; [|split; [reflexivity|exact F]]. exists junk. split; auto.
        pose proof (r_size _ _ R2) as S2. cbn [t_size] in S2. lia.
    - destruct L as [L1 L2]. destruct (set_ok t l r c v R ltac:(lia) L2) as (t' & E & R' & C1 & C2).
      rewrite E. eexists. split; [exact R'|]. split; [reflexivity|]. split; [exact C1|].
      unfold fits in *. rewrite C1, C2. exact F.
  Qed.

  (* reading: operator()(row, col) and operator[] give the cell of the list *)
  Theorem C47_read t l r c : rep t l -> r < t_size t -> c < t_cols t ->
    at_ t r c = Ok (nth (N.to_nat c) (nth (N.to_nat r) l []) 0).
  Proof. clear maxlen_small maxlen.
    intros R Hr Hc. destruct (r_data _ _ R) as [rest Hd]. pose proof (r_size _ _ R) as Hs.
    assert (Hi : (N.to_nat r < length l)%nat) by lia. pose proof (nth_width t l _ R Hi) as Hw.
    pose proof (concat_row _ l _ rest (r_width _ _ R) Hi) as E. rewrite <- Hd in E.
    pose proof (concat_len _ _ (r_width _ _ R)) as Hcl.
    unfold at_, load. rewrite off_nat.
    replace (_ <=? _)%nat with true.
    2:{ symmetry. apply Nat.leb_le. rewrite Hd, app_length, Hcl. nia. }
    rewrite skipn_add. rewrite <- E.
    set (M := skipn (N.to_nat r * N.to_nat (t_cols t)) (t_data t)) in *.
    assert (LM : (N.to_nat c < length M)%nat).
    { rewrite <- E in Hw. rewrite firstn_length in Hw. lia. }
    rewrite (skipn_nth_cons _ M 0 LM). cbn [firstn]. f_equal.
    rewrite <- (firstn_skipn (N.to_nat (t_cols t)) M) at 1. rewrite app_nth1; [reflexivity|].
    rewrite firstn_length. lia.
  Qed.

  (* histories: every operation legal when its turn comes *)
  Fixpoint legal_history (os : list op) (t : tab) : Prop :=
    match os with
    | [] => True
    | o :: os' => (forall l, rep t l -> legal o t l) /\
                  match exec maxlen o t with
                  | Ok t' => legal_history os' t'
                  | Throw => legal_history os' t
                  | UB => True
                  end
    end.
  (* the same on the list; an operation for which memory does not suffice has no effect *)
  Fixpoint effects (width : N) (os : list op) (l l' : list (list N)) : Prop :=
    match os with
    | [] => l' = l
    | o :: os' => exists l1, (effect width o l l1 \/ l1 = l) /\ effects width os' l1 l'
    end.

  Theorem C47_histories os : forall t l,
    rep t l -> fits maxlen t -> legal_history os t ->
    exists t' l', run maxlen os t = Ok t' /\ rep t' l' /\ effects (t_cols t) os l l'.
  Proof.
    induction os as [|o os IH]; intros t l R F L; cbn [run effects].
    - exists t, l. auto.
    - destruct L as [L1 L2]. pose proof (C47_operation o t l R F (L1 l R)) as H.
      destruct (exec maxlen o t) as [t1| |].
      + destruct H as (l1 & R1 & E1 & C1 & F1). destruct (IH t1 l1 R1 F1 L2) as (t' & l' & E & R' & Ef).
        exists t', l'. rewrite C1 in Ef. eauto 10.
      + destruct (IH t l R F L2) as (t' & l' & E & R' & Ef). exists t', l'. eauto 10.
      + contradiction.
  Qed.

  (* a new table *)
  Theorem C47_new cols : cols < 2 ^ 60 -> rep (new_table cols) [] /\ fits maxlen (new_table cols).
  Proof.
    intros H. split; [|unfold fits; simpl; lia]. constructor; simpl; auto; try lia. exists []. reflexivity.
  Qed.

  (* an operation for which memory does not suffice leaves no trace: with enough memory it succeeds *)
  Theorem C47_succeeds o t l n :
    rep t l -> fits maxlen t -> legal o t l ->
    match o with
    | O_push _ | O_blank | O_own _ | O_own_ref _ | O_from _ _ => n = grown (t_cap t)
    | O_insert _ _ b e => n = t_size t + (e - b)
    | O_reserve k | O_resize k => n = k
    | _ => n = 0
    end -> n * t_cols t <= maxlen -> exec maxlen o t <> Throw.
  Proof.
    intros R F L Hn Hm. pose proof (C47_operation o t l R F L) as H.
    assert (G : forall k c, (if k =? 0 then grown (t_cap t) else t_cap t + k) <= N.max n (t_cap t) -> t_cols t < 2 ^ 60 ->
                grow_if maxlen c k t <> Throw).
    { intros k c Hk Hc. unfold grow_if. destruct c; [|discriminate]. unfold grow.
      replace (maxlen <? _) with false; [discriminate|]. symmetry. apply N.ltb_ge.
      destruct F as [F1 F2]. assert (B : N.max n (t_cap t) * t_cols t <= maxlen) by nia.
      etransitivity; [apply N.mod_le; discriminate|]. destruct (k =? 0).
      - nia.
      - pose proof (N.mod_le (t_cap t + k) W ltac:(discriminate)). nia. }
    pose proof (grown_bounds (t_cap t)) as Hg. destruct F as [F1 F2].
    destruct o as [row| |i|src i|i| |pos src b e|b e| |k|k|r c v]; cbn [exec legal] in *.
    - specialize (G 0 (t_cap t <=? t_size t + 1) ltac:(cbn [N.eqb]; lia) F2). unfold push in *.
      destruct (grow_if _ _ _ _); cbn [bind] in *; try congruence.
      destruct (load _ _ _); [|discriminate]. unfold with_data. destruct (store _ _ _); discriminate.
    - specialize (G 0 (t_cap t <=? t_size t + 1) ltac:(cbn [N.eqb]; lia) F2). unfold push_blank in *.
      destruct (grow_if _ _ _ _); cbn [bind] in *; congruence.
    - unfold push_own_ref. destruct L as (L1 & L2 & L3). replace (t_cap t <=? t_size t + 1) with false by lia.
      destruct (load _ _ _); [|discriminate]. unfold with_data. destruct (store _ _ _); discriminate.
    - specialize (G 0 (t_cap t <=? t_size t + 1) ltac:(cbn [N.eqb]; lia) F2). unfold push_from in *.
      destruct (grow_if _ _ _ _); cbn [bind] in *; try congruence.
      destruct (load _ _ _); [|discriminate]. unfold with_data. destruct (store _ _ _); discriminate.
    - specialize (G 0 (t_cap t <=? t_size t + 1) ltac:(cbn [N.eqb]; lia) F2). unfold push_own in *.
      destruct (grow_if _ _ _ _); cbn [bind] in *; try congruence.
      destruct (load _ _ _); [|discriminate]. unfold with_data. destruct (store _ _ _); discriminate.
    - discriminate.
    - unfold insert in *. destruct (N.leb_spec e b); [discriminate|].
      assert (G' : grow_if maxlen (t_cap t <? t_size t + (e - b)) (t_size t + (e - b) - t_cap t) t <> Throw).
      { destruct (N.ltb_spec (t_cap t) (t_size t + (e - b))); [|discriminate]. apply G; auto.
        destruct (N.eqb_spec (t_size t + (e - b) - t_cap t) 0); lia. }
      destruct (grow_if _ _ _ _); cbn [bind] in *; try congruence.
      destruct (load _ _ _); [|discriminate]. destruct (store _ _ _); [|discriminate].
      destruct (load _ _ _); [|discriminate]. unfold with_data. destruct (store _ _ _); discriminate.
    - unfold erase. cbv zeta. destruct (_ <=? b); [discriminate|]. destruct (load _ _ _); [|discriminate].
      unfold with_data. destruct (store _ _ _); discriminate.
    - discriminate.
    - unfold reserve. destruct (N.ltb_spec (t_cap t) k); [|discriminate]. apply G; auto.
      destruct (N.eqb_spec (k - t_cap t) 0); lia.
    - unfold resize in *. destruct (N.ltb_spec (t_size t) k); [|discriminate].
      assert (G' : reserve maxlen k t <> Throw).
      { unfold reserve. destruct (N.ltb_spec (t_cap t) k); [|discriminate]. apply G; auto.
        destruct (N.eqb_spec (k - t_cap t) 0); lia. }
      destruct (reserve maxlen k t); cbn [bind]; congruence.
    - unfold set, with_data. destruct (store _ _ _); discriminate.
  Qed.
End Theorems.
Print Assumptions C47_operation.
Print Assumptions C47_read.
Print Assumptions C47_histories.
Print Assumptions C47_new.
Print Assumptions C47_succeeds.

(* two tables compare equal exactly if they have the same rows, provided they have the same width *)
Theorem C47_equal t1 t2 l1 l2 : rep t1 l1 -> rep t2 l2 -> t_cols t1 = t_cols t2 ->
  exists b, eq_table t1 t2 = Ok b /\ (b = true <-> l1 = l2).
Proof.
  intros R1 R2 Hc. pose proof (r_size _ _ R1) as S1. pose proof (r_size _ _ R2) as S2. unfold eq_table.
  destruct (N.eqb_spec (t_size t2) (t_size t1)) as [E|E]; cbn [negb].
  2:{ exists false. split; auto. split; [discriminate|]. intros ->. congruence. }
  assert (H : forall cs, (forall r c, In (r, c) cs -> r < t_size t1 /\ c < t_cols t1) ->
    exists b, eq_cells t1 t2 cs = Ok b /\
      (b = true <-> forall r c, In (r, c) cs ->
        nth (N.to_nat c) (nth (N.to_nat r) l1 []) 0 = nth (N.to_nat c) (nth (N.to_nat r) l2 []) 0)).
  { induction cs as [|[r c] cs IH]; intros Hb; cbn [eq_cells].
    - exists true. split; auto. split; auto. intros _ r c [].
    - destruct (Hb r c (or_introl eq_refl)) as [B1 B2].
      rewrite (C47_read t1 l1 r c R1 B1 B2), (C47_read t2 l2 r c R2) by congruence. cbn [bind].
      destruct (N.eqb_spec (nth (N.to_nat c) (nth (N.to_nat r) l1 []) 0) (nth (N.to_nat c) (nth (N.to_nat r) l2 []) 0)) as [Q|Q].
      + destruct IH as (b & Eb & Ib). { intros r' c' Hin. apply Hb. now right. }
        exists b. split; auto. rewrite Ib. split.
        * intros A r' c' [Hin|Hin]; [injection Hin as <- <-; exact Q|auto].
        * intros A r' c' Hin. apply A. now right.
      + exists false. split; auto. split; [discriminate|]. intros A. elim Q. apply A. now left. }
  destruct (H (cells t1)) as (b & Eb & Ib).
  { intros r c Hin. unfold cells in Hin. apply in_flat_map in Hin. destruct Hin as (x & Hx & Hin).
    apply in_map_iff in Hin. destruct Hin as (y & Hy & Hin). injection Hy as <- <-. apply in_seq in Hx, Hin. lia. }
  exists b. split; auto. rewrite Ib. split; [|intros ->; auto].
  intros A. apply nth_ext with [] []; [lia|]. intros i Hi.
  assert (Hi2 : (i < length l2)%nat) by lia.
  pose proof (nth_width t1 l1 i R1 Hi) as W1. pose proof (nth_width t2 l2 i R2 Hi2) as W2.
  apply nth_ext with 0 0; [congruence|]. intros j Hj.
  specialize (A (N.of_nat i) (N.of_nat j)). rewrite !Nat2N.id in A. apply A.
  unfold cells. apply in_flat_map. exists i. split; [apply in_seq; lia|]. apply in_map_iff. exists j.
  split; auto. apply in_seq. lia.
Qed.
Print Assumptions C47_equal.

(* ---------- examples ---------- *)
Definition ex_src : tab := {| t_size := 3; t_cap := 3; t_cols := 2; t_data := [7; 8; 9; 10; 11; 12] |}.
Lemma ex_src_rep : rep ex_src [[7; 8]; [9; 10]; [11; 12]].
Proof. constructor; [repeat (apply Forall_cons; [reflexivity|]); apply Forall_nil|reflexivity|exists []; reflexivity|reflexivity|vm_compute; congruence]. Qed.
Definition ex_ops : list op :=
  [O_push [1; 2]; O_push [3; 4]; O_push [5; 6]; O_insert 1 ex_src 1 3; O_erase 0 None; O_own 0; O_set 1 1 77;
   O_from ex_src 0; O_resize 4; O_erase 1 (Some 2)].
Example C47_ex_run : exists t, run 100 ex_ops (new_table 2) = Ok t /\ rep t [[9; 10]; [3; 4]; [5; 6]].
Proof.
  eexists. split; [vm_compute; reflexivity|].
  constructor; [repeat (apply Forall_cons; [reflexivity|]); apply Forall_nil|reflexivity|eexists; reflexivity|reflexivity|vm_compute; congruence].
Qed.
Example C47_ex_legal : legal_history 100 ex_ops (new_table 2).
Proof.
  assert (X : forall t l, rep t l -> N.of_nat (length l) = t_size t) by (intros t l R; symmetry; apply R).
  pose proof ex_src_rep as RS.
  unfold ex_ops. repeat (cbn [legal_history]; split;
    [intros l R; apply X in R; match type of R with ?a = ?b => let v := eval vm_compute in b in change (a = v) in R end;
     cbv [legal]; rewrite ?R; repeat split; eauto; try (vm_compute; congruence); try exact I
    |match goal with |- context [exec ?m ?o ?t] =>
       let r := eval vm_compute in (exec m o t) in replace (exec m o t) with r by (vm_compute; reflexivity) end;
     cbv iota beta]).
  exact I.
Qed.

(* ---------- findings ---------- *)
(* pushing a reference to a row of the table itself: the reference dangles when the storage grows *)
Theorem C47_push_own_row_refuted :
  exists t l, rep t l /\ fits 100 t /\ t_size t = 1 /\ push_own_ref 100 0 t = UB.
Proof.
  exists {| t_size := 1; t_cap := 1; t_cols := 2; t_data := [1; 2] |}, [[1; 2]].
  split; [|repeat split; vm_compute; congruence].
  constructor; [repeat (apply Forall_cons; [reflexivity|]); apply Forall_nil|reflexivity|exists []; reflexivity|reflexivity|vm_compute; congruence].
Qed.

(* reserve multiplies rows and columns in size_t: a huge request "succeeds" without memory, and the next row is
   written outside of the storage *)
Theorem C47_reserve_wraps_refuted :
  exists t, reserve 100 (2 ^ 63) (new_table 2) = Ok t /\ t_data t = [] /\ t_cap t = 2 ^ 63 /\
            push 100 [1; 2] t = UB.
Proof. eexists. split; [vm_compute; reflexivity|]. repeat split; vm_compute; reflexivity. Qed.

(* a moved-from table keeps its size and capacity but has no memory: using it again accesses foreign memory *)
Theorem C47_moved_from_refuted :
  exists t l, rep t l /\ push 100 [5; 6] (moved_from t) = UB /\ at_ (moved_from t) 0 0 = UB.
Proof.
  exists {| t_size := 1; t_cap := 4; t_cols := 2; t_data := [1; 2; 0; 0; 0; 0; 0; 0] |}, [[1; 2]].
  split; [|split; vm_compute; reflexivity].
  constructor; try reflexivity; [repeat (apply Forall_cons; [reflexivity|]); apply Forall_nil|exists [0; 0; 0; 0; 0; 0]; reflexivity|discriminate].
Qed.

(* setCols of a table without columns that has rows: the assert holds, but there is no memory for the rows *)
Theorem C47_set_cols_refuted :
  exists t t', run 100 [O_blank; O_blank] (new_table 0) = Ok t /\ set_cols 2 t = Ok t' /\ t_size t' = 2 /\
               at_ t' 0 0 = UB.
Proof. eexists _, _. split; [vm_compute; reflexivity|]. split; [vm_compute; reflexivity|]. split; vm_compute; reflexivity. Qed.

(* operator== does not compare the number of columns *)
Theorem C47_equal_widths_refuted :
  exists t1 l1 t2 l2, rep t1 l1 /\ rep t2 l2 /\ eq_table t1 t2 = Ok true /\ l1 <> l2.
Proof.
  exists {| t_size := 1; t_cap := 1; t_cols := 1; t_data := [1] |}, [[1]],
         {| t_size := 1; t_cap := 1; t_cols := 2; t_data := [1; 2] |}, [[1; 2]].
  repeat split; try discriminate; simpl; auto; try lia; exists []; reflexivity.
Qed.

Print Assumptions C47_push_own_row_refuted.
Print Assumptions C47_reserve_wraps_refuted.
Print Assumptions C47_moved_from_refuted.
Print Assumptions C47_set_cols_refuted.
Print Assumptions C47_equal_widths_refuted.
