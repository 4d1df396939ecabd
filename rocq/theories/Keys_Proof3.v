(* Proofs about cache keys: equal keys come from operations that look alike. *)
From Coq Require Import Ascii String List NArith Bool Lia ZifyBool ZifyN ZifyNat.
From Verif Require Import Conv_Model Keys_Model Keys_Spec Keys_Proof Keys_Proof2.
Import ListNotations.
Open Scope N_scope.

Scheme op_mut := Induction for op Sort Prop
  with tree_mut := Induction for tree Sort Prop
  with side_mut := Induction for side Sort Prop.
Combined Scheme op_tree_side_ind from op_mut, tree_mut, side_mut.

Definition tag (o : op) : nat :=
  match o with
  | Scan _ _ _ _ => 0 | Join _ _ _ _ => 1 | MultiJoin _ _ _ => 2 | TwoJoin _ _ _ _ _ _ => 3
  | Optional _ _ _ _ _ => 4 | Minus _ _ _ => 5 | Sort _ _ | OrderBy _ _ => 6 | Distinct _ _ => 7
  | Filter _ _ _ _ _ _ _ => 8 | GroupBy _ _ _ => 9 | Union _ _ _ => 10 | Path _ _ _ _ _ _ _ _ _ _ => 11
  | HasPredS _ => 12 | HasPredO _ | HasPredSub _ _ => 13 | HasPredAll => 14
  | CountEntity _ | CountAll => 15 | CountSub _ _ => 16 | Text _ _ _ => 17 | TextFilter _ _ _ _ _ => 18
  | Bind _ _ _ => 19 | Values _ _ => 20
  end.

Definition headers : list text := map bytes
  ["SCAN "; "JOIN"; "MULTI_COLUMN_JOIN"; "TWO_COLUMN_JOIN"; "OPTIONAL_JOIN"; "MINUS"; "SORT /"; "Distinct "; "FILTER ";
   "GROUP_BY "; "{"; "TransitivePath "; "HAS_RELATION_SCAN with O"; "HAS_RELATION_SCAN with S"; "HAS_RELATION_SCAN for";
   "COUNT_AVAILABLE_PREDICATES for "; "COUNT_AVAILABLE_PREDICATES (col"; "TEXT OPERATION WITHO"; "TEXT OPERATION WITH F";
   "BIND ("; "VALUES ("]%string.

Lemma headers_clash : forall m n, (m < 21)%nat -> (n < 21)%nat -> m <> n -> clash (nth m headers []) (nth n headers []) = true.
Proof.
  assert (H : forallb (fun m => forallb (fun n => Nat.eqb m n || clash (nth m headers []) (nth n headers [])) (seq 0 21)) (seq 0 21) = true)
    by (vm_compute; reflexivity).
  intros m n Hm Hn D. rewrite forallb_forall in H. specialize (H m ltac:(apply in_seq; lia)).
  rewrite forallb_forall in H. specialize (H n ltac:(apply in_seq; lia)).
  apply orb_true_iff in H as [H|H]; [|assumption]. apply PeanoNat.Nat.eqb_eq in H. contradiction.
Qed.

Lemma tag_bound o : (tag o < 21)%nat.
Proof. destruct o; cbn; lia. Qed.

Lemma asString_header i o : exists rest, asString i o = spaces i ++ nth (tag o) headers [] ++ rest.
Proof.
  destruct o; try (eexists; reflexivity).
  - destruct type; eexists; reflexivity.
  - destruct left. cbn [asString treeString]. rewrite <- !app_assoc. eexists. reflexivity.
Qed.

Lemma same_tag i o1 o2 r s : asString i o1 ++ r = asString i o2 ++ s -> tag o1 = tag o2.
Proof.
  intros H. destruct (asString_header i o1) as (a & E1), (asString_header i o2) as (b & E2).
  rewrite E1, E2, <- !app_assoc in H. apply app_inv_head in H.
  destruct (PeanoNat.Nat.eq_dec (tag o1) (tag o2)) as [E|D]; [assumption|].
  exfalso. revert H. apply clash_ok. apply headers_clash; auto using tag_bound.
Qed.

(* The shape of an operation: its hidden part with the contents erased. *)
Fixpoint erase (h : hid) : hid := match h with Hid _ kids => Hid [] (map erase kids) end.
Definition shape (o : op) : hid := erase (hidden o).
Definition shape_tree (t : tree) : hid := erase (hidden_tree t).
Definition shape_side (s : side) : hid := erase (hidden_side s).

Definition alike (o1 o2 : op) : Prop :=
  shape o1 = shape o2 /\
  (hidden o1 = hidden o2 -> forall R (A : algebra R), eval A o1 = eval A o2).
Definition alike_tree (t1 t2 : tree) : Prop :=
  tree_width t1 = tree_width t2 /\ shape_tree t1 = shape_tree t2 /\
  (hidden_tree t1 = hidden_tree t2 -> forall R (A : algebra R), eval_tree A t1 = eval_tree A t2).
Definition alike_side (s1 s2 : side) : Prop :=
  shape_side s1 = shape_side s2 /\
  (hidden_side s1 = hidden_side s2 -> forall R (A : algebra R), eval_side A s1 = eval_side A s2).

Definition reads (o1 : op) : Prop := forall o2 i r s, texts_ok o1 -> texts_ok o2 ->
  asString i o1 ++ nl ++ r = asString i o2 ++ nl ++ s -> alike o1 o2 /\ r = s.
Definition reads_tree (t1 : tree) : Prop := forall t2 i r s, tree_ok t1 -> tree_ok t2 ->
  treeString i t1 ++ r = treeString i t2 ++ s -> alike_tree t1 t2 /\ r = s.
(* what follows a side does not begin like its header *)
Definition reads_side (s1 : side) : Prop := forall s2 i h r s, side_ok s1 -> side_ok s2 ->
  (forall t, r <> h ++ t) -> (forall t, s <> h ++ t) ->
  sideString i h s1 ++ r = sideString i h s2 ++ s -> alike_side s1 s2 /\ r = s.

Lemma shape_own own1 own2 k1 k2 : map erase k1 = map erase k2 -> erase (Hid own1 k1) = erase (Hid own2 k2).
Proof. intros H. cbn. now rewrite H. Qed.


Lemma alike_one o1 o2 own1 own2 t1 t2 : hidden o1 = Hid own1 [hidden_tree t1] -> hidden o2 = Hid own2 [hidden_tree t2] ->
  alike_tree t1 t2 ->
  (own1 = own2 -> forall R (A : algebra R), eval_tree A t1 = eval_tree A t2 -> eval A o1 = eval A o2) ->
  alike o1 o2.
Proof.
  intros E1 E2 (_ & S & V) H. unfold alike, shape. rewrite E1, E2. split.
  - cbn [erase map]. unfold shape_tree in S. now rewrite S.
  - intros E R A. injection E as Eo Et. apply H; auto.
Qed.

Lemma alike_two o1 o2 own1 own2 l1 r1 l2 r2 :
  hidden o1 = Hid own1 [hidden_tree l1; hidden_tree r1] -> hidden o2 = Hid own2 [hidden_tree l2; hidden_tree r2] ->
  alike_tree l1 l2 -> alike_tree r1 r2 ->
  (own1 = own2 -> forall R (A : algebra R), eval_tree A l1 = eval_tree A l2 ->
   eval_tree A r1 = eval_tree A r2 -> eval A o1 = eval A o2) ->
  alike o1 o2.
Proof.
  intros E1 E2 (_ & S & V) (_ & S' & V') H. unfold alike, shape. rewrite E1, E2. split.
  - cbn [erase map]. unfold shape_tree in S, S'. now rewrite S, S'.
  - intros E R A. injection E as Eo Et Et'. apply H; auto.
Qed.

Lemma alike_none o1 o2 : hidden o1 = Hid [] [] -> hidden o2 = Hid [] [] ->
  (forall R (A : algebra R), eval A o1 = eval A o2) -> alike o1 o2.
Proof. intros E1 E2 H. unfold alike, shape. rewrite E1, E2. split; auto. Qed.

Lemma map_pair_eq {A} (f g : N * N -> A) : forall l1 l2, map f l1 = map f l2 -> map g l1 = map g l2 ->
  (forall x y, f x = f y -> g x = g y -> x = y) -> l1 = l2.
Proof.
  induction l1 as [|x l1 IH]; intros [|y l2] H1 H2 H; cbn in *; try discriminate; [reflexivity|].
  injection H1 as E1 H1. injection H2 as E2 H2. f_equal; auto.
Qed.

Lemma map_some_inj {A} : forall l1 l2 : list A, map Some l1 = map Some l2 -> l1 = l2.
Proof.
  induction l1 as [|x l1 IH]; intros [|y l2] H; cbn in *; try discriminate; [reflexivity|].
  injection H as E H. f_equal; auto.
Qed.

Lemma fst_snd_eq {A B} : forall l1 l2 : list (A * B), map fst l1 = map fst l2 -> map snd l1 = map snd l2 -> l1 = l2.
Proof.
  induction l1 as [|[x u] l1 IH]; intros [|[y v] l2] H1 H2; cbn in *; try discriminate; [reflexivity|].
  injection H1 as E1 H1. injection H2 as E2 H2. subst. f_equal; auto.
Qed.

Ltac step H :=
  match type of H with
  | ?a ++ _ = ?a ++ _ => apply app_inv_head in H
  | decimal _ ++ _ = decimal _ ++ _ =>
    let E := fresh "E" in apply read_number in H as [E H]; [subst|reflexivity|reflexivity]
  end.

Lemma reads_scan ty s p ob : reads (Scan ty s p ob).
Proof.
  intros o2 i r t H1 H2 H. pose proof (same_tag _ _ _ _ _ H) as T. destruct o2; try discriminate T. clear T.
  cbn [asString] in H. rewrite <- !app_assoc in H. step H.
  assert (K : ty = type -> scan_args ty s p ob = scan_args type s0 p0 o -> alike (Scan ty s p ob) (Scan type s0 p0 o)).
  { intros -> E. apply alike_none; [reflexivity|reflexivity|]. intros. cbn [eval]. now rewrite E. }
  unfold nl in H.
  destruct ty, type; try (exfalso; revert H; apply clash_ok; reflexivity);
    cbn [scan_text] in H; rewrite <- ?app_assoc in H; cbn [texts_ok] in H1, H2;
    try (step H; split; [apply K; reflexivity|]; repeat step H; assumption);
    try (step H; step H;
         match type of H1 with
         | free_of 34 _ /\ _ => destruct H1 as [F1 G1] | free_of 34 _ => rename H1 into F1 | _ => idtac end;
         match type of H2 with
         | free_of 34 _ /\ _ => destruct H2 as [F2 G2] | free_of 34 _ => rename H2 into F2 | _ => idtac end;
         first
           [ apply read_until_app in H as [-> H]; [|assumption|assumption];
             first [ exfalso; revert H; apply (clash_ok [44] [10]); reflexivity
                   | exfalso; revert H; apply (clash_ok [10] [44]); reflexivity
                   | repeat step H; split; [apply K; reflexivity|assumption]
                   | step H; step H; rewrite !(app_assoc _ [34]) in H;
                     apply read_until_app in H as [E H];
                     [ apply app_inj_tail in E as [-> _]; split; [apply K; reflexivity|assumption]
                     | apply free_app; [assumption|intros [|[]]; discriminate]
                     | apply free_app; [assumption|intros [|[]]; discriminate] ] ]
           | rewrite !(app_assoc _ [34]) in H;
             apply read_until_app in H as [E H];
             [ apply app_inj_tail in E as [-> _]; split; [apply K; reflexivity|assumption]
             | apply free_app; [assumption|intros [|[]]; discriminate]
             | apply free_app; [assumption|intros [|[]]; discriminate] ] ]).
Qed.
