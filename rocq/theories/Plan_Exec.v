(* An execution of trees as a function, for examples. *)
From Coq Require Import String List NArith Arith Bool Lia Permutation Sorted Ascii.
From Verif Require Import Table_Spec Ops_Spec Ops_Model Vars_Model Vars_Thm Join_Model MultiJoin_Model Ops_Proof Plan_Model Plan_Spec Plan_Proof5.
Import ListNotations.
Local Open Scope nat_scope.

Section Exec.
Variable o : oracle.
Variable voc : string -> option N.
Variable ix : index.
Variable sat : filt -> list (option N) -> bool.
Fixpoint exec (t : tree) : option table :=
  match t with
  | Scan ord bound vs => if dummy t then None else Some (scan_table voc ix ord bound)
  | Leaf _ _ _ _ => None
  | EqFilter t x y =>
      match exec t with
      | Some a => Some (filter (fun r => same_value (value_of (vars o t) r x) (value_of (vars o t) r y)) a)
      | None => None
      end
  | FilterT t f =>
      match exec t with
      | Some a => Some (filter (fun r => sat f (map (value_of (vars o t) r) (filter_vars f))) a)
      | None => None
      end
  | SortT t c => match exec t with Some a => Some (sort_by (sort_less c) a) | None => None end
  | OrderByT t key =>
      match exec t with Some a => Some (sort_by (order_by_less (map (fun c => (c, false)) key)) a) | None => None end
  | JoinT l r lc rc =>
      match dummy l, dummy r with
      | true, true => None
      | true, false =>
          match l, exec r with
          | Scan ord [] vs, Some b => Some (full_scan_left (full_scan_method ix ord) b rc)
          | _, _ => None
          end
      | false, true =>
          match r, exec l with
          | Scan ord [] vs, Some a => Some (full_scan_right (full_scan_method ix ord) a lc)
          | _, _ => None
          end
      | false, false =>
          match exec l, exec r with
          | Some a, Some b => if N.leb (N.of_nat (length a) / N.of_nat (length b)) 1000 then join a lc b rc else None
          | _, _ => None
          end
      end
  | TwoT l r jc1l jc2l jc1r jc2r =>
      match exec l, exec r with
      | Some a, Some b =>
          match two_column_join (width_of l) (width_of r) a b jc1l jc2l jc1r jc2r with TcjTable t => t | TcjThrow => None end
      | _, _ => None
      end
  | MultiT l r jcs =>
      match exec l, exec r with Some a, Some b => multi_column_join (width_of r) a b jcs | _, _ => None end
  end.
Lemma exec_computes leaf t : forall tab, exec t = Some tab -> computes o voc ix sat leaf t tab.
Proof.
  induction t as [ord bound vs|id w m s|t IH x y|t IH f|t IH c|t IH key|l IHl r IHr lc rc|l IHl r IHr a b c d|l IHl r IHr jcs];
    intros tab E; cbn [exec] in E.
  - destruct (dummy (Scan ord bound vs)) eqn:D; [discriminate|]. injection E as <-. now constructor.
  - discriminate.
  - destruct (exec t) as [a|]; [|discriminate]. injection E as <-. constructor. auto.
  - destruct (exec t) as [a|]; [|discriminate]. injection E as <-. constructor. auto.
  - destruct (exec t) as [a|]; [|discriminate]. injection E as <-. econstructor; [apply IH; reflexivity|].
    apply sort_by_result, sort_less_swo.
  - destruct (exec t) as [a|]; [|discriminate]. injection E as <-. econstructor; [apply IH; reflexivity|].
    apply sort_by_result, order_by_less_swo.
  - destruct (dummy l) eqn:Dl, (dummy r) eqn:Dr; [discriminate| | |].
    + destruct l as [ord [|? ?] vs| | | | | | | |]; try discriminate. destruct (exec r) as [b|]; [|discriminate]. injection E as <-.
      constructor; auto.
    + destruct r as [ord [|? ?] vs| | | | | | | |]; try discriminate. destruct (exec l) as [a|]; [|discriminate]. injection E as <-.
      constructor; auto.
    + destruct (exec l) as [a|]; [|discriminate]. destruct (exec r) as [b|]; [|discriminate].
      destruct (N.leb_spec (N.of_nat (length a) / N.of_nat (length b)) 1000); [|discriminate]. econstructor; eauto.
  - destruct (exec l) as [ta|]; [|discriminate]. destruct (exec r) as [tb|]; [|discriminate].
    destruct (two_column_join _ _ _ _ _ _ _ _) as [t|] eqn:T; [|discriminate]. subst t. econstructor; eauto.
  - destruct (exec l) as [ta|]; [|discriminate]. destruct (exec r) as [tb|]; [|discriminate]. econstructor; eauto.
Qed.
End Exec.

(* an index for a graph *)
Definition ix_of (kb : graph) : index := fun ord => sort_by (order_by_less [(0, false); (1, false); (2, false)]) (map (perm_row ord) kb).
Lemma ix_of_ok kb ord : Permutation (ix_of kb ord) (map (perm_row ord) kb) /\ sorted_lex [0; 1; 2] (ix_of kb ord).
Proof.
  assert (S : sort_result (order_by_less [(0, false); (1, false); (2, false)]) (map (perm_row ord) kb) (ix_of kb ord))
    by (apply sort_by_result, order_by_less_swo).
  split; [apply Permutation_sym, S|]. apply (order_by_sorted_lex [0; 1; 2] [] _ _ S).
Qed.
(* names ?0, ?00, ... *)
Fixpoint zeros (i : nat) : string := match i with 0 => "?:"%string | S j => String "?"%char (zeros j) end.
Lemma zeros_length i : String.length (zeros i) = i + 2.
Proof. induction i; cbn; lia. Qed.
Lemma zeros_inj i j : zeros i = zeros j -> i = j.
Proof. intros H. apply (f_equal String.length) in H. rewrite !zeros_length in H. lia. Qed.
(* cost estimate: number of operations, sorting counts once more *)
Fixpoint tree_size (t : tree) : N :=
  (match t with
  | Scan _ _ _ | Leaf _ _ _ _ => 1
  | EqFilter t _ _ | FilterT t _ => 1 + tree_size t
  | SortT t _ | OrderByT t _ => 2 + tree_size t
  | JoinT l r _ _ => 1 + tree_size l + tree_size r
  | TwoT l r _ _ _ _ => 1 + tree_size l + tree_size r
  | MultiT l r _ => 1 + tree_size l + tree_size r
  end)%N.
(* an oracle that iterates hash maps in the order of the columns; with flip, those of scans in reverse order *)
Definition by_column (m : var_map) : var_map := sort_by (fun p q => snd p <? snd q) m.
Fixpoint ex_vars (flip : bool) (t : tree) : var_map :=
  match t with
  | Scan _ _ vs => values_vars [] 0 vs
  | Leaf _ _ m _ => m
  | EqFilter t _ _ | FilterT t _ | SortT t _ | OrderByT t _ => ex_vars flip t
  | JoinT l r lc rc =>
      if negb (dummy l) && negb (dummy r) then join_vars (ex_vars flip l) (ex_vars flip r) (width_of l) rc
      else if dummy r then join_vars_scan_right (ex_vars flip l) (ex_vars flip r) (width_of l)
      else join_vars_scan_left (ex_vars flip l) (ex_vars flip r)
  | TwoT l r jc1l jc2l jc1r jc2r =>
      if right_filter l jc1l jc2l || right_filter r jc1r jc2r
      then two_column_vars (width_of r) jc1r jc2r (ex_vars flip l) (ex_vars flip r)
      else two_column_else (ex_vars flip l) (ex_vars flip r) (width_of l) jc1r jc2r
  | MultiT l r jcs => multi_column_vars (ex_vars flip l) (if flip && is_scan r then rev (by_column (ex_vars flip r)) else by_column (ex_vars flip r)) jcs
  end.
Definition ex_o (less : tree -> tree -> bool) (cost : tree -> N) (flip : bool) : oracle :=
  O less cost (fun t => if flip && is_scan t then rev (by_column (ex_vars flip t)) else by_column (ex_vars flip t)) (fun gs => gs) zeros true.
Lemma sort_by_perm {A} (lt : A -> A -> bool) l : Permutation (sort_by lt l) l.
Proof.
  induction l as [|x l IH]; cbn; auto. eapply perm_trans; [apply Permutation_sym, insert_by_perm|]. now constructor.
Qed.
Lemma ex_vars_ok less cost flip t : vars (ex_o less cost flip) t = ex_vars flip t.
Proof.
  induction t as [ord bound vs|id w m s|t IH x y|t IH f|t IH c|t IH key|l IHl r IHr lc rc|l IHl r IHr a b c d|l IHl r IHr jcs];
    cbn [vars ex_vars]; auto.
  - now rewrite IHl, IHr.
  - now rewrite IHl, IHr.
  - now rewrite IHl.
Qed.
Lemma ex_iter_ok less cost flip t : Permutation (iter (ex_o less cost flip) t) (vars (ex_o less cost flip) t).
Proof.
  rewrite ex_vars_ok. cbn [iter ex_o]. destruct (flip && is_scan t); [|apply sort_by_perm].
  rewrite <- Permutation_rev. apply sort_by_perm.
Qed.
(* vocabulary of the examples: s1 ... *)
Fixpoint lookup (l : list (string * N)) (s : string) : option N :=
  match l with [] => None | (x, i) :: l' => if String.eqb x s then Some i else lookup l' s end.
