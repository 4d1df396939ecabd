(* One instance of what computeResult does: the models of the operations on tables, for the
   examples about cache keys. A failing operation gives None. *)
From Coq Require Import Ascii String List NArith Bool.
From Verif Require Import Table_Spec Keys_Model.
From Verif Require Ops_Spec Ops_Model Ops_Proof Join_Model MultiJoin_Model Filter_Model Path_Model HasPred_Spec
  HasPred_Model GroupBy_Spec GroupBy_Model Float32.
Import ListNotations.
Open Scope N_scope.

Definition result := option table.
Definition lift (f : table -> result) (r : result) : result :=
  match r with Some t => f t | None => None end.
Definition lift2 (f : table -> table -> result) (a b : result) : result :=
  match a, b with Some t, Some u => f t u | _, _ => None end.
Definition width_of (t : table) : nat := match t with r :: _ => length r | [] => 0%nat end.
Definition nats (l : list (N * N)) : list (nat * nat) := map (fun x => (N.to_nat (fst x), N.to_nat (snd x))) l.

(* a regular expression without special characters: the word occurs in the text *)
Fixpoint begins (w t : text) : bool :=
  match w, t with
  | [], _ => true
  | x :: w', y :: t' => (x =? y) && begins w' t'
  | _, _ => false
  end.
Fixpoint occurs (w t : text) : bool :=
  begins w t || match t with [] => false | _ :: t' => occurs w t' end.
Definition lower (c : N) : N := if (65 <=? c) && (c <=? 90) then c + 32 else c.

Definition comparison (ty : filter_type) : option Ops_Spec.comparison_op :=
  match ty with
  | EQ => Some Ops_Spec.EQ | NE => Some Ops_Spec.NE | LT => Some Ops_Spec.LT | LE => Some Ops_Spec.LE
  | GT => Some Ops_Spec.GT | GE => Some Ops_Spec.GE | _ => None
  end.

Definition group_type (a : aggregate) : GroupBy_Spec.aggregate_type :=
  match a with
  | COUNT => GroupBy_Spec.COUNT | GROUP_CONCAT => GroupBy_Spec.GROUP_CONCAT | FIRST => GroupBy_Spec.FIRST
  | LAST => GroupBy_Spec.LAST | SAMPLE => GroupBy_Spec.SAMPLE | MIN => GroupBy_Spec.MIN
  | MAX => GroupBy_Spec.MAX | SUM => GroupBy_Spec.SUM | AVG => GroupBy_Spec.AVG
  end.

Definition nothing_known : GroupBy_Spec.environment :=
  {| GroupBy_Spec.kb_number := fun _ => None; GroupBy_Spec.show := fun _ _ => EmptyString |}.

Section Engine.
  (* the index: scans, predicate patterns, vocabulary *)
  Variable scan : scan_type -> list text -> table.
  Variable ix : HasPred_Spec.pattern_index.
  Variable word : text -> option N.
  Variable word_of : N -> text.

  Fixpoint word_rows (rows : list (list text)) : table :=
    match rows with
    | [] => []
    | r :: rows' =>
      match fold_right (fun w acc => match word w, acc with Some x, Some l => Some (x :: l) | _, _ => None end)
              (Some []) r with
      | Some ids => ids :: word_rows rows'
      | None => word_rows rows'
      end
    end.

  Definition engine : algebra result := {|
    a_scan := fun ty args => Some (scan ty args);
    a_join := fun _ _ lc rc => lift2 (fun l r => Join_Model.join l (N.to_nat lc) r (N.to_nat rc));
    a_multi := fun jcs => lift2 (fun l r => MultiJoin_Model.multi_column_join (width_of r) l r (nats jcs));
    a_two := fun _ _ a b c d _ _ => None;
    a_optional := fun lo ro jcs =>
      lift2 (fun l r => MultiJoin_Model.optional_join (width_of l) (width_of r) l r lo ro (nats jcs));
    a_minus := fun m => lift2 (fun l r => MultiJoin_Model.compute_minus l r (nats m));
    a_sort := fun c => lift (fun t => Some (Ops_Proof.sort_by (Ops_Model.sort_less (N.to_nat c)) t));
    a_order := fun key => lift (fun t =>
      Some (Ops_Proof.sort_by (Ops_Model.order_by_less (map (fun x => (N.to_nat (fst x), snd x)) key)) t));
    a_distinct := fun keep => lift (fun t => Ops_Model.distinct_rows (width_of t) (map N.to_nat keep) t);
    a_filter := fun ty ic _ lhs rhs _ => lift (fun t =>
      match lhs, rhs, comparison ty with
      | Some l, RhsColumn (Some r), Some cmp =>
        Some (Filter_Model.compute_filter_dynamic Ops_Spec.KB cmp (N.to_nat l) (N.to_nat r) t)
      | Some l, RhsConst w, None =>
        Some (filter (fun r => let v := word_of (col (N.to_nat l) r) in
                               if ic then occurs (map lower w) (map lower v) else occurs w v) t)
      | _, _, _ => None
      end);
    a_group := fun cols als => lift (fun t =>
      option_map fst
        (GroupBy_Model.do_group_by nothing_known [] (map (fun x => N.to_nat (fst x)) cols)
           (map (fun x => {| GroupBy_Model.a_type := GroupBy_Spec.SAMPLE; GroupBy_Model.a_in := N.to_nat (fst x);
                             GroupBy_Model.a_out := N.to_nat (snd x); GroupBy_Model.a_distinct := false;
                             GroupBy_Model.a_delim := EmptyString |}) cols ++
            map (fun x => match x with (((ty, d), _), i, o) =>
              {| GroupBy_Model.a_type := group_type ty; GroupBy_Model.a_in := N.to_nat i;
                 GroupBy_Model.a_out := N.to_nat o; GroupBy_Model.a_distinct := d;
                 GroupBy_Model.a_delim := EmptyString |} end) als)
           (fun _ => repeat 0 (length cols + length als)) t));
    a_union := fun os => lift2 (fun l r =>
      Ops_Model.compute_union (map (fun o => (option_map N.to_nat (fst o), option_map N.to_nat (snd o))) os)
        (width_of l) (width_of r) l r);
    a_path := fun ls rs lv rv mn mx w sub left _ =>
      match sub, left with
      | Some s, Some (c, Some l) =>
        Path_Model.compute_path_left_bound 100 (fun l => l) s l (N.to_nat c)
          (match rv with None => true | _ => false end) (N.to_nat ls) (N.to_nat rs)
          (match rv with Some v => v | None => 0 end) mn mx (repeat 0 (N.to_nat w)) (N.to_nat w)
      | _, _ => None
      end;
    a_has_s := fun w => match word w with Some x => HasPred_Model.compute_free_s ix x | None => None end;
    a_has_o := fun w => match word w with Some x => HasPred_Model.compute_free_o ix x | None => None end;
    a_has_all := HasPred_Model.compute_full_scan ix;
    a_has_sub := fun c => lift (HasPred_Model.compute_subquery_s ix (N.to_nat c));
    a_count_entity := fun w =>
      match word w with Some x => HasPred_Model.pattern_trick_one ix (fun m => m) x | None => Some [] end;
    a_count_all := HasPred_Model.pattern_trick_all ix (fun m => m);
    a_count_sub := fun c => lift (HasPred_Model.pattern_trick ix (fun m => m) (N.to_nat c));
    a_text := fun _ _ _ => None;
    a_text_filter := fun _ _ _ _ _ => None;
    a_bind := fun e => lift (fun t =>
      match e with
      | BindColumn c => Some (map (fun r => r ++ [col (N.to_nat c) r]) t)
      | BindInt n => Some (map (fun r => r ++ [n]) t)
      | BindKb w => match word w with Some x => Some (map (fun r => r ++ [x]) t) | None => None end
      | BindBinary _ _ _ => None
      end);
    a_values := fun _ rows => Some (word_rows rows) |}.

End Engine.
