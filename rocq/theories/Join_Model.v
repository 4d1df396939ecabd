(* Model of src/engine/Join.cpp: join, doGallopInnerJoin, appendCrossProduct and the joins
   with a full scan. Column numbers are assumed to be smaller than the table widths (this is
   what the query planner guarantees); `col` gives 0 otherwise. Timeouts are not modelled. *)
From Coq Require Import List NArith Arith Bool.
From Verif Require Import Std_Model Table_Spec.
Import ListNotations.
Open Scope N_scope.

(* Outcome of a loop that can `goto finish` / return, continue with the cursors i and j, or
   perform an out-of-bounds access or call lower_bound on an invalid range (UB).
   A cursor is represented by the rows from the cursor to the end of the table. *)
Inductive loop_result :=
| Finish (out : table)
| Cont (sa sb : table) (out : table)
| UB.

Definition emit (out : table) (r : loop_result) : loop_result :=
  match r with
  | Finish o => Finish (out ++ o)
  | Cont sa sb o => Cont sa sb (out ++ o)
  | UB => UB
  end.

(* Join.cpp:552-566 (and 690-703): the result row built from row ra of a and rb of b. *)
Definition result_row (jc2 : nat) (ra rb : row) : row :=
  ra ++ firstn jc2 rb ++ skipn (jc2 + 1) rb.

(* Join.cpp:547-591 (identical to 685-724): the loops creating the cross products.
   sb is the cursor j; the inner while loop is the run of rows equal to a(i). *)
Fixpoint match_loop (jc1 jc2 : nat) (sa sb : table) : loop_result :=
  match sa, sb with
  | ra :: sa', rb :: _ =>
      if col jc1 ra =? col jc2 rb then
        let eq_run := fun r => col jc1 ra =? col jc2 r in
        let out := map (result_row jc2 ra) (take_while eq_run sb) in
        let sb' := drop_while eq_run sb in
        match sa' with
        | [] => Finish out
        | ra' :: _ =>
            if col jc1 ra' =? col jc2 rb then emit out (match_loop jc1 jc2 sa' sb)
            else match sb' with
                 | [] => Finish out
                 | _ => emit out (match_loop jc1 jc2 sa' sb')
                 end
        end
      else Cont sa sb []
  | _, _ => UB
  end.

(* Join.cpp:530-592: the zipper join. One unit of fuel per round of the outer loop. *)
Fixpoint zipper (fuel : nat) (jc1 jc2 : nat) (sa sb : table) : option table :=
  match fuel with
  | O => None
  | S fuel' =>
      match sa, sb with
      | [], _ => Some []
      | _, [] => Some []
      | _, rb :: _ =>
          (* 531-537 *)
          match drop_while (fun r => col jc1 r <? col jc2 rb) sa with
          | [] => Some []
          | (ra :: _) as sa1 =>
              (* 539-545 *)
              match drop_while (fun r => col jc2 r <? col jc1 ra) sb with
              | [] => Some []
              | sb1 =>
                  match match_loop jc1 jc2 sa1 sb1 with
                  | Finish out => Some out
                  | Cont sa2 sb2 out => option_map (app out) (zipper fuel' jc1 jc2 sa2 sb2)
                  | UB => None
                  end
              end
          end
      end
  end.

(* Key of row i, None if i is out of bounds. *)
Definition key_at (t : table) (c i : nat) : option N := option_map (col c) (nth_error t i).

(* Join.cpp:619-631 and 649-661: exponential search in t (column c) while the row at the
   cursor is smaller than x. Result: None = out of bounds (or out of fuel),
   Some None = `return`, Some (Some (cursor, last)) otherwise. *)
Fixpoint gallop (fuel : nat) (t : table) (c : nat) (x : N) (pos last step : nat)
  : option (option (nat * nat)) :=
  match fuel with
  | O => None
  | S fuel' =>
      match key_at t c pos with
      | None => None
      | Some y =>
          if y <? x then
            let last' := pos in
            let pos' := (pos + step)%nat in
            let step' := (step * 2)%nat in
            if Nat.leb (length t) pos' then
              let pos'' := (length t - 1)%nat in
              match key_at t c pos'' with
              | None => None
              | Some y'' => if y'' <? x then Some None
                            else gallop fuel' t c x pos'' last' step'
              end
            else gallop fuel' t c x pos' last' step'
          else Some (Some (pos, last))
      end
  end.

(* Join.cpp:635-637 and 665-667: go back to the beginning of the block of rows equal to x. *)
Fixpoint block_begin (t : table) (c : nat) (x : N) (pos : nat) : nat :=
  match pos with
  | O => O
  | S p => match key_at t c p with
           | Some y => if y =? x then block_begin t c x p else pos
           | None => pos
           end
  end.

(* Comparison used in the calls of std::lower_bound in lines 642-646 and 672-676. *)
Definition below_in (t : table) (c : nat) (x : N) (p : nat) : bool :=
  match key_at t c p with Some y => y <? x | None => false end.

(* Join.cpp:632-647 and 662-677: position the cursor on the first row not smaller than x. *)
Definition settle (t : table) (c : nat) (x : N) (pos last : nat) : option nat :=
  match key_at t c pos with
  | None => None
  | Some y =>
      if y =? x then Some (block_begin t c x pos)
      else if x <? y then lower_bound (below_in t c x) last pos
      else Some pos
  end.

(* Join.cpp:604-726 for RightLargerTag: the cursor i is the suffix sa of l1, the cursor j is
   an index into l2. *)
Fixpoint gallop_right (fuel : nat) (jc1 jc2 : nat) (l2 : table) (sa : table) (j : nat)
  : option table :=
  match fuel with
  | O => None
  | S fuel' =>
      match sa with
      | [] => Some []
      | _ :: _ =>
        if Nat.leb (length l2) j then Some []
        else
          match key_at l2 jc2 j with
          | None => None
          | Some y =>
              (* 613-618 *)
              match drop_while (fun r => col jc1 r <? y) sa with
              | [] => Some []
              | (ra :: _) as sa1 =>
                  let x := col jc1 ra in
                  match gallop (S (length l2)) l2 jc2 x j j 1 with
                  | None => None
                  | Some None => Some []
                  | Some (Some (j1, last)) =>
                      match settle l2 jc2 x j1 last with
                      | None => None
                      | Some j2 =>
                          match match_loop jc1 jc2 sa1 (skipn j2 l2) with
                          | Finish out => Some out
                          | Cont sa2 sb2 out =>
                              option_map (app out)
                                (gallop_right fuel' jc1 jc2 l2 sa2 (length l2 - length sb2))
                          | UB => None
                          end
                      end
                  end
              end
          end
      end
  end.

(* Join.cpp:604-726 for LeftLargerTag: i is an index into l1; the cursor j into l2 is kept as
   an index as well because line 650 initialises `last` with it (`size_t last = j`). *)
Fixpoint gallop_left (fuel : nat) (jc1 jc2 : nat) (l1 l2 : table) (i j : nat)
  : option table :=
  match fuel with
  | O => None
  | S fuel' =>
      if Nat.leb (length l1) i || Nat.leb (length l2) j then Some []
      else
        match key_at l2 jc2 j with
        | None => None
        | Some x =>
            match gallop (S (length l1)) l1 jc1 x i j 1 with
            | None => None
            | Some None => Some []
            | Some (Some (i1, last)) =>
                match settle l1 jc1 x i1 last with
                | None => None
                | Some i2 =>
                    match key_at l1 jc1 i2 with
                    | None => None
                    | Some y =>
                        (* 678-683 *)
                        match drop_while (fun r => col jc2 r <? y) (skipn j l2) with
                        | [] => Some []
                        | sb1 =>
                            match match_loop jc1 jc2 (skipn i2 l1) sb1 with
                            | Finish out => Some out
                            | Cont sa2 sb2 out =>
                                option_map (app out)
                                  (gallop_left fuel' jc1 jc2 l1 l2
                                     (length l1 - length sa2) (length l2 - length sb2))
                            | UB => None
                            end
                        end
                    end
                end
            end
        end
  end.

(* global/Constants.h: GALLOP_THRESHOLD. *)
Definition GALLOP_THRESHOLD : N := 1000.

(* Join.cpp:503-600: join. None = undefined behaviour. *)
Definition join (a : table) (jc1 : nat) (b : table) (jc2 : nat) : option table :=
  match a, b with
  | [], _ => Some []
  | _, [] => Some []
  | _, _ =>
      let na := N.of_nat (length a) in
      let nb := N.of_nat (length b) in
      let fuel := S (length a + length b) in
      if GALLOP_THRESHOLD <? na / nb then gallop_left fuel jc1 jc2 a b 0 0
      else if GALLOP_THRESHOLD <? nb / na then gallop_right fuel jc1 jc2 b a 0
      else zipper fuel jc1 jc2 a b
  end.

(* Join.cpp:479-498: appendCrossProduct. *)
Definition cross_product (ls rs : table) : table :=
  flat_map (fun l => map (fun r => l ++ r) rs) ls.

(* Join.cpp:325-356 and 369-400: the loop over the non-dummy side; `group` are the rows
   between joinItemFrom and joinItemEnd, `cp` is the call of scan and appendCrossProduct. *)
Fixpoint full_scan_loop (cp : N -> table -> table) (c : nat) (current : N) (group ndr : table)
  : table :=
  match ndr with
  | [] => cp current group
  | r :: ndr' =>
      if col c r =? current then full_scan_loop cp c current (group ++ [r]) ndr'
      else cp current group ++ full_scan_loop cp c (col c r) [r] ndr'
  end.

(* Join.cpp:317-357: full scan on the left. `scan` is the index scan for one id (two
   columns), see Index.v for what it returns. *)
Definition full_scan_left (scan : N -> table) (ndr : table) (rc : nat) : table :=
  match ndr with
  | [] => []
  | r :: _ => full_scan_loop (fun id g => cross_product (scan id) g) rc (col rc r) [] ndr
  end.

(* Join.cpp:360-401: full scan on the right. *)
Definition full_scan_right (scan : N -> table) (ndr : table) (lc : nat) : table :=
  match ndr with
  | [] => []
  | r :: _ => full_scan_loop (fun id g => cross_product g (scan id)) lc (col lc r) [] ndr
  end.
