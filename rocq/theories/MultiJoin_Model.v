(* Model of OptionalJoin.cpp, MultiColumnJoin.h, Minus.cpp and Engine.h (filter). Cursors into
   the tables are represented by the rows from the cursor to the end. Timeouts are not
   modelled. Table widths wa, wb are passed explicitly. *)
From Coq Require Import List NArith Arith Bool.
From Verif Require Import Std_Model Table_Spec.
Import ListNotations.
Open Scope N_scope.

(* OptionalJoin.cpp:341-346 / MultiColumnJoin.h:83-88: the bitmap of join columns, an int; a
   shift by 32 or more is undefined behaviour. *)
Definition bitmap (cs : list nat) : option N :=
  if forallb (fun c => Nat.ltb c 32) cs
  then Some (fold_left (fun m c => N.lor m (N.shiftl 1 (N.of_nat c))) cs 0)
  else None.

(* `(bitmap & (1 << col)) == 0` *)
Definition bit_unset (m : N) (c : nat) : bool := N.land m (N.shiftl 1 (N.of_nat c)) =? 0.

(* OptionalJoin.cpp:295-301, 317-322 and MultiColumnJoin.h:144-149: the columns of b that are
   not join columns. *)
Definition rest_of_b (wb : nat) (m_b : N) (rb : row) : row :=
  cols (filter (bit_unset m_b) (seq 0 wb)) rb.

(* OptionalJoin.cpp:350-362: joinColumnAToB; later assignments win. Only built if a is
   optional, only used in that case. *)
Definition a_to_b (jcs : list (nat * nat)) (c : nat) : nat :=
  fold_left (fun acc p => if Nat.eqb (fst p) c then snd p else acc) jcs 0%nat.

(* OptionalJoin.cpp:274-324: createOptionalResult, one definition per branch. *)
Definition row_a_empty (wa wb : nat) (m_a m_b : N) (jcs : list (nat * nat)) (rb : row) : row :=
  map (fun c => if bit_unset m_a c then UNBOUND else col (a_to_b jcs c) rb) (seq 0 wa)
  ++ rest_of_b wb m_b rb.
(* the result table has wres columns *)
Definition row_b_empty (wa wres : nat) (ra : row) : row := ra ++ repeat UNBOUND (wres - wa).
Definition row_both (wb : nat) (m_b : N) (ra rb : row) : row := ra ++ rest_of_b wb m_b rb.

(* OptionalJoin.cpp:406-429, MultiColumnJoin.h:111-126: the first join column on which the rows
   differ decides. *)
Fixpoint compare_rows (jcs : list (nat * nat)) (ra rb : row) : comparison :=
  match jcs with
  | [] => Eq
  | (c, d) :: jcs' =>
      if col c ra <? col d rb then Lt
      else if col d rb <? col c ra then Gt
      else compare_rows jcs' ra rb
  end.

(* OptionalJoin.cpp:443-449, 452-459: no join column differs. *)
Fixpoint rows_match (jcs : list (nat * nat)) (ra rb : row) : bool :=
  match jcs with
  | [] => true
  | (c, d) :: jcs' => if negb (col c ra =? col d rb) then false else rows_match jcs' ra rb
  end.

(* OptionalJoin.cpp:431-464, MultiColumnJoin.h:128-174: the cross-product loop, entered with matched == true. Result:
   emitted rows and the new cursors. *)
Fixpoint cross_loop (jcs : list (nat * nat)) (both : row -> row -> row) (sa sb : table)
  : table * table * table :=
  match sa, sb with
  | ra :: sa', rb :: sb' =>
      (* the first row is written without comparing *)
      let run := rb :: take_while (rows_match jcs ra) sb' in
      let rest := drop_while (rows_match jcs ra) sb' in
      let out := map (both ra) run in
      match sa' with
      | [] => (out, [], rest)
      | ra' :: _ =>
          if rows_match jcs ra' rb then
            let '(out', sa'', sb'') := cross_loop jcs both sa' sb in (out ++ out', sa'', sb'')
          else (out, sa', rest)
      end
  | _, _ => ([], sa, sb)
  end.

(* OptionalJoin.cpp:466-485: after `finish`. *)
Definition optional_finish (aOptional bOptional : bool) (a_empty b_empty : row -> row)
  (sa sb : table) : table :=
  (if aOptional then map a_empty sb else []) ++ (if bOptional then map b_empty sa else []).

(* OptionalJoin.cpp:381-485: the main loop. *)
Fixpoint optional_loop (fuel : nat) (jcs : list (nat * nat)) (aOptional bOptional : bool)
  (a_empty b_empty : row -> row) (both : row -> row -> row) (sa sb : table) : option table :=
  match fuel with
  | O => None
  | S fuel' =>
      let finish := optional_finish aOptional bOptional a_empty b_empty in
      let emit_a := fun rows => if bOptional then map b_empty rows else [] in
      let emit_b := fun rows => if aOptional then map a_empty rows else [] in
      let (c0, d0) := hd (0%nat, 0%nat) jcs in
      match sa, sb with
      | [], _ => Some (finish sa sb)
      | _, [] => Some (finish sa sb)
      | _, rb :: _ =>
          (* 384-394 *)
          let below_a := fun r => col c0 r <? col d0 rb in
          let out1 := emit_a (take_while below_a sa) in
          match drop_while below_a sa with
          | [] => Some (out1 ++ finish [] sb)
          | ra1 :: sa1' =>
              let sa1 := ra1 :: sa1' in
              (* 395-404 *)
              let below_b := fun r => col d0 r <? col c0 ra1 in
              let out2 := emit_b (take_while below_b sb) in
              match drop_while below_b sb with
              | [] => Some (out1 ++ out2 ++ finish sa1 [])
              | rb1 :: sb1' =>
                  let sb1 := rb1 :: sb1' in
                  let '(out3, sa2, sb2) :=
                    match compare_rows jcs ra1 rb1 with
                    | Lt => (emit_a [ra1], sa1', sb1)
                    | Gt => (emit_b [rb1], sa1, sb1')
                    | Eq => cross_loop jcs both sa1 sb1
                    end in
                  option_map (fun o => out1 ++ out2 ++ out3 ++ o)
                    (optional_loop fuel' jcs aOptional bOptional a_empty b_empty both sa2 sb2)
              end
          end
      end
  end.

(* OptionalJoin.cpp:326-486: optionalJoin. None = undefined behaviour. *)
Definition optional_join (wa wb : nat) (a b : table) (aOptional bOptional : bool)
  (jcs : list (nat * nat)) : option table :=
  (* 331-335 *)
  match a, b, aOptional, bOptional with
  | [], [], _, _ => Some []
  | [], _, false, _ => Some []
  | _, [], _, false => Some []
  | _, _, _, _ =>
      match bitmap (map fst jcs), bitmap (map snd jcs),
            forallb (fun c => Nat.ltb c 32) (seq 0 wa ++ seq 0 wb) with
      | Some m_a, Some m_b, true =>
          let wres := (wa + wb - length jcs)%nat in   (* OptionalJoin.cpp:152-157 *)
          let a_empty := row_a_empty wa wb m_a m_b jcs in
          let b_empty := row_b_empty wa wres in
          let both := row_both wb m_b in
          match a, b with
          | [], _ => Some (map a_empty b)      (* 365-371 *)
          | _, [] => Some (map b_empty a)      (* 372-379 *)
          | _, _ => optional_loop (S (length a + length b)) jcs aOptional bOptional
                      a_empty b_empty both a b
          end
      | _, _, _ => None
      end
  end.

(* MultiColumnJoin.h:94-175: main loop of computeMultiColumnJoin. *)
Fixpoint multi_loop (fuel : nat) (jcs : list (nat * nat)) (both : row -> row -> row)
  (sa sb : table) : option table :=
  match fuel with
  | O => None
  | S fuel' =>
      let (c0, d0) := hd (0%nat, 0%nat) jcs in
      match sa, sb with
      | [], _ => Some []
      | _, [] => Some []
      | _, rb :: _ =>
          match drop_while (fun r => col c0 r <? col d0 rb) sa with
          | [] => Some []
          | ra1 :: sa1' =>
              match drop_while (fun r => col d0 r <? col c0 ra1) sb with
              | [] => Some []
              | rb1 :: sb1' =>
                  let '(out, sa2, sb2) :=
                    match compare_rows jcs ra1 rb1 with
                    | Lt => ([], sa1', rb1 :: sb1')
                    | Gt => ([], ra1 :: sa1', sb1')
                    | Eq => cross_loop jcs both (ra1 :: sa1') (rb1 :: sb1')
                    end in
                  option_map (app out) (multi_loop fuel' jcs both sa2 sb2)
              end
          end
      end
  end.

(* MultiColumnJoin.h:74-178: computeMultiColumnJoin. None = undefined behaviour. *)
Definition multi_column_join (wb : nat) (a b : table) (jcs : list (nat * nat)) : option table :=
  match a, b with
  | [], _ => Some []
  | _, [] => Some []
  | _, _ =>
      match bitmap (map snd jcs), forallb (fun c => Nat.ltb c 32) (seq 0 wb) with
      | Some m_b, true => multi_loop (S (length a + length b)) jcs (row_both wb m_b) a b
      | _, _ => None
      end
  end.

(* Minus.cpp:215-230: isRowEqSkipFirst. *)
Definition is_row_eq_skip_first (jcs : list (nat * nat)) (ra rb : row) : comparison :=
  compare_rows (tl jcs) ra rb.

(* Minus.cpp:175-205: the loop while the first join columns are equal. Result: written rows
   and the new cursors; the flag says that `goto finish` was executed. *)
Fixpoint minus_equal_loop (fuel : nat) (jcs : list (nat * nat)) (sa sb : table)
  : option (table * table * table * bool) :=
  match fuel with
  | O => None
  | S fuel' =>
      let (c0, d0) := hd (0%nat, 0%nat) jcs in
      match sa, sb with
      | ra :: sa', rb :: sb' =>
          if col d0 rb =? col c0 ra then
            let '(out, sa1, sb1) :=
              match is_row_eq_skip_first jcs ra rb with
              | Eq => ([], sa', sb)
              | Lt => ([ra], sa', sb)
              | Gt => ([], sa, sb')
              end in
            match sa1, sb1 with
            | [], _ => Some (out, sa1, sb1, true)
            | _, [] => Some (out, sa1, sb1, true)
            | _, _ => option_map (fun '(o, sa2, sb2, f) => (out ++ o, sa2, sb2, f))
                        (minus_equal_loop fuel' jcs sa1 sb1)
            end
          else Some ([], sa, sb, false)
      | _, _ => None
      end
  end.

(* Minus.cpp:155-213: main loop and the copying of the remaining rows after `finish`. *)
Fixpoint minus_loop (fuel : nat) (jcs : list (nat * nat)) (sa sb : table) : option table :=
  match fuel with
  | O => None
  | S fuel' =>
      let (c0, d0) := hd (0%nat, 0%nat) jcs in
      match sa, sb with
      | [], _ => Some []
      | _, [] => Some sa
      | _, rb :: _ =>
          let below_a := fun r => col c0 r <? col d0 rb in
          let out1 := take_while below_a sa in
          match drop_while below_a sa with
          | [] => Some out1
          | ra1 :: sa1' =>
              match drop_while (fun r => col d0 r <? col c0 ra1) sb with
              | [] => Some (out1 ++ ra1 :: sa1')
              | sb1 =>
                  match minus_equal_loop (S (length sa + length sb)) jcs (ra1 :: sa1') sb1 with
                  | None => None
                  | Some (out2, sa2, sb2, true) => Some (out1 ++ out2 ++ sa2)
                  | Some (out2, sa2, sb2, false) =>
                      option_map (fun o => out1 ++ out2 ++ o) (minus_loop fuel' jcs sa2 sb2)
                  end
              end
          end
      end
  end.

(* Minus.cpp:109-213: computeMinus. *)
Definition compute_minus (a b : table) (jcs : list (nat * nat)) : option table :=
  match a, b, jcs with
  | [], _, _ => Some []
  | _, [], _ => Some a
  | _, _, [] => Some a
  | _, _, _ => minus_loop (S (length a + length b)) jcs a b
  end.

(* Engine.h:70-90: the inner loop of filter. *)
Fixpoint filter_equal_loop (fuel : nat) (fc1 fc2 : nat) (sv sf : table)
  : option (table * table * table) :=
  match fuel with
  | O => None
  | S fuel' =>
      match sv, sf with
      | v :: sv', f :: sf' =>
          if col fc1 v =? col 0 f then
            let '(out, sv1, sf1) :=
              if col fc2 v =? col 1 f then ([v], sv', sf)
              else if col fc2 v <? col 1 f then ([], sv', sf)
              else ([], sv, sf') in
            match sv1, sf1 with
            | [], _ => Some (out, sv1, sf1)
            | _, [] => Some (out, sv1, sf1)
            | _, _ => option_map (fun '(o, x, y) => (out ++ o, x, y))
                        (filter_equal_loop fuel' fc1 fc2 sv1 sf1)
            end
          else Some ([], sv, sf)
      | _, _ => None
      end
  end.

(* Engine.h:53-93: the main loop of filter. *)
Fixpoint filter_loop (fuel : nat) (fc1 fc2 : nat) (sv sf : table) : option table :=
  match fuel with
  | O => None
  | S fuel' =>
      match sv, sf with
      | [], _ => Some []
      | _, [] => Some []
      | _, f :: _ =>
          match drop_while (fun r => col fc1 r <? col 0 f) sv with
          | [] => Some []
          | v1 :: sv1 =>
              match drop_while (fun r => col 0 r <? col fc1 v1) sf with
              | [] => Some []
              | sf1 =>
                  match filter_equal_loop (S (length sv + length sf)) fc1 fc2 (v1 :: sv1) sf1 with
                  | None => None
                  | Some (out, sv2, sf2) => option_map (app out) (filter_loop fuel' fc1 fc2 sv2 sf2)
                  end
              end
          end
      end
  end.

(* Engine.h:34-97: filter by a two-column relation, called by TwoColumnJoin.cpp:92-124. *)
Definition engine_filter (v : table) (fc1 fc2 : nat) (f : table) : option table :=
  match v, f with
  | [], _ => Some []
  | _, [] => Some []
  | _, _ => filter_loop (S (length v + length f)) fc1 fc2 v f
  end.

(* TwoColumnJoin.cpp:87-131: computeResult. The four numbers are the join columns after the
   constructor; anything but the filter case throws. *)
Inductive tcj_result : Type :=
| TcjTable (t : option table)
| TcjThrow.
Definition two_column_join (wl wr : nat) (l r : table) (jc1l jc2l jc1r jc2r : nat) : tcj_result :=
  let right_filter := Nat.eqb wr 2 && Nat.eqb jc1r 0 && Nat.eqb jc2r 1 in
  if (Nat.eqb wl 2 && Nat.eqb jc1l 0 && Nat.eqb jc2l 1) || right_filter then
    if right_filter then TcjTable (engine_filter l jc1l jc2l r)
    else TcjTable (engine_filter r jc1r jc2r l)
  else TcjThrow.
