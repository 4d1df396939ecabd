(* Model of src/util/Simple8bCode.h. *)
From Coq Require Import List NArith.
Import ListNotations.
Open Scope N_scope.

(* Simple8bCode.h:18-40, SIMPLE8B_SELECTORS: (_itemWidth, _groupSize, _mask).
   _wastedBits is never read by the code and left out. *)
Definition selectors : list (N * nat * N) :=
  [ (0, 240%nat, 0x0); (0, 120%nat, 0x0); (1, 60%nat, 0x1); (2, 30%nat, 0x3);
    (3, 20%nat, 0x7); (4, 15%nat, 0xF); (5, 12%nat, 0x1F); (6, 10%nat, 0x3F);
    (7, 8%nat, 0x7F); (8, 7%nat, 0xFF); (10, 6%nat, 0x3FF); (12, 5%nat, 0xFFF);
    (15, 4%nat, 0x7FFF); (20, 3%nat, 0xFFFFF); (30, 2%nat, 0x3FFFFFFF);
    (60, 1%nat, 0x0FFFFFFFFFFFFFFF) ].

(* Access to SIMPLE8B_SELECTORS[selector]; the selector is always < 16. *)
Definition sel_entry (s : N) : N * nat * N := nth (N.to_nat s) selectors (0, 0%nat, 0).
Definition itemWidth (s : N) : N := fst (fst (sel_entry s)).
Definition groupSize (s : N) : nat := snd (fst (sel_entry s)).
Definition mask (s : N) : N := snd (sel_entry s).

(* uint64_t left shift: bits shifted out are lost (the shift amount is < 64 in all uses). *)
Definition shl64 (x k : N) : N := N.shiftl x k mod 2 ^ 64.

(* Simple8bCode.h:63-72, scanning the (at most 240) next items: the index of the first
   non-zero one, or None when there is none (selector0 stays true). *)
Fixpoint first_nonzero (n : nat) (l : list N) : option nat :=
  match n, l with
  | S n', x :: l' => if x =? 0 then option_map S (first_nonzero n' l') else Some 0%nat
  | _, _ => None
  end.

(* Simple8bCode.h:98-109, the inner while loop: packs items until `limit` items are in the
   word or an item exceeds the mask. Result: (nofItemsInWord, codeword). *)
Fixpoint pack (limit : nat) (width m : N) (l : list N) (k : nat) (codeword : N) : nat * N :=
  match limit, l with
  | S limit', x :: l' =>
      if m <? x then (k, codeword)
      else pack limit' width m l' (S k) (N.lor codeword (shl64 x (4 + N.of_nat k * width)))
  | _, _ => (k, codeword)
  end.

(* Simple8bCode.h:91-125, the loop over selectors 2..15 on the remaining items `l`.
   Some (codeword, number of items packed); None when no selector fits, i.e. the assertion
   at line 123 fails (with NDEBUG: the outer loop makes no progress). *)
Fixpoint try_selectors (sels : list N) (l : list N) : option (N * nat) :=
  match sels with
  | [] => None
  | s :: sels' =>
      let limit := Nat.min (length l) (groupSize s) in
      let '(n, cw) := pack limit (itemWidth s) (mask s) l 0 s in
      if Nat.eqb n limit then Some (cw, n) else try_selectors sels' l
  end.

Definition packing_selectors : list N := [2;3;4;5;6;7;8;9;10;11;12;13;14;15].

(* Simple8bCode.h:58-128, encode. The list argument is what is left of the plaintext; the
   result is the list of code words written to `encoded`. `fuel` bounds the number of rounds
   of the outer loop; None means assertion failure / no progress (or out of fuel, which
   Simple8b_Proof.encode_total excludes). *)
Fixpoint encode_loop (fuel : nat) (l : list N) : option (list N) :=
  match l with
  | [] => Some []
  | _ =>
    match fuel with
    | O => None
    | S fuel' =>
      match first_nonzero (Nat.min 240 (length l)) l with
      | None => option_map (cons 0) (encode_loop fuel' (skipn 240 l))
      | Some i =>
          let sel1 := Nat.leb 120 i in
          let l1 := if sel1 then skipn 120 l else l in
          match try_selectors packing_selectors l1 with
          | None => None
          | Some (cw, n) =>
              option_map (fun ws => (if sel1 then [1] else []) ++ cw :: ws)
                         (encode_loop fuel' (skipn n l1))
          end
      end
    end
  end.

Definition encode (l : list N) : option (list N) := encode_loop (length l) l.

(* Simple8bCode.h:146-150: the `groupSize` values taken out of one shifted code word. *)
Fixpoint unpack (g : nat) (width m word : N) : list N :=
  match g with
  | O => []
  | S g' => N.land word m :: unpack g' width m (N.shiftr word width)
  end.

Definition decode_word (w : N) : list N :=
  let s := N.land w 0xF in unpack (groupSize s) (itemWidth s) (mask s) (N.shiftr w 4).

(* Simple8bCode.h:136-156, decode: `done` counts nofElementsDone. The result is everything
   written to `decoded`, including what is written past `n`. None: reading past the end of
   `encoded` (undefined behaviour). Values are not truncated to the template type Numeric. *)
Fixpoint decode_loop (encoded : list N) (n done : nat) : option (list N) :=
  if Nat.leb n done then Some []
  else match encoded with
       | [] => None
       | w :: ws =>
           let out := decode_word w in
           option_map (app out) (decode_loop ws n (done + length out))
       end.

Definition decode (encoded : list N) (n : nat) : option (list N) := decode_loop encoded n 0.
