(* Model of writing the permutations of the index and scanning them: index/Index.cpp 327-521, 871-982, 1136-1199,
   index/Index.h 376-465, index/Index.Text.cpp 1406-1426, index/StxxlSortFunctors.h, index/Permutations.h.
   An open file that is written is the list of the bytes written so far. *)
From Coq Require Import List NArith Arith Bool.
From Verif Require Import Bytes Std_Model Ops_Spec Meta_Model.
Import ListNotations.
Open Scope N_scope.

Notation pair_t := (N * N)%type.
Notation triple := (N * N * N)%type.

(* ---------- writing ---------- *)
Definition pair_bytes (p : pair_t) : list N := word (fst p) ++ word (snd p).

(* Index.cpp:947-956 the list of distinct left hand sides with the offsets of their lists *)
Fixpoint lhs_loop (last : N) (i : N) (data : list pair_t) : list pair_t :=
  match data with
  | [] => []
  | (x, _) :: data' => if negb (x =? last) then (x, i * 8) :: lhs_loop x (i + 1) data'
                       else lhs_loop last (i + 1) data'
  end.
(* 972-978 *)
Fixpoint block_loop (per : nat) (startLhs : N) (i : nat) (bufLhs : list pair_t) : list (N * N) :=
  match bufLhs with
  | [] => []
  | e :: es => if Nat.eqb (Nat.modulo i per) 0
               then (fst e, startLhs + N.of_nat i * 16) :: block_loop per startLhs (S i) es
               else block_loop per startLhs (S i) es
  end.

Section Write.
  (* global/Constants.h:32-33 DISTINCT_LHS_PER_BLOCK and USE_BLOCKS_INDEX_SIZE_TRESHOLD *)
  Variables per thr : nat.
  (* the stored logarithm of data.size() / double(distinctC1), a uint8_t; MetaDataTypes.cpp:28-31 *)
  Variable logmult : N -> N -> N.

  (* Index.cpp:930-982 after the check for blocks; also the bytes written *)
  Definition write_nonfunctional (f : full) (data : list pair_t) : blocks * list N :=
    let bufLhs := lhs_loop MAX64 0 data in
    let startRhs := start_of_lhs f + N.of_nat (length bufLhs) * 16 in
    let bufLhs' := map (fun e => (fst e, snd e + startRhs)) bufLhs in
    ({| b_start_rhs := startRhs; b_after := startRhs + nof_elements (f_word f) * 8;
        b_blocks := block_loop per (start_of_lhs f) 0 bufLhs' |},
     flat_map pair_bytes bufLhs' ++ flat_map (fun p => word (snd p)) data).

  (* 871-898. A functional relation has no blocks, thus writeFunctionalRelation (901-927) does nothing. The
     multiplicity of a functional relation is 1; the second one is a dummy, trunc(log2(42.42)) = 5 *)
  Definition write_rel (offset rel : N) (data : list pair_t) (distinct : N) (functional : bool)
      : outcome (full * blocks * list N) :=
    match data with
    | [] => Throw
    | _ =>
      let n := length data in
      let useBlocks := negb functional && Nat.ltb thr n in
      let f := make_full rel offset (N.of_nat n) (if functional then 0 else logmult (N.of_nat n) distinct) 5
                         functional useBlocks in
      let full_index := flat_map pair_bytes data in
      if has_blocks (f_word f) then
        let (b, bytes) := write_nonfunctional f data in Ok (f, b, full_index ++ bytes)
      else Ok (f, no_blocks, full_index)
    end.

  (* 341-351 *)
  Fixpoint switched_stats (last : N) (functional : bool) (distinct : N) (data : list pair_t) : bool * N :=
    match data with
    | [] => (functional, distinct)
    | (x, _) :: data' =>
        if x =? last then switched_stats x false distinct data' else switched_stats x functional (distinct + 1) data'
    end.
  (* 337-339 *)
  Definition pair_less (a b : pair_t) : bool := if fst a =? fst b then snd a <? snd b else fst a <? fst b.

  (* one permutation being written: lastOffset, metadata, file *)
  Record half := { h_off : N; h_meta : imd; h_out : list N }.
  Definition finish_rel (h : half) (r : full * blocks * list N) : outcome half :=
    let '(f, b, bytes) := r in
    bind (add f b (h_meta h)) (fun m => Ok {| h_off := i_after m; h_meta := m; h_out := h_out h ++ bytes |}).

  (* 327-353; std::sort is a parameter, it gives one of the sorted permutations *)
  Variable sort2 : list pair_t -> list pair_t.
  Definition write_switched (offset rel : N) (buffer : list pair_t) : outcome (full * blocks * list N) :=
    let sorted := sort2 (map (fun p => (snd p, fst p)) buffer) in
    let (functional, distinct) := switched_stats MAX64 true 0 sorted in
    write_rel offset rel sorted distinct functional.

  (* the state of the loop 395-419; buffer in order *)
  Record st := { s_rel : N; s_buf : list pair_t; s_fun : bool; s_dist : N; s_last : N; s_h1 : half; s_h2 : half }.
  (* 397-405, 421-427 *)
  Definition flush (s : st) : outcome (half * half) :=
    bind (write_rel (h_off (s_h1 s)) (s_rel s) (s_buf s) (s_dist s) (s_fun s)) (fun r1 =>
    bind (finish_rel (s_h1 s) r1) (fun h1 =>
    bind (write_switched (h_off (s_h2 s)) (s_rel s) (s_buf s)) (fun r2 =>
    bind (finish_rel (s_h2 s) r2) (fun h2 => Ok (h1, h2))))).
  Definition step (t : triple) (s : st) : outcome st :=
    let '(x, y, z) := t in
    if negb (x =? s_rel s) then
      bind (flush s) (fun h =>
      Ok {| s_rel := x; s_buf := [(y, z)]; s_fun := true; s_dist := 1; s_last := y; s_h1 := fst h; s_h2 := snd h |})
    else
      Ok {| s_rel := s_rel s; s_buf := s_buf s ++ [(y, z)];
            s_fun := if y =? s_last s then false else s_fun s;
            s_dist := if y =? s_last s then s_dist s else s_dist s + 1;
            s_last := y; s_h1 := s_h1 s; s_h2 := s_h2 s |}.
  Fixpoint loop (vec : list triple) (s : st) : outcome (half * half) :=
    match vec with
    | [] => flush s
    | t :: vec' => bind (step t s) (loop vec')
    end.
  (* 357-439; vec holds the triples in the order (c0, c1, c2); None: there are no triples, no files are written *)
  Definition create_pair (data : rmap) (vec : list triple) : outcome (option ((imd * list N) * (imd * list N))) :=
    match vec with
    | [] => Ok None
    | (x, _, _) :: _ =>
      let h := {| h_off := 0; h_meta := new_imd data; h_out := [] |} in
      bind (loop vec {| s_rel := x; s_buf := []; s_fun := true; s_dist := 1; s_last := MAX64; s_h1 := h; s_h2 := h |})
        (fun h => Ok (Some ((statistics (h_meta (fst h)), h_out (fst h)), (statistics (h_meta (snd h)), h_out (snd h)))))
    end.

  (* 505-521 *)
  Definition set_full_col2 (c : N) (f : full) : full :=
    {| f_rel := f_rel f; f_start := f_start f; f_word := set_col2 c (f_word f) |}.
  Fixpoint exchange (es : list (N * full)) (m1 m2 : rmap) : outcome (rmap * rmap) :=
    match es with
    | [] => Ok (m1, m2)
    | (id, _) :: es' =>
      bind (rmap_get id m1) (fun f1 =>
      bind (rmap_get id m2) (fun f2 =>
      let m2' := rmap_assign id (set_full_col2 (col1 (f_word f1)) f2) m2 in
      bind (rmap_get id m2') (fun f2' =>
      exchange es' (rmap_assign id (set_full_col2 (col1 (f_word f2')) f1) m1) m2')))
    end.
  (* 474-502: a pair of permutations from the sorted triples; the resulting files, and the contents of the mmap
     files *)
  Definition finish_file (m : imd) (d : rmap) (out : list N) : outcome (list N * rmap) :=
    bind (append_to_file out (with_data d m)) (fun file => Ok (file, d)).
  Definition permutation_pair (data : rmap) (vec : list triple)
      : outcome (option ((list N * rmap) * (list N * rmap))) :=
    bind (create_pair data vec) (fun r =>
    match r with
    | None => Ok None
    | Some ((m1, o1), (m2, o2)) =>
      bind (exchange (rmap_entries (i_data m1)) (i_data m1) (i_data m2)) (fun d =>
      bind (finish_file m1 (fst d) o1) (fun f1 =>
      bind (finish_file m2 (snd d) o2) (fun f2 => Ok (Some (f1, f2)))))
    end).

  (* ---------- the whole index ---------- *)
  (* StxxlSortFunctors.h; Index.h:98-115 the key orders. Triples are (s, p, o) *)
  Definition pso (t : triple) : triple := let '(s, p, o) := t in (p, s, o).
  Definition pos (t : triple) : triple := let '(s, p, o) := t in (p, o, s).
  Definition spo (t : triple) : triple := let '(s, p, o) := t in (s, p, o).
  Definition sop (t : triple) : triple := let '(s, p, o) := t in (s, o, p).
  Definition osp (t : triple) : triple := let '(s, p, o) := t in (o, s, p).
  Definition ops (t : triple) : triple := let '(s, p, o) := t in (o, p, s).
  Definition triple_less (key : triple -> triple) (a b : triple) : bool :=
    let '(a0, a1, a2) := key a in
    let '(b0, b1, b2) := key b in
    if a0 =? b0 then (if a1 =? b1 then a2 <? b2 else a1 <? b1) else a0 <? b0.
  Definition triple_eqb (a b : triple) : bool :=
    let '(a0, a1, a2) := a in let '(b0, b1, b2) := b in (a0 =? b0) && (a1 =? b1) && (a2 =? b2).

  (* stxxl::sort with the comparator of the given key order *)
  Variable sort3 : (triple -> triple) -> list triple -> list triple.

  Record index := {
    x_pso : list N * rmap; x_pos : list N * rmap; x_spo : list N * rmap; x_sop : list N * rmap;
    x_osp : list N * rmap; x_ops : list N * rmap }.
  (* 85-92 with 441-471; vocab is _totalVocabularySize *)
  Definition create_index (vocab : nat) (triples : list triple) : outcome (option index) :=
    let vec1 := std_unique triple_eqb (sort3 pso triples) in
    let vec2 := sort3 spo vec1 in
    let vec3 := sort3 osp vec2 in
    let dense := Dense 0 (repeat empty_full vocab) in
    bind (permutation_pair (Hmap []) (map pso vec1)) (fun r1 =>
    bind (permutation_pair dense (map spo vec2)) (fun r2 =>
    bind (permutation_pair dense (map osp vec3)) (fun r3 =>
    match r1, r2, r3 with
    | Some (a, b), Some (c, d), Some (e, f) =>
        Ok (Some {| x_pso := a; x_pos := b; x_spo := c; x_sop := d; x_osp := e; x_ops := f |})
    | _, _, _ => Ok None
    end))).
End Write.

(* ---------- reading ---------- *)
(* Permutations.h:30-48; d is the content of the mmap file, if the metadata uses one *)
Definition load_permutation (p : list N * rmap) : outcome imd :=
  read_from_file (match snd p with Hmap _ => Hmap [] | Dense _ vec => Dense 0 vec end) (fst p).

(* a File::read of pairs *)
Fixpoint pair_up (l : list N) : list pair_t :=
  match l with a :: b :: l' => (a, b) :: pair_up l' | _ => [] end.
Definition read_pairs (file : list N) (offset : N) (n : nat) : outcome (list pair_t) :=
  bind (of_option (load_words file (N.to_nat offset) 8 (2 * n))) (fun ws => Ok (pair_up ws)).

(* Index.h:376-386; the result table is empty before *)
Definition scan (file : list N) (m : imd) (key : N) : outcome (list pair_t) :=
  bind (relation_exists key m) (fun e =>
  if e then
    bind (get_rmd key m) (fun r =>
    read_pairs file (f_start (fst r)) (N.to_nat (nof_elements (f_word (fst r)))))
  else Ok []).

(* Index.Text.cpp:1406-1426 *)
Definition rhs_for_lhs (rel : list pair_t) (lhs : N) : outcome (list N) :=
  match lower_bound (fun i => fst (nth i rel (0, 0)) <? lhs) 0 (length rel) with
  | None => UB
  | Some it => Ok (map snd (take_while (fun p => fst p =? lhs) (skipn it rel)))
  end.

(* Index.cpp:1160-1199; dereferencing block.end() is UB *)
Definition scan_nonfunctional (file : list N) (blockOff followBlock : N * N) (lhs upper : N) : outcome (list N) :=
  if snd blockOff =? 0 then Ok []
  else
    bind (read_pairs file (fst blockOff) (N.to_nat (snd blockOff / 16))) (fun block =>
    match lower_bound (fun i => fst (nth i block (0, 0)) <? lhs) 0 (length block) with
    | None => UB
    | Some it =>
      match nth_error block it with
      | None => UB
      | Some e =>
        if fst e =? lhs then
          bind (match nth_error block (S it) with
                | Some e' => Ok (snd e' - snd e)
                | None =>
                    if fst followBlock =? fst blockOff then Ok (upper - snd e)
                    else bind (read_pairs file (fst followBlock) 1) (fun fl =>
                         match fl with [e'] => Ok (snd e' - snd e) | _ => UB end)
                end) (fun nofBytes =>
          of_option (load_words file (N.to_nat (snd e)) 8 (N.to_nat (nofBytes / 8))))
        else Ok []
      end
    end).

(* Index.h:424-465 after the vocabulary lookups. scanFunctionalRelation (1136-1157) is never reached as functional
   relations have no blocks; Throw stands for it *)
Definition scan2 (file : list N) (m : imd) (key1 key2 : N) : outcome (list N) :=
  bind (relation_exists key1 m) (fun e =>
  if e then
    bind (get_rmd key1 m) (fun r =>
    match snd r with
    | Some b =>
        bind (block_for b key2) (fun blockOff =>
        if is_functional (f_word (fst r)) then Throw
        else bind (follow_block_for b key2) (fun block2 =>
             scan_nonfunctional file blockOff block2 key2 (b_after b)))
    | None =>
        bind (read_pairs file (f_start (fst r)) (N.to_nat (nof_elements (f_word (fst r))))) (fun rel =>
        rhs_for_lhs rel key2)
    end)
  else Ok []).
