(* Model of the metadata of index permutations: index/MetaDataTypes.h, MetaDataTypes.cpp, MetaDataHandler.h,
   IndexMetaData.h and IndexMetaDataImpl.h. Files are lists of bytes, Id, off_t and size_t have 8 bytes. *)
From Coq Require Import List NArith Arith Bool.
From Verif Require Import Bytes Std_Model.
Import ListNotations.
Open Scope N_scope.

Inductive outcome (A : Type) := Ok (a : A) | Throw | UB.
Arguments Ok {A}. Arguments Throw {A}. Arguments UB {A}.
Definition bind {A B} (o : outcome A) (f : A -> outcome B) : outcome B :=
  match o with Ok a => f a | Throw => Throw | UB => UB end.
Definition of_option {A} (o : option A) : outcome A := match o with Some a => Ok a | None => UB end.

(* ---------- the packed word _typeMultAndNofElements ---------- *)
(* MetaDataTypes.h:24-26 *)
Definition IS_FUNCTIONAL_MASK : N := 0x0100000000000000.
Definition HAS_BLOCKS_MASK : N := 0x0200000000000000.
Definition NOF_ELEMENTS_MASK : N := 0x000000FFFFFFFFFF.

(* MetaDataTypes.cpp:44-56 *)
Definition is_functional (w : N) : bool := negb (N.land w IS_FUNCTIONAL_MASK =? 0).
Definition has_blocks (w : N) : bool := negb (N.land w HAS_BLOCKS_MASK =? 0).
Definition nof_elements (w : N) : N := N.land w NOF_ELEMENTS_MASK.
(* 59-74; w & ~mask is ldiff *)
Definition set_functional (b : bool) (w : N) : N :=
  if b then N.lor w IS_FUNCTIONAL_MASK else N.ldiff w IS_FUNCTIONAL_MASK.
Definition set_blocks (b : bool) (w : N) : N :=
  if b then N.lor w HAS_BLOCKS_MASK else N.ldiff w HAS_BLOCKS_MASK.
(* 77-100; mult is a uint8_t *)
Definition set_col1 (mult : N) (w : N) : N :=
  N.lor (N.land w 0xFF00FFFFFFFFFFFF) (N.shiftl mult 48).
Definition set_col2 (mult : N) (w : N) : N :=
  N.lor (N.land w 0xFFFF00FFFFFFFFFF) (N.shiftl mult 40).
Definition col1 (w : N) : N := N.shiftr (N.land w 0x00FF000000000000) 48 mod 256.
Definition col2 (w : N) : N := N.shiftr (N.land w 0x0000FF0000000000) 40 mod 256.

(* MetaDataTypes.h:78-102 *)
Record full := { f_rel : N; f_start : N; f_word : N }.
(* MetaDataTypes.cpp:19-36; c1 and c2 are the truncated logarithms of lines 28-31 *)
Definition make_full (rel start nof c1 c2 : N) (functional blocks : bool) : full :=
  {| f_rel := rel; f_start := start;
     f_word := set_col2 c2 (set_col1 c1 (set_blocks blocks (set_functional functional nof))) |}.
Definition MAX64 : N := 18446744073709551615.
(* 12-13 *)
Definition empty_full : full := make_full MAX64 MAX64 MAX64 0 0 false false.
(* MetaDataTypes.h:86-95 *)
Definition full_eqb (a b : full) : bool :=
  (f_rel a =? f_rel b) && (f_word a =? f_word b) && (f_start a =? f_start b).
(* MetaDataTypes.cpp:39-41, 203-206 (the caller checks hasBlocks) *)
Definition nof_bytes (m : full) : N := nof_elements (f_word m) * 2 * 8.
Definition start_of_lhs (m : full) : N := f_start m + 2 * 8 * nof_elements (f_word m).

(* MetaDataTypes.h:144-146; blocks are pairs of _firstLhs and _startOffset *)
Record blocks := { b_start_rhs : N; b_after : N; b_blocks : list (N * N) }.
Definition no_blocks : blocks := {| b_start_rhs := 0; b_after := 0; b_blocks := [] |}.

(* ---------- serialization of one relation ---------- *)
Definition word (v : N) : list N := le 8 v.
(* MetaDataTypes.h:105-111 *)
Definition full_bytes (m : full) : list N := word (f_rel m) ++ word (f_start m) ++ word (f_word m).
(* MetaDataTypes.h:149-157 *)
Definition blocks_bytes (b : blocks) : list N :=
  word (b_start_rhs b) ++ word (b_after b) ++ word (N.of_nat (length (b_blocks b))) ++
  flat_map (fun p => word (fst p) ++ word (snd p)) (b_blocks b).

(* Reading from a buffer and advancing (IndexMetaData.h:47-52); None: outside of the buffer *)
Definition take_word (buf : list N) : option (N * list N) :=
  match load buf 0 8 with
  | Some bs => Some (of_le bs, skipn 8 buf)
  | None => None
  end.
(* MetaDataTypes.cpp:172-179, 197-200 *)
Definition take_full (buf : list N) : option (full * list N) :=
  match take_word buf with
  | None => None
  | Some (rel, buf) =>
    match take_word buf with
    | None => None
    | Some (start, buf) =>
      match take_word buf with
      | None => None
      | Some (w, buf) => Some ({| f_rel := rel; f_start := start; f_word := w |}, buf)
      end
    end
  end.
Fixpoint take_blocks (n : nat) (buf : list N) : option (list (N * N) * list N) :=
  match n with
  | O => Some ([], buf)
  | S n' =>
    match take_word buf with
    | None => None
    | Some (lhs, buf) =>
      match take_word buf with
      | None => None
      | Some (start, buf) =>
        match take_blocks n' buf with
        | None => None
        | Some (l, buf) => Some ((lhs, start) :: l, buf)
        end
      end
    end
  end.
(* 182-194, 209-212 *)
Definition take_block_data (buf : list N) : option (blocks * list N) :=
  match take_word buf with
  | None => None
  | Some (rhs, buf) =>
    match take_word buf with
    | None => None
    | Some (after, buf) =>
      match take_word buf with
      | None => None
      | Some (n, buf) =>
        match take_blocks (N.to_nat n) buf with
        | None => None
        | Some (l, buf) => Some ({| b_start_rhs := rhs; b_after := after; b_blocks := l |}, buf)
        end
      end
    end
  end.

(* ---------- the maps from relations to metadata, MetaDataHandler.h ---------- *)
(* hash maps are association lists in iteration order *)
Fixpoint amap_set {A} (k : N) (v : A) (m : list (N * A)) : list (N * A) :=
  match m with
  | [] => [(k, v)]
  | (k', v') :: m' => if k' =? k then (k, v) :: m' else (k', v') :: amap_set k v m'
  end.
Definition amap_get {A} (k : N) (m : list (N * A)) : option A :=
  option_map snd (find (fun p => fst p =? k) m).

Fixpoint vec_set {A} (i : nat) (v : A) (l : list A) : list A :=
  match l, i with
  | [], _ => []
  | _ :: l', O => v :: l'
  | x :: l', S i' => x :: vec_set i' v l'
  end.

Inductive rmap :=
| Hmap (m : list (N * full))               (* MetaDataWrapperHashMap, 195-249 *)
| Dense (size : N) (vec : list full).      (* MetaDataWrapperDense, 93-192, on an MmapVector *)
Definition is_mmap (m : rmap) : bool := match m with Hmap _ => false | Dense _ _ => true end.

(* 124, 210 *)
Definition rmap_size (m : rmap) : N :=
  match m with Hmap l => N.of_nat (length l) | Dense size _ => size end.
(* 150-162, 225 *)
Definition rmap_set (id : N) (v : full) (m : rmap) : outcome rmap :=
  match m with
  | Hmap l => Ok (Hmap (amap_set id v l))
  | Dense size vec =>
      match nth_error vec (N.to_nat id) with
      | None => Throw
      | Some old => Ok (Dense (if full_eqb old empty_full then size + 1 else size) (vec_set (N.to_nat id) v vec))
      end
  end.
(* 165-169, 228-232 getAsserted; 172-176, 235-239 operator[] give a reference to the same *)
Definition rmap_get (id : N) (m : rmap) : outcome full :=
  match m with
  | Hmap l => match amap_get id l with Some v => Ok v | None => Throw end
  | Dense _ vec =>
      match nth_error vec (N.to_nat id) with
      | None => UB
      | Some v => if full_eqb v empty_full then Throw else Ok v
      end
  end.
(* assignment through the reference given by operator[] *)
Definition rmap_assign (id : N) (v : full) (m : rmap) : rmap :=
  match m with
  | Hmap l => Hmap (amap_set id v l)
  | Dense size vec => Dense size (vec_set (N.to_nat id) v vec)
  end.
(* 179-182, 242-245 *)
Definition rmap_count (id : N) (m : rmap) : outcome bool :=
  match m with
  | Hmap l => Ok (match amap_get id l with Some _ => true | None => false end)
  | Dense _ vec =>
      match nth_error vec (N.to_nat id) with
      | None => UB
      | Some v => Ok (negb (full_eqb v empty_full))
      end
  end.
(* 22-89, 130-147: the dense map is iterated by id, skipping empty entries *)
Fixpoint dense_entries (id : N) (vec : list full) : list (N * full) :=
  match vec with
  | [] => []
  | v :: vec' => if full_eqb v empty_full then dense_entries (id + 1) vec' else (id, v) :: dense_entries (id + 1) vec'
  end.
Definition rmap_entries (m : rmap) : list (N * full) :=
  match m with Hmap l => l | Dense _ vec => dense_entries 0 vec end.

(* ---------- IndexMetaData ---------- *)
(* IndexMetaData.h:166-176; without the file name. name is the list of its characters *)
Record imd := {
  i_after : N; i_name : list N; i_data : rmap; i_blocks : list (N * blocks);
  i_elements : N; i_bytes : N; i_nblocks : N; i_version : N }.
Definition V_CURRENT : N := 1.
Definition new_imd (data : rmap) : imd :=
  {| i_after := 0; i_name := []; i_data := data; i_blocks := []; i_elements := 0; i_bytes := 0; i_nblocks := 0;
     i_version := V_CURRENT |}.

(* IndexMetaDataImpl.h:22-30: the part of add that does not depend on persistentRMD *)
Definition add_blocks (rmd : full) (b : blocks) (m : imd) : imd :=
  let afterExpected := if has_blocks (f_word rmd) then b_after b else f_start rmd + nof_bytes rmd in
  {| i_after := if i_after m <? afterExpected then afterExpected else i_after m;
     i_name := i_name m; i_data := i_data m;
     i_blocks := if has_blocks (f_word rmd) then amap_set (f_rel rmd) b (i_blocks m) else i_blocks m;
     i_elements := i_elements m; i_bytes := i_bytes m; i_nblocks := i_nblocks m; i_version := i_version m |}.
Definition with_data (d : rmap) (m : imd) : imd :=
  {| i_after := i_after m; i_name := i_name m; i_data := d; i_blocks := i_blocks m;
     i_elements := i_elements m; i_bytes := i_bytes m; i_nblocks := i_nblocks m; i_version := i_version m |}.
(* 13-31 add<false> *)
Definition add (rmd : full) (b : blocks) (m : imd) : outcome imd :=
  bind (rmap_set (f_rel rmd) rmd (i_data m)) (fun d => Ok (add_blocks rmd b (with_data d m))).

(* 117-124, 128-130; the reference to the blocks is only set if there are blocks; find(relId)->second is UB if
   there is no entry *)
Definition get_rmd (id : N) (m : imd) : outcome (full * option blocks) :=
  bind (rmap_get id (i_data m)) (fun f =>
  if has_blocks (f_word f) then
    match amap_get id (i_blocks m) with Some b => Ok (f, Some b) | None => UB end
  else Ok (f, None)).
Definition relation_exists (id : N) (m : imd) : outcome bool := rmap_count id (i_data m).

(* 243-261 *)
Definition nof_blocks_for (id : N) (m : imd) : N :=
  match amap_get id (i_blocks m) with Some b => N.of_nat (length (b_blocks b)) | None => 0 end.
Definition total_bytes_for (f : full) (m : imd) : N :=
  match amap_get (f_rel f) (i_blocks m) with Some b => b_after b - f_start f | None => nof_bytes f end.
(* 271-281; size_t sums, unbounded here *)
Definition sum {A} (f : A -> N) (l : list A) : N := fold_left (fun acc x => acc + f x) l 0.
Definition statistics (m : imd) : imd :=
  let es := rmap_entries (i_data m) in
  {| i_after := i_after m; i_name := i_name m; i_data := i_data m; i_blocks := i_blocks m;
     i_elements := sum (fun e => nof_elements (f_word (snd e))) es;
     i_bytes := sum (fun e => total_bytes_for (snd e) m) es;
     i_nblocks := sum (fun e => nof_blocks_for (fst e) m) es; i_version := i_version m |}.

(* IndexMetaData.h:55-62 *)
Definition MAGIC_MMAP : N := MAX64.
Definition MAGIC_SPARSE : N := MAX64 - 1.
Definition MAGIC_MMAP_VERSION : N := MAX64 - 2.
Definition MAGIC_SPARSE_VERSION : N := MAX64 - 3.

(* 149-159: relations with the blocks; AD_CHECK throws if blocks are missing *)
Fixpoint hmap_bytes (es : list (N * full)) (bs : list (N * blocks)) : outcome (list N) :=
  match es with
  | [] => Ok []
  | (_, f) :: es' =>
    bind (if has_blocks (f_word f) then
            match amap_get (f_rel f) bs with Some b => Ok (full_bytes f ++ blocks_bytes b) | None => Throw end
          else Ok (full_bytes f)) (fun x =>
    bind (hmap_bytes es' bs) (fun xs => Ok (x ++ xs)))
  end.
(* 133-173 operator<< *)
Definition imd_bytes (m : imd) : outcome (list N) :=
  bind (match i_data m with
        | Hmap l => hmap_bytes l (i_blocks m)
        | Dense _ _ => Ok (word (N.of_nat (length (i_blocks m))) ++
                           flat_map (fun e => word (fst e) ++ blocks_bytes (snd e)) (i_blocks m))
        end) (fun body =>
  Ok (word (if is_mmap (i_data m) then MAGIC_MMAP_VERSION else MAGIC_SPARSE_VERSION) ++ word V_CURRENT ++
      word (N.of_nat (length (i_name m))) ++ i_name m ++
      word (rmap_size (i_data m)) ++ word (i_after m) ++ body ++
      word (i_elements m) ++ word (i_bytes m) ++ word (i_nblocks m))).
(* 185-192 appendToFile *)
Definition append_to_file (file : list N) (m : imd) : outcome (list N) :=
  bind (imd_bytes m) (fun bs => Ok (file ++ bs ++ word (N.of_nat (length file)))).

(* 284-346: version and rest of the buffer. Metadata without version tag or of an old version is out of scope of
   the model (Throw stands for it) *)
Definition parse_magic (mmap : bool) (buf : list N) : outcome (N * list N) :=
  bind (of_option (take_word buf)) (fun p =>
  let magic := fst p in
  if magic =? (if mmap then MAGIC_MMAP_VERSION else MAGIC_SPARSE_VERSION) then
    bind (of_option (take_word (snd p))) (fun q => if fst q =? V_CURRENT then Ok q else Throw)
  else Throw).

(* 62-74 *)
Fixpoint read_relations (n : nat) (buf : list N) (m : imd) : outcome (imd * list N) :=
  match n with
  | O => Ok (m, buf)
  | S n' =>
    bind (of_option (take_full buf)) (fun p =>
    let f := fst p in
    if has_blocks (f_word f) then
      bind (of_option (take_block_data (snd p))) (fun q =>
      bind (add f (fst q) m) (fun m => read_relations n' (snd q) m))
    else bind (add f no_blocks m) (fun m => read_relations n' (snd p) m))
  end.
(* 96-104 *)
Fixpoint read_block_list (n : nat) (buf : list N) (m : imd) : outcome (imd * list N) :=
  match n with
  | O => Ok (m, buf)
  | S n' =>
    bind (of_option (take_word buf)) (fun p =>
    bind (of_option (take_block_data (snd p))) (fun q =>
    bind (rmap_get (fst p) (i_data m)) (fun f =>
    read_block_list n' (snd q) (add_blocks f (fst q) m))))
  end.

(* 42-114 createFromByteBuffer; data is the map before reading: empty, or the vector of the mmap file with size 0
   (MetaDataHandler.h:116-121) *)
Definition create_from_buffer (data : rmap) (buf : list N) : outcome imd :=
  bind (parse_magic (is_mmap data) buf) (fun v =>
  bind (of_option (take_word (snd v))) (fun p =>
  bind (of_option (load (snd p) 0 (N.to_nat (fst p)))) (fun name =>
  let buf := skipn (N.to_nat (fst p)) (snd p) in
  bind (of_option (take_word buf)) (fun n =>
  bind (of_option (take_word (snd n))) (fun a =>
  let data' := match data with Hmap _ => data | Dense _ vec => Dense (fst n) vec end in
  let m := {| i_after := fst a; i_name := name; i_data := data'; i_blocks := []; i_elements := 0; i_bytes := 0;
              i_nblocks := 0; i_version := fst v |} in
  bind (match data with
        | Hmap _ => read_relations (N.to_nat (fst n)) (snd a) m
        | Dense _ _ => bind (of_option (take_word (snd a))) (fun k => read_block_list (N.to_nat (fst k)) (snd k) m)
        end) (fun r =>
  bind (of_option (take_word (snd r))) (fun e =>
  bind (of_option (take_word (snd e))) (fun b =>
  bind (of_option (take_word (snd b))) (fun k =>
  let m := fst r in
  Ok {| i_after := i_after m; i_name := i_name m; i_data := i_data m; i_blocks := i_blocks m;
        i_elements := fst e; i_bytes := fst b; i_nblocks := fst k; i_version := i_version m |}))))))))).

(* 205-212 with File::getLastOffset (util/File.h:243-252): the last 8 bytes tell where the metadata begins *)
Definition read_from_file (data : rmap) (file : list N) : outcome imd :=
  let size := length file in
  if Nat.ltb size 8 then UB
  else
    bind (of_option (load_word file (size - 8) 8)) (fun from =>
    if N.of_nat (size - 8) <? from then UB
    else bind (of_option (load file (N.to_nat from) (size - 8 - N.to_nat from))) (fun buf =>
         create_from_buffer data buf)).

(* ---------- looking up blocks, MetaDataTypes.cpp ---------- *)

(* 107-109, 138-140 *)
Definition block_lower_bound (b : blocks) (lhs : N) : option nat :=
  lower_bound (fun i => fst (nth i (b_blocks b) (0, 0)) <? lhs) 0 (length (b_blocks b)).
(* 111-123, 142-153: the block that may contain lhs; None: the first block begins after lhs (or there is none,
   then the start offset of end() is read) *)
Definition find_block (b : blocks) (lhs : N) : outcome (option nat) :=
  match block_lower_bound b lhs with
  | None => UB
  | Some it =>
      match nth_error (b_blocks b) it with
      | Some e => if lhs <? fst e then (if Nat.eqb it 0 then Ok None else Ok (Some (it - 1)%nat)) else Ok (Some it)
      | None => if Nat.eqb it 0 then UB else Ok (Some (it - 1)%nat)
      end
  end.
(* 125-132, 160-168 *)
Definition block_extent (b : blocks) (it : nat) : outcome (N * N) :=
  match nth_error (b_blocks b) it with
  | None => UB
  | Some e =>
      let after := match nth_error (b_blocks b) (S it) with Some e' => snd e' | None => b_start_rhs b end in
      Ok (snd e, after - snd e)
  end.
Definition first_block_empty (b : blocks) : outcome (N * N) :=
  match b_blocks b with [] => UB | e :: _ => Ok (snd e, 0) end.
(* 103-133 *)
Definition block_for (b : blocks) (lhs : N) : outcome (N * N) :=
  bind (find_block b lhs) (fun r =>
  match r with None => first_block_empty b | Some it => block_extent b it end).
(* 136-169 *)
Definition follow_block_for (b : blocks) (lhs : N) : outcome (N * N) :=
  bind (find_block b lhs) (fun r =>
  match r with
  | None => first_block_empty b
  | Some it => block_extent b (match nth_error (b_blocks b) (S it) with Some _ => S it | None => it end)
  end).
