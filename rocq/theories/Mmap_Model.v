(* Model of util/MmapVector.h, util/MmapVectorImpl.h and util/BufferedVector.h.
   Elements are trivially copyable and given by their bytes. Files are lists of bytes. A shared
   mapping is the file it maps together with its length, so that writing through the mapping
   changes the file. System calls fail only for the reasons modelled here. *)
From Coq Require Import List NArith Arith Bool.
From Verif Require Import Bytes.
Import ListNotations.
Open Scope N_scope.

Notation elem := (list N).
(* a failed AD_CHECK; an exception; an access outside of the mapping or of the file; a result *)
Inductive outcome (A : Type) := Done (a : A) | CheckFails | Throws | Fault.
Arguments Done {A} a.
Arguments CheckFails {A}.
Arguments Throws {A}.
Arguments Fault {A}.
Definition andThen {A B} (x : outcome A) (f : A -> outcome B) : outcome B :=
  match x with Done a => f a | CheckFails => CheckFails | Throws => Throws | Fault => Fault end.
Definition wrap (n : N) : N := n mod 2 ^ 64.

(* files by number; 0 is the empty name, which is no file *)
Definition world := list (N * list N).
Definition file (w : world) (f : N) : option (list N) :=
  if f =? 0 then None else option_map snd (find (fun p => fst p =? f) w).
Definition set_file (w : world) (f : N) (c : list N) : world := (f, c) :: w.

(* MmapVector.h:269-277; ptr is the mapped file and the length of the mapping *)
Record vec := Vec { ptr : option (N * N); size : N; capacity : N; bytesize : N; filename : N }.
(* 138, 269-274 *)
Definition uninitialized : vec := Vec None 0 0 0 0.
Definition MinCapacity : N := 100.
Definition MagicNumber : N := 7601577.
Definition Version : N := 0.

(* size_t times the float 1.5, converted to size_t: the number and the product are rounded to 24
   bits, ties to even. The product is taken twice. *)
Definition round24 (n : N) : N :=
  let k := N.log2 n - 23 in
  let q := n / 2 ^ k in
  let r := n mod 2 ^ k in
  let half := 2 ^ k / 2 in
  (if (k =? 0) || (r <? half) || ((r =? half) && N.even q) then q else q + 1) * 2 ^ k.
Definition times_one_and_a_half (n : N) : N := round24 (3 * round24 n) / 2.

Section Vector.
  (* sizeof(T) and getpagesize() *)
  Variables (s page : N).

  (* MmapVectorImpl.h:29-47 *)
  Definition meta_data (v : vec) : list N :=
    le 8 (size v) ++ le 8 (capacity v) ++ le 8 (bytesize v) ++ le 4 MagicNumber ++ le 4 Version.
  Definition truncated (c : list N) (n : nat) : list N := firstn n c ++ repeat 0 (n - length c).
  Definition writeMetaDataToEnd (w : world) (v : vec) : outcome world :=
    match file w (filename v) with
    | None => Throws
    | Some c => Done (set_file w (filename v) (truncated c (N.to_nat (bytesize v)) ++ meta_data v))
    end.
  (* 50-76: size, capacity, bytesize *)
  Definition readMetaDataFromEnd (w : world) (f : N) : outcome (N * N * N) :=
    match file w f with
    | None => CheckFails
    | Some c =>
        if Nat.ltb (length c) 32 then Throws
        else
          let m := skipn (length c - 32) c in
          let word (at_ n : nat) := of_le (firstn n (skipn at_ m)) in
          if (word 24%nat 4%nat =? MagicNumber) && (word 28%nat 4%nat =? Version)
          then Done (word 0%nat 8%nat, word 8%nat 8%nat, word 16%nat 8%nat) else Throws
    end.
  (* 79-108: mapping nothing, or a file that does not exist, fails *)
  Definition map_file (w : world) (v : vec) : outcome vec :=
    match file w (filename v) with
    | None => CheckFails
    | Some _ =>
        if bytesize v =? 0 then CheckFails
        else Done (Vec (Some (filename v, bytesize v)) (size v) (capacity v) (bytesize v) (filename v))
    end.
  (* 111-119 *)
  Definition remapLinux (v : vec) : outcome vec :=
    match ptr v with
    | None => CheckFails
    | Some (f, _) =>
        if bytesize v =? 0 then CheckFails
        else Done (Vec (Some (f, bytesize v)) (size v) (capacity v) (bytesize v) (filename v))
    end.
  (* 122-137: capacity and bytesize *)
  Definition convertArraySizeToFileSize (target : N) : N * N :=
    let bytes := wrap (wrap (wrap (target * s) / page + 1) * page) in
    (bytes / s, bytes).
  (* 140-158 *)
  Definition adaptCapacity (w : world) (v : vec) (newCapacity : N) : outcome (world * vec) :=
    let (c, b) := convertArraySizeToFileSize newCapacity in
    let v' := Vec (ptr v) (size v) c b (filename v) in
    andThen (writeMetaDataToEnd w v') (fun w' =>
    andThen (remapLinux v') (fun v'' => Done (w', v''))).
  (* 161-165, MmapVector.h:198 and 203-207 *)
  Definition resize (w : world) (v : vec) (n : N) : outcome (world * vec) :=
    adaptCapacity w (Vec (ptr v) n (capacity v) (bytesize v) (filename v)) n.
  Definition clear (w : world) (v : vec) : outcome (world * vec) := resize w v 0.
  Definition reserve (w : world) (v : vec) (n : N) : outcome (world * vec) :=
    if capacity v <? n then adaptCapacity w v n else Done (w, v).

  (* _ptr[i] *)
  Definition read_at (w : world) (v : vec) (i : N) : outcome elem :=
    match ptr v with
    | None => Fault
    | Some (f, len) =>
        match file w f with
        | None => Fault
        | Some c =>
            if (i + 1) * s <=? len then
              match load c (N.to_nat (i * s)) (N.to_nat s) with Some e => Done e | None => Fault end
            else Fault
        end
    end.
  Definition write_at (w : world) (v : vec) (i : N) (e : elem) : outcome world :=
    match ptr v with
    | None => Fault
    | Some (f, len) =>
        match file w f with
        | None => Fault
        | Some c =>
            if (i + 1) * s <=? len then
              match store c (N.to_nat (i * s)) e with Some c' => Done (set_file w f c') | None => Fault end
            else Fault
        end
    end.
  (* MmapVector.h:98-124, 127-128 *)
  Definition throwIfUninitialized {A} (v : vec) (x : outcome A) : outcome A :=
    match ptr v with None => Throws | Some _ => x end.
  Definition get (w : world) (v : vec) (i : N) : outcome elem := throwIfUninitialized v (read_at w v i).
  Definition put (w : world) (v : vec) (i : N) (e : elem) : outcome world := throwIfUninitialized v (write_at w v i e).
  Definition at_ (w : world) (v : vec) (i : N) : outcome elem :=
    throwIfUninitialized v (if size v <=? i then Throws else read_at w v i).
  Definition back (w : world) (v : vec) : outcome elem := read_at w v (wrap (size v + 2 ^ 64 - 1)).

  (* MmapVectorImpl.h:168-187 *)
  Definition grow (w : world) (v : vec) : outcome (world * vec) :=
    if size v =? capacity v then
      andThen (adaptCapacity w v (times_one_and_a_half (capacity v))) (fun wv =>
      if size (snd wv) <? capacity (snd wv) then Done wv else CheckFails)
    else Done (w, v).
  Definition set_size (v : vec) (n : N) : vec := Vec (ptr v) n (capacity v) (bytesize v) (filename v).
  Definition push_back (w : world) (v : vec) (e : elem) : outcome (world * vec) :=
    andThen (grow w v) (fun wv =>
    let (w', v') := wv in
    andThen (write_at w' v' (size v') e) (fun w'' => Done (w'', set_size v' (size v' + 1)))).
  (* the same if the argument is a reference to the element i of this vector: growing may move the
     mapping, after which the reference is dangling *)
  Definition push_back_own (moves : bool) (w : world) (v : vec) (i : N) : outcome (world * vec) :=
    andThen (grow w v) (fun wv =>
    let (w', v') := wv in
    if (size v =? capacity v) && moves then Fault
    else
      andThen (read_at w' v' i) (fun e =>
      andThen (write_at w' v' (size v') e) (fun w'' => Done (w'', set_size v' (size v' + 1))))).

  (* 217-236: the vector may be open; its mapping is released without writing its meta data *)
  Definition open_size (w : world) (n : N) (f : N) : outcome (world * vec) :=
    if f =? 0 then CheckFails
    else
      let w0 := set_file w f [] in
      let (c, b) := convertArraySizeToFileSize (N.max n MinCapacity) in
      let v := Vec None n c b f in
      andThen (writeMetaDataToEnd w0 v) (fun w' =>
      andThen (map_file w' v) (fun v' => Done (w', v'))).
  Fixpoint fill (w : world) (v : vec) (i : N) (es : list elem) : outcome world :=
    match es with
    | [] => Done w
    | e :: es' => andThen (write_at w v i e) (fun w' => fill w' v (i + 1) es')
    end.
  (* 190-199 and 202-214 *)
  Definition open_default (w : world) (n : N) (e : elem) (f : N) : outcome (world * vec) :=
    andThen (open_size w n f) (fun wv =>
    andThen (fill (fst wv) (snd wv) 0 (repeat e (N.to_nat n))) (fun w' => Done (w', snd wv))).
  Definition open_range (w : world) (es : list elem) (f : N) : outcome (world * vec) :=
    andThen (open_size w (N.of_nat (length es)) f) (fun wv =>
    andThen (fill (fst wv) (snd wv) 0 es) (fun w' => Done (w', snd wv))).
  (* 239-246; MmapVectorView::open, MmapVector.h:322-329, maps for reading *)
  Definition open_reuse (w : world) (f : N) : outcome vec :=
    andThen (readMetaDataFromEnd w f) (fun m =>
    let '(n, c, b) := m in map_file w (Vec None n c b f)).
  (* 249-261 *)
  Definition close (w : world) (v : vec) : outcome (world * vec) :=
    match ptr v with
    | Some _ => andThen (writeMetaDataToEnd w v) (fun w' => Done (w', uninitialized))
    | None => Done (w, uninitialized)
    end.
  (* 363-374 *)
  Definition view_close (v : vec) : vec := uninitialized.
  (* 279-290: the new vector and what remains of the other *)
  Definition move (v : vec) : vec * vec := (v, Vec None (size v) (capacity v) (bytesize v) 0).
  (* 293-310; self is true if both are the same object *)
  Definition move_assign (w : world) (self : bool) (v other : vec) : outcome (world * vec * vec) :=
    if self then Done (w, v, v)
    else andThen (close w v) (fun wv => Done (fst wv, fst (move other), snd (move other))).
  (* MmapVectorView, 346-361: no test for the same object *)
  Definition view_move_assign (self : bool) (v other : vec) : vec * vec :=
    if self then let v' := view_close v in let m := snd (move v') in (m, m)
    else move other.

  (* BufferedVector.h. ext is a temporary MmapVector. *)
  Record buffered := Buffered { threshold : N; is_internal : bool; inner : list elem; ext : vec }.
  (* 26-27, MmapVector.h:352-354 and 371-373 *)
  Definition new_buffered (w : world) (t : N) (f : N) : outcome (world * buffered) :=
    andThen (open_size w 0 f) (fun wv => Done (fst wv, Buffered t true [] (snd wv))).
  (* 30 *)
  Definition b_size (b : buffered) : N := if is_internal b then N.of_nat (length (inner b)) else size (ext b).
  (* 55-64 *)
  Definition b_get (w : world) (b : buffered) (i : N) : outcome elem :=
    if is_internal b then match nth_error (inner b) (N.to_nat i) with Some e => Done e | None => Fault end
    else get w (ext b) i.
  Definition b_at (w : world) (b : buffered) (i : N) : outcome elem :=
    if is_internal b then match nth_error (inner b) (N.to_nat i) with Some e => Done e | None => Throws end
    else at_ w (ext b) i.
  Fixpoint set_nth (i : nat) (e : elem) (l : list elem) : list elem :=
    match l, i with
    | [], _ => []
    | _ :: l', O => e :: l'
    | x :: l', Datatypes.S i' => x :: set_nth i' e l'
    end.
  Definition b_put (w : world) (b : buffered) (i : N) (e : elem) : outcome (world * buffered) :=
    if is_internal b then
      if i <? N.of_nat (length (inner b))
      then Done (w, Buffered (threshold b) true (set_nth (N.to_nat i) e (inner b)) (ext b)) else Fault
    else andThen (put w (ext b) i e) (fun w' => Done (w', b)).
  (* 75-80 *)
  Definition b_clear (b : buffered) : buffered := Buffered (threshold b) true [] (ext b).
  (* 84-99 *)
  Fixpoint put_all (w : world) (v : vec) (i : N) (es : list elem) : outcome world :=
    match es with
    | [] => Done w
    | e :: es' => andThen (put w v i e) (fun w' => put_all w' v (i + 1) es')
    end.
  Definition b_push_back (w : world) (b : buffered) (e : elem) : outcome (world * buffered) :=
    let oldSize := b_size b in
    if negb (is_internal b) then
      andThen (push_back w (ext b) e) (fun wv => Done (fst wv, Buffered (threshold b) false (inner b) (snd wv)))
    else if oldSize <? threshold b then Done (w, Buffered (threshold b) true (inner b ++ [e]) (ext b))
    else
      andThen (resize w (ext b) (oldSize + 1)) (fun wv =>
      andThen (put_all (fst wv) (snd wv) 0 (inner b)) (fun w1 =>
      andThen (put w1 (snd wv) oldSize e) (fun w2 =>
      Done (w2, Buffered (threshold b) false [] (snd wv))))).
End Vector.

(* operations on a vector *)
Inductive op := Push (e : elem) | Put (i : N) (e : elem) | Resize (n : N) | Clear | Reserve (n : N) | Reopen.
Definition run_op (s page : N) (w : world) (v : vec) (o : op) : outcome (world * vec) :=
  match o with
  | Push e => push_back s page w v e
  | Put i e => andThen (put s w v i e) (fun w' => Done (w', v))
  | Resize n => resize s page w v n
  | Clear => clear s page w v
  | Reserve n => reserve s page w v n
  | Reopen => andThen (close w v) (fun wv => andThen (open_reuse (fst wv) (filename v)) (fun v' => Done (fst wv, v')))
  end.
Fixpoint run_ops (s page : N) (w : world) (v : vec) (ops : list op) : outcome (world * vec) :=
  match ops with
  | [] => Done (w, v)
  | o :: ops' => andThen (run_op s page w v o) (fun wv => run_ops s page (fst wv) (snd wv) ops')
  end.
Inductive bop := BPush (e : elem) | BPut (i : N) (e : elem) | BClear.
Definition run_bop (s page : N) (w : world) (b : buffered) (o : bop) : outcome (world * buffered) :=
  match o with
  | BPush e => b_push_back s page w b e
  | BPut i e => b_put s w b i e
  | BClear => Done (w, b_clear b)
  end.
Fixpoint run_bops (s page : N) (w : world) (b : buffered) (ops : list bop) : outcome (world * buffered) :=
  match ops with
  | [] => Done (w, b)
  | o :: ops' => andThen (run_bop s page w b o) (fun wb => run_bops s page (fst wb) (snd wb) ops')
  end.
