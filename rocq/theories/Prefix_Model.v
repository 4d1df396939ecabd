(* Model of the computation of the compression prefixes: index/PrefixHeuristic.cpp and
   index/PrefixHeuristic.h. Scores and counts are unbounded. *)
From Coq Require Import List NArith Arith Bool.
From Verif Require Import Strings_Model Vocab_Model.
Import ListNotations.
Open Scope N_scope.

(* TreeNode, PrefixHeuristic.h:55-118. _score and _sharedCount are recomputed by getMaximum before
   they are read; _parent is only used to find the place for an insertion. A child is a pointer,
   None is a null pointer. *)
Inductive tree :=
  Node (value : list N) (ownCount penaltyLength : N) (active : bool) (children : list (option tree)).
Definition value (t : tree) : list N := let (v, _, _, _, _) := t in v.
Definition new_node (v : list N) (children : list (option tree)) : tree := Node v 1 0 true children.
(* Tree, 123-129 *)
Definition empty_tree : tree := new_node [] [].

(* PrefixHeuristic.cpp:54-65: std::remove_if as in libstdc++. The kept pointers are moved to the
   front, one after the other, over the pointers that were there; behind them, the pointers that
   were moved are null and the others remain. The predicate dereferences the pointers; None: a
   null pointer is dereferenced. *)
Fixpoint matching (v : list N) (ch : list (option tree)) : option (list (tree * bool)) :=
  match ch with
  | [] => Some []
  | None :: _ => None
  | Some c :: ch' => option_map (cons (c, startsWith (value c) v)) (matching v ch')
  end.
Definition kept (m : list (tree * bool)) : list (option tree) :=
  map (fun x => Some (fst x)) (filter (fun x => negb (snd x)) m).
Definition moved (m : list (tree * bool)) : list (option tree) :=
  map (fun x : tree * bool => if snd x then Some (fst x) else None) (skipn (length (kept m)) m).

(* TreeNode::insertAfter, 32-70. None: a null pointer is dereferenced. The loop over the children
   says if one of them took the value. *)
Fixpoint insertAfter (v : list N) (t : tree) {struct t} : option tree :=
  match t with
  | Node val own pen act ch =>
      if list_eq_dec N.eq_dec v val then Some (Node val (own + 1) pen act ch)
      else
        let fix into (l : list (option tree)) : option (option (list (option tree))) :=
          match l with
          | [] => Some None
          | None :: _ => None
          | Some c :: l' =>
              if startsWith v (value c) then
                match insertAfter v c with Some c' => Some (Some (Some c' :: l')) | None => None end
              else
                match into l' with
                | Some (Some r) => Some (Some (Some c :: r))
                | r => r
                end
          end in
        match into ch with
        | None => None
        | Some (Some ch') => Some (Node val own pen act ch')
        | Some None =>
            match matching v ch with
            | None => None
            | Some m => Some (Node val own pen act (kept m ++ [Some (new_node v (moved m))]))
            end
        end
  end.

(* Tree::insert, 21-29, and TreeNode::insert, 73-82, search from the last inserted node upwards for
   a node whose value is a prefix, and insert after that. The values of the nodes on the way from
   the root to a node are the prefixes of its value in the tree, so starting at the root leads to
   the same place; the model starts at the root. (A null pointer that is met on the way from the
   root but not on the way from the last node is dereferenced by getMaximum anyway.) *)
Definition insert (v : list N) (root : tree) : option tree := insertAfter v root.

(* TreeNode::getMaximum, 85-128: shared count, maximum and the node of the maximum as the path from
   this node. None: a null pointer is dereferenced. The loop over the children keeps the maximum
   (initially 0 and a null pointer). *)
Fixpoint getMaximum (codelength : N) (t : tree) : option (N * N * list nat) :=
  match t with
  | Node val own pen act ch =>
      let fix go (l : list (option tree)) (i : nat) (shared best : N) (path : option (list nat))
        : option (N * N * option (list nat)) :=
        match l with
        | [] => Some (shared, best, path)
        | None :: _ => None
        | Some c :: l' =>
            match getMaximum codelength c with
            | None => None
            | Some (sh, sc, p) =>
                if best <=? sc then go l' (S i) (shared + sh) sc (Some (i :: p))
                else go l' (S i) (shared + sh) best path
            end
        end in
      match go ch 0%nat own 0 None with
      | None => None
      | Some (shared, best, path) =>
          let len := N.of_nat (length val) in
          let relevant := if pen + codelength <? len then len - pen - codelength else 0 in
          let shared' := if act then shared else 0 in
          let score := shared' * relevant in
          match (if best <=? score then Some (score, []) else option_map (pair best) path) with
          | Some (m, p) => Some (shared', m, p)
          | None => None
          end
      end
  end.
(* 140-147: getMaximum has visited all children before, so none of the pointers is null *)
Fixpoint penaltizeChildren (len : N) (t : tree) : tree :=
  match t with
  | Node val own pen act ch => Node val own (N.max pen len) act (map (option_map (penaltizeChildren len)) ch)
  end.
(* 150-159 *)
Definition penaltize (t : tree) : tree :=
  match penaltizeChildren (N.of_nat (length (value t))) t with
  | Node val _ pen _ ch => Node val 0 pen false ch
  end.
(* the node at the end of a path, changed; and its value *)
Fixpoint change_nth {A} (f : A -> A) (i : nat) (l : list A) : list A :=
  match l, i with
  | [], _ => []
  | x :: l', O => f x :: l'
  | x :: l', S i' => x :: change_nth f i' l'
  end.
Fixpoint change_at (f : tree -> tree) (path : list nat) (t : tree) : tree :=
  match path with
  | [] => f t
  | i :: path' =>
      match t with
      | Node val own pen act ch => Node val own pen act (change_nth (option_map (change_at f path')) i ch)
      end
  end.
Fixpoint value_at (path : list nat) (t : tree) : list N :=
  match path with
  | [] => value t
  | i :: path' =>
      match t with
      | Node _ _ _ _ ch => match nth i ch None with Some c => value_at path' c | None => [] end
      end
  end.
(* 131-137 *)
Definition getAndDeleteMaximum (codelength : N) (t : tree) : option (N * list N * tree) :=
  match getMaximum codelength t with
  | Some (_, m, path) => Some (m, value_at path t, change_at penaltize path t)
  | None => None
  end.

(* calculatePrefixes, 163-232: insertion of the common prefixes of adjacent words. The words are
   unescaped, except for the first one. *)
Fixpoint insert_words (minLength : nat) (lastWord : list N) (ls : list (list N)) (t : tree) : result tree :=
  match ls with
  | [] => Val t
  | l :: ls' =>
      match unescapeNewlinesAndBackslashes l with
      | Val nextWord =>
          let pref := commonPrefix lastWord nextWord in
          if Nat.leb minLength (length pref) then
            match insert pref t with
            | Some t' => insert_words minLength nextWord ls' t'
            | None => Undefined
            end
          else insert_words minLength nextWord ls' t
      | Check => Check | Runtime => Runtime | Undefined => Undefined | NotHex => NotHex
      end
  end.
Fixpoint choose (num : nat) (codelength : N) (t : tree) : result (list (list N)) :=
  match num with
  | O => Val []
  | S num' =>
      match getAndDeleteMaximum codelength t with
      | None => Undefined
      | Some (_, [], _) => Val []
      | Some (_, p, t') =>
          match choose num' codelength t' with Val ps => Val (p :: ps) | r => r end
      end
  end.
Definition calculatePrefixes (file : list N) (numPrefixes : nat) (codelength : nat) (alwaysAddCode : bool)
  : result (list (list N)) :=
  match lines file with
  | [] => Val []
  | lastWord :: ls =>
      let minPrefixLength := if alwaysAddCode then 1%nat else (codelength + 1)%nat in
      let actualCodeLength := if alwaysAddCode then 0 else N.of_nat codelength in
      match insert_words minPrefixLength lastWord ls empty_tree with
      | Val t => choose numPrefixes actualCodeLength t
      | Check => Check | Runtime => Runtime | Undefined => Undefined | NotHex => NotHex
      end
  end.
