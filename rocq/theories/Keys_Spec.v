(* Cache keys: which texts may occur in an operation, and which information a key leaves out. *)
From Coq Require Import Ascii String List NArith Bool.
From Verif Require Import Conv_Model Keys_Model.
Import ListNotations.
Open Scope N_scope.

Definition free_of (c : N) (t : text) : Prop := ~ In c t.

Definition begins_with (p t : text) : Prop := exists r, t = p ++ r.

(* A word of a VALUES clause: an IRI in angle brackets, a literal in quotes with a suffix, or
   anything else without spaces and parentheses. *)
Definition token_ok (t : text) : Prop :=
  (exists body, t = [60] ++ body ++ [62] /\ free_of 62 body) \/
  (exists body suffix, t = [34] ++ body ++ [34] ++ suffix /\ free_of 34 body /\
                       free_of 32 suffix /\ free_of 41 suffix) \/
  (free_of 32 t /\ free_of 41 t /\ ~ begins_with [60] t /\ ~ begins_with [34] t).

Definition digit_free (t : text) : Prop := Forall (fun c => isdigit c = false) t.

Definition bind_var_ok (t : tree) (target v : text) : Prop :=
  starts_with_question v = true /\ v <> target /\ lookup (tree_vars t) v <> None.

(* The free texts of an operation do not imitate the punctuation of the keys, and all variables
   are known (otherwise asString throws). *)
Fixpoint texts_ok (o : op) : Prop :=
  match o with
  | Scan PSO_BOUND_S s p _ => free_of 34 p /\ free_of 10 s
  | Scan POS_BOUND_O _ p ob => free_of 34 p /\ free_of 10 ob
  | Scan SOP_BOUND_O s _ ob => free_of 34 s /\ free_of 10 ob
  | Scan PSO_FREE_S _ p _ | Scan POS_FREE_O _ p _ => free_of 34 p
  | Scan SPO_FREE_P s _ _ | Scan SOP_FREE_O s _ _ => free_of 34 s
  | Scan OPS_FREE_P _ _ ob | Scan OSP_FREE_S _ _ ob => free_of 10 ob
  | Scan _ _ _ _ => True
  | Join l r _ _ | MultiJoin l r _ | TwoJoin l r _ _ _ _ | Optional l r _ _ _ | Minus l r _
  | Union l r _ => tree_ok l /\ tree_ok r
  | Sort t _ | OrderBy t _ | Distinct t _ | HasPredSub t _ | CountSub t _ => tree_ok t
  | Filter t lhs ty rhs _ _ add =>
    tree_ok t /\ free_of 32 lhs /\ free_of 10 rhs /\
    ~ begins_with (bytes "ignoring case ") rhs /\ ~ begins_with (bytes "LHS_AS_STR ") rhs /\
    match ty with
    | PREFIX => free_of 124 rhs /\
                Forall (fun vp => free_of 32 (fst vp) /\ free_of 124 (snd vp) /\ free_of 10 (snd vp)) add
    | _ => add = []
    end
  | GroupBy t group aliases =>
    tree_ok t /\
    Forall (fun v => lookup (tree_vars t) v <> None) group /\
    Forall (fun a => lookup (tree_vars t) (al_in a) <> None /\ digit_free (al_delimiter a)) aliases
  | Path t _ _ _ _ _ _ _ lt rt => tree_ok t /\ side_ok lt /\ side_ok rt
  | HasPredS ob => free_of 10 ob
  | HasPredO s => free_of 10 s /\ ~ begins_with [32] s /\ ~ begins_with [123] s
  | CountEntity e => free_of 10 e /\ e <> bytes "all entities"
  | HasPredAll | CountAll => True
  | Text w _ _ => free_of 34 w
  | TextFilter w _ _ t _ => free_of 34 w /\ tree_ok t
  | Bind t e target =>
    tree_ok t /\
    match e with
    | Rename v => bind_var_ok t target v
    | ConstInt _ => True
    | ConstKb w => free_of 10 w /\ starts_with_question w = false /\
                   match w with c :: _ => isdigit c = false | [] => True end
    | Binary v1 v2 o => bind_var_ok t target v1 /\ bind_var_ok t target v2 /\ free_of 10 o /\
                        starts_with_question o = false
    end
  | Values variables rows =>
    variables <> [] /\ Forall (fun v => free_of 32 v /\ free_of 41 v) variables /\
    Forall (fun r => length r = length variables /\ Forall token_ok r) rows
  end
with tree_ok (t : tree) : Prop := match t with Tree o _ _ => texts_ok o end
with side_ok (s : side) : Prop := match s with NoSide => True | Side t _ => tree_ok t end.

(* What computeResult reads but the key does not show, in the shape of the operation. *)
Inductive hid := Hid (own : list (list (option N))) (kids : list hid).

(* An OrderBy with the key of a Sort. *)
Definition single_ascending (l : list (N * bool)) : bool :=
  match l with [(_, false)] => true | _ => false end.

Definition flag (b : bool) : option N := Some (if b then 1 else 0).

Fixpoint hidden (o : op) : hid :=
  match o with
  | Scan _ _ _ _ | HasPredS _ | HasPredO _ | HasPredAll | CountEntity _ | CountAll | Text _ _ _
  | Values _ _ => Hid [] []
  | Join l r _ _ | MultiJoin l r _ | TwoJoin l r _ _ _ _ => Hid [] [hidden_tree l; hidden_tree r]
  | Sort t _ | CountSub t _ | TextFilter _ _ _ t _ | Bind t _ _ =>
    Hid [] [hidden_tree t]
  (* that it is not a Sort, which leaves ties in another order *)
  | OrderBy t l => Hid (if single_ascending l then [[]] else []) [hidden_tree t]
  (* which side is optional *)
  | Optional l r lo ro _ => Hid [[flag lo; flag ro]] [hidden_tree l; hidden_tree r]
  (* the matched columns *)
  | Minus l r m => Hid [map (fun x => Some (fst x)) m; map (fun x => Some (snd x)) m]
                       [hidden_tree l; hidden_tree r]
  (* the columns that make two rows equal *)
  | Distinct t keep => Hid [map Some keep] [hidden_tree t]
  (* the columns of the variables *)
  | Filter t lhs _ rhs _ _ add =>
    Hid [[lookup (tree_vars t) lhs; if starts_with_question rhs then lookup (tree_vars t) rhs else None];
         map (fun vp => lookup (tree_vars t) (fst vp)) add] [hidden_tree t]
  (* the input columns of the group-by variables, DISTINCT in the aggregates *)
  | GroupBy t group aliases =>
    Hid [map (fun v => Some (lookup_at (tree_vars t) v)) group; map (fun a => flag (al_distinct a)) aliases]
        [hidden_tree t]
  (* the columns of the result *)
  | Union l r os => Hid [map fst os; map snd os] [hidden_tree l; hidden_tree r]
  (* the join columns of the sides and the width *)
  | Path t _ _ _ _ _ _ w lt rt => Hid [[Some w]] [hidden_tree t; hidden_side lt; hidden_side rt]
  (* the column of the subjects *)
  | HasPredSub t c => Hid [[Some c]] [hidden_tree t]
  end
with hidden_tree (t : tree) : hid := match t with Tree o _ _ => hidden o end
with hidden_side (s : side) : hid :=
  match s with NoSide => Hid [] [] | Side t c => Hid [[Some c]] [hidden_tree t] end.

(* Operations all of whose parts are of the kinds whose key shows everything. *)
Fixpoint complete (o : op) : Prop :=
  match o with
  | Scan _ _ _ _ | HasPredS _ | HasPredO _ | HasPredAll | CountEntity _ | CountAll | Text _ _ _
  | Values _ _ => True
  | Join l r _ _ | MultiJoin l r _ | TwoJoin l r _ _ _ _ => complete_tree l /\ complete_tree r
  | OrderBy t l => complete_tree t /\ single_ascending l = false
  | Sort t _ | CountSub t _ | TextFilter _ _ _ t _ | Bind t _ _ => complete_tree t
  | _ => False
  end
with complete_tree (t : tree) : Prop := match t with Tree o _ _ => complete o end.

(* The operations below an operation, itself included. *)
Fixpoint parts (o : op) : list op :=
  o :: match o with
       | Join l r _ _ | MultiJoin l r _ | TwoJoin l r _ _ _ _ | Optional l r _ _ _ | Minus l r _
       | Union l r _ => parts_tree l ++ parts_tree r
       | Sort t _ | OrderBy t _ | Distinct t _ | Filter t _ _ _ _ _ _ | GroupBy t _ _
       | HasPredSub t _ | CountSub t _ | TextFilter _ _ _ t _ | Bind t _ _ => parts_tree t
       | Path t _ _ _ _ _ _ _ lt rt => parts_tree t ++ parts_side lt ++ parts_side rt
       | _ => []
       end
with parts_tree (t : tree) : list op := match t with Tree o _ _ => parts o end
with parts_side (s : side) : list op := match s with NoSide => [] | Side t _ => parts_tree t end.

(* A history of the cache: requests and evictions of arbitrary entries. *)
Inductive event := Request (o : op) | Evict (k : text).
Fixpoint evict {R} (c : cache R) (k : text) : cache R :=
  match c with
  | [] => []
  | (k', v) :: c' => if text_eqb k' k then evict c' k else (k', v) :: evict c' k
  end.
Fixpoint answers {R} (A : algebra R) (c : cache R) (es : list event) : list R :=
  match es with
  | [] => []
  | Request o :: es' => let (v, c') := getResult A c o in v :: answers A c' es'
  | Evict k :: es' => answers A (evict c k) es'
  end.
Fixpoint requested (es : list event) : list op :=
  match es with
  | [] => []
  | Request o :: es' => o :: requested es'
  | Evict _ :: es' => requested es'
  end.
