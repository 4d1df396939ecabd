(* The runtime information of operations: engine/RuntimeInformation.h and engine/Operation.h 162-192
   (createRuntimeInformation), engine/Operation.cpp 91-114. Times are integers (milliseconds, Timer.h:95), the code keeps
   them as doubles; the text form (writeToStream) is left out. *)
From Coq Require Import ZArith String Bool List.
From Verif Require Import Table_Spec Ops_Model Info_Spec.
Import ListNotations.
Local Open Scope Z_scope.

(* RuntimeInformation.h:159-166; the details are numbers here *)
Inductive info := Info (time : Z) (rows cols : nat) (wasCached : bool) (descriptor : string) (columnNames : list string)
  (details : list (string * Z)) (children : list info).
Definition i_time (i : info) : Z := match i with Info t _ _ _ _ _ _ _ => t end.
Definition i_rows (i : info) : nat := match i with Info _ r _ _ _ _ _ _ => r end.
Definition i_cols (i : info) : nat := match i with Info _ _ c _ _ _ _ _ => c end.
Definition i_cached (i : info) : bool := match i with Info _ _ _ b _ _ _ _ => b end.
Definition i_descriptor (i : info) : string := match i with Info _ _ _ _ d _ _ _ => d end.
Definition i_names (i : info) : list string := match i with Info _ _ _ _ _ n _ _ => n end.
Definition i_details (i : info) : list (string * Z) := match i with Info _ _ _ _ _ _ x _ => x end.
Definition i_children (i : info) : list info := match i with Info _ _ _ _ _ _ _ c => c end.

(* RuntimeInformation.h:27-35 *)
Definition empty_info : info := Info 0 0 0 false "" [] [] [].
(* RuntimeInformation.h:137 addChild, for several children *)
Definition add_children (i : info) (l : list info) : info :=
  match i with Info t r c b d n x ch => Info t r c b d n x (ch ++ l) end.
(* RuntimeInformation.h:145-148; the json object keeps one value per key, in the order of the keys (the order is left
   out) *)
Fixpoint set_detail (x : list (string * Z)) (k : string) (v : Z) : list (string * Z) :=
  match x with
  | [] => [(k, v)]
  | (k', v') :: x' => if String.eqb k' k then (k, v) :: x' else (k', v') :: set_detail x' k v
  end.
Definition addDetail (i : info) (k : string) (v : Z) : info :=
  match i with Info t r c b d n x ch => Info t r c b d n (set_detail x k v) ch end.
Definition add_details (i : info) (l : list (string * Z)) : info := fold_left (fun i p => addDetail i (fst p) (snd p)) l i.
Definition detail (i : info) (k : string) : option Z :=
  option_map snd (find (fun p => String.eqb (fst p) k) (i_details i)).

(* RuntimeInformation.h:92-98: the names are written to a vector with as many entries as there are variables. None: a
   write outside of it. The map is a list in its iteration order. *)
Fixpoint write_names (names : list string) (m : var_map) : option (list string) :=
  match m with
  | [] => Some names
  | (v, c) :: m' => match list_set names c v with Some names' => write_names names' m' | None => None end
  end.
Definition setColumnNames (m : var_map) : option (list string) := write_names (repeat "" (length m))%string m.

(* RuntimeInformation.h:118-133 *)
Definition getChildrenTime (i : info) : Z := sum (map i_time (i_children i)).
Definition getOperationTime (i : info) : Z := if i_cached i then i_time i else i_time i - getChildrenTime i.

(* What an operation knows about its result: getVariableColumns, getResultWidth, getDescriptor *)
Record static := Static { st_vars : var_map; st_width : nat; st_descriptor : string }.
(* Operation.h:165-192; v: the information in the cache value. None: UB *)
Definition createRuntimeInformation (o : static) (v : info) (rows : nat) (wasCached : bool) (time : Z) : option info :=
  match setColumnNames (st_vars o) with
  | Some names =>
      let i := Info time rows (st_width o) wasCached (st_descriptor o) names [] (i_children v) in
      Some (addDetail (addDetail i "original_total_time" (i_time v)) "original_operation_time" (getOperationTime v))
  | None => None
  end.

(* A call of getResult (Operation.cpp:61-144): either the result is computed, where computeResult adds the information of
   the subtrees that it used, and details (Join.cpp:76, 98, CountAvailablePredicates.cpp:336-344), to the stored one (which goes to the cache with the result, 106), or it comes from the cache
   or from another thread (with the information v). `call o stored e` = the new stored information and the one in the
   cache. *)
Inductive event :=
| Computed (added : list info) (details : list (string * Z)) (rows : nat) (time : Z)
| Taken (v : info) (rows : nat) (wasCached : bool) (time : Z).
Definition call (o : static) (stored : info) (e : event) : option (info * info) :=
  match e with
  | Computed added details rows time =>
      let v := add_details (add_children stored added) details in
      option_map (fun i => (i, v)) (createRuntimeInformation o v rows false time)
  | Taken v rows wasCached time =>
      option_map (fun i => (i, v)) (createRuntimeInformation o v rows wasCached time)
  end.

(* RuntimeInformation.h:169-181: the times in the answer of the server *)
Fixpoint shown_times (i : info) : times :=
  match i with
  | Info t _ _ b _ _ _ ch => Times t (getOperationTime i) b (map shown_times ch)
  end.
