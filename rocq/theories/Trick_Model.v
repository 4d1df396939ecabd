(* Model of the pattern trick: checkUsePatternTrick (engine/QueryPlanner.cpp:437-682), getPatternTrickRow (886-967),
   getHavingRow (970-990) and their use in createExecutionTree (37-74).

   The functions of CountAvailablePredicates are those of C18. Filters are comparisons of a variable with a constant (one
   variable in gf_vars) or with a variable (two); _additionalLhs is left out. Sorting the subjects is a function `sort`.
   The stack of graph patterns (549-655) is replaced by recursion. The strings of a BIND are its variables.
   Not modelled: ORDER BY, DISTINCT, transitive paths. *)
From Coq Require Import String List NArith Arith Bool.
From Verif Require Import Table_Spec HasPred_Spec.
From Verif Require HasPred_Model Strings_Model Conv_Model.
From Verif Require Import Plan_Spec Plan_Model Group_Spec Group_Model Trick_Spec.
Import ListNotations.
Local Open Scope nat_scope.

(* Constants.h:46 *)
Definition HAS_PREDICATE : string := "<QLever-internal-function/has-predicate>".
(* ParsedQuery.h Alias *)
Record alias := Al { al_aggregate : bool; al_function : list N; al_in : string; al_out : string }.
Record aquery := AQ { q_group : list string; q_aliases : list alias; q_select : list string; q_having : list gfilter;
                      q_where : group }.

(* 458-467 *)
Definition counting (a : alias) : bool :=
  let f := map Strings_Model.tolower (al_function a) in
  al_aggregate a && match Strings_Model.find_str (Conv_Model.bytes "distinct") f with None => true | Some _ => false end &&
  Strings_Model.startsWith f (Conv_Model.bytes "count").

Definition in_triple (v : string) (t : pattern) : bool :=
  match t with (s, p, o) => String.eqb s v || String.eqb p v || String.eqb o v end.
(* 591-655 *)
Fixpoint mentions_element (v : string) (e : element) : bool :=
  match e with
  | Triples ts => existsb (in_triple v) ts
  | Group g | Optional g | Minus g => mentions_group v g
  | Union g1 g2 => mentions_group v g1 || mentions_group v g2
  | Subquery (Q select _ _ _ _) => memb v select
  | Inline vs _ => memb v vs
  | Bind t args _ => memb v (t :: args)
  end
with mentions_elements (v : string) (es : elements) : bool :=
  match es with Nil => false | Cons e es' => mentions_element v e || mentions_elements v es' end
with mentions_group (v : string) (g : group) : bool :=
  match g with G es _ => mentions_elements v es end.
(* 509-525 and 547-590: the other parts of the query itself; MINUS and VALUES are not looked at *)
Definition root_mentions (v : string) (e : element) : bool :=
  match e with Minus _ | Inline _ _ => false | _ => mentions_element v e end.
Fixpoint any_root_mentions (v : string) (es : elements) : bool :=
  match es with Nil => false | Cons e es' => root_mentions v e || any_root_mentions v es' end.

(* 535: `filter._lhs == t._o && filter._rhs[0] != '?'` *)
Definition static_on (o : string) (f : gfilter) : bool := match gf_vars f with [v] => String.eqb v o | _ => false end.
(* 482-658: the triple t can be used; es are the parts of the query without t *)
Definition usable (q : aquery) (fs : list gfilter) (t : pattern) (es : elements) : bool :=
  match t with
  | (s, p, o) =>
      String.eqb p HAS_PREDICATE &&
      match q_aliases q with a :: _ => String.eqb (al_in a) o || String.eqb (al_in a) s | [] => true end &&
      match q_group q with v :: _ => String.eqb v o | [] => false end &&
      forallb (fun v => String.eqb v o || match q_aliases q with a :: _ => String.eqb v (al_out a) | [] => String.eqb v "" end)
        (q_select q) &&
      negb (any_root_mentions o es) &&
      forallb (fun f => static_on o f || negb (memb o (gf_vars f) || memb s (gf_vars f))) fs
  end.

Fixpoint removals (ts : list pattern) : list (pattern * list pattern) :=
  match ts with
  | [] => []
  | t :: ts' => (t, ts') :: map (fun p => (fst p, t :: snd p)) (removals ts')
  end.
(* 478-485: the triples of the query in their order, each with what remains without it *)
Fixpoint splits (es : elements) : list (pattern * elements) :=
  match es with
  | Nil => []
  | Cons e es' =>
      match e with
      | Triples ts => map (fun p => (fst p, Cons (Triples (snd p)) es')) (removals ts)
      | _ => []
      end ++ map (fun p => (fst p, Cons e (snd p))) (splits es')
  end.
(* 437-682: the triple and the changed query *)
Definition checkUsePatternTrick (q : aquery) : option (pattern * aquery) :=
  match q_where q with
  | G es fs =>
      if negb (Nat.eqb (length (q_group q)) 1) || (1 <? length (q_aliases q)) then None
      else if negb (forallb counting (q_aliases q)) then None
      else match find (fun p => usable q fs (fst p) (snd p)) (splits es) with
           | None => None
           | Some (t, es') =>
               let moved := filter (static_on (snd t)) fs in
               Some (t, AQ (q_group q) (q_aliases q) (q_select q) (q_having q ++ moved)
                           (G es' (filter (fun f => negb (static_on (snd t) f)) fs)))
           end
  end.

Section Run.
Variable U : list string.
Variable triple_solutions : pattern -> list mapping.
Variable sat : gfilter -> list (option N) -> bool.
Variable refuses : list cand -> bool.
Variable voc : string -> option N.
Variable ix : pattern_index.
Variable order : HasPred_Model.map_order.
Variable sort : table -> table.

Definition subject_row (s : string) (m : mapping) : row := [match get U m s with Some x => x | None => UNBOUND end].
Definition lift (r : option table) : result table := match r with Some t => Val t | None => Undef end.
(* 886-967; None: the query has no other parts. 931, 944: _aliases[0] of an empty vector is undefined *)
Definition getPatternTrickRow (q : aquery) (t : pattern) (previous : option cand) : result table :=
  match t with
  | (s, _, _) =>
      match previous with
      | Some c =>
          if memb s (c_vars c)
          then match q_aliases q with
               | [] => Undef
               | _ => lift (HasPred_Model.pattern_trick ix order 0 (sort (map (subject_row s) (c_rows c))))
               end
          else Throw
      | None =>
          if is_var s then lift (HasPred_Model.pattern_trick_all ix order)
          else match q_aliases q with
               | [] => Undef
               | _ => match voc s with Some e => lift (HasPred_Model.pattern_trick_one ix order e) | None => Val [] end
               end
      end
  end.
(* 970-990: every filter is applied to the result without filters *)
Definition having_row (q : aquery) (t : pattern) (tab : table) : result table :=
  match t with
  | (_, _, o) =>
      let value r v := if String.eqb v o then Some (col 0 r)
                       else match q_aliases q with a :: _ => if String.eqb v (al_out a) then Some (col 1 r) else None | [] => None end in
      match rev (q_having q) with
      | [] => Val tab
      | f :: _ => Val (filter (fun r => sat f (map (value r) (gf_vars f))) tab)
      end
  end.
(* 37-74; None: the pattern trick is not used *)
Definition trick (q : aquery) : option (result table) :=
  match checkUsePatternTrick q with
  | None => None
  | Some (t, q') =>
      Some (bind (optimize U triple_solutions sat refuses (q_where q')) (fun previous =>
            bind (getPatternTrickRow q' t previous) (having_row q' t)))
  end.
End Run.
