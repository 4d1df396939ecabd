(* Property paths: their syntax and their meaning. *)
From Coq Require Import List NArith Bool.
Import ListNotations.
Open Scope N_scope.

(* The property paths of SPARQL 1.1 (without negated sets), and `*n` for at most n steps. *)
Inductive ppath :=
| Link (iri : list N)
| Inv (p : ppath)
| Seq (ps : list ppath)
| Alt (ps : list ppath)
| Opt (p : ppath)
| Star (p : ppath)
| Plus (p : ppath)
| UpTo (n : N) (p : ppath).

(* the value of a sequence of digits *)
Definition digit (c : N) : Prop := 48 <= c <= 57.
Definition number (ds : list N) : N := fold_left (fun a d => a * 10 + (d - 48)) ds 0.

(* SPARQL 1.1, rules 88-94, as relations between lists of tokens and paths. What the single links
   look like is a parameter. *)
Section Grammar.
  Variable link : list N -> Prop.
  Inductive path_of : list (list N) -> ppath -> Prop :=
  | path_one ts p : seq_of ts p -> path_of ts p
  | path_alt ts ps : alts_of ts ps -> (2 <= length ps)%nat -> path_of ts (Alt ps)
  with alts_of : list (list N) -> list ppath -> Prop :=
  | alts_one ts p : seq_of ts p -> alts_of ts [p]
  | alts_more ts p us ps : seq_of ts p -> alts_of us ps -> alts_of (ts ++ [124] :: us) (p :: ps)
  with seq_of : list (list N) -> ppath -> Prop :=
  | seq_one ts p : step_of ts p -> seq_of ts p
  | seq_many ts ps : seqs_of ts ps -> (2 <= length ps)%nat -> seq_of ts (Seq ps)
  with seqs_of : list (list N) -> list ppath -> Prop :=
  | seqs_one ts p : step_of ts p -> seqs_of ts [p]
  | seqs_more ts p us ps : step_of ts p -> seqs_of us ps -> seqs_of (ts ++ [47] :: us) (p :: ps)
  with step_of : list (list N) -> ppath -> Prop :=
  | step_elt ts p : elt_of ts p -> step_of ts p
  | step_inv ts p : elt_of ts p -> step_of ([94] :: ts) (Inv p)
  with elt_of : list (list N) -> ppath -> Prop :=
  | elt_primary ts p : primary_of ts p -> elt_of ts p
  | elt_opt ts p : primary_of ts p -> elt_of (ts ++ [[63]]) (Opt p)
  | elt_star ts p : primary_of ts p -> elt_of (ts ++ [[42]]) (Star p)
  | elt_plus ts p : primary_of ts p -> elt_of (ts ++ [[43]]) (Plus p)
  | elt_upto ts p ds : primary_of ts p -> ds <> [] -> Forall digit ds -> number ds < 2 ^ 31 ->
      elt_of (ts ++ [42 :: ds]) (UpTo (number ds) p)
  with primary_of : list (list N) -> ppath -> Prop :=
  | primary_link t : link t -> primary_of [t] (Link t)
  | primary_parens ts p : path_of ts p -> primary_of ([40] :: ts ++ [[41]]) p.
End Grammar.

(* The text of a link: names and IRIs in angle brackets; a delimiter in a name follows a backslash. *)
Definition delim (c : N) : Prop := In c [63; 42; 43; 47; 124; 40; 41; 94].
Definition graphic (c : N) : Prop := 33 <= c <= 126.
Inductive name_part : list N -> Prop :=
| part_char c : graphic c -> ~ delim c -> c <> 60 -> c <> 62 -> c <> 92 -> name_part [c]
| part_escape c : graphic c -> c <> 60 -> c <> 62 -> name_part [92; c]
| part_iri cs : Forall (fun c => graphic c /\ c <> 62) cs -> name_part (60 :: cs ++ [62]).
Definition link_text (t : list N) : Prop :=
  exists parts, parts <> [] /\ Forall name_part parts /\ t = concat parts /\
    forall c t', t = c :: t' -> ~ digit c.

(* Every token `*n` stands in a run of delimiters that begins with a star: `first` is the first
   delimiter of the current run. *)
Fixpoint counts_in_star_runs (first : option N) (ts : list (list N)) : Prop :=
  match ts with
  | [] => True
  | t :: ts' =>
      match t with
      | [] => False
      | c :: ds =>
          (delim c /\ let f := match first with Some f => f | None => c end in
             (ds = [] \/ f = 42) /\ counts_in_star_runs (Some f) ts') \/
          (~ delim c /\ counts_in_star_runs None ts')
      end
  end.

(* The meaning: which nodes of a graph a path connects. A graph is a set of triples of texts. *)
Section Meaning.
  Variable G : list N -> list N -> list N -> Prop.
  Inductive walk (E : list N -> list N -> Prop) : nat -> list N -> list N -> Prop :=
  | walk_nil x : walk E 0 x x
  | walk_cons k x y z : E x y -> walk E k y z -> walk E (S k) x z.
  Fixpoint connects (p : ppath) (x y : list N) {struct p} : Prop :=
    match p with
    | Link iri => G x iri y
    | Inv q => connects q y x
    | Seq ps =>
        (fix chain ps x y := match ps with [] => x = y | q :: qs => exists z, connects q x z /\ chain qs z y end) ps x y
    | Alt ps => (fix any ps := match ps with [] => False | q :: qs => connects q x y \/ any qs end) ps
    | Opt q => x = y \/ connects q x y
    | Star q => exists k, walk (connects q) k x y
    | Plus q => exists k, (1 <= k)%nat /\ walk (connects q) k x y
    | UpTo n q => exists k, N.of_nat k <= n /\ walk (connects q) k x y
    end.

  (* The graph patterns are given by a valuation of the variables. The variables of the path inside
     of a transitive operation are not visible outside. *)
  Inductive pat :=
  | PTriple (s p o : list N)
  | PUnion (a b : list pat)
  | PTrans (left right innerLeft innerRight : list N) (min max : N) (child : list pat).
  Definition is_variable (t : list N) : bool := match t with c :: _ => c =? 63 | [] => false end.
  Definition value_of (mu : list N -> list N) (t : list N) : list N := if is_variable t then mu t else t.
  Fixpoint satisfies (mu : list N -> list N) (p : pat) {struct p} : Prop :=
    match p with
    | PTriple s p o => G (value_of mu s) (value_of mu p) (value_of mu o)
    | PUnion a b =>
        (fix all l := match l with [] => True | q :: qs => satisfies mu q /\ all qs end) a \/
        (fix all l := match l with [] => True | q :: qs => satisfies mu q /\ all qs end) b
    | PTrans l r il ir min max child =>
        exists k, min <= N.of_nat k <= max /\
          walk (fun x y => exists mu', mu' il = x /\ mu' ir = y /\
                  (fix all l := match l with [] => True | q :: qs => satisfies mu' q /\ all qs end) child)
               k (value_of mu l) (value_of mu r)
    end.
  Definition solution (mu : list N -> list N) (ps : list pat) : Prop := Forall (satisfies mu) ps.

  (* all nodes of a graph are in a list *)
  Definition nodes_in (nodes : list (list N)) : Prop := forall x p y, G x p y -> In x nodes /\ In y nodes.
End Meaning.

(* a variable of the query, not one of those that the planner makes up *)
Definition user_term (t : list N) : Prop := forall t', t <> 63 :: 58 :: t'.

(* the path can be the empty one *)
Fixpoint can_be_empty (p : ppath) : bool :=
  match p with
  | Link _ => false
  | Inv q | Plus q => can_be_empty q
  | Seq ps => forallb can_be_empty ps
  | Alt ps => existsb can_be_empty ps
  | Opt _ | Star _ | UpTo _ _ => true
  end.

(* a part of an alternative can be empty only if all can *)
Fixpoint uniform (p : ppath) : Prop :=
  match p with
  | Link _ => True
  | Inv q | Plus q | Opt q | Star q | UpTo _ q => uniform q
  | Seq ps => (fix all l := match l with [] => True | q :: qs => uniform q /\ all qs end) ps
  | Alt ps => (forall q, In q ps -> can_be_empty q = existsb can_be_empty ps) /\
              (fix all l := match l with [] => True | q :: qs => uniform q /\ all qs end) ps
  end.
(* In a sequence a child that cannot be empty follows only children that can, or only children that
   cannot; at most ten children can be empty. *)
Definition one_run (nulls : list bool) : Prop :=
  forall k, nth_error nulls k = Some false ->
    (forall i, (i < k)%nat -> nth_error nulls i = Some false) \/
    (forall i, (i < k)%nat -> nth_error nulls i = Some true).
Fixpoint sequences_ok (p : ppath) : Prop :=
  match p with
  | Link t => is_variable t = false
  | Inv q | Plus q | Opt q | Star q | UpTo _ q => sequences_ok q
  | Seq ps => one_run (map can_be_empty ps) /\ (length (filter (fun b => b) (map can_be_empty ps)) <= 10)%nat /\
              (2 <= length ps)%nat /\
              (fix all l := match l with [] => True | q :: qs => sequences_ok q /\ all qs end) ps
  | Alt ps => (2 <= length ps)%nat /\
              (fix all l := match l with [] => True | q :: qs => sequences_ok q /\ all qs end) ps
  end.
