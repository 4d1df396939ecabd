(* Files with one record per line, without reference to the code. *)
From Coq Require Import List NArith.
From Verif Require Docs_Spec.
Import ListNotations.
Open Scope N_scope.

Notation text := (list N).
Notation triple := (text * text * text)%type.

(* every line of a file ends with a newline; the last newline may be missing *)
Definition file_of (lines : list text) (last_newline : bool) : text :=
  match last_newline with
  | true => concat (map (fun l => l ++ [10]) lines)
  | false => removelast (concat (map (fun l => l ++ [10]) lines))
  end.

(* ---- N-Triples ---- *)
Definition is_blank (c : N) : Prop := c = 32 \/ c = 9.
Definition blanks (w : text) : Prop := w <> [] /\ Forall is_blank w.
Definition no_blank (t : text) : Prop := Forall (fun c => ~ is_blank c) t.
Inductive iri : text -> Prop :=
| iri_ u : no_blank u -> ~ In 62 u -> iri ([60] ++ u ++ [62]).
Inductive label : text -> Prop :=
| label_ u : no_blank u -> label ([95; 58] ++ u).
(* the text between the quotes: quotes and backslashes are escaped *)
Inductive string_body : text -> Prop :=
| sb_nil : string_body []
| sb_char c u : c <> 34 -> c <> 92 -> string_body u -> string_body (c :: u)
| sb_escape c u : string_body u -> string_body (92 :: c :: u).
(* with `quotes`, quotes may be escaped. The language or datatype has no blanks. *)
Inductive literal (quotes : Prop) : text -> Prop :=
| literal_ u suffix : string_body u -> (In 34 u -> quotes) -> no_blank suffix ->
    literal quotes ([34] ++ u ++ [34] ++ suffix).
Definition subject (t : text) : Prop := iri t \/ label t.
Definition object (quotes : Prop) (t : text) : Prop := iri t \/ label t \/ literal quotes t.
(* a line; after the object there is a blank and anything, usually a dot *)
Inductive nt (quotes : Prop) : text -> triple -> Prop :=
| nt_ w0 s w1 p w2 o c rest : Forall is_blank w0 -> subject s -> blanks w1 -> iri p -> blanks w2 -> object quotes o ->
    is_blank c -> ~ In 10 (w0 ++ s ++ w1 ++ p ++ w2 ++ o ++ [c] ++ rest) ->
    nt quotes (w0 ++ s ++ w1 ++ p ++ w2 ++ o ++ [c] ++ rest) (s, p, o).

(* ---- tab-separated values ---- *)
Definition field (t : text) : Prop := ~ In 9 t /\ ~ In 10 t.
(* three fields and a tab after the third; with `two_tabs` the third is the last one *)
Inductive tsv (two_tabs : Prop) : text -> triple -> Prop :=
| tsv_three a b c rest : field a -> field b -> field c -> ~ In 10 rest ->
    tsv two_tabs (a ++ [9] ++ b ++ [9] ++ c ++ [9] ++ rest) (a, b, c)
| tsv_two a b c : two_tabs -> field a -> field b -> field c ->
    tsv two_tabs (a ++ [9] ++ b ++ [9] ++ c) (a, b, c).

(* ---- the context file: word, 0 or 1, context id, score ---- *)
Definition digits (ds : text) : Prop := ds <> [] /\ Forall (fun c => 48 <= c <= 57) ds.
Inductive context : text -> text * bool * N * N -> Prop :=
| context_ w (e : bool) cs ss : field w -> digits cs -> digits ss ->
    Docs_Spec.value cs < 2 ^ 63 -> Docs_Spec.value ss < 2 ^ 16 ->
    context (w ++ [9] ++ [if e then 49 else 48] ++ [9] ++ cs ++ [9] ++ ss)
      (w, e, Docs_Spec.value cs, Docs_Spec.value ss).
