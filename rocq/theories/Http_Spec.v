(* Requests of the form  GET /?name=value&name=value HTTP/1.1  and what they ask for. *)
From Coq Require Import String List NArith Bool.
From Verif Require Import Strings_Spec.
From Verif Require Import Conv_Model(bytes).
Import ListNotations.
Open Scope N_scope.

Notation text := (list N).
Definition upper_of (a b : N) : Prop := a = b /\ ~ (65 <= a <= 90) \/ 65 <= a <= 90 /\ b = a + 32.
(* A parameter: the name in any case, the value in the encoding for URLs. *)
Inductive param_text : text * text -> text -> Prop :=
| pt_param n n' v u : Forall2 upper_of n n' -> ~ In 61 n -> ~ In 38 n -> url_encodes v u -> ~ In 38 u ->
    param_text (n', v) (n ++ 61 :: u).
Inductive params_text : list (text * text) -> text -> Prop :=
| pst_one p t : param_text p t -> params_text [p] t
| pst_more p t ps ts : param_text p t -> params_text ps ts -> params_text (p :: ps) (t ++ 38 :: ts).
Definition part_of (p s : text) : Prop := exists a b, s = a ++ p ++ b.

(* A request line for parameters. Missing in the code: the word HTTP in the parameters. *)
Inductive asks : text -> list (text * text) -> Prop :=
| as_params ps t version : params_text ps t -> NoDup (map fst ps) -> ~ part_of (bytes "HTTP") t ->
    asks (bytes "GET /?" ++ t ++ bytes " HTTP" ++ version) ps.
