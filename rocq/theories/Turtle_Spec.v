(* Turtle documents: which triples a text stands for, after the Turtle grammar (W3C), without
   reference to the code. Left out of the grammar are the constructs that the code does not know or
   gets wrong: collections, base IRIs, the SPARQL form of PREFIX, the empty prefix, decimal numbers and doubles,
   and blank node property lists as subjects (see the refutations in Turtle_Thm.v). *)
From Coq Require Import Ascii String List NArith Arith Bool.
From Verif Require Import Strings_Spec.
From Verif Require Conv_Model.
Import ListNotations.
Open Scope N_scope.
Open Scope list_scope.

Notation text := (list N).
Notation triple := (text * text * text)%type.

Definition is_blank (c : N) : Prop := In c [32; 9; 13; 10].
(* what may be between two tokens: white space with at most one comment *)
Inductive gap : text -> Prop :=
| gap_blanks a : Forall is_blank a -> gap a
| gap_comment a c b : Forall is_blank a -> ~ In 10 c -> Forall is_blank b -> gap (a ++ [35] ++ c ++ [10] ++ b).

(* ---- names ---- *)
Definition range (a b x : N) : Prop := a <= x <= b.
Definition is_digit (x : N) : Prop := range 48 57 x.
Definition is_letter (x : N) : Prop := range 65 90 x \/ range 97 122 x.
Definition is_hex (x : N) : Prop := is_digit x \/ range 65 70 x \/ range 97 102 x.
Definition name_base (x : N) : Prop :=
  is_letter x \/ range 0xC0 0xD6 x \/ range 0xD8 0xF6 x \/ range 0xF8 0x2FF x \/ range 0x370 0x37D x \/
  range 0x37F 0x1FFF x \/ range 0x200C 0x200D x \/ range 0x2070 0x218F x \/ range 0x2C00 0x2FEF x \/
  range 0x3001 0xD7FF x \/ range 0xF900 0xFDCF x \/ range 0xFDF0 0xFFFD x \/ range 0x10000 0xEFFFF x.
Definition name_start (x : N) : Prop := name_base x \/ x = 95.
Definition name_char (x : N) : Prop :=
  name_start x \/ x = 45 \/ is_digit x \/ x = 0xB7 \/ range 0x300 0x36F x \/ range 0x203F 0x2040 x.
(* the bytes of one character *)
Definition encoded (p : N -> Prop) (u : text) : Prop := exists x, p x /\ utf8_of x u.

(* Prefixes; two dots in a row are not covered. *)
Inductive prefix_rest : text -> Prop :=
| pr_nil : prefix_rest []
| pr_char u r : encoded name_char u -> prefix_rest r -> prefix_rest (u ++ r)
| pr_dot u r : encoded name_char u -> prefix_rest r -> prefix_rest (46 :: u ++ r).
Definition prefix_name (p : text) : Prop :=
  exists u r, encoded name_base u /\ prefix_rest r /\ p = u ++ r.

Definition plx_text (u : text) : Prop :=
  (exists a b, is_hex a /\ is_hex b /\ u = [37; a; b]) \/ (exists c, local_escape c c /\ u = [92; c]).

Inductive lang_rest : text -> Prop :=
| lr_nil : lang_rest []
| lr_more w r : w <> [] -> Forall (fun c => is_letter c \/ is_digit c) w -> lang_rest r -> lang_rest (45 :: w ++ r).
Definition language (l : text) : Prop :=
  exists w r, w <> [] /\ Forall is_letter w /\ lang_rest r /\ l = w ++ r.

(* the text between < and > *)
Definition iri_forbidden : list N := [60; 62; 34; 123; 125; 124; 94; 96; 92].
Inductive iri_body : text -> Prop :=
| ib_nil : iri_body []
| ib_char u r : encoded (fun x => 32 < x /\ ~ In x iri_forbidden) u -> iri_body r -> iri_body (u ++ r)
| ib_u h r : length h = 4%nat -> Forall is_hex h -> iri_body r -> iri_body (92 :: 117 :: h ++ r)
| ib_U h r : length h = 8%nat -> Forall is_hex h -> iri_body r -> iri_body (92 :: 85 :: h ++ r).

(* the text between quotes, short and long *)
Inductive short_body (q : N) : text -> Prop :=
| sb_nil : short_body q []
| sb_char c u : c <> q -> c <> 92 -> short_body q u -> short_body q (c :: u)
| sb_escape c u : short_body q u -> short_body q (92 :: c :: u).
Inductive long_body (q : N) : text -> Prop :=
| lb_nil : long_body q []
| lb_char k c u : (k <= 2)%nat -> c <> q -> c <> 92 -> long_body q u -> long_body q (repeat q k ++ c :: u)
| lb_escape k c u : (k <= 2)%nat -> long_body q u -> long_body q (repeat q k ++ 92 :: c :: u).
Inductive quoted : text -> text -> Prop :=
| q_short q u s : In q [34; 39] -> short_body q u -> escaped string_escape True False u s -> quoted ([q] ++ u ++ [q]) s
| q_long q u s : In q [34; 39] -> long_body q u -> escaped string_escape True False u s ->
    quoted (repeat q 3 ++ u ++ repeat q 3) s.

Definition number_text (t : text) : Prop :=
  exists sg ds, (sg = [] \/ sg = [43] \/ sg = [45]) /\ ds <> [] /\ Forall is_digit ds /\ t = sg ++ ds.

Definition w_true : text := Conv_Model.bytes "true"%string.
Definition w_false : text := Conv_Model.bytes "false"%string.
Definition w_prefix : text := Conv_Model.bytes "@prefix"%string.
Definition w_PREFIX : text := Conv_Model.bytes "PREFIX"%string.
Definition w_BASE : text := Conv_Model.bytes "BASE"%string.
Definition w_type : text := Conv_Model.bytes "<http://www.w3.org/1999/02/22-rdf-syntax-ns#type>"%string.
(* names of the nodes without a label *)
Definition node (n : N) : text := Conv_Model.bytes "QLever-Anon-Node:"%string ++ Conv_Model.decimal n.

Definition begins (w t : text) : Prop := exists r, t = w ++ r.
(* An object that the code takes for something else: a name that begins like a boolean or like the
   exponent of a number. *)
Definition looks_like_exponent (t : text) : Prop :=
  exists e sg d r, (e = 101 \/ e = 69) /\ (sg = [] \/ sg = [43] \/ sg = [45]) /\ is_digit d /\ t = [e] ++ sg ++ [d] ++ r.

Definition prefix_map := text -> option text.
Definition no_prefixes : prefix_map := fun _ => None.
Definition declare (p v : text) (m : prefix_map) : prefix_map :=
  fun q => if list_eq_dec N.eq_dec q p then Some v else m q.

Section Grammar.
  (* Names may contain dots; prefixes may be declared again with another meaning. *)
  Variables dotted redeclared : Prop.

  Inductive local_rest : text -> Prop :=
  | lo_nil : local_rest []
  | lo_more k u r : (k = 0%nat \/ dotted) -> encoded (fun x => name_char x \/ x = 58) u \/ plx_text u ->
      local_rest r -> local_rest (repeat 46 k ++ u ++ r).
  Definition local_name (l : text) : Prop :=
    exists u r, (encoded (fun x => name_start x \/ x = 58 \/ is_digit x) u \/ plx_text u) /\ local_rest r /\ l = u ++ r.
  Inductive label_rest : text -> Prop :=
  | la_nil : label_rest []
  | la_more k u r : (k = 0%nat \/ dotted) -> encoded name_char u -> label_rest r ->
      label_rest (repeat 46 k ++ u ++ r).
  Definition label (t : text) : Prop :=
    exists u r, encoded (fun x => name_start x \/ is_digit x) u /\ label_rest r /\ t = [95; 58] ++ u ++ r.

  (* The text of a term, its value, and whether the text ends by itself: a dot may follow at once. *)
  Inductive iri_text (m : prefix_map) : text -> text -> bool -> Prop :=
  | i_full u s : iri_body u -> escaped no_escape True False u s ->
      iri_text m ([60] ++ u ++ [62]) ([60] ++ s ++ [62]) true
  | i_name p v l s : prefix_name p -> m p = Some v -> (l = [] \/ local_name l) ->
      escaped local_escape False False l s ->
      iri_text m (p ++ [58] ++ l) ([60] ++ v ++ s ++ [62]) false.
  Inductive term_text (m : prefix_map) : text -> text -> bool -> Prop :=
  | t_iri t v c : iri_text m t v c -> ~ begins w_true t -> ~ begins w_false t -> ~ looks_like_exponent t ->
      term_text m t v c
  | t_string t s : quoted t s -> term_text m t ([34] ++ s ++ [34]) true
  | t_language t s l : quoted t s -> language l ->
      term_text m (t ++ [64] ++ l) ([34] ++ s ++ [34] ++ [64] ++ l) false
  | t_typed t s i v c : quoted t s -> iri_text m i v c ->
      term_text m (t ++ [94; 94] ++ i) ([34] ++ s ++ [34] ++ [94; 94] ++ v) c
  | t_number t : number_text t -> term_text m t t false
  | t_true : term_text m w_true w_true true
  | t_false : term_text m w_false w_false true
  | t_label t : label t -> term_text m t t false.

  Inductive verb_text (m : prefix_map) : text -> text -> bool -> Prop :=
  | v_a : verb_text m [97] w_type false
  (* a name that begins with the letter a is taken for the keyword *)
  | v_iri t v c : iri_text m t v c -> ~ begins [97] t -> verb_text m t v c.

  (* n counts the nodes without a label. Objects of a subject s and a predicate p, with their
     triples in the order of the text. *)
  Inductive object_text (m : prefix_map) : text -> text -> N -> text -> bool -> N -> list triple -> Prop :=
  | o_term s p n t v c : term_text m t v c -> object_text m s p n t c n [(s, p, v)]
  | o_anon s p n w : Forall is_blank w -> object_text m s p n ([91] ++ w ++ [93]) true (n + 1) [(s, p, node n)]
  | o_nested s p n g1 t c n' ts g2 : gap g1 -> list_text m (node n) (n + 1) t c n' ts -> gap g2 ->
      object_text m s p n ([91] ++ g1 ++ t ++ g2 ++ [93]) true n' ((s, p, node n) :: ts)
  with objects_text (m : prefix_map) : text -> text -> N -> text -> bool -> N -> list triple -> Prop :=
  | os_last s p n t c n' ts : object_text m s p n t c n' ts -> objects_text m s p n t c n' ts
  | os_more s p n t1 c1 n1 ts1 g1 g2 t2 c2 n2 ts2 : object_text m s p n t1 c1 n1 ts1 -> gap g1 -> gap g2 ->
      objects_text m s p n1 t2 c2 n2 ts2 ->
      objects_text m s p n (t1 ++ g1 ++ [44] ++ g2 ++ t2) c2 n2 (ts1 ++ ts2)
  with item_text (m : prefix_map) : text -> N -> text -> bool -> N -> list triple -> Prop :=
  | it s n v p vc g t c n' ts : verb_text m v p vc -> gap g -> (g <> [] \/ vc = true) ->
      objects_text m s p n t c n' ts -> item_text m s n (v ++ g ++ t) c n' ts
  with tail_text (m : prefix_map) : text -> bool -> N -> text -> bool -> N -> list triple -> Prop :=
  | ta_nil s c n : tail_text m s c n [] c n []
  | ta_semi s c n g t c' n' ts : gap g -> tail_text m s true n t c' n' ts ->
      tail_text m s c n (g ++ [59] ++ t) c' n' ts
  | ta_item s c n g1 g2 t1 c1 n1 ts1 t2 c2 n2 ts2 : gap g1 -> gap g2 -> item_text m s n t1 c1 n1 ts1 ->
      tail_text m s c1 n1 t2 c2 n2 ts2 ->
      tail_text m s c n (g1 ++ [59] ++ g2 ++ t1 ++ t2) c2 n2 (ts1 ++ ts2)
  with list_text (m : prefix_map) : text -> N -> text -> bool -> N -> list triple -> Prop :=
  | l_item s n t1 c1 n1 ts1 t2 c2 n2 ts2 : item_text m s n t1 c1 n1 ts1 -> tail_text m s c1 n1 t2 c2 n2 ts2 ->
      list_text m s n (t1 ++ t2) c2 n2 (ts1 ++ ts2).

  Inductive subject_text (m : prefix_map) : N -> text -> text -> bool -> N -> Prop :=
  (* a name that begins with PREFIX or BASE is taken for a directive *)
  | su_iri n t v c : iri_text m t v c -> ~ begins w_PREFIX t -> ~ begins w_BASE t -> subject_text m n t v c n
  | su_label n t : label t -> subject_text m n t t false n
  | su_anon n w : Forall is_blank w -> subject_text m n ([91] ++ w ++ [93]) (node n) true (n + 1).

  (* a statement: the text, the prefixes and the number of nodes afterwards, and its triples *)
  Inductive statement_text : prefix_map -> N -> text -> prefix_map -> N -> list triple -> Prop :=
  | st_prefix m n g0 g1 p g2 u s g3 : gap g0 -> gap g1 -> prefix_name p -> gap g2 -> iri_body u ->
      escaped no_escape True False u s -> gap g3 -> (m p = None \/ m p = Some s \/ redeclared) ->
      statement_text m n (g0 ++ w_prefix ++ g1 ++ p ++ [58] ++ g2 ++ [60] ++ u ++ [62] ++ g3 ++ [46])
        (declare p s m) n []
  | st_triples m n g0 sb v sc n1 g1 t c n2 ts g2 : gap g0 -> subject_text m n sb v sc n1 -> gap g1 ->
      (g1 <> [] \/ sc = true) -> list_text m v n1 t c n2 ts -> gap g2 -> (g2 <> [] \/ c = true) ->
      statement_text m n (g0 ++ sb ++ g1 ++ t ++ g2 ++ [46]) m n2 ts.

  Inductive document : prefix_map -> N -> list text -> list triple -> Prop :=
  | d_nil m n : document m n [] []
  | d_cons m n t m' n' ts l ts' : statement_text m n t m' n' ts -> document m' n' l ts' ->
      document m n (t :: l) (ts ++ ts').
End Grammar.

(* the document with its statements in l, and its triples *)
Definition means (dotted redeclared : Prop) (txt : text) (ts : list triple) : Prop :=
  exists l g, document dotted redeclared no_prefixes 0 l ts /\ gap g /\ txt = concat l ++ g.
