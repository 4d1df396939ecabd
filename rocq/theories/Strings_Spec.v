(* Splitting, stripping, encoding and escaping of strings, without reference to the code. *)
From Coq Require Import List NArith ZArith.
Import ListNotations.
Open Scope N_scope.

(* the parts with a joiner between them *)
Fixpoint glue {A} (joiner : list A) (parts : list (list A)) : list A :=
  match parts with
  | [] => []
  | [p] => p
  | p :: parts' => p ++ joiner ++ glue joiner parts'
  end.

(* the maximal non-empty pieces of s without separators, in order *)
Inductive pieces {A} (sep : A -> Prop) : list A -> list (list A) -> Prop :=
| pieces_nil : pieces sep [] []
| pieces_sep c s ts : sep c -> pieces sep s ts -> pieces sep (c :: s) ts
| pieces_last t : t <> [] -> Forall (fun c => ~ sep c) t -> pieces sep t [t]
| pieces_next t c s ts : t <> [] -> Forall (fun c => ~ sep c) t -> sep c -> pieces sep s ts ->
    pieces sep (t ++ c :: s) (t :: ts).

(* space, tab, newline, vertical tab, form feed, carriage return *)
Definition whitespace (c : N) : Prop := In c [32; 9; 10; 11; 12; 13].

(* how many brackets are open before position i; for equal brackets, if one is open *)
Definition count (c : N) (s : list N) : Z := Z.of_nat (count_occ N.eq_dec s c).
Definition open_brackets (left right : N) (s : list N) (i : nat) : Z :=
  if left =? right then (count left (firstn i s) mod 2)%Z
  else (count left (firstn i s) - count right (firstn i s))%Z.
(* every character with the number of brackets open before it *)
Definition with_depth (left right : N) (s : list N) : list (N * Z) :=
  combine s (map (open_brackets left right s) (seq 0 (length s))).

(* t is s without characters of a set at the start and at the end *)
Definition ends_outside (set : N -> Prop) (t : list N) : Prop :=
  t = [] \/ exists c, ~ set c /\ exists t', t = t' ++ [c].
Definition starts_outside (set : N -> Prop) (t : list N) : Prop :=
  t = [] \/ exists c, ~ set c /\ exists t', t = c :: t'.
Definition stripped_left (set : N -> Prop) (s t : list N) : Prop :=
  exists a, s = a ++ t /\ Forall set a /\ starts_outside set t.
Definition stripped_right (set : N -> Prop) (s t : list N) : Prop :=
  exists b, s = t ++ b /\ Forall set b /\ ends_outside set t.
Definition stripped (set : N -> Prop) (s t : list N) : Prop :=
  exists a b, s = a ++ t ++ b /\ Forall set a /\ Forall set b /\
    starts_outside set t /\ ends_outside set t.

(* runs of spaces and tabs replaced by one space *)
Inductive spaces_normalized : list N -> list N -> Prop :=
| sn_nil : spaces_normalized [] []
| sn_char c s t : c <> 32 -> c <> 9 -> spaces_normalized s t -> spaces_normalized (c :: s) (c :: t)
| sn_run r s t : r <> [] -> Forall (fun c => c = 32 \/ c = 9) r ->
    starts_outside (fun c => c = 32 \/ c = 9) s -> spaces_normalized s t ->
    spaces_normalized (r ++ s) (32 :: t).

(* hexadecimal digits *)
Inductive hex : N -> N -> Prop :=
| hex_decimal d : d < 10 -> hex (48 + d) d
| hex_upper d : 10 <= d < 16 -> hex (55 + d) d
| hex_lower d : 10 <= d < 16 -> hex (87 + d) d.
Inductive hex_number : list N -> N -> Prop :=
| hn_nil : hex_number [] 0
| hn_digit h x c d : hex_number h x -> hex c d -> hex_number (h ++ [c]) (16 * x + d).

(* u encodes the bytes s *)
Inductive url_encodes : list N -> list N -> Prop :=
| ue_nil : url_encodes [] []
| ue_char c s u : c <> 37 -> c <> 43 -> url_encodes s u -> url_encodes (c :: s) (c :: u)
| ue_plus s u : url_encodes s u -> url_encodes (32 :: s) (43 :: u)
| ue_byte x y a b s u : hex a x -> hex b y -> url_encodes s u ->
    url_encodes (16 * x + y :: s) (37 :: a :: b :: u).
(* the same for any u; % is kept if no two hexadecimal digits follow it *)
Definition two_digits (u : list N) : Prop :=
  exists a b u' x y, u = a :: b :: u' /\ hex a x /\ hex b y.
Inductive url_decodes : list N -> list N -> Prop :=
| ud_nil : url_decodes [] []
| ud_char c s u : c <> 37 -> c <> 43 -> url_decodes u s -> url_decodes (c :: u) (c :: s)
| ud_plus s u : url_decodes u s -> url_decodes (43 :: u) (32 :: s)
| ud_byte x y a b s u : hex a x -> hex b y -> url_decodes u s ->
    url_decodes (37 :: a :: b :: u) (16 * x + y :: s)
| ud_percent s u : ~ two_digits u -> url_decodes u s -> url_decodes (37 :: u) (37 :: s).

(* position p of s has an occurrence of pat that is not escaped: the number of backslashes
   before it is even *)
Definition unescaped_at (pat s : list N) (p : nat) : Prop :=
  exists a k b, s = a ++ repeat 92 k ++ pat ++ b /\ ends_outside (eq 92) a /\
    Nat.Even k /\ p = (length a + k)%nat.

(* text between brackets *)
Inductive balanced (open close : N) : list N -> Prop :=
| bal_nil : balanced open close []
| bal_char c s : c <> open -> c <> close -> balanced open close s -> balanced open close (c :: s)
| bal_group s t : balanced open close s -> balanced open close t ->
    balanced open close (open :: s ++ close :: t).

(* UTF-8 *)
Inductive utf8_of : N -> list N -> Prop :=
| utf8_1 x : x < 128 -> utf8_of x [x]
| utf8_2 a b : 2 <= a < 32 -> b < 64 -> utf8_of (a * 64 + b) [192 + a; 128 + b]
| utf8_3 a b c : a < 16 -> b < 64 -> c < 64 -> (0 < a \/ 32 <= b) -> ~ (a = 13 /\ 32 <= b) ->
    utf8_of ((a * 64 + b) * 64 + c) [224 + a; 128 + b; 128 + c]
| utf8_4 a b c d : a <= 4 -> b < 64 -> c < 64 -> d < 64 -> (0 < a \/ 16 <= b) -> (a < 4 \/ b < 16) ->
    utf8_of (((a * 64 + b) * 64 + c) * 64 + d) [240 + a; 128 + b; 128 + c; 128 + d].
Definition surrogate (x : N) : Prop := 55296 <= x < 57344.
(* numbers that are not characters: the replacement character, or nothing *)
Definition bytes_of (x : N) (bs : list N) : Prop :=
  utf8_of x bs \/ (surrogate x /\ bs = [239; 191; 189]) \/ (1114112 <= x /\ bs = []).

(* what an escaped text stands for. `esc` are the escapes by one letter; with `numeric`, there are
   numeric escapes, which without `at_end` must not be the last characters. *)
Section Escaped.
  Variable esc : N -> N -> Prop.
  Variables numeric at_end : Prop.
  Inductive escaped : list N -> list N -> Prop :=
  | es_nil : escaped [] []
  | es_char c u s : c <> 92 -> escaped u s -> escaped (c :: u) (c :: s)
  | es_letter c d u s : esc c d -> escaped u s -> escaped (92 :: c :: u) (d :: s)
  | es_u h x bs u s : numeric -> length h = 4%nat -> hex_number h x -> bytes_of x bs ->
      (at_end \/ u <> []) -> escaped u s -> escaped (92 :: 117 :: h ++ u) (bs ++ s)
  | es_U h x bs u s : numeric -> length h = 8%nat -> hex_number h x -> bytes_of x bs ->
      (at_end \/ u <> []) -> escaped u s -> escaped (92 :: 85 :: h ++ u) (bs ++ s).
End Escaped.
(* tab, newline, carriage return, backspace, form feed, both quotes, backslash *)
Definition string_escape (c d : N) : Prop :=
  In (c, d) [(116, 9); (110, 10); (114, 13); (98, 8); (102, 12); (34, 34); (39, 39); (92, 92)].
Definition line_escape (c d : N) : Prop := In (c, d) [(110, 10); (92, 92)].
Definition no_escape (c d : N) : Prop := False.
(* the characters that may be escaped in local names *)
Definition local_escape (c d : N) : Prop :=
  c = d /\ In c [95; 126; 46; 45; 33; 36; 38; 39; 40; 41; 42; 43; 44; 59; 61; 47; 63; 35; 64; 37].
