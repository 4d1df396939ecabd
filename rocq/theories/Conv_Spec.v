(* Numbers and dates as literals write them. *)
From Coq Require Import List NArith ZArith.
From Verif Require Import Table_Spec.
Import ListNotations.
Open Scope N_scope.

(* digits, as numbers below ten, and their characters *)
Definition digits (l : list N) : Prop := Forall (fun d => d < 10) l.
Definition chars (l : list N) : list N := map (N.add 48) l.
Fixpoint number_of (l : list N) : N :=
  match l with
  | [] => 0
  | d :: l' => d * 10 ^ N.of_nat (length l') + number_of l'
  end.

(* ---- decimal numbers: sign, digits before and after the point ---- *)
Record number := Number { negative : bool; whole : list N; fraction : list N }.
Definition sign_chars (n : number) : list N := if negative n then [45] else [].
Definition text (n : number) : list N := sign_chars n ++ chars (whole n) ++ [46] ++ chars (fraction n).
(* without a point *)
Definition integer_text (n : number) : list N := sign_chars n ++ chars (whole n).
Definition all_digits (n : number) : list N := whole n ++ fraction n.
Definition magnitude (n : number) : N := number_of (all_digits n).
Definition scaled (n : number) : Z := if negative n then (- Z.of_N (magnitude n))%Z else Z.of_N (magnitude n).
(* the value is scaled n / 10 ^ length (fraction n) *)
Definition compare_values (a b : number) : comparison :=
  (scaled a * 10 ^ Z.of_nat (length (fraction b)) ?= scaled b * 10 ^ Z.of_nat (length (fraction a)))%Z.
(* No superfluous zeros before the number, something on both sides of the point, zero is written 0.0
   (and the position of the point fits into an int). *)
Record canonical (n : number) : Prop :=
  { can_whole : digits (whole n);
    can_fraction : digits (fraction n);
    can_first : whole n = [0] \/ exists d l, whole n = d :: l /\ d <> 0;
    can_point : fraction n <> [];
    can_zero : magnitude n = 0 -> whole n = [0] /\ fraction n = [0];
    can_int : N.of_nat (length (all_digits n)) < 2 ^ 31 }.
(* nothing but zeros after the first 30 digits *)
Definition short (n : number) : Prop := Forall (fun d => d = 0) (skipn 30 (all_digits n)).
(* the same number without superfluous zeros after it *)
Fixpoint no_zeros_after (l : list N) : list N :=
  match l with
  | [] => []
  | d :: l' => match no_zeros_after l' with [] => if d =? 0 then [] else [d] | r => d :: r end
  end.
Definition shortest (n : number) : number :=
  Number (negative n) (whole n) (match no_zeros_after (fraction n) with [] => [0] | r => r end).

(* ---- dates ---- *)
Inductive clock := NoTime | Hour (h : list N) | Minute (h m : list N) | Second (h m s : list N) (fraction : list N).
Inductive zone := NoZone | Zulu | Offset (plus : bool) (h m : list N).
Record date := Date { before_christ : bool; year : list N; month_day : option (list N * option (list N)); time : clock; tz : zone }.
Definition clock_text (c : clock) : list N :=
  match c with
  | NoTime => []
  | Hour h => [84] ++ chars h
  | Minute h m => [84] ++ chars h ++ [58] ++ chars m
  | Second h m s f => [84] ++ chars h ++ [58] ++ chars m ++ [58] ++ chars s ++ match f with [] => [] | _ => [46] ++ chars f end
  end.
Definition zone_text (z : zone) : list N :=
  match z with
  | NoZone => []
  | Zulu => [90]
  | Offset p h m => [if p then 43 else 45] ++ chars h ++ [58] ++ chars m
  end.
Definition month_text (md : option (list N * option (list N))) : list N :=
  match md with
  | None => []
  | Some (m, None) => [45] ++ chars m
  | Some (m, Some d) => [45] ++ chars m ++ [45] ++ chars d
  end.
Definition date_text (d : date) : list N :=
  (if before_christ d then [45] else []) ++ chars (year d) ++ month_text (month_day d) ++ clock_text (time d) ++ zone_text (tz d).
Definition two (l : list N) : Prop := digits l /\ length l = 2%nat.
Definition clock_ok (c : clock) : Prop :=
  match c with
  | NoTime => True
  | Hour h => two h
  | Minute h m => two h /\ two m
  | Second h m s f => two h /\ two m /\ two s /\ digits f
  end.
(* a year of at most 19 characters; a time only after a day, an offset only after a time *)
Record date_ok (d : date) : Prop :=
  { d_year : digits (year d) /\ year d <> [];
    d_short : (length (year d) + (if before_christ d then 1 else 0) <= 19)%nat;
    d_zero : before_christ d = true -> number_of (year d) <> 0;
    d_month : match month_day d with None => True | Some (m, None) => two m | Some (m, Some x) => two m /\ two x end;
    d_time : clock_ok (time d);
    d_day : time d <> NoTime -> exists m x, month_day d = Some (m, Some x);
    d_zone : match tz d with Offset _ h m => two h /\ two m /\ time d <> NoTime | _ => True end }.
(* year, month, day, hour, minute, second; what is not given is zero *)
Definition components (d : date) : Z * list N :=
  ((if before_christ d then - Z.of_N (number_of (year d)) else Z.of_N (number_of (year d)))%Z,
   map number_of
     (match month_day d with None => [[]; []] | Some (m, None) => [m; []] | Some (m, Some x) => [m; x] end ++
      match time d with NoTime => [[]; []; []] | Hour h => [h; []; []] | Minute h m => [h; m; []] | Second h m s _ => [h; m; s] end)).
Definition compare_dates (a b : date) : comparison :=
  match (fst (components a) ?= fst (components b))%Z with
  | Eq => lex_cmp (snd (components a)) (snd (components b))
  | c => c
  end.
