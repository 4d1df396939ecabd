(* Model of util/Conversions.h: value literals and index words. Strings are lists of bytes. *)
From Coq Require Import Ascii String.
From Coq Require Import List NArith ZArith Arith Bool.
From Verif Require Import Std_Model Strings_Model.
Import ListNotations.
Open Scope N_scope.

(* constants as texts *)
Fixpoint bytes (s : string) : list N :=
  match s with
  | EmptyString => []
  | String a s' => N_of_ascii a :: bytes s'
  end.

(* global/Constants.h:57-72 *)
Definition VALUE_DATE_PREFIX : list N := bytes ":v:date:".
Definition VALUE_FLOAT_PREFIX : list N := bytes ":v:float:".
Definition XSD_DATETIME_SUFFIX : list N := bytes "^^<http://www.w3.org/2001/XMLSchema#dateTime>".
Definition XSD_INT_SUFFIX : list N := bytes "^^<http://www.w3.org/2001/XMLSchema#int>".
Definition XSD_FLOAT_SUFFIX : list N := bytes "^^<http://www.w3.org/2001/XMLSchema#float>".
Definition XSD_DOUBLE_SUFFIX : list N := bytes "^^<http://www.w3.org/2001/XMLSchema#double>".
Definition XSD_DECIMAL_SUFFIX : list N := bytes "^^<http://www.w3.org/2001/XMLSchema#decimal>".
Definition exponent_digits : nat := 20.
Definition mantissa_digits : nat := 30.
Definition year_digits : nat := 19.
(* 45-50 *)
Inductive numeric_type := INTEGER | FLOAT | DOUBLE | DECIMAL.
Definition type_char (t : numeric_type) : N := match t with INTEGER => 73 | FLOAT => 70 | DOUBLE => 68 | DECIMAL => 84 end.

(* An exception of the standard library or AD_CHECK, or undefined behaviour *)
Inductive outcome A := Ok (a : A) | Throws | Undef.
Arguments Ok {A} a.
Arguments Throws {A}.
Arguments Undef {A}.
Definition bind {A B} (r : outcome A) (f : A -> outcome B) : outcome B :=
  match r with Ok a => f a | Throws => Throws | Undef => Undef end.

(* a digit, and atoi of a text of one character *)
Definition isdigit (c : N) : bool := (48 <=? c) && (c <=? 57).
Definition digit (c : N) : N := if isdigit c then c - 48 else 0.
(* 582-588 *)
Definition getBase10ComplementOfIntegerString (s : list N) : list N := map (fun c => 48 + (9 - digit c)) s.
(* output of a number *)
Fixpoint decimal_loop (fuel : nat) (n : N) : list N :=
  match fuel with
  | O => []
  | S fuel' => if n <? 10 then [48 + n] else decimal_loop fuel' (n / 10) ++ [48 + n mod 10]
  end.
Definition decimal (n : N) : list N := decimal_loop (N.size_nat n + 1) n.
(* atoi of digits, as an unbounded number *)
Fixpoint atoi_loop (acc : N) (s : list N) : N :=
  match s with
  | c :: s' => if isdigit c then atoi_loop (acc * 10 + (c - 48)) s' else acc
  | [] => acc
  end.
Definition atoi (s : list N) : N := atoi_loop 0 s.
Definition replicate (n : nat) (c : N) : list N := repeat c n.

(* 206-210 *)
Definition strip_plus (s : list N) : list N := match s with c :: s' => if c =? 43 then s' else s | [] => [] end.
(* 232-245: value has no sign; posOfDot fits into an int *)
Definition exponent_of (value : list N) (posOfDot : nat) : Z :=
  if Nat.leb posOfDot 1 && (at_ value 0 =? 48) then
    let zeros := length (take_while (N.eqb 48) (skipn 2 value)) in
    if Nat.eqb (2 + zeros) (length value) then (-1)%Z else (-1 - Z.of_nat zeros)%Z
  else (Z.of_nat posOfDot - 1)%Z.
Definition neqb (a b : bool) : bool := negb (Bool.eqb a b).
(* 216-302; value has a dot at posOfDot *)
Definition float_index_word (value : list N) (posOfDot : nat) (t : numeric_type) : outcome (list N) :=
  if list_eq_dec N.eq_dec value (bytes "0.0") then Ok (VALUE_FLOAT_PREFIX ++ bytes "N0" ++ [type_char t])
  else if list_eq_dec N.eq_dec value (bytes "-0.0") then Ok (VALUE_FLOAT_PREFIX ++ bytes "N0" ++ [type_char t])
  else
    let negaMantissa := at_ value 0 =? 45 in
    let value := if negaMantissa then skipn 1 value else value in
    let posOfDot := if negaMantissa then (posOfDot - 1)%nat else posOfDot in
    let exponent := exponent_of value posOfDot in
    let negaExpo := (exponent <? 0)%Z in
    let sign := if negaMantissa then (if negaExpo then 45 else 43) else (if negaExpo then 77 else 80) in
    let expo := decimal (Z.abs_N exponent) in
    let expoString := if neqb negaMantissa negaExpo then getBase10ComplementOfIntegerString expo else expo in
    if Nat.ltb (length expoString) exponent_digits then
      let padding := replicate (exponent_digits - length expoString) (if Bool.eqb negaExpo negaMantissa then 48 else 57) in
      let kept := filter (fun c => negb (c =? 46)) value in
      let mant := if negaMantissa then getBase10ComplementOfIntegerString kept else kept in
      Ok (VALUE_FLOAT_PREFIX ++ [if negaMantissa then 77 else 80; sign] ++ padding ++ expoString ++ [69] ++
          firstn mantissa_digits mant ++ replicate (mantissa_digits - length mant) (if negaMantissa then 57 else 48) ++ [type_char t])
    else Throws.
(* 201-215: the call of itself is made at most once *)
Definition convertFloatStringToIndexWord (orig : list N) (t : numeric_type) : outcome (list N) :=
  let value := strip_plus orig in
  match find_char (N.eqb 46) value with
  | Some posOfDot => float_index_word value posOfDot t
  | None =>
      let value := strip_plus (value ++ bytes ".0") in
      match find_char (N.eqb 46) value with
      | Some posOfDot => float_index_word value posOfDot t
      | None => Undef
      end
  end.

(* 309-332 and 397-420: sign of the number, sign of the exponent, exponent without sign and mantissa;
   None for N0. Without the parts that the (debug) assertions ask for the model is undefined. *)
Definition number_parts (indexWord : list N) : outcome (option (bool * bool * N * list N)) :=
  if Nat.leb (length indexWord) (length VALUE_FLOAT_PREFIX + 1) then Throws
  else
    let number := substr indexWord (length VALUE_FLOAT_PREFIX) (length indexWord - length VALUE_FLOAT_PREFIX - 1) in
    if list_eq_dec N.eq_dec number (bytes "N0") then Ok None
    else
      let negaMantissa := at_ number 0 =? 77 in
      let negaExponent := (at_ number 1 =? 77) || (at_ number 1 =? 45) in
      match find_char (N.eqb 69) number with
      | None => Undef
      | Some posOfE =>
          if Nat.ltb posOfE 2 then Undef
          else
            let e := substr number 2 (posOfE - 2) in
            let exponentString := if Bool.eqb negaMantissa negaExponent then e else getBase10ComplementOfIntegerString e in
            let absExponent := atoi exponentString in
            let m := skipn (posOfE + 1) number in
            let mantissa := if negaMantissa then getBase10ComplementOfIntegerString m else m in
            if absExponent <? 2 ^ 31 then Ok (Some (negaMantissa, negaExponent, absExponent, mantissa)) else Undef
      end.
(* 364-379: os, the zeros that are not yet written, tenToThe *)
Fixpoint digits_loop (mantissa : list N) (os zeros : list N) (tenToThe absExponent : N) : list N :=
  match mantissa with
  | [] => os
  | c :: m =>
      let '(os, zeros) := if c =? 48 then (os, zeros ++ [48]) else (os ++ zeros ++ [c], []) in
      if tenToThe =? absExponent then digits_loop m (os ++ zeros ++ [46]) [] (tenToThe + 1) absExponent
      else digits_loop m os zeros (tenToThe + 1) absExponent
  end.
(* 306-392 *)
Definition convertIndexWordToFloatString (indexWord : list N) : outcome (list N) :=
  bind (number_parts indexWord) (fun p =>
    match p with
    | None => Ok (bytes "0.0")
    | Some (negaMantissa, negaExponent, absExponent, mantissa) =>
        let sign := if negaMantissa : bool then [45] else [] in
        let rest := drop_while (N.eqb 48) mantissa in
        if negaExponent : bool then
          if absExponent =? 0 then Undef
          else Ok (sign ++ bytes "0." ++ replicate (N.to_nat absExponent - 1) 48 ++ rstrip rest (N.eqb 48))
        else
          let os := digits_loop rest sign [] 0 absExponent in
          match rev os with
          | [] => Undef
          | c :: _ =>
              let os := if c =? 46 then os ++ [48] else os in
              Ok (os ++ replicate (N.to_nat absExponent - length mantissa) 48)
          end
    end).
(* 395-443. The result is the sign, the mantissa and the power of ten; their product, which is
   computed with std::pow and rounded to float, is not modelled. log10 is std::log10 rounded down. *)
Definition convertIndexWordToFloat (log10 : N -> N) (indexWord : list N) : outcome (bool * N * Z) :=
  bind (number_parts indexWord) (fun p =>
    match p with
    | None => Ok (false, 0, 0%Z)
    | Some (negaMantissa, negaExponent, absExponent, mantissa) =>
        let m := rstrip (drop_while (N.eqb 48) mantissa) (N.eqb 48) in
        match m with
        | [] => Throws
        | _ =>
            let absMantissa := atoi m in
            if absMantissa <? 2 ^ 63 then
              let mantissaLog := log10 absMantissa in
              Ok (negaMantissa, absMantissa,
                  ((if negaExponent : bool then - Z.of_N absExponent else Z.of_N absExponent) - Z.of_N mantissaLog)%Z)
            else Throws
        end
    end).

(* std::string::find of one character *)
Definition find (c : N) (s : list N) (from : nat) : option nat := find_from (N.eqb c) s from.
(* a - b as a length; a negative one is as good as npos *)
Definition len_minus (s : list N) (a b : nat) : nat := if Nat.ltb a b then length s else (a - b)%nat.
(* 463-501: hour, minute, second *)
Definition time_of (value : list N) (posOfT : option nat) : list N * list N * list N :=
  match posOfT with
  | None => ([48; 48], [48; 48], [48; 48])
  | Some posOfT =>
      let posOfFirstCol :=
        if Nat.ltb (posOfT + 3) (length value) && negb (at_ value (posOfT + 3) =? 45) && negb (at_ value (posOfT + 3) =? 43)
        then find 58 value 0 else None in
      let posOfSecondCol :=
        match posOfFirstCol with
        | Some c => if Nat.ltb (c + 3) (length value) && negb (at_ value (c + 3) =? 45) && negb (at_ value (c + 3) =? 43)
                    then find 58 value (c + 1) else None
        | None => None
        end in
      match posOfFirstCol, posOfSecondCol with
      | Some c1, Some c2 => (substr value (posOfT + 1) (len_minus value c1 (posOfT + 1)), substr value (c1 + 1) (c2 - (c1 + 1)), substr value (c2 + 1) 2)
      | Some c1, None => (substr value (posOfT + 1) (len_minus value c1 (posOfT + 1)), substr value (c1 + 1) 2, [48; 48])
      | None, _ => (substr value (posOfT + 1) 2, [48; 48], [48; 48])
      end
  end.
(* 502-532: year, month, day *)
Definition day_of (value : list N) (posOfT : option nat) : list N * list N * list N :=
  match posOfT with
  | Some O => ([48; 48; 48; 48], [48; 48], [48; 48])
  | _ =>
      let end_ := match posOfT with Some t => t | None => length value end in
      match find 45 value 1 with
      | None => (value, [48; 48], [48; 48])
      | Some h1 =>
          match find 45 value (h1 + 1) with
          | None => (substr value 0 h1, substr value (h1 + 1) (len_minus value end_ (h1 + 1)), [48; 48])
          | Some h2 => (substr value 0 h1, substr value (h1 + 1) (h2 - (h1 + 1)), substr value (h2 + 1) (len_minus value end_ (h2 + 1)))
          end
      end
  end.
(* 446-549. append with a negative number of characters throws. *)
Definition normalizeDate (orig : list N) : outcome (list N) :=
  let value := match find 90 orig 0 with Some z => firstn z orig | None => orig end in
  let posOfT := find 84 value 0 in
  let '(hour, minute, second) := time_of value posOfT in
  let '(year, month, day) := day_of value posOfT in
  if Nat.ltb year_digits (length year) then Throws
  else
    let padded := if at_ year 0 =? 45
                  then [45] ++ replicate (year_digits - length year) 57 ++ getBase10ComplementOfIntegerString (skipn 1 year)
                  else replicate (year_digits - length year) 48 ++ year in
    Ok (VALUE_DATE_PREFIX ++ padded ++ [45] ++ month ++ [45] ++ day ++ [84] ++ hour ++ [58] ++ minute ++ [58] ++ second).
(* 552-564: norm starts with the prefix *)
Definition convertDateToIndexWord (value : list N) : outcome (list N) :=
  bind (normalizeDate value) (fun norm =>
    if at_ norm 0 =? 45 then Ok ([45] ++ getBase10ComplementOfIntegerString (substr norm 1 (year_digits - 1)) ++ skipn year_digits norm)
    else Ok norm).
(* 567-579: substr throws if the word is too short *)
Definition convertIndexWordToDate (indexWord : list N) : outcome (list N) :=
  let p := length VALUE_DATE_PREFIX in
  if at_ indexWord p =? 45 then
    if Nat.ltb (length indexWord) (p + year_digits) then Throws
    else Ok ([45] ++ getBase10ComplementOfIntegerString (substr indexWord (p + 1) (year_digits - 1)) ++ skipn (p + year_digits) indexWord)
  else if Nat.ltb (length indexWord) p then Throws else Ok (skipn p indexWord).
(* 591-603 *)
Definition removeLeadingZeros (s : list N) : list N := drop_while (N.eqb 48) s.

(* 102-157. 34 is the quotation mark. The first character is one (assertion). *)
Definition rfind (c : N) (s : list N) : option nat := option_map (fun i => (length s - 1 - i)%nat) (find_char (N.eqb c) (rev s)).
Definition literal_type (orig : list N) : outcome (list N) :=
  if at_ orig (length orig - 1) =? 62 then
    match rfind 35 orig with
    | Some h => Ok (substr orig (h + 1) (length orig - (h + 2)))
    | None => Ok (removelast orig)
    end
  else match rfind 58 orig with
       | Some c => Ok (skipn (c + 1) orig)
       | None => Throws
       end.
Definition is (s : list N) (t : string) : bool := if list_eq_dec N.eq_dec s (bytes t) then true else false.
Definition convertValueLiteralToIndexWord (orig : list N) : outcome (list N) :=
  match orig, rfind 34 orig with
  | 34 :: _, Some q =>
      let value := substr orig 1 (q - 1) in
      bind (literal_type orig) (fun type =>
        if is type "dateTime" || is type "gYear" || is type "gYearMonth" || is type "date" then convertDateToIndexWord value
        else if is type "int" || is type "integer" then convertFloatStringToIndexWord (value ++ bytes ".0") INTEGER
        else if is type "float" then convertFloatStringToIndexWord value FLOAT
        else if is type "double" then convertFloatStringToIndexWord value DOUBLE
        else if is type "decimal" then convertFloatStringToIndexWord value DECIMAL
        else Ok orig)
  | _, _ => Undef
  end.
(* 160-198 *)
Definition quoted (s : list N) : list N := [34] ++ s ++ [34].
Definition before_dot (s : list N) : list N := take_while (fun c => negb (c =? 46)) s.
Definition convertIndexWordToValueLiteral (indexWord : list N) : outcome (list N) :=
  if startsWith indexWord VALUE_DATE_PREFIX then
    bind (convertIndexWordToDate indexWord) (fun d =>
      let date := removeLeadingZeros d in
      let date := if Nat.eqb (length date) 0 || startsWith date [84] then [48] ++ date else date in
      Ok (quoted date ++ XSD_DATETIME_SUFFIX))
  else if startsWith indexWord VALUE_FLOAT_PREFIX then
    let back := at_ indexWord (length indexWord - 1) in
    if back =? 70 then bind (convertIndexWordToFloatString indexWord) (fun f => Ok (quoted f ++ XSD_FLOAT_SUFFIX))
    else if back =? 68 then bind (convertIndexWordToFloatString indexWord) (fun f => Ok (quoted f ++ XSD_DOUBLE_SUFFIX))
    else if back =? 84 then bind (convertIndexWordToFloatString indexWord) (fun f => Ok (quoted f ++ XSD_DECIMAL_SUFFIX))
    else if back =? 73 then bind (convertIndexWordToFloatString indexWord) (fun f => Ok (quoted (before_dot f) ++ XSD_INT_SUFFIX))
    else Ok indexWord
  else Ok indexWord.

(* 606-613 *)
Definition isXsdValue (val : list N) : bool :=
  match rfind 34 val with
  | Some q => (at_ val 0 =? 34) && Nat.ltb 0 q && match find_str_from [94; 94] val q with Some _ => true | None => false end
  | None => (at_ val 0 =? 34) && false
  end.
(* 616-630 *)
Definition all_digits (s : list N) : bool := forallb isdigit s.
Definition isNumeric (val : list N) : bool :=
  match val with
  | [] => false
  | c :: _ =>
      let start := if (c =? 45) || (c =? 43) then 1%nat else 0%nat in
      match find_from (fun c => negb (isdigit c)) val start with
      | None => true
      | Some p => if at_ val p =? 46 then Nat.ltb (p + 1) (length val) && all_digits (skipn (p + 1) val) else false
      end
  end.
(* 633-641 *)
Definition convertNumericToIndexWord (val : list N) : outcome (list N) :=
  match find_char (N.eqb 46) val with
  | None => convertFloatStringToIndexWord (val ++ bytes ".0") INTEGER
  | Some _ => convertFloatStringToIndexWord val FLOAT
  end.
