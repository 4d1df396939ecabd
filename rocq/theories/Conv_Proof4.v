(* Dates: what the normalisation makes of them, the order of the words, reading them back. *)
From Coq Require Import Ascii String.
From Coq Require Import List NArith ZArith Arith Bool Lia ZifyN ZifyNat ZifyBool.
From Verif Require Import Table_Spec Lex_Proof Std_Model Std_Proof Strings_Model Strings_Proof Strings_Proof4 Collate_Model Conv_Model Conv_Spec Conv_Proof Conv_Proof2 Conv_Proof3.
Import ListNotations.
Open Scope N_scope.

(* two digits for month, day, hour, minute and second *)
Definition day_digits (d : date) : list (list N) :=
  match month_day d with None => [[0; 0]; [0; 0]] | Some (m, None) => [m; [0; 0]] | Some (m, Some x) => [m; x] end.
Definition time_digits (d : date) : list (list N) :=
  match time d with NoTime => [[0; 0]; [0; 0]; [0; 0]] | Hour h => [h; [0; 0]; [0; 0]] | Minute h m => [h; m; [0; 0]] | Second h m s _ => [h; m; s] end.
Fixpoint joined (seps : list N) (cs : list (list N)) : list N :=
  match seps, cs with
  | s :: seps', c :: cs' => s :: chars c ++ joined seps' cs'
  | _, _ => []
  end.
Definition padl (w : nat) (l : list N) : list N := repeat 0 (w - length l) ++ l.
Definition year_key (d : date) : list N :=
  if before_christ d then 45 :: chars (nines (padl 18 (year d))) else chars (padl 19 (year d)).
Definition date_word (d : date) : list N :=
  VALUE_DATE_PREFIX ++ year_key d ++ joined [45; 45; 84; 58; 58] (day_digits d ++ time_digits d).

(* ---- searching ---- *)
Lemma find_here c a b : find c (a ++ b) (length a) = option_map (Nat.add (length a)) (find_char (N.eqb c) b).
Proof. unfold find, find_from. now rewrite skipn_len. Qed.
Lemma find_0 c s : find c s 0 = find_char (N.eqb c) s.
Proof. unfold find, find_from. cbn [skipn]. destruct (find_char (N.eqb c) s); reflexivity. Qed.
Lemma find_char_skip p a b : Forall (fun x => p x = false) a -> find_char p (a ++ b) = option_map (Nat.add (length a)) (find_char p b).
Proof. induction 1 as [|x a E F IH]; [cbn; destruct (find_char p b); reflexivity|]. cbn [app find_char]. rewrite E, IH. destruct (find_char p b); reflexivity. Qed.
Lemma chars_free l c : digits l -> c < 48 \/ 57 < c -> Forall (fun x => (c =? x) = false) (chars l).
Proof. intros D C. unfold chars. apply Forall_map. revert D. apply Forall_impl. intros a L. lia. Qed.
Definition free (c : N) (l : list N) : Prop := Forall (fun x => (c =? x) = false) l.
Lemma free_app c a b : free c a -> free c b -> free c (a ++ b).
Proof. intros. apply Forall_app. now split. Qed.
Lemma free_cons c x l : c <> x -> free c l -> free c (x :: l).
Proof. intros. constructor; [lia|assumption]. Qed.
Lemma free_nil c : free c []. Proof. constructor. Qed.
Lemma free_chars c l : digits l -> c < 48 \/ 57 < c -> free c (chars l).
Proof. apply chars_free. Qed.
Lemma substr_at a b n : substr (a ++ b) (length a) n = firstn n b.
Proof. unfold substr. now rewrite skipn_len. Qed.
Lemma at_shift a b i : at_ (a ++ b) (length a + i) = at_ b i.
Proof. unfold at_. rewrite app_nth2 by lia. f_equal. lia. Qed.

Definition year_text (d : date) : list N := (if before_christ d then [45] else []) ++ chars (year d).
Lemma two_chars l : two l -> exists a b, l = [a; b] /\ a < 10 /\ b < 10.
Proof. intros [D L]. destruct l as [|a [|b [|]]]; try discriminate. inversion D as [|? ? A D']; subst. inversion D'; subst. eauto. Qed.
(* what may follow a time in a text without Z *)
Definition offset_text (z : zone) : list N := match z with Offset p h m => [if p then 43 else 45] ++ chars h ++ [58] ++ chars m | _ => [] end.
Definition zone_ok (z : zone) : Prop := match z with Offset _ h m => two h /\ two m | _ => True end.
Lemma time_ok hd c z : free 58 hd -> clock_ok c -> c <> NoTime -> zone_ok z ->
  time_of (hd ++ clock_text c ++ offset_text z) (Some (length hd)) =
  match c with NoTime => ([], [], []) | Hour h => (chars h, [48; 48], [48; 48]) | Minute h m => (chars h, chars m, [48; 48]) | Second h m s _ => (chars h, chars m, chars s) end.
Proof.
  intros F C NT Z. unfold time_of.
  assert (G : forall a b, length a = b -> (Nat.ltb b (length (a ++ offset_text z)) && negb (at_ (a ++ offset_text z) b =? 45) && negb (at_ (a ++ offset_text z) b =? 43)) = false).
  { intros a b <-. destruct z as [| |p h m]; cbn [offset_text]; rewrite ?app_nil_r.
    - rewrite Nat.ltb_irrefl. reflexivity.
    - rewrite Nat.ltb_irrefl. reflexivity.
    - cbn [app]. rewrite at_app. destruct p; cbn [N.eqb Pos.eqb negb]; now rewrite ?andb_false_r. }
  destruct c as [|h|h m|h m s f]; [contradiction| | |]; cbn [clock_text clock_ok] in *.
  - pose proof C as C0. apply two_chars in C as (a & b & -> & A & B). rewrite app_assoc, G by (rewrite app_length; cbn; lia). rewrite <- app_assoc.
    replace (length hd + 1)%nat with (length (hd ++ [84])) by (rewrite app_length; reflexivity).
    replace (hd ++ ([84] ++ chars [a; b]) ++ offset_text z) with ((hd ++ [84]) ++ chars [a; b] ++ offset_text z) by now rewrite <- !app_assoc. rewrite substr_at. reflexivity.
  - destruct C as [H M]. pose proof (proj1 H) as DH. pose proof (proj1 M) as DM. apply two_chars in H as (a & b & -> & A & B). apply two_chars in M as (a' & b' & -> & A' & B').
    set (V := hd ++ ([84] ++ chars [a; b] ++ [58] ++ chars [a'; b']) ++ offset_text z).
    set (p := (hd ++ [84] ++ chars [a; b])). assert (LP : length p = (length hd + 3)%nat) by (unfold p; rewrite app_length; reflexivity).
    assert (VP : V = p ++ 58 :: chars [a'; b'] ++ offset_text z) by (unfold V, p; rewrite <- !app_assoc; reflexivity).
    assert (FC : find 58 V 0 = Some (length p)).
    { rewrite find_0, VP. apply find_char_app; [|reflexivity]. unfold p. repeat apply free_app; auto; [apply free_cons; [lia|constructor]|apply free_chars; [assumption|lia]]. }
    rewrite <- LP. assert (L1 : Nat.ltb (length p) (length V) = true) by (apply Nat.ltb_lt; rewrite VP, app_length; cbn [length]; lia).
    rewrite L1. assert (AT : at_ V (length p) = 58) by (rewrite VP; apply at_app). rewrite AT. cbn [N.eqb Pos.eqb negb andb]. rewrite FC.
    assert (VQ : V = (p ++ 58 :: chars [a'; b']) ++ offset_text z) by (rewrite VP, <- app_assoc; reflexivity).
    rewrite VQ at 1 2 3. rewrite G by (rewrite app_length; reflexivity).
    unfold len_minus. replace (Nat.ltb (length p) (length hd + 1)) with false by (symmetry; apply Nat.ltb_ge; lia).
    replace (length hd + 1)%nat with (length (hd ++ [84])) by (rewrite app_length; reflexivity).
    rewrite LP. replace (length hd + 3 - length (hd ++ [84%N]))%nat with 2%nat by (rewrite app_length; cbn [length]; lia).
    replace V with ((hd ++ [84]) ++ chars [a; b] ++ 58 :: chars [a'; b'] ++ offset_text z) at 1 by (rewrite VP; unfold p; rewrite <- !app_assoc; reflexivity). rewrite substr_at.
    replace (length hd + 3 + 1)%nat with (length (p ++ [58])) by (rewrite app_length, LP; reflexivity).
    replace V with ((p ++ [58]) ++ chars [a'; b'] ++ offset_text z) by (rewrite VP, <- !app_assoc; reflexivity). rewrite substr_at. reflexivity.
  - destruct C as (H & M & SS & DF). pose proof (proj1 H) as DH. pose proof (proj1 M) as DM. apply two_chars in H as (a & b & -> & A & B). apply two_chars in M as (a' & b' & -> & A' & B'). apply two_chars in SS as (a'' & b'' & -> & A'' & B'').
    set (R := match f with [] => [] | _ => [46] ++ chars f end ++ offset_text z).
    set (V := hd ++ ([84] ++ chars [a; b] ++ [58] ++ chars [a'; b'] ++ [58] ++ chars [a''; b''] ++ match f with [] => [] | _ => [46] ++ chars f end) ++ offset_text z).
    set (p := (hd ++ [84] ++ chars [a; b])). assert (LP : length p = (length hd + 3)%nat) by (unfold p; rewrite app_length; reflexivity).
    assert (VP : V = p ++ 58 :: chars [a'; b'] ++ 58 :: chars [a''; b''] ++ R) by (unfold V, p, R; rewrite <- !app_assoc; reflexivity). clearbody V R.
    assert (FC : find 58 V 0 = Some (length p)).
    { rewrite find_0, VP. apply find_char_app; [|reflexivity]. unfold p. repeat apply free_app; auto; [apply free_cons; [lia|constructor]|apply free_chars; [assumption|lia]]. }
    rewrite <- LP. assert (L1 : Nat.ltb (length p) (length V) = true) by (apply Nat.ltb_lt; rewrite VP, app_length; cbn [length]; lia).
    rewrite L1. assert (AT : at_ V (length p) = 58) by (rewrite VP; apply at_app). rewrite AT. cbn [N.eqb Pos.eqb negb andb]. rewrite FC.
    set (q := p ++ 58 :: chars [a'; b']). assert (LQ : length q = (length p + 3)%nat) by (unfold q; rewrite app_length; reflexivity).
    assert (VQ : V = q ++ 58 :: chars [a''; b''] ++ R) by (unfold q; rewrite VP, <- app_assoc; reflexivity).
    rewrite <- LQ. assert (L2 : Nat.ltb (length q) (length V) = true) by (apply Nat.ltb_lt; rewrite VQ, app_length; cbn [length]; lia).
    rewrite L2. assert (AT2 : at_ V (length q) = 58) by (rewrite VQ; apply at_app). rewrite AT2. cbn [N.eqb Pos.eqb negb andb].
    assert (FC2 : find 58 V (length p + 1) = Some (length q)).
    { replace (length p + 1)%nat with (length (p ++ [58])) by (rewrite app_length; reflexivity).
      replace V with ((p ++ [58]) ++ chars [a'; b'] ++ 58 :: chars [a''; b''] ++ R) by (rewrite VP, <- !app_assoc; reflexivity). rewrite find_here.
      rewrite find_char_app; [|apply free_chars; [assumption|lia]|reflexivity]. cbn [option_map]. f_equal. rewrite app_length, LQ, chars_length. cbn [length]. lia. }
    rewrite FC2. unfold len_minus. replace (Nat.ltb (length p) (length hd + 1)) with false by (symmetry; apply Nat.ltb_ge; lia).
    replace (length hd + 1)%nat with (length (hd ++ [84])) by (rewrite app_length; reflexivity).
    replace (length p - length (hd ++ [84%N]))%nat with 2%nat by (rewrite app_length; cbn [length]; lia).
    replace (length q - (length p + 1))%nat with 2%nat by lia.
    replace V with ((hd ++ [84]) ++ chars [a; b] ++ 58 :: chars [a'; b'] ++ 58 :: chars [a''; b''] ++ R) at 1 by (rewrite VP; unfold p; rewrite <- !app_assoc; reflexivity). rewrite substr_at.
    replace (length p + 1)%nat with (length (p ++ [58])) by (rewrite app_length; reflexivity).
    replace V with ((p ++ [58]) ++ chars [a'; b'] ++ 58 :: chars [a''; b''] ++ R) at 1 by (rewrite VP, <- !app_assoc; reflexivity). rewrite substr_at.
    replace (length q + 1)%nat with (length (q ++ [58])) by (rewrite app_length; reflexivity).
    replace V with ((q ++ [58]) ++ chars [a''; b''] ++ R) by (rewrite VQ, <- !app_assoc; reflexivity). rewrite substr_at. reflexivity.
Qed.
Lemma year_text_split d : date_ok d -> exists y t, year_text d = y :: t /\ free 45 t.
Proof.
  intros K. destruct (d_year d K) as [D N]. unfold year_text. destruct (before_christ d); cbn [app].
  - eexists _, _. split; [reflexivity|]. apply free_chars; [assumption|lia].
  - destruct (year d) as [|y l]; [contradiction|]. cbn [chars map]. eexists _, _. split; [reflexivity|]. change (map (N.add 48) l) with (chars l). inversion D; subst. apply free_chars; [assumption|lia].
Qed.
Lemma find_hyphen d r : date_ok d -> find 45 (year_text d ++ 45 :: r) 1 = Some (length (year_text d)).
Proof.
  intros K. destruct (year_text_split d K) as (y & t & -> & F). change ((y :: t) ++ 45 :: r) with ([y] ++ t ++ 45 :: r). change 1%nat with (length [y]) at 1. rewrite find_here.
  now rewrite find_char_app.
Qed.
Lemma find_hyphen_none d : date_ok d -> find 45 (year_text d) 1 = None.
Proof.
  intros K. destruct (year_text_split d K) as (y & t & -> & F). change (y :: t) with ([y] ++ t). change 1%nat with (length [y]) at 1. rewrite find_here. now rewrite find_char_all.
Qed.
Definition day_text (d : date) : list N := year_text d ++ month_text (month_day d).
Lemma year_text_nonempty d : date_ok d -> (0 < length (year_text d))%nat.
Proof. intros K. destruct (year_text_split d K) as (y & t & -> & _). cbn. lia. Qed.
Lemma day_ok d r : date_ok d -> (time d = NoTime -> r = []) ->
  day_of (day_text d ++ r) (match time d with NoTime => None | _ => Some (length (day_text d)) end) =
  (year_text d, chars (nth 0 (day_digits d) []), chars (nth 1 (day_digits d) [])).
Proof.
  intros K R. pose proof (year_text_nonempty d K) as YN. unfold day_of.
  replace (match match time d with NoTime => None | _ => Some (length (day_text d)) end with Some 0%nat => _ | _ => _ end) with
    (let end_ := length (day_text d) in
      match find 45 (day_text d ++ r) 1 with
      | None => (day_text d ++ r, [48; 48], [48; 48])
      | Some h1 =>
          match find 45 (day_text d ++ r) (h1 + 1) with
          | None => (substr (day_text d ++ r) 0 h1, substr (day_text d ++ r) (h1 + 1) (len_minus (day_text d ++ r) end_ (h1 + 1)), [48; 48])
          | Some h2 => (substr (day_text d ++ r) 0 h1, substr (day_text d ++ r) (h1 + 1) (h2 - (h1 + 1)), substr (day_text d ++ r) (h2 + 1) (len_minus (day_text d ++ r) end_ (h2 + 1)))
          end
      end).
  2:{ assert (L : exists k, length (day_text d) = S k) by (exists (length (day_text d) - 1)%nat; unfold day_text; rewrite app_length; lia). destruct L as (k & L).
      destruct (time d) eqn:T; try (rewrite L; reflexivity). rewrite R by reflexivity. now rewrite app_nil_r. }
  cbv zeta. unfold day_digits, day_text. pose proof (d_month d K) as M. pose proof (d_day d K) as DD. destruct (month_day d) as [[m [x|]]|]; cbn [month_text].
  - destruct M as [M X]. pose proof (proj1 M) as DM. pose proof (proj1 X) as DX. apply two_chars in M as (a & b & -> & A & B). apply two_chars in X as (a' & b' & -> & A' & B').
    set (Y := year_text d) in *. set (V := (Y ++ [45] ++ chars [a; b] ++ [45] ++ chars [a'; b']) ++ r).
    assert (VY : V = Y ++ 45 :: chars [a; b] ++ 45 :: chars [a'; b'] ++ r) by (unfold V; rewrite <- !app_assoc; reflexivity).
    rewrite VY at 1. unfold Y at 1. rewrite find_hyphen by assumption. fold Y.
    replace (length Y + 1)%nat with (length (Y ++ [45])) by (rewrite app_length; reflexivity).
    replace V with ((Y ++ [45]) ++ chars [a; b] ++ 45 :: chars [a'; b'] ++ r) at 1 by (rewrite VY, <- !app_assoc; reflexivity). rewrite find_here.
    rewrite find_char_app; [|apply free_chars; [assumption|lia]|reflexivity]. cbn [option_map].
    change (length (chars [a; b])) with 2%nat. replace (length (Y ++ [45%N]) + 2 - length (Y ++ [45%N]))%nat with 2%nat by lia.
    replace (length (Y ++ [45%N]) + 2 + 1)%nat with (length (Y ++ [45] ++ chars [a; b] ++ [45])) by (rewrite !app_length; cbn [length]; unfold chars; rewrite map_length; cbn [length]; lia).
    unfold len_minus. replace (Nat.ltb (length (Y ++ [45] ++ chars [a; b] ++ [45] ++ chars [a'; b'])) (length (Y ++ [45] ++ chars [a; b] ++ [45]))) with false by (symmetry; apply Nat.ltb_ge; rewrite !app_length; lia).
    replace (length (Y ++ [45%N] ++ chars [a; b] ++ [45%N] ++ chars [a'; b']) - length (Y ++ [45%N] ++ chars [a; b] ++ [45%N]))%nat with 2%nat by (rewrite !app_length; unfold chars; rewrite !map_length; cbn [length]; lia).
    replace (substr V 0 (length Y)) with Y by (rewrite VY; unfold substr; cbn [skipn]; now rewrite firstn_len).
    replace V with ((Y ++ [45]) ++ chars [a; b] ++ 45 :: chars [a'; b'] ++ r) at 1 by (rewrite VY, <- !app_assoc; reflexivity). rewrite substr_at.
    replace V with ((Y ++ [45] ++ chars [a; b] ++ [45]) ++ chars [a'; b'] ++ r) by (rewrite VY, <- !app_assoc; reflexivity). rewrite substr_at. reflexivity.
  - assert (T : time d = NoTime) by (destruct (time d); auto; destruct DD as (? & ? & X); try discriminate; discriminate X). rewrite (R T), app_nil_r. pose proof (proj1 M) as DM. apply two_chars in M as (a & b & -> & A & B).
    set (Y := year_text d) in *. cbn [app]. unfold Y at 1. rewrite find_hyphen by assumption. fold Y.
    replace (length Y + 1)%nat with (length (Y ++ [45])) by (rewrite app_length; reflexivity).
    replace (Y ++ 45 :: chars [a; b]) with ((Y ++ [45]) ++ chars [a; b]) by (rewrite <- app_assoc; reflexivity). rewrite find_here, find_char_all by (apply free_chars; [assumption|lia]). cbn [option_map].
    unfold len_minus. replace (Nat.ltb _ _) with false by (symmetry; apply Nat.ltb_ge; rewrite !app_length; lia). rewrite substr_at.
    replace (length ((Y ++ [45%N]) ++ chars [a; b]) - length (Y ++ [45%N]))%nat with 2%nat by (rewrite (app_length _ (chars [a; b])); unfold chars; rewrite map_length; cbn [length]; lia).
    unfold substr. cbn [skipn]. rewrite <- app_assoc, firstn_len. reflexivity.
  - assert (T : time d = NoTime) by (destruct (time d); auto; destruct DD as (? & ? & X); try discriminate; discriminate X). rewrite (R T), !app_nil_r. rewrite find_hyphen_none by assumption. reflexivity.
Qed.
Lemma padl_chars w l : replicate (w - length l) 48 ++ chars l = chars (padl w l).
Proof. unfold padl, chars. rewrite map_app. change (map (N.add 48) (repeat 0 (w - length l))) with (chars (repeat 0 (w - length l))). rewrite chars_repeat. reflexivity. Qed.
Lemma padl_nines w l : digits l -> replicate (w - length l) 57 ++ chars (nines l) = chars (nines (padl w l)).
Proof. intros D. unfold padl, nines, chars. rewrite !map_app. change (map (fun d => 9 - d) (repeat 0 (w - length l))) with (nines (repeat 0 (w - length l))). rewrite nines_repeat. change (map (N.add 48) (repeat (9 - 0) (w - length l))) with (chars (repeat (9 - 0) (w - length l))). rewrite chars_repeat. reflexivity. Qed.
Lemma date_encode d : date_ok d -> convertDateToIndexWord (date_text d) = Ok (date_word d).
Proof.
  intros K. destruct (d_year d K) as [DY NY]. pose proof (d_short d K) as SY. pose proof (d_month d K) as M. pose proof (d_time d K) as C. pose proof (d_zone d K) as Z. pose proof (d_day d K) as DD.
  assert (NOT : forall c, (57 < c) -> free c (day_text d)).
  { intros c L. unfold day_text, year_text. apply free_app; [apply free_app|].
    - destruct (before_christ d); [apply free_cons; [lia|constructor]|constructor].
    - apply free_chars; [assumption|lia].
    - destruct (month_day d) as [[m [x|]]|]; cbn [month_text]; [| |constructor].
      + destruct M as [[M _] [X _]]. repeat apply free_app; try (apply free_chars; [assumption|lia]); apply free_cons; try lia; constructor.
      + destruct M as [M _]. apply free_app; [apply free_cons; [lia|constructor]|apply free_chars; [assumption|lia]]. }
  assert (NZC : free 90 (clock_text (time d))).
  { destruct (time d) as [|h|h m|h m s f]; cbn [clock_text clock_ok] in *; [constructor| | |].
    - apply free_app; [apply free_cons; [lia|constructor]|apply free_chars; [apply C|lia]].
    - destruct C as [[C1 _] [C2 _]]. repeat apply free_app; try (apply free_chars; [assumption|lia]); apply free_cons; try lia; constructor.
    - destruct C as ([C1 _] & [C2 _] & [C3 _] & C4). repeat apply free_app; try (apply free_chars; [assumption|lia]); try (apply free_cons; try lia; constructor). destruct f; [constructor|]. apply free_app; [apply free_cons; [lia|constructor]|apply free_chars; [assumption|lia]]. }
  assert (ZO : zone_ok (tz d)) by (destruct (tz d); cbn; tauto).
  assert (NZO : free 90 (offset_text (tz d))).
  { destruct (tz d) as [| |p h m]; cbn [offset_text]; try constructor; [destruct p; reflexivity|]. destruct ZO as [[Z1 _] [Z2 _]]. apply free_app; [apply free_chars; [assumption|lia]|]. apply free_cons; [lia|]. apply free_chars; [assumption|lia]. }
  assert (V : match find 90 (date_text d) 0 with Some z => firstn z (date_text d) | None => date_text d end = day_text d ++ clock_text (time d) ++ offset_text (tz d)).
  { assert (E : date_text d = (day_text d ++ clock_text (time d) ++ offset_text (tz d)) ++ (match tz d with Zulu => [90] | _ => [] end)).
    { unfold date_text, day_text, year_text. rewrite <- !app_assoc. do 4 f_equal. destruct (tz d); cbn [zone_text offset_text app]; rewrite ?app_nil_r; reflexivity. }
    assert (FR : free 90 (day_text d ++ clock_text (time d) ++ offset_text (tz d))) by (apply free_app; [apply NOT; lia|apply free_app; auto]).
    rewrite find_0, E. destruct (tz d).
    - rewrite find_char_all; [now rewrite !app_nil_r|]. rewrite app_nil_r. exact FR.
    - rewrite find_char_app; [|exact FR|reflexivity]. now rewrite firstn_len.
    - rewrite find_char_all; [now rewrite app_nil_r|]. rewrite app_nil_r. exact FR. }
  unfold convertDateToIndexWord, normalizeDate. rewrite V. clear V NZC NZO.
  assert (PT : find 84 (day_text d ++ clock_text (time d) ++ offset_text (tz d)) 0 = match time d with NoTime => None | _ => Some (length (day_text d)) end).
  { rewrite find_0. pose proof (NOT 84 ltac:(lia)) as F. destruct (time d) eqn:T; cbn [clock_text app].
    - rewrite find_char_all; [reflexivity|]. apply free_app; [exact F|]. destruct (tz d) as [| |p h m]; [constructor|constructor|]. destruct Z as (_ & _ & Z). now contradiction Z.
    - now apply find_char_app.
    - now apply find_char_app.
    - now apply find_char_app. }
  cbv zeta. rewrite PT.
  assert (TM : time_of (day_text d ++ clock_text (time d) ++ offset_text (tz d)) (match time d with NoTime => None | _ => Some (length (day_text d)) end) =
               (chars (nth 0 (time_digits d) []), chars (nth 1 (time_digits d) []), chars (nth 2 (time_digits d) []))).
  { pose proof (time_ok (day_text d) (time d) (tz d) (NOT 58 ltac:(lia)) C) as TO. unfold time_digits. destruct (time d); [reflexivity| | |]; rewrite TO; auto; discriminate. }
  rewrite TM. rewrite day_ok by (try assumption; intros T; rewrite T; destruct (tz d) as [| |p h m]; auto; destruct Z as (_ & _ & Z); now contradiction Z).
  assert (YL : length (year_text d) = (length (year d) + (if before_christ d then 1 else 0))%nat) by (unfold year_text; rewrite app_length, chars_length; destruct (before_christ d); cbn [length]; lia).
  rewrite YL. unfold year_digits. replace (Nat.ltb 19 _) with false by (symmetry; apply Nat.ltb_ge; exact SY).
  replace (if at_ (year_text d) 0 =? 45 then _ else _) with (year_key d).
  - cbn [bind]. change (VALUE_DATE_PREFIX) with (58 :: tl VALUE_DATE_PREFIX). cbn [app]. change (at_ (58 :: ?x) 0) with 58. cbn [N.eqb Pos.eqb]. unfold date_word. change (VALUE_DATE_PREFIX) with (58 :: tl VALUE_DATE_PREFIX).
    cbn [app]. do 4 f_equal. unfold day_digits, time_digits. destruct (month_day d) as [[m [x|]]|], (time d); cbn [nth app joined]; rewrite <- ?app_assoc; rewrite ?app_nil_r; reflexivity.
  - unfold year_key, year_text. destruct (before_christ d).
    + change (at_ ([45] ++ chars (year d)) 0) with 45. cbn [N.eqb Pos.eqb app skipn]. f_equal. rewrite complement_chars by assumption. rewrite <- padl_nines by assumption. f_equal. f_equal. lia.
    + cbn [app]. destruct (year d) as [|y l]; [contradiction|]. change (at_ (chars (y :: l)) 0) with (48 + y). replace (48 + y =? 45) with false by lia. rewrite <- padl_chars. f_equal. f_equal. lia.
Qed.

(* ---- the order ---- *)
Lemma padl_length w l : (length l <= w)%nat -> length (padl w l) = w.
Proof. intros L. unfold padl. rewrite app_length, repeat_length. lia. Qed.
Lemma padl_number w l : number_of (padl w l) = number_of l.
Proof. unfold padl. rewrite number_app, number_zeros. lia. Qed.
Lemma padl_digits w l : digits l -> digits (padl w l).
Proof. intros D. apply digits_app; [apply digits_repeat; lia|exact D]. Qed.
Lemma lex_joined seps : forall cs cs', length cs = length seps -> length cs' = length seps -> Forall two cs -> Forall two cs' ->
  lex_cmp (joined seps cs) (joined seps cs') = lex_cmp (map number_of cs) (map number_of cs').
Proof.
  induction seps as [|s seps IH]; intros [|c cs] [|c' cs'] L L' F F'; try discriminate; [reflexivity|]. inversion F; inversion F'; subst. cbn [joined map]. rewrite !lex_cons, N.compare_refl. cbn [or_else].
  rewrite lex_app by (rewrite !chars_length; destruct H1, H5; congruence). rewrite lex_chars, lex_number by (try apply H1; try apply H5; destruct H1, H5; congruence). f_equal. apply IH; auto.
Qed.
Lemma two_zero : two [0; 0]. Proof. split; [repeat constructor|reflexivity]. Qed.
Lemma digits_two d : date_ok d -> Forall two (day_digits d ++ time_digits d) /\ length (day_digits d ++ time_digits d) = 5%nat.
Proof.
  intros K. pose proof (d_month d K) as M. pose proof (d_time d K) as C. pose proof two_zero. unfold day_digits, time_digits.
  destruct (month_day d) as [[m [x|]]|], (time d); cbn [clock_ok app length] in *; split; auto; repeat constructor; try apply two_zero; try tauto; try apply M; try apply C.
Qed.
Lemma digits_components d : map number_of (day_digits d ++ time_digits d) = snd (components d).
Proof. unfold day_digits, time_digits, components. destruct (month_day d) as [[m [x|]]|], (time d); reflexivity. Qed.
Lemma year_key_length d : date_ok d -> length (year_key d) = 19%nat.
Proof.
  intros K. pose proof (d_short d K) as S. unfold year_key. destruct (before_christ d); cbn [length]; rewrite chars_length; unfold nines; rewrite ?map_length; rewrite padl_length; lia.
Qed.
Lemma lex_years a b : date_ok a -> date_ok b -> lex_cmp (year_key a) (year_key b) = (fst (components a) ?= fst (components b))%Z.
Proof.
  intros KA KB. destruct (d_year a KA) as [DA _]. destruct (d_year b KB) as [DB _]. pose proof (d_short a KA) as SA. pose proof (d_short b KB) as SB. pose proof (d_zero a KA) as ZA. pose proof (d_zero b KB) as ZB.
  assert (HD : forall l w, (0 < length l)%nat -> (length l <= w)%nat -> exists y t, padl w l = y :: t).
  { intros l w L1 L2. destruct (padl w l) as [|y t] eqn:E; [|eauto]. apply (f_equal (@length N)) in E. rewrite padl_length in E by assumption. cbn in E. lia. }
  unfold year_key, components. cbn [fst]. destruct (before_christ a), (before_christ b).
  - rewrite lex_cons, N.compare_refl, lex_chars. cbn [or_else]. rewrite lex_nines by (try (apply padl_digits; assumption); rewrite !padl_length; lia). rewrite lex_number by (try (apply padl_digits; assumption); rewrite !padl_length; lia).
    rewrite !padl_number, Z.compare_opp. now rewrite N2Z.inj_compare.
  - destruct (HD (year b) 19%nat) as (y & t & E); [destruct (year b) eqn:Y; [exfalso; apply (proj2 (d_year b KB)); exact Y|cbn; lia]|lia|]. rewrite E. cbn [chars map]. rewrite lex_cons.
    replace (45 ?= 48 + y) with Lt by (symmetry; apply N.compare_lt_iff; lia). cbn [or_else]. symmetry. apply Z.compare_lt_iff. specialize (ZA eq_refl). lia.
  - destruct (HD (year a) 19%nat) as (y & t & E); [destruct (year a) eqn:Y; [exfalso; apply (proj2 (d_year a KA)); exact Y|cbn; lia]|lia|]. rewrite E. cbn [chars map]. rewrite lex_cons.
    replace (48 + y ?= 45) with Gt by (symmetry; apply N.compare_gt_iff; lia). cbn [or_else]. symmetry. apply Z.compare_gt_iff. specialize (ZB eq_refl). lia.
  - rewrite lex_chars, lex_number by (try (apply padl_digits; assumption); rewrite !padl_length; lia). rewrite !padl_number. now rewrite N2Z.inj_compare.
Qed.
Lemma date_order a b : date_ok a -> date_ok b -> lex_cmp (date_word a) (date_word b) = compare_dates a b.
Proof.
  intros KA KB. unfold date_word. rewrite lex_same, lex_app by (rewrite !year_key_length; auto). rewrite lex_years by assumption.
  destruct (digits_two a KA), (digits_two b KB). rewrite lex_joined by auto. rewrite !digits_components. unfold compare_dates. destruct (fst (components a) ?= fst (components b))%Z; reflexivity.
Qed.

(* ---- reading back ---- *)
(* what is shown for a date *)
Definition shown (d : date) : date :=
  let c := day_digits d ++ time_digits d in
  Date (before_christ d) (if before_christ d then padl 18 (year d) else drop_while (N.eqb 0) (padl 19 (year d)))
       (Some (nth 0 c [], Some (nth 1 c []))) (Second (nth 2 c []) (nth 3 c []) (nth 4 c []) []) NoZone.
Lemma nth_two d i : date_ok d -> (i < 5)%nat -> two (nth i (day_digits d ++ time_digits d) []).
Proof. intros K L. destruct (digits_two d K) as [F E]. rewrite Forall_forall in F. apply F. apply nth_In. lia. Qed.
Lemma shown_year d : number_of (year (shown d)) = number_of (year d).
Proof.
  unfold shown. cbn [year]. destruct (before_christ d); [apply padl_number|]. rewrite <- (padl_number 19 (year d)). rewrite (zeros_split (padl 19 (year d))) at 2. rewrite number_app, number_zeros. lia.
Qed.
Lemma shown_components d : date_ok d -> components (shown d) = components d.
Proof.
  intros K. rewrite (surjective_pairing (components d)), <- digits_components. unfold components at 1. change (before_christ (shown d)) with (before_christ d). rewrite shown_year.
  f_equal. f_equal. destruct (digits_two d K) as [_ L]. unfold shown. cbn [month_day time app]. destruct (day_digits d ++ time_digits d) as [|a [|b [|c [|e [|f [|]]]]]]; try discriminate. reflexivity.
Qed.
Lemma shown_ok d : date_ok d -> number_of (year d) <> 0 -> date_ok (shown d).
Proof.
  intros K Z. destruct (d_year d K) as [DY NY]. pose proof (d_short d K) as S. split.
  - split.
    + unfold shown. cbn [year]. destruct (before_christ d); [now apply padl_digits|]. pose proof (padl_digits 19 _ DY) as P. rewrite (zeros_split (padl 19 (year d))) in P. now apply Forall_app in P.
    + intros E. apply Z. rewrite <- shown_year, E. reflexivity.
  - unfold shown. cbn [year before_christ]. destruct (before_christ d); [rewrite padl_length; lia|]. pose proof (drop_while_length (N.eqb 0) (padl 19 (year d))) as L. rewrite padl_length in L by lia. lia.
  - intros _. now rewrite shown_year.
  - cbn [shown month_day]. split; apply nth_two; auto; lia.
  - cbn [shown time clock_ok]. repeat split; try apply (nth_two d _ K); try lia. constructor.
  - intros _. unfold shown. cbn [month_day]. eauto.
  - exact I.
Qed.
Lemma shown_same d : date_ok d -> compare_dates d (shown d) = Eq.
Proof. intros K. unfold compare_dates. rewrite shown_components by assumption. now rewrite Z.compare_refl, lex_cmp_refl. Qed.
Lemma shown_text d : date_ok d -> date_text (shown d) = (if before_christ d then [45] else []) ++ chars (year (shown d)) ++ joined [45; 45; 84; 58; 58] (day_digits d ++ time_digits d).
Proof.
  intros K. unfold date_text. change (before_christ (shown d)) with (before_christ d). destruct (digits_two d K) as [_ L]. unfold shown. cbn [year month_day time tz month_text clock_text zone_text].
  destruct (day_digits d ++ time_digits d) as [|a [|b [|c [|e [|f [|]]]]]]; try discriminate. cbn [nth joined]. rewrite <- !app_assoc. cbn [app]. rewrite !app_nil_r. reflexivity.
Qed.
Lemma date_back d : date_ok d -> number_of (year d) <> 0 -> convertIndexWordToValueLiteral (date_word d) = Ok (quoted (date_text (shown d)) ++ XSD_DATETIME_SUFFIX).
Proof.
  intros K Z. destruct (d_year d K) as [DY NY]. pose proof (d_short d K) as S. unfold convertIndexWordToValueLiteral. replace (startsWith (date_word d) VALUE_DATE_PREFIX) with true by (symmetry; unfold date_word; apply startsWith_app).
  set (J := joined [45; 45; 84; 58; 58] (day_digits d ++ time_digits d)). unfold convertIndexWordToDate.
  replace (at_ (date_word d) (length VALUE_DATE_PREFIX)) with (at_ (year_key d ++ J) 0) by (unfold date_word; fold J; rewrite <- (at_shift VALUE_DATE_PREFIX), Nat.add_0_r; reflexivity).
  pose proof (shown_text d K) as ST. fold J in ST. pose proof (year_key_length d K) as YL. unfold year_key in *. destruct (before_christ d) eqn:BC.
  - change (at_ ((45 :: chars (nines (padl 18 (year d)))) ++ J) 0) with 45. cbn [N.eqb Pos.eqb].
    assert (W : date_word d = (VALUE_DATE_PREFIX ++ [45]) ++ chars (nines (padl 18 (year d))) ++ J) by (unfold date_word, year_key; rewrite BC; fold J; now rewrite <- !app_assoc).
    replace (Nat.ltb (length (date_word d)) (length VALUE_DATE_PREFIX + year_digits)) with false.
    2:{ symmetry. apply Nat.ltb_ge. rewrite W, !app_length. cbn [length] in YL |- *. unfold year_digits. lia. }
    cbn [length] in YL. injection YL as YL. replace (length VALUE_DATE_PREFIX + 1)%nat with (length (VALUE_DATE_PREFIX ++ [45])) by (rewrite app_length; reflexivity).
    rewrite W at 1. rewrite substr_at. unfold year_digits. change (19 - 1)%nat with 18%nat. rewrite <- YL at 1. rewrite firstn_len.
    replace (length VALUE_DATE_PREFIX + 19)%nat with (length ((VALUE_DATE_PREFIX ++ [45]) ++ chars (nines (padl 18 (year d))))) by (rewrite !app_length, YL; reflexivity).
    rewrite W. rewrite (app_assoc (VALUE_DATE_PREFIX ++ [45])). rewrite skipn_len. rewrite complement_chars by apply nines_digits. rewrite nines_nines by now apply padl_digits. cbn [bind].
    assert (R : removeLeadingZeros ([45] ++ chars (padl 18 (year d)) ++ J) = [45] ++ chars (padl 18 (year d)) ++ J) by reflexivity. rewrite R.
    replace (Nat.eqb (length ([45] ++ chars (padl 18 (year d)) ++ J)) 0 || startsWith ([45] ++ chars (padl 18 (year d)) ++ J) [84]) with false by reflexivity.
    rewrite ST. unfold shown. cbn [year]. rewrite BC. reflexivity.
  - assert (DW : date_word d = VALUE_DATE_PREFIX ++ chars (padl 19 (year d)) ++ J) by (unfold date_word, year_key; rewrite BC; reflexivity).
    pose proof (zeros_split (padl 19 (year d))) as ZS. assert (NZ : number_of (padl 19 (year d)) <> 0) by now rewrite padl_number.
    destruct (nonzero_split _ NZ) as (y & t & E & Y). assert (DR : drop_while (N.eqb 0) (padl 19 (year d)) = y :: t) by (rewrite E; now apply drop_zeros).
    assert (AT : (at_ (chars (padl 19 (year d)) ++ J) 0 =? 45) = false).
    { destruct (padl 19 (year d)) as [|y0 l0] eqn:P; [now contradiction NZ|]. change (at_ (chars (y0 :: l0) ++ J) 0) with (48 + y0). lia. }
    rewrite AT. replace (Nat.ltb (length (date_word d)) (length VALUE_DATE_PREFIX)) with false by (symmetry; apply Nat.ltb_ge; rewrite DW, app_length; lia).
    rewrite DW, skipn_len. cbn [bind]. assert (RL : removeLeadingZeros (chars (padl 19 (year d)) ++ J) = chars (y :: t) ++ J).
    { rewrite E. unfold removeLeadingZeros. clear - Y. set (k := zeros (padl 19 (year d))). clearbody k. unfold chars. rewrite map_app, <- app_assoc. induction k as [|k IH]; [|exact IH]. cbn [repeat map app drop_while]. replace (48 =? 48 + y) with false by lia. reflexivity. }
    rewrite RL. replace (Nat.eqb (length (chars (y :: t) ++ J)) 0) with false by reflexivity.
    assert (TT : startsWith (chars (y :: t) ++ J) [84] = false).
    { pose proof (padl_digits 19 _ DY) as P. rewrite E in P. apply Forall_app in P as [_ P]. inversion P; subst. change (startsWith (chars (y :: t) ++ J) [84]) with ((48 + y =? 84) && startsWith (chars t ++ J) []). replace (48 + y =? 84) with false by lia. reflexivity. }
    rewrite TT. cbn [orb]. rewrite ST. unfold shown. cbn [year]. rewrite BC, DR. reflexivity.
Qed.
