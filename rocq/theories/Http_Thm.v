(* Theorems about requests and answers of the server (C70). *)
From Coq Require Import String List NArith Arith Bool Lia ZifyBool ZifyN ZifyNat.
From Verif Require Import Strings_Model Strings_Spec Http_Model Http_Spec Http_Proof.
From Verif Require Strings_Proof.
From Verif Require Import Conv_Model(bytes).
Import ListNotations.
Open Scope N_scope.

(* C70: a request for parameters gets exactly these, however the network splits it. Missing: requests
   with the word HTTP in a parameter. *)
Theorem C70_request_partial chunks line rest ps : asks line ps -> ~ In 13 line -> concat chunks = line ++ [13; 10] ++ rest ->
  process (fst (fst (getHTTPRequest chunks))) = Params ps.
Proof.
  intros A H E. rewrite (get_request_ok line rest chunks); auto; [now apply process_ok| |].
  - destruct A; discriminate.
  - destruct A as [ps' t version _ _ _]. exists (bytes "GET /?" ++ t ++ [32]), version. rewrite <- !app_assoc. reflexivity.
Qed.

(* The query of a request is the value of its parameter query; it must not be empty. *)
Theorem C70_query ps q : NoDup (map fst ps) -> (createQueryFromHttpParams ps = Ok q <-> In (bytes "query", q) ps /\ q <> []).
Proof.
  intros Nd. unfold createQueryFromHttpParams. assert (V : forall v, value_of ps (bytes "query") = Some v <-> In (bytes "query", v) ps).
  { intros v. induction ps as [|[k u] ps IH]; cbn [value_of In]; [split; [discriminate|intros []]|]. inversion Nd as [|? ? Nk Nd']; subst.
    destruct (list_eq_dec N.eq_dec k (bytes "query")) as [->|Hk].
    - split; [intros E; injection E as ->; now left|]. intros [E|I]; [now injection E as ->|]. destruct Nk. now apply (in_map fst) in I.
    - rewrite IH by auto. split; [now right|]. intros [E|I]; [congruence|auto]. }
  destruct (value_of ps (bytes "query")) as [v|] eqn:E.
  - assert (In (bytes "query", v) ps) by now apply V. assert (U : forall u, In (bytes "query", u) ps -> u = v) by (intros u I; apply V in I; congruence).
    destruct v as [|c v]; split; intros G; try discriminate.
    + destruct G as [G K]. apply U in G. congruence.
    + injection G as <-. split; auto. discriminate.
    + destruct G as [G _]. apply U in G. now subst.
  - split; [discriminate|]. intros [I _]. apply V in I. discriminate.
Qed.

(* Every request is answered: the loop over the parameters ends. *)
Theorem C70_terminates request : parseHttpRequest request <> OutOfFuel.
Proof.
  assert (One : forall r i l m, one_param r i l m <> OutOfFuel) by (intros r i l m; unfold one_param; destruct (find_from _ _ _); [destruct (contains _ _)|]; discriminate).
  assert (L : forall fuel r i m, (length r < i + fuel)%nat -> (0 < fuel)%nat -> params_loop fuel r i m <> OutOfFuel).
  { induction fuel as [|fuel IH]; intros r i m H G; [lia|]. cbn [params_loop]. destruct (find_from (N.eqb 38) r (i + 1)) as [next|] eqn:E; [|apply One].
    unfold find_from in E. destruct (find_char (N.eqb 38) (skipn (i + 1) r)) as [j|] eqn:F; [|discriminate]. injection E as <-.
    apply Strings_Proof.find_char_some in F as (a & c & b & F & La & _ & _). assert (Lr : (length (skipn (i + 1) r) = length (a ++ c :: b))) by now rewrite F.
    rewrite skipn_length, app_length in Lr. cbn [length] in Lr.
    pose proof (One r i (i + 1 + j)%nat m) as O. destruct (one_param r i (i + 1 + j) m); try congruence. apply IH; lia. }
  unfold parseHttpRequest. destruct (find_str _ _); [|discriminate]. destruct (find_str _ _); [|discriminate].
  destruct (find_from _ _ 0); [|discriminate]. apply L; lia.
Qed.

(* An answer is sent completely and in order if no call of ::send fails; each may take only a part. *)
Theorem C70_sent debug replies data k : Forall (fun r => exists n, r = Some n /\ (0 < n)%nat) replies -> (length data <= length replies)%nat -> data <> [] ->
  send debug replies data k = data.
Proof.
  intros H. revert data k. induction H as [|r replies (n & -> & Hn) H IH]; intros data k L Nd; cbn [length] in L.
  - destruct data; [congruence|cbn [length] in L; lia].
  - cbn [send]. destruct (Nat.eqb_spec n (length data)) as [|D]; [reflexivity|]. destruct (skipn n data) as [|c d] eqn:S.
    + assert (Z : forall rs, Forall (fun r => exists n, r = Some n /\ (0 < n)%nat) rs -> forall j, send debug rs [] j = []).
      { clear. intros rs F. induction F as [|r rs (n & -> & Hn) F IH]; intros j; [reflexivity|]. cbn [send length]. destruct n as [|n]; [lia|]. cbn [Nat.eqb firstn skipn app]. apply IH. }
      rewrite Z, app_nil_r by auto. rewrite <- (firstn_skipn n data) at 2. now rewrite S, app_nil_r.
    + rewrite <- S, IH; [apply firstn_skipn| |congruence]. rewrite skipn_length. lia.
Qed.
(* Without debug output, calls that fail are repeated until they succeed. *)
Theorem C70_sent_retries replies data k : Forall (fun r => r = None \/ exists n, r = Some n /\ (0 < n)%nat) replies ->
  (length data <= length (filter (fun r => match r with Some _ => true | None => false end) replies))%nat -> data <> [] ->
  send false replies data (S k) = data.
Proof.
  intros F L D.
  assert (G : forall rs d j, send false rs d (S j) = send false (filter (fun r => match r with Some _ => true | None => false end) rs) d (S j)).
  { induction rs as [|[n|] rs IH]; intros d j; cbn [filter send]; auto. destruct (Nat.eqb n (length d)); [reflexivity|]. now rewrite IH. }
  rewrite G. apply C70_sent; auto. rewrite Forall_forall in *. intros r Hr. apply filter_In in Hr. destruct Hr as [Hr Hs].
  destruct (F r Hr) as [->|H]; [discriminate Hs|exact H].
Qed.
Example C70_sent_retries_example :
  send false [None; None; Some 2%nat; None; None; None; None; None; None; None; Some 1%nat] [65; 66; 67] 5 = [65; 66; 67].
Proof. reflexivity. Qed.
(* Also after errors, nothing is sent twice or in the wrong order. *)
Theorem C70_sent_prefix debug replies data k : exists r, data = send debug replies data k ++ r.
Proof.
  revert data k. induction replies as [|[n|] replies IH]; intros data k; cbn [send]; [now exists data| |].
  - destruct (Nat.eqb n (length data)); [exists []; now rewrite app_nil_r|]. destruct (IH (skipn n data) 5%nat) as [r E]. exists r. rewrite <- app_assoc, <- E. symmetry. apply firstn_skipn.
  - destruct k; [now exists data|apply IH].
Qed.

Definition e_line : text := bytes "GET /?Query=SELECT+%3fx=y&send=10 HTTP/1.1".
Ltac plain := repeat (apply ue_char; [discriminate|discriminate|]); try apply ue_nil.
Example C70_asks_example : asks e_line [(bytes "query", bytes "SELECT ?x=y"); (bytes "send", bytes "10")] /\ ~ In 13 e_line /\
  process (fst (fst (getHTTPRequest [firstn 10 e_line; skipn 10 e_line ++ [13]; [10; 72; 58; 32; 120; 13]; [10; 13; 10]]))) = Params [(bytes "query", bytes "SELECT ?x=y"); (bytes "send", bytes "10")].
Proof.
  split; [|split; [cbn; intuition discriminate|vm_compute; reflexivity]].
  apply (as_params _ (bytes "Query=SELECT+%3fx=y&send=10") (bytes "/1.1")).
  - apply (pst_more (bytes "query", bytes "SELECT ?x=y") (bytes "Query=SELECT+%3fx=y")); [|apply pst_one].
    + apply (pt_param (bytes "Query") (bytes "query") (bytes "SELECT ?x=y") (bytes "SELECT+%3fx=y")).
      * repeat (apply Forall2_cons; [first [left; split; [reflexivity|cbn; lia]|right; split; [cbn; lia|reflexivity]]|]). apply Forall2_nil.
      * cbn. intuition discriminate.
      * cbn. intuition discriminate.
      * repeat (apply ue_char; [discriminate|discriminate|]). apply ue_plus. apply (ue_byte 3 15 51 102); [apply (hex_decimal 3); lia|apply (hex_lower 15); lia|]. plain.
      * cbn. intuition discriminate.
    + apply (pt_param (bytes "send") (bytes "send") (bytes "10") (bytes "10")); [|cbn; intuition discriminate|cbn; intuition discriminate|plain|cbn; intuition discriminate].
      repeat (apply Forall2_cons; [left; split; [reflexivity|cbn; lia]|]). apply Forall2_nil.
  - cbn [map fst]. repeat constructor; cbn; intuition discriminate.
  - intros (a & b & E). apply (f_equal (fun l => existsb (fun c => c =? 72) l)) in E. rewrite existsb_app in E. change (existsb (fun c => c =? 72) (bytes "HTTP" ++ b)) with true in E.
    rewrite orb_true_r in E. vm_compute in E. discriminate.
Qed.

(* A request with the word HTTP in its query is cut there, and a character is lost: the query is
   taken for all between the first = and the character before the first HTTP. *)
Theorem C70_http_refuted a b c v : url_encodes v a -> ~ In 38 a -> ~ In 61 a -> ~ part_of (bytes "HTTP") (bytes "query=" ++ a ++ [c]) -> c <> 38 -> c <> 72 -> c <> 80 -> c <> 84 ->
  process (bytes "GET /?query=" ++ a ++ c :: bytes "HTTP" ++ b) = Params [(bytes "query", v)].
Proof.
  intros Hu H38 H61 Nh Hc1 Hc2 Hc3 Hc4.
  assert (F : find_str (bytes "HTTP") (bytes "GET /?query=" ++ a ++ c :: bytes "HTTP" ++ b) = Some (length (bytes "GET /?query=" ++ a ++ [c]))).
  { replace (bytes "GET /?query=" ++ a ++ c :: bytes "HTTP" ++ b) with ((bytes "GET /?query=" ++ a ++ [c]) ++ bytes "HTTP" ++ b) by (rewrite <- !app_assoc; reflexivity).
    apply find_str_first. intros q L (x & y & E & <-). set (P := bytes "GET /?query=" ++ a ++ [c]) in *.
    destruct (Nat.le_gt_cases (length x + 4) (length P)) as [B|B].
    - symmetry in E. rewrite app_assoc in E. apply app_split in E as (m & E & _). 2: { rewrite app_length. change (length (bytes "HTTP")) with 4%nat. lia. }
      subst P. change (bytes "GET /?query=" ++ a ++ [c]) with ([71; 69; 84; 32; 47; 63] ++ bytes "query=" ++ a ++ [c]) in E. rewrite <- app_assoc in E. change (bytes "HTTP") with [72; 84; 84; 80] in *.
      destruct x as [|x1 x]; [discriminate|]. destruct x as [|x2 x]; [discriminate|]. destruct x as [|x3 x]; [discriminate|]. destruct x as [|x4 x]; [discriminate|].
      destruct x as [|x5 x]; [discriminate|]. destruct x as [|x6 x]; [discriminate|]. injection E as _ _ _ _ _ _ E. apply Nh. exists x, m. exact E.
    - assert (G : nth_error (P ++ bytes "HTTP" ++ b) (length P - 1) = Some c).
      { assert (PA : forall (A r : text) z, nth_error ((A ++ [z]) ++ r) (length (A ++ [z]) - 1) = Some z).
        { intros A r z. rewrite <- app_assoc, app_length. cbn [length]. rewrite nth_error_app2 by lia. replace (length A + 1 - 1 - length A)%nat with 0%nat by lia. reflexivity. }
        subst P. rewrite (app_assoc _ a [c]). apply PA. }
      rewrite E in G. rewrite nth_error_app2 in G by lia.
      assert (K : (length P - 1 - length x < 4)%nat) by lia. set (k := (length P - 1 - length x)%nat) in *. clearbody k.
      destruct k as [|[|[|[|k]]]]; cbn in G; try (injection G as G; congruence). lia. }
  unfold process, parseHttpRequest. rewrite F. set (R := bytes "GET /?query=" ++ a ++ c :: bytes "HTTP" ++ b) in *.
  change (find_str (bytes "GET") R) with (Some 0%nat). cbn beta iota. change (find_from (N.eqb 63) R 0) with (Some 5%nat). cbn beta iota.
  assert (LP : (6 < length (bytes "GET /?query=" ++ a ++ [c]))%nat) by (rewrite app_length; change (length (bytes "GET /?query=")) with 12%nat; lia).
  replace (Nat.ltb 5 (length (bytes "GET /?query=" ++ a ++ [c]))) with true by (symmetry; apply Nat.ltb_lt; lia).
  replace (Nat.ltb (length R) (0 + 5)) with false by (symmetry; apply Nat.ltb_ge; subst R; rewrite app_length; change (length (bytes "GET /?query=")) with 12%nat; lia).
  change (substr_to R (0 + 5) (5 + 1 - 1)) with (@nil N). change (at_ R (0 + 5)) with 63. cbn beta iota. change (63 =? 63) with true. cbn beta iota.
  replace (substr_to R (0 + 3) (length (bytes "GET /?query=" ++ a ++ [c]))) with ([32; 47; 63] ++ (bytes "query=" ++ a) ++ [c]).
  2: { symmetry. change (0 + 3)%nat with (length [71; 69; 84]). replace R with ([71; 69; 84] ++ ([32; 47; 63] ++ (bytes "query=" ++ a) ++ [c]) ++ bytes "HTTP" ++ b).
       - apply substr_to_mid. change (bytes "GET /?query=") with ([71; 69; 84] ++ [32; 47; 63] ++ bytes "query="). rewrite <- !app_assoc. reflexivity.
       - subst R. change (bytes "GET /?query=") with ([71; 69; 84] ++ [32; 47; 63] ++ bytes "query="). rewrite <- !app_assoc. reflexivity. }
  change (find_from (N.eqb 63) ([32; 47; 63] ++ (bytes "query=" ++ a) ++ [c]) 0) with (Some 2%nat). cbn beta iota. cbn [params_loop].
  change (2 + 1)%nat with (length [32; 47; 63]). rewrite find_gone. 2: { intros I. rewrite <- app_assoc in I. apply in_app_iff in I as [I|I]; [vm_compute in I; intuition discriminate|]. apply in_app_iff in I as [I|[I|[]]]; auto. }
  rewrite (one_ok (bytes "query", v) (bytes "query=" ++ a) [32; 47; 63] [c] [] 2); auto.
  - change (bytes "query=" ++ a) with (bytes "query" ++ 61 :: a). apply pt_param; auto; [|cbn; intuition discriminate|cbn; intuition discriminate].
    repeat (apply Forall2_cons; [left; split; [reflexivity|cbn; lia]|]). apply Forall2_nil.
  - rewrite !app_length. cbn [length]. lia.
Qed.
Example C70_http_example : process (bytes "GET /?query=ASK+HTTP+x&send=3 HTTP/1.1") = Params [(bytes "query", bytes "ASK")].
Proof. vm_compute. reflexivity. Qed.

(* A parameter without = is not reported if one with = follows: its name takes both, and its value
   all the rest. *)
Theorem C70_no_equals_refuted : process (bytes "GET /?cmd&query=x HTTP/1.1") = Params [(bytes "cmd&query", bytes "x "); (bytes "query", bytes "x")].
Proof. vm_compute. reflexivity. Qed.

(* A request line with HTTP, and GET near its end, ends the server: substr throws outside of the try block. *)
Theorem C70_crash_refuted a b : part_of (bytes "HTTP") a -> (length b < 2)%nat -> (forall x y, a ++ bytes "GET" ++ b = x ++ bytes "GET" ++ y -> (length a <= length x)%nat) ->
  process (a ++ bytes "GET" ++ b) = Crash.
Proof.
  intros (x & y & ->) L F. unfold process. rewrite find_str_first. 2: { intros q Lq (u & w & E & <-). apply F in E. lia. } destruct (find_str_part (bytes "HTTP") ((x ++ bytes "HTTP" ++ y) ++ bytes "GET" ++ b)) as [p Hp].
  { exists x, (y ++ bytes "GET" ++ b). rewrite <- !app_assoc. reflexivity. }
  rewrite Hp. replace (Nat.ltb (length ((x ++ bytes "HTTP" ++ y) ++ bytes "GET" ++ b)) _) with true; [reflexivity|].
  symmetry. apply Nat.ltb_lt. rewrite (app_length _ (bytes "GET" ++ b)), (app_length (bytes "GET")). change (length (bytes "GET")) with 3%nat. lia.
Qed.
Example C70_crash_example : process (fst (fst (getHTTPRequest [bytes "HTTP GET" ++ [13; 10; 13; 10]]))) = Crash.
Proof. vm_compute. reflexivity. Qed.

(* In a debug build, six errors of ::send in a row end the answer without an error. *)
Theorem C70_retry_refuted data replies : send true ([None; None; None; None; None; None] ++ replies) data 5 = [].
Proof. reflexivity. Qed.

Print Assumptions C70_request_partial.
Print Assumptions C70_query.
Print Assumptions C70_terminates.
Print Assumptions C70_sent.
Print Assumptions C70_sent_prefix.
Print Assumptions C70_sent_retries.
Print Assumptions C70_http_refuted.
Print Assumptions C70_no_equals_refuted.
Print Assumptions C70_crash_refuted.
Print Assumptions C70_retry_refuted.
