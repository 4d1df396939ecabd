(* Property C88: the cost factors of the planner. *)
From Coq Require Import String List NArith Arith Bool Lia.
From Verif Require Strings_Model Lines_Model Lines_Proof Conv_Model.
From Verif Require Import Factors_Spec Factors_Model Factors_Proof.
Import ListNotations.
Local Open Scope list_scope.

Section Thm.
Context {D : Type}.
Variables (zero : D) (atof : list N -> D) (number : N -> N -> D).

(* After a file has been read, each factor is the value in the last line for it, and factors without a line are unchanged. *)
Theorem C88_read es f : Forall (fun e => plain (fst e) /\ plain (snd e)) es -> exists f',
  readFromFile zero atof (Some (file_of es)) f = Ok f' /\
  (forall key v, says es key v -> getCostFactor f' key = Ok (atof v)) /\ (forall key, silent es key -> getCostFactor f' key = getCostFactor f key).
Proof using.
  intros F. destruct (read_says zero atof es F f) as (f' & E & S & Q). exists f'. split; [|split].
  - cbn [readFromFile]. unfold file_of. rewrite flat_map_concat_map, <- (map_map line_of (fun l => l ++ [10%N])), Lines_Proof.lines_full; [exact E|].
    apply Forall_map. eapply Forall_impl; [|exact F]. intros [k v] [[_ H1] [_ H2]] I. unfold line_of in I. cbn [fst snd] in *.
    apply in_app_or in I as [I|[I|I]]; [now apply H1|discriminate|now apply H2].
  - intros key v H. unfold getCostFactor. now rewrite (S key v H).
  - intros key H. unfold getCostFactor. now rewrite (Q key H).
Qed.
(* A file with a line that has not exactly one tab, for example an empty one, is refused. *)
Theorem C88_wrong_line ls f : Forall (fun l => ~ In 10%N l) ls -> (exists l, In l ls /\ count_occ N.eq_dec l 9%N <> 1) ->
  readFromFile zero atof (Some (concat (map (fun l => l ++ [10%N]) ls))) f = Throw.
Proof using. intros F H. cbn [readFromFile]. rewrite Lines_Proof.lines_full by exact F. now apply read_throws. Qed.
(* Whatever file is read, the factors that the code asks for are there. *)
Theorem C88_defined file f key : readFromFile zero atof file (initial number) = Ok f -> In key used_keys -> exists d, getCostFactor f key = Ok d.
Proof using.
  intros E I. assert (H : find key f <> None).
  { assert (H0 : find key (initial number) <> None).
    { cbn [used_keys map In] in I. repeat (destruct I as [<-|I]; [vm_compute; discriminate|]). destruct I. }
    destruct file as [b|]; cbn [readFromFile] in E; [exact (read_keeps zero atof _ key _ _ E H0)|injection E as <-; exact H0]. }
  unfold getCostFactor. destruct (find key f) as [d|]; [now exists d|congruence].
Qed.
(* Without a file, or with one that cannot be opened, the factors are the documented ones. *)
Theorem C88_defaults : readFromFile zero atof None (initial number) = Ok (initial number) /\
  map (fun k => getCostFactor (initial number) (Conv_Model.bytes k))
    ["FILTER_PUNISH"; "NO_FILTER_PUNISH"; "FILTER_SELECTIVITY"; "HASH_MAP_OPERATION_COST"; "JOIN_SIZE_ESTIMATE_CORRECTION_FACTOR";
     "DUMMY_JOIN_SIZE_ESTIMATE_CORRECTION_FACTOR"; "DISK_RANDOM_ACCESS_COST"]%string =
  [Ok (number 2 0); Ok (number 1 0); Ok (number 0 1); Ok (number 50 0); Ok (number 0 7); Ok (number 1000 0); Ok (number 1000 0)]%N.
Proof using. split; [reflexivity|]. vm_compute. reflexivity. Qed.
End Thm.
(* a factor is set twice, another one is new, a third one keeps its default; an empty line is refused *)
Example C88_example : let k := Conv_Model.bytes "FILTER_PUNISH" in let es := [(k, [49%N]); ([88%N], [50%N]); (k, [51%N])] in
  Forall (fun e => plain (fst e) /\ plain (snd e)) es /\ says es k [51%N] /\ silent es (Conv_Model.bytes "NO_FILTER_PUNISH") /\
  exists f, readFromFile [] (fun v => v) (Some (file_of es)) (initial (fun a b => [a; b])) = Ok f /\ getCostFactor f k = Ok [51%N] /\
    getCostFactor f (Conv_Model.bytes "NO_FILTER_PUNISH") = Ok [1; 0]%N /\ getCostFactor f [89%N] = UB /\
    readFromFile [] (fun v => v) (Some (file_of es ++ [10%N])) (initial (fun a b => [a; b])) = Throw.
Proof.
  cbv zeta. assert (B : Conv_Model.bytes "FILTER_PUNISH" = [70; 73; 76; 84; 69; 82; 95; 80; 85; 78; 73; 83; 72]%N) by (vm_compute; reflexivity). rewrite B.
  assert (P : forall s, forallb (fun c => negb (N.eqb c 9) && negb (N.eqb c 10)) s = true -> plain s).
  { intros s H. rewrite forallb_forall in H. split; intros I; apply H in I; discriminate. }
  split; [repeat constructor; cbn [fst snd]; apply P; reflexivity|]. split; [apply SaysLater, SaysLater, SaysHere; intros v []|].
  split; [intros v I; cbn [In] in I; destruct I as [I|[I|[I|[]]]]; apply (f_equal fst) in I; vm_compute in I; discriminate|].
  eexists. split; [vm_compute; reflexivity|]. repeat split; vm_compute; reflexivity.
Qed.
Print Assumptions C88_read.
Print Assumptions C88_wrong_line.
Print Assumptions C88_defined.
Print Assumptions C88_defaults.
