(* Proofs for C80: the calls between looks at the timer. *)
From Coq Require Import List NArith ZArith Bool Lia.
From Verif Require Import Timeout_Spec Timeout_Model.
Import ListNotations.
Local Open Scope N_scope.

Section Calls.
Variable n : N.
Hypothesis Hn : 0 < n <= 2 ^ 64.
Definition small (l : list N) := forall x, In x l -> x <= 2 ^ 64 - n.

Lemma calls_split : forall incs i before rest, i < n -> small incs -> after_n_calls n i incs = before ++ rest ->
  exists i' incs', i' < n /\ small incs' /\ rest = after_n_calls n i' incs' /\ (before = [] -> i' = i) /\
    (forall y b, before = b ++ [(y, true)] -> i' = 0).
Proof.
  induction incs as [|x incs IH]; intros i before rest Hi S E.
  - cbn in E. symmetry in E. apply app_eq_nil in E as [-> ->]. exists i, []. split; [auto|]. split; [easy|]. split; [auto|]. split; [auto|]. intros y [|] X; discriminate.
  - destruct before as [|z before].
    + exists i, (x :: incs). split; [auto|]. split; [auto|]. split; [auto|]. split; [auto|]. intros y [|] X; discriminate.
    + assert (S' : small incs) by (intros y Hy; apply S; now right). cbn [after_n_calls] in E.
      destruct (N.leb_spec n ((i + x) mod 2 ^ 64)) as [H|H]; cbn [app] in E; injection E as <- E.
      * destruct (IH 0 before rest) as (i' & incs' & A & B & C & D & F); auto; [lia|]. exists i', incs'. split; [auto|]. split; [auto|]. split; [auto|]. split; [discriminate|].
        intros y [|w b] X; [injection X as X1 X2; auto|]. injection X as _ X. eapply F; eauto.
      * destruct (IH ((i + x) mod 2 ^ 64) before rest) as (i' & incs' & A & B & C & D & F); auto. exists i', incs'. split; [auto|]. split; [auto|]. split; [auto|]. split; [discriminate|].
        intros y [|w b] X; [injection X; discriminate|]. injection X as _ X. eapply F; eauto.
Qed.

Lemma calls_block : forall block incs i rest, i < n -> small incs -> after_n_calls n i incs = block ++ rest ->
  (forall x, In x block -> snd x = false) ->
  i + total (map fst block) < n /\ forall x r, rest = (x, true) :: r -> n <= i + total (map fst block) + x.
Proof.
  induction block as [|[y f] block IH]; intros incs i rest Hi S E F.
  - cbn [map total]. split; [lia|]. intros x r ->. destruct incs as [|z incs]; [discriminate|]. cbn [after_n_calls app] in E.
    assert (z <= 2 ^ 64 - n) by (apply S; now left). rewrite N.mod_small in E by lia.
    destruct (N.leb_spec n (i + z)) as [H1|H1]; injection E as E1 E2; subst; lia || discriminate.
  - destruct incs as [|z incs]; [discriminate|]. cbn [after_n_calls app] in E.
    assert (z <= 2 ^ 64 - n) by (apply S; now left). rewrite N.mod_small in E by lia.
    assert (f = false) as -> by (apply (F (y, f)); now left).
    destruct (N.leb_spec n (i + z)) as [H1|H1]; [discriminate|]. injection E as -> E.
    destruct (IH incs (i + y) rest) as [A B]; auto; [intros x Hx; apply S; now right|intros x Hx; apply F; now right|].
    cbn [map total fst]. split; [lia|]. intros x r Hr. specialize (B x r Hr). lia.
Qed.

Lemma calls_prompt incs : small incs -> prompt n (after_n_calls n 0 incs).
Proof.
  intros S before block after E F. destruct (calls_split incs 0 before (block ++ after)) as (i & incs' & A & B & C & D & G); auto; [lia|].
  destruct (calls_block block incs' i after) as [X Y]; auto. split; [lia|]. intros x after' -> H.
  assert (i = 0) as -> by (destruct H as [H|(y & b & H)]; eauto). specialize (Y x after' eq_refl). lia.
Qed.
End Calls.
