(** ImpFacts5.v - which initial guesses of the implicit solver come with a hard reset. *)
From Coq Require Import List Arith Bool.
From Verif Require Import Base VecModel VOps MapModel NewtModel RkModel StepModel ImpModel ImpSpec.
Import ListNotations.
Local Open Scope nat_scope.

Section Spy.
Context {N : Num} {W P S : Type} (ev : events N W) (nw : newton N S) (c : icfg N W P).
Lemma ifail_done {A} (s0 : ist N W P (S * list bool)) (o : Outcome A) k s' a : ifail s0 o k = (s', IDone a) -> exists x, o = Ret x /\ k x = (s', IDone a).
Proof. destruct o; cbn [ifail]; intros H; try discriminate H. eauto. Qed.
Lemma spy_step s s' a : i_step ev (spy nw) c s = (s', IDone a) -> snd (i_nw s') = snd (i_nw s) ++ [i_hard s] /\ i_hard s' = false.
Proof.
  unfold i_step. intros H.
  apply ifail_done in H. destruct H as [[xp [pr1 w1]] [_ H]].
  apply ifail_done in H. destruct H as [e0 [_ H]].
  apply ifail_done in H. destruct H as [e1 [_ H]].
  apply ifail_done in H. destruct H as [n2 [G H]].
  apply ifail_done in H. destruct H as [w2 [_ H]].
  apply ifail_done in H. destruct H as [w3 [_ H]].
  apply ifail_done in H. destruct H as [[n3 status] [R H]].
  cbn [spy nw_guess] in G. destruct (nw_guess nw e1 (i_hard s) (fst (i_nw s))) as [n| |]; cbn [obind] in G; try discriminate G. injection G as <-.
  cbn [spy nw_run fst snd] in R. destruct (nw_run nw _ n) as [[n' st']| |]; cbn [obind fst snd] in R; try discriminate R. injection R as <- <-.
  destruct st'; try discriminate H.
  apply ifail_done in H. destruct H as [e2 [_ H]].
  apply ifail_done in H. destruct H as [x2 [_ H]].
  apply ifail_done in H. destruct H as [[w4 er] [_ H]].
  injection H as <- _. cbn [i_nw i_hard]. split; [|reflexivity]. destruct (ev_trunc er); reflexivity.
Qed.
Lemma spy_steps : forall count s s', i_steps ev (spy nw) c count s = Some s' -> i_hard s = false -> snd (i_nw s') = snd (i_nw s) ++ repeat false count.
Proof.
  induction count as [|k I]; intros s s' H F; cbn [i_steps repeat] in *.
  - injection H as <-. rewrite app_nil_r. reflexivity.
  - destruct (i_step ev (spy nw) c s) as [s1 [a| | |]] eqn:E; try discriminate H.
    destruct (spy_step _ _ _ E) as [A B]. rewrite (I _ _ H B), A, F, <- app_assoc. reflexivity.
Qed.
Theorem hard_once : forall count t x soft s s', i_steps ev (spy nw) c (Datatypes.S count) (i_set t x soft s) = Some s' ->
  snd (i_nw s') = snd (i_nw s) ++ (if soft then i_hard s else true) :: repeat false count.
Proof.
  intros count t x soft s s' H. cbn [i_steps] in H.
  destruct (i_step ev (spy nw) c (i_set t x soft s)) as [s1 [a| | |]] eqn:E; try discriminate H.
  destruct (spy_step _ _ _ E) as [A B]. rewrite (spy_steps _ _ _ H B), A, <- app_assoc. reflexivity.
Qed.
End Spy.
