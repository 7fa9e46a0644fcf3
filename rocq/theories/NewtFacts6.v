(** NewtFacts6.v - the log of NewtonSolver::run is the sequence of calls made. *)
From Coq Require Import List Arith Bool Lia.
From Verif Require Import Base BaseFacts NewtModel NewtSpec NewtFacts NewtFacts3.
Import ListNotations.
Local Open Scope nat_scope.

Section Calls.
Context {N : Num} {S : Type} (c : comps N S).
Notation event := (event N).
Lemma calls_app (a b : list event) : forall s1 s2 s3, calls c a s1 s2 -> calls c b s2 s3 -> calls c (a ++ b) s1 s3.
Proof.
  induction a as [|e a I]; intros s1 s2 s3 A B; simpl in A.
  - subst. exact B.
  - destruct A as [m [A1 A2]]. exists m. split; [exact A1|]. exact (I _ _ _ A2 B).
Qed.
Lemma attempt_calls : forall k it bias tried s log s' log' it' st, attempt c k it bias tried s log = Ret (s', log', it', st) ->
  exists new, log' = log ++ new /\ calls c new s s'.
Proof.
  induction k as [|k I]; intros it bias tried s log s' log' it' st E; simpl in E.
  { inversion E; subst. exists []. rewrite app_nil_r. split; reflexivity. }
  binv E. binv E. destruct r as [s1 e1], r0 as [s2 stop]. simpl in *. destruct stop.
  { inversion E; subst. eexists. split; [reflexivity|]. simpl. eexists. split; [eassumption|]. eexists. split; [eassumption|]. reflexivity. }
  binv E. destruct r as [s3 ag]. simpl in E.
  assert (C3 : calls c [EvIter it e1; EvObs (it + bias) false; EvAdjust ag] s s3).
  { simpl. exists s1. split; [assumption|]. exists s2. split; [assumption|]. exists s3. split; [assumption|]. reflexivity. }
  assert (REC : attempt c k (Datatypes.S it) bias tried s3 ((log ++ [EvIter it e1; EvObs (it + bias) false]) ++ [EvAdjust ag]) = Ret (s', log', it', st) ->
    exists new, log' = log ++ new /\ calls c new s s').
  { intros H. destruct (I _ _ _ _ _ _ _ _ _ H) as [new [A B]].
    exists ([EvIter it e1; EvObs (it + bias) false; EvAdjust ag] ++ new). split; [rewrite A, <- !app_assoc; reflexivity|].
    exact (calls_app _ _ _ _ _ C3 B). }
  assert (FIN : forall b, calls c ([EvIter it e1; EvObs (it + bias) false; EvAdjust ag] ++ [EvReport b]) s (c_report c b s3)).
  { intros b. apply (calls_app _ _ _ _ _ C3). simpl. eexists. split; reflexivity. }
  destruct e1; [destruct ag; [auto|]|auto|destruct ag; [auto|]]; inversion E; subst; eexists; (split; [rewrite <- !app_assoc; reflexivity|apply FIN]).
Qed.
Lemma run_calls limit s s' log st : nrun c limit s = Ret (s', log, st) ->
  exists s0, c_reset c s = Ret s0 /\ calls c log s0 s' /\
    (guesses log = [] \/ exists l1 l2 s1, log = l1 ++ EvGuess (c_sol c s0) :: l2 /\ guesses l1 = [] /\ calls c l1 s0 s1 /\ c_help c s1 = true) /\
    (st = NLimit -> guesses log = [] -> exists l1 s1, log = l1 ++ [EvReport false] /\ calls c l1 s0 s1 /\ c_help c s1 = false).
Proof.
  unfold nrun. intros E. binv E. rename r into s0. exists s0. split; [assumption|]. binv E. destruct r as [[[s1 log1] it1] st1].
  destruct (attempt_calls _ _ _ _ _ _ _ _ _ _ E1) as [n1 [L1 C1]]. simpl in L1. subst log1.
  destruct (attempt_ok c _ _ _ _ _ _ _ _ _ _ E1) as [n1' [a [L1 [_ F1]]]]. simpl in L1. subst n1'.
  destruct F1 as [_ [_ [_ [G1 [_ M1]]]]].
  destruct st1 as [st1|].
  { inversion E; subst. split; [assumption|]. split; [left; assumption|]. intros ->. destruct M1. }
  destruct (c_help c s1) eqn:HP.
  - binv E. rename r into s2. binv E. destruct r as [[[s3 log3] it3] st3].
    destruct (attempt_calls _ _ _ _ _ _ _ _ _ _ E3) as [n2 [L2 C2]]. subst log3.
    assert (CA : calls c ((n1 ++ [EvGuess (c_sol c s0)]) ++ n2) s0 s3).
    { refine (calls_app _ _ _ _ _ (calls_app _ _ _ _ _ C1 _) C2). simpl. exists s2. split; [assumption|reflexivity]. }
    assert (GN : forall l : list event, guesses (((n1 ++ [EvGuess (c_sol c s0)]) ++ n2) ++ l) <> []).
    { intros l H. unfold guesses in H. rewrite !flat_map_app in H. apply app_eq_nil in H. destruct H as [H _]. apply app_eq_nil in H. destruct H as [H _].
      apply app_eq_nil in H. destruct H as [_ H]. discriminate. }
    destruct st3 as [st3|]; inversion E; subst.
    + split; [assumption|]. split; [|intros _ H; specialize (GN []); rewrite app_nil_r in GN; contradiction].
      right. exists n1, n2, s1. rewrite <- app_assoc. repeat split; assumption.
    + split; [apply (calls_app _ _ _ _ _ CA); simpl; eexists; split; reflexivity|]. split; [|intros _ H; elim (GN _ H)].
      right. exists n1, (n2 ++ [EvReport false]), s1. rewrite <- !app_assoc. repeat split; assumption.
  - inversion E; subst. split; [apply (calls_app _ _ _ _ _ C1); simpl; eexists; split; reflexivity|]. split.
    + left. unfold guesses. rewrite flat_map_app. fold (guesses n1). rewrite G1. reflexivity.
    + intros _ _. exists n1, s1. repeat split; assumption.
Qed.
End Calls.
