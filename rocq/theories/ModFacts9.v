(** ModFacts9.v - what the impact handler of the ball does to a state. *)
From Coq Require Import List Arith Lia ZArith QArith Qcanon.
From Verif Require Import Base BaseFacts VecModel VOps RkModel RkSpec EvModel ModModel ModSpec.
Import ListNotations.
Local Open Scope nat_scope.

Lemma landing (b : ball QcNum) sticking trs t y v :
  ((v < 0)%Qc -> (b_s b <= - v)%Qc -> ball_switch b sticking trs t [y; v] = Ret (sticking, [y; (- (b_r b * v))%Qc])) /\
  ((v < 0)%Qc -> (- v < b_s b)%Qc -> ball_switch b sticking trs t [y; v] = Ret (true, [0%Qc; 0%Qc])) /\
  ((0 <= v)%Qc -> ball_switch b sticking trs t [y; v] = Ret (true, [0%Qc; 0%Qc])).
Proof.
  assert (AB : forall u, (u < 0)%Qc -> nabs QcNum u = (- u)%Qc).
  { intros u H. cbn [nabs QcNum]. unfold Qcabs. destruct (Qcltb u 0) eqn:E; [reflexivity|].
    exfalso. apply Qcltb_ge in E. exact (Qcle_not_lt _ _ E H). }
  unfold ball_switch, ball_stick, rdat, wrat. cbn [nth_error obind length Nat.ltb Nat.leb].
  repeat split.
  - intros H1 H2. rewrite (AB v H1). cbn [nltb QcNum n0 nopp nmul].
    replace (Qcltb (- v) (b_s b)) with false by (symmetry; apply Qcltb_ge; exact H2).
    replace (Qcltb v 0) with true by (symmetry; apply Qcltb_lt; exact H1).
    cbn. do 4 f_equal. ring.
  - intros H1 H2. rewrite (AB v H1). cbn [nltb QcNum n0 nopp nmul].
    replace (Qcltb (- v) (b_s b)) with true by (symmetry; apply Qcltb_lt; exact H2). reflexivity.
  - intros H. destruct (nltb QcNum (nabs QcNum v) (b_s b)); [reflexivity|]. cbn [nltb QcNum n0].
    replace (Qcltb v 0) with false by (symmetry; apply Qcltb_ge; exact H). reflexivity.
Qed.
