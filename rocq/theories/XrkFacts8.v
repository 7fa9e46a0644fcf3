(** XrkFacts8.v - the reported order and the step sequences of the library. *)
From Coq Require Import List Arith Bool ZArith QArith Qcanon Lia.
From Verif Require Import Base BaseFacts VecModel VOps RkModel RkSpec RkFacts RkFacts6 StepModel ExtModel ExtSpec ExtFacts2 XrkModel XrkSpec XrkFacts6.
Import ListNotations.
Local Open Scope nat_scope.

Theorem reported_order : forall (ns : list nat) (m : nat), 1 <= m -> increasing ns m ->
  (exists big bigstages, wf_table big bigstages 1 /\ order_conditions big bigstages 0 (Z.to_nat (x_order 1 m false)) /\ row_sums big bigstages /\
    forall (W Q : Type) (f : Qc -> list Qc -> Outcome (list Qc)) (n : nat) (sq : stepseq Q) (c : xcfg QcNum),
    good_rhs (N:=QcNum) n f -> delivers sq ns -> xc_stages c = m -> xc_sym c = false -> (xc_nocheck c = false -> 2 <= m) ->
    steps_by (rk_ref (N:=QcNum) no_events (fun _ : W => f) tab_euler n) sq c n f big bigstages) /\
  forall smooth, exists big bigstages, wf_table big bigstages 1 /\ order_conditions big bigstages 0 (Z.to_nat (x_order 2 m true)) /\ row_sums big bigstages /\
    forall (W Q : Type) (f : Qc -> list Qc -> Outcome (list Qc)) (n : nat) (sq : stepseq Q) (c : xcfg QcNum),
    good_rhs (N:=QcNum) n f -> delivers sq ns -> xc_stages c = m -> xc_sym c = true -> (xc_nocheck c = false -> 2 <= m) ->
    steps_by (gragg_ref (N:=QcNum) no_events (fun _ : W => f) smooth (1 / qn 2)%Qc (qn 2)) sq c n f big bigstages.
Proof.
  intros ns m M1 INC. split.
  - replace (Z.to_nat (x_order 1 m false)) with m by (unfold x_order; lia). exact (rk_extrapolated tab_euler 1 ns m wf_euler eq_refl ord_euler rows_euler M1 INC).
  - intros smooth. replace (Z.to_nat (x_order 2 m true)) with (gragg_order true m) by (unfold x_order, gragg_order; lia). apply gragg_extrapolated; assumption.
Qed.
Theorem library_sequences : forall m, 1 <= m ->
  ((Z.of_nat m < int_max)%Z -> exists ns, delivers harmonic ns /\ increasing ns m) /\
  (m <= 30 -> exists ns, delivers romberg ns /\ increasing ns m) /\
  (m <= 59 -> exists ns, delivers bulirsch ns /\ increasing ns m).
Proof.
  intros m M.
  assert (G : forall (Q : Type) (sq : stepseq Q) g, (forall q, exists q', sq_take sq m (sq_reset sq q) = Ret (map g (seq 0 m), q')) -> delivers sq (map Z.to_nat (map g (seq 0 m)))).
  { intros Q sq g H q. destruct (H q) as (q' & E). exists (map g (seq 0 m)), q'. rewrite !map_length, seq_length. split; [exact E|reflexivity]. }
  split; [|split]; intros H.
  - eexists. split; [apply G; intros q; apply harmonic_take; exact H|]. apply inc_seq; [exact harmonic_inc|reflexivity|lia].
  - eexists. split; [apply G; intros q; apply romberg_take; exact H|]. apply inc_seq; [exact romberg_inc|reflexivity|lia].
  - eexists. split; [apply G; intros q; apply bulirsch_take; exact H|]. apply inc_seq; [exact bulirsch_inc|reflexivity|lia].
Qed.
