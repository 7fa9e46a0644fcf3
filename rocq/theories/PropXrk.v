(** PropXrk.v - the order of the extrapolation solver (C79). *)
From Coq Require Import List Arith ZArith QArith Qcanon Reals.
From Verif Require Import Base VecModel VOps RkModel RkSpec StepModel ExtModel ExtSpec ConvSpec HighSpec ImcSpec XrkModel XrkSpec XrkFacts6 XrkFacts7 XrkFacts8.
Import ListNotations.
Local Open Scope nat_scope.

(** C79: with a consistent Runge-Kutta reference solver, every accepted step of the extrapolation solver with m stages is a step of one and the same
    Runge-Kutta method, whatever the right-hand side, the state, the step size, the rejected attempts and the error control; and that method satisfies
    all order conditions up to order m. *)
Theorem C79_rk_table : forall (co : coeffs QcNum) (stages : nat) (ns : list nat) (m : nat),
  wf_table co stages 1 -> co_last co = (-1)%Z -> order_conditions co stages 0 1 -> row_sums co stages -> 1 <= m -> increasing ns m ->
  exists big bigstages, wf_table big bigstages 1 /\ order_conditions big bigstages 0 m /\ row_sums big bigstages /\
    forall (W Q : Type) (f : Qc -> list Qc -> Outcome (list Qc)) (n : nat) (sq : stepseq Q) (c : xcfg QcNum),
    good_rhs (N:=QcNum) n f -> delivers sq ns -> xc_stages c = m -> xc_sym c = false -> (xc_nocheck c = false -> 2 <= m) ->
    steps_by (rk_ref (N:=QcNum) no_events (fun _ : W => f) co n) sq c n f big bigstages.
Proof. exact rk_extrapolated. Qed.
Print Assumptions C79_rk_table.
(** With the Gragg solver, with or without smoothing, the order is 2 m if the expansion in squares is declared. *)
Theorem C79_gragg_table : forall (smooth sym : bool) (ns : list nat) (m : nat), 1 <= m -> increasing ns m ->
  exists big bigstages, wf_table big bigstages 1 /\ order_conditions big bigstages 0 (gragg_order sym m) /\ row_sums big bigstages /\
    forall (W Q : Type) (f : Qc -> list Qc -> Outcome (list Qc)) (n : nat) (sq : stepseq Q) (c : xcfg QcNum),
    good_rhs (N:=QcNum) n f -> delivers sq ns -> xc_stages c = m -> xc_sym c = sym -> (xc_nocheck c = false -> 2 <= m) ->
    steps_by (gragg_ref (N:=QcNum) no_events (fun _ : W => f) smooth (1 / qn 2)%Qc (qn 2)) sq c n f big bigstages.
Proof. exact gragg_extrapolated. Qed.
Print Assumptions C79_gragg_table.
(** The order the solver reports is the one it has, for the explicit Euler solver without and for the Gragg solver with the expansion in squares. *)
Theorem C79_reported : forall (ns : list nat) (m : nat), 1 <= m -> increasing ns m ->
  (exists big bigstages, wf_table big bigstages 1 /\ order_conditions big bigstages 0 (Z.to_nat (x_order 1 m false)) /\ row_sums big bigstages /\
    forall (W Q : Type) (f : Qc -> list Qc -> Outcome (list Qc)) (n : nat) (sq : stepseq Q) (c : xcfg QcNum),
    good_rhs (N:=QcNum) n f -> delivers sq ns -> xc_stages c = m -> xc_sym c = false -> (xc_nocheck c = false -> 2 <= m) ->
    steps_by (rk_ref (N:=QcNum) no_events (fun _ : W => f) tab_euler n) sq c n f big bigstages) /\
  forall smooth, exists big bigstages, wf_table big bigstages 1 /\ order_conditions big bigstages 0 (Z.to_nat (x_order 2 m true)) /\ row_sums big bigstages /\
    forall (W Q : Type) (f : Qc -> list Qc -> Outcome (list Qc)) (n : nat) (sq : stepseq Q) (c : xcfg QcNum),
    good_rhs (N:=QcNum) n f -> delivers sq ns -> xc_stages c = m -> xc_sym c = true -> (xc_nocheck c = false -> 2 <= m) ->
    steps_by (gragg_ref (N:=QcNum) no_events (fun _ : W => f) smooth (1 / qn 2)%Qc (qn 2)) sq c n f big bigstages.
Proof. exact reported_order. Qed.
Print Assumptions C79_reported.
(** The step sequences of the library deliver increasing numbers of steps: the harmonic one for every number of stages below 2^31 - 1, the Romberg one up
    to 30 stages, the Bulirsch one up to 59. *)
Theorem C79_sequences : forall m, 1 <= m ->
  ((Z.of_nat m < 2147483647)%Z -> exists ns, delivers harmonic ns /\ increasing ns m) /\
  (m <= 30 -> exists ns, delivers romberg ns /\ increasing ns m) /\
  (m <= 59 -> exists ns, delivers bulirsch ns /\ increasing ns m).
Proof. exact library_sequences. Qed.
Print Assumptions C79_sequences.
Local Open Scope R_scope.
(** Convergence with that order: there is one constant C such that after every sequence of doStep calls whose steps have sizes in (0, H] and that stays
    within the interval the solver delivers the solution up to C (d + H^m), d being the error of the initial state. *)
Theorem C79_rk_convergence : forall g n L X t0 T co stages (ns : list nat) (m : nat),
  wf_table co stages 1 -> co_last co = (-1)%Z -> order_conditions co stages 0 1 -> row_sums co stages -> (1 <= m)%nat -> increasing ns m ->
  sized n g -> 0 <= L -> lipschitz n L g -> 0 <= T -> solves n g X t0 (t0 + T) -> smooth_along n m g X t0 (t0 + T) ->
  exists C, 0 <= C /\ forall (W Q : Type) f (sq : stepseq Q) (c : xcfg QcNum) (s s' : xst QcNum (Qc * rkst QcNum W) Q) l H d,
    computes_rhs n f g -> delivers sq ns -> xc_stages c = m -> xc_sym c = false -> (xc_nocheck c = false -> (2 <= m)%nat) ->
    x_run (rk_ref (N:=QcNum) no_events (fun _ : W => f) co n) sq c s l s' -> length (x_x s) = n -> q2r (x_t s) = t0 -> 0 <= d -> near n (toR (x_x s)) (X t0) d ->
    Forall (fun h => 0 < q2r h <= H) l -> 0 <= H -> total (map q2r l) <= T ->
    q2r (x_t s') = t0 + total (map q2r l) /\ near n (toR (x_x s')) (X (q2r (x_t s'))) (C * (d + H ^ m)).
Proof. exact rk_convergence. Qed.
Print Assumptions C79_rk_convergence.
Theorem C79_gragg_convergence : forall g n L X t0 T (smooth sym : bool) (ns : list nat) (m p : nat), (1 <= m)%nat -> increasing ns m -> p = gragg_order sym m ->
  sized n g -> 0 <= L -> lipschitz n L g -> 0 <= T -> solves n g X t0 (t0 + T) -> smooth_along n p g X t0 (t0 + T) ->
  exists C, 0 <= C /\ forall (W Q : Type) f (sq : stepseq Q) (c : xcfg QcNum) (s s' : xst QcNum (gst QcNum W) Q) l H d,
    computes_rhs n f g -> delivers sq ns -> xc_stages c = m -> xc_sym c = sym -> (xc_nocheck c = false -> (2 <= m)%nat) ->
    x_run (gragg_ref (N:=QcNum) no_events (fun _ : W => f) smooth (1 / qn 2)%Qc (qn 2)) sq c s l s' -> length (x_x s) = n -> q2r (x_t s) = t0 -> 0 <= d -> near n (toR (x_x s)) (X t0) d ->
    Forall (fun h => 0 < q2r h <= H) l -> 0 <= H -> total (map q2r l) <= T ->
    q2r (x_t s') = t0 + total (map q2r l) /\ near n (toR (x_x s')) (X (q2r (x_t s'))) (C * (d + H ^ p)).
Proof. exact gragg_convergence. Qed.
Print Assumptions C79_gragg_convergence.
