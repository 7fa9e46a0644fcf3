(** PropRet.v - when Newton's method makes a second attempt (C27); the order given to the step size controller by the extrapolation solver (C79). *)
From Coq Require Import List Arith Bool ZArith QArith Qcanon.
From Verif Require Import Base VecModel VOps MapModel JacModel NewtModel NewtSpec LUModel BroModel.
From Verif Require Import RkModel RkSpec StepModel ExtModel ExtSpec ConvSpec HighSpec XrkModel XrkSpec RetFacts.
Import ListNotations.
Local Open Scope nat_scope.

(** C27.  With the Broyden directions, the lazy one and the one that keeps its Jacobian, run sets the initial guess again at most once, to where it began, and never gives up
    without having done so; with the plain Newton direction and a Jacobian computed each time it never does. *)
Theorem C27_second_attempt : forall (P : Type) (jp : jprov P) (lit : ls_lit QcNum) (mt : nat) (g : vmapping QcNum) (limit : nat),
  (forall (p p' : perf QcNum (S:=bst P)) log st dd, In dd [bro_dd jp; fake_dd jp; hart_dd jp] -> nrun (plain_comps dd lit mt g) limit p = Ret (p', log, st) ->
     (guesses log = [] \/ guesses log = [p_x p]) /\ (st <> NConverged -> st <> NTerminated -> guesses log = [p_x p])) /\
  (forall lazy (p p' : perf QcNum (S:=@BroModel.lst P)) log st, nrun (plain_comps (lazy_dd jp lazy) lit mt g) limit p = Ret (p', log, st) ->
     (guesses log = [] \/ guesses log = [p_x p]) /\ (st <> NConverged -> st <> NTerminated -> guesses log = [p_x p])) /\
  (forall dx jt (p p' : perf QcNum (S:=LUModel.lu)) log st, nrun (plain_comps (const_dd dx jt g) lit mt g) limit p = Ret (p', log, st) ->
     (guesses log = [] \/ guesses log = [p_x p]) /\ (st <> NConverged -> st <> NTerminated -> guesses log = [p_x p])) /\
  (forall dx jt (p p' : perf QcNum (S:=LUModel.lu)) log st, nrun (plain_comps (simple_dd dx jt g) lit mt g) limit p = Ret (p', log, st) -> guesses log = []).
Proof. exact attempts. Qed.
Print Assumptions C27_second_attempt.
(** C79.  lowOrder(), which the step size controller is given, is the order of the extrapolation from the last m - 1 of the m numbers of steps - the value with which the error
    estimate compares the result (C37_step) - for the explicit Euler solver without and for the Gragg solver with the expansion in squares. *)
Theorem C79_reported_low : forall (ns : list nat) (m : nat), 2 <= m -> increasing ns m ->
  (exists big bigstages, wf_table big bigstages 1 /\ order_conditions big bigstages 0 (Z.to_nat (x_low_order 1 m false)) /\ row_sums big bigstages /\
    forall (W Q : Type) (f : Qc -> list Qc -> Outcome (list Qc)) (n : nat) (sq : stepseq Q) (c : xcfg QcNum),
    good_rhs (N:=QcNum) n f -> delivers sq (tl ns) -> xc_stages c = m - 1 -> xc_sym c = false -> (xc_nocheck c = false -> 3 <= m) ->
    steps_by (rk_ref (N:=QcNum) no_events (fun _ : W => f) tab_euler n) sq c n f big bigstages) /\
  forall smooth, exists big bigstages, wf_table big bigstages 1 /\ order_conditions big bigstages 0 (Z.to_nat (x_low_order 2 m true)) /\ row_sums big bigstages /\
    forall (W Q : Type) (f : Qc -> list Qc -> Outcome (list Qc)) (n : nat) (sq : stepseq Q) (c : xcfg QcNum),
    good_rhs (N:=QcNum) n f -> delivers sq (tl ns) -> xc_stages c = m - 1 -> xc_sym c = true -> (xc_nocheck c = false -> 3 <= m) ->
    steps_by (gragg_ref (N:=QcNum) no_events (fun _ : W => f) smooth (1 / qn 2)%Qc (qn 2)) sq c n f big bigstages.
Proof. exact reported_low. Qed.
Print Assumptions C79_reported_low.
(** For any reference solver it is the order reported with one stage fewer. *)
Theorem C79_low_is_previous : forall r m sym, 2 <= m -> x_low_order r m sym = x_order r (m - 1) sym.
Proof. exact low_order_any. Qed.
Print Assumptions C79_low_is_previous.
