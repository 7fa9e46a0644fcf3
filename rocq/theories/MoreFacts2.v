(** MoreFacts2.v - proofs of further theorems (PropMore2.v). *)
From Coq Require Import List Arith Bool ZArith QArith Qcanon Lia.
From Verif Require Import Base SMap SpModel LUModel LUSpec LUFacts2 VecModel VOps RkModel RkSpec StepSpec ExtModel ExtSpec ExtFacts5.
Import ListNotations.
Local Open Scope nat_scope.
Lemma failed_call : forall (st : lu) (e : entries),
  (mat_nr e <> mat_nc e -> setMatrix e = Throw /\ setMatrix_after_throw st e = st) /\
  (mat_nr e = mat_nc e -> let st' := setMatrix_after_throw st e in
     ul st' = ul st /\ uu st' = uu st /\ ufact st' = ufact st /\ yal (ulay st') = yal (ulay st) /\ yau (ulay st') = yau (ulay st) /\ length (yp (ulay st')) = mat_nr e).
Proof.
  intros st e. unfold setMatrix, setMatrix_after_throw. split.
  - intros NE. apply Nat.eqb_neq in NE. rewrite NE. split; reflexivity.
  - intros E. rewrite E, Nat.eqb_refl. cbn [negb ul uu ufact ulay yal yau yp]. repeat split. apply scan_p_spec.
Qed.
Lemma set_only : forall (W : Type) (f : W -> Qc -> list Qc -> Outcome (list Qc)) (n : nat) (w : W) (t : Qc) (x : list Qc), good_rhs (N:=QcNum) n (f w) -> length x = n ->
  forall count (s : gst QcNum W), g_w s = w ->
  g_state (N:=QcNum) true (1 / qn 2)%Qc (g_set (N:=QcNum) t x s) = Ret x /\
  exists s' y slope, g_steps (N:=QcNum) no_events f (qn 2) count (g_set (N:=QcNum) t x s) = Some s' /\
    y 0 = x /\ midpoint n (f w) t (g_h s) y slope (2 * count) /\ g_t s' = (t + qn count * g_h s)%Qc /\ g_u s' = y (2 * count) /\ g_w s' = w.
Proof.
  intros W f n w t x G L count s E. split; [reflexivity|].
  destruct (gragg_steps f n w t (g_h s) x G L count s E) as (s' & y & slope & R & Y & M & T & U & V & _).
  exists s', y, slope. split; [exact R|]. auto 10.
Qed.
