(** PropExt.v - C37, C38, C39, C59: extrapolation, step sequences, the Gragg solver. *)
From Coq Require Import List Arith Bool ZArith QArith Qcanon.
From Verif Require Import Base VecModel VOps RkModel RkSpec StepModel StepSpec ExtModel ExtSpec ExtFacts ExtFacts2 ExtFacts3 ExtFacts4 ExtFacts5.
Import ListNotations.
Local Open Scope nat_scope.

(** C37.  The table after the loops: entry i is, component by component, the value at zero of the polynomial through the results i, i+1, ..., stages-1. *)
Theorem C37_table : forall (sym : bool) (ns : list nat) (stages n : nat), increasing ns stages -> 1 <= stages ->
  forall (Ts : list (list Qc)), table Ts stages n ->
  exists Ts', neville (N:=QcNum) sym ns stages Ts = Ret Ts' /\ length Ts' = length Ts /\ table Ts' stages n /\
    forall i c, i < stages -> c < n -> cmp_ (nth i Ts' []) c = extrap (fun k => node sym (nth k ns 0)) (fun k => cmp_ (nth k Ts []) c) i (stages - 1 - i).
Proof. exact neville_table. Qed.
Print Assumptions C37_table.
(** Neville's recursion does what its name says: through values of a polynomial of degree at most k at k + 1 different points it gives the value of that polynomial at zero. *)
Theorem C37_interpolation : forall (x : nat -> Qc) (m : nat), (forall i j, i < j -> j < m -> x i <> x j) ->
  forall (p : list Qc) k a, a + k < m -> length p <= S k -> extrap x (fun i => peval p (x i)) a k = peval p 0%Qc.
Proof. exact extrap_exact. Qed.
Print Assumptions C37_interpolation.
(** Results that are values of a polynomial of degree < stages in 1/n (1/n^2 if symmetric): the first entry is its value at zero; of degree < stages - 1: the second too. *)
Theorem C37_exact : forall (sym : bool) (ns : list nat) (stages n : nat), increasing ns stages -> 1 <= stages ->
  forall (Ts : list (list Qc)) (P : nat -> list Qc), table Ts stages n ->
  (forall k c, k < stages -> c < n -> cmp_ (nth k Ts []) c = peval (P c) (node sym (nth k ns 0))) ->
  exists Ts', neville (N:=QcNum) sym ns stages Ts = Ret Ts' /\
    (forall c, c < n -> length (P c) <= stages -> cmp_ (nth 0 Ts' []) c = peval (P c) 0%Qc) /\
    (forall c, c < n -> 2 <= stages -> length (P c) <= stages - 1 -> cmp_ (nth 1 Ts' []) c = peval (P c) 0%Qc).
Proof. exact neville_exact. Qed.
Print Assumptions C37_exact.
(** A step of the solver, any reference solver, any step sequence: the new state is extrapolated from the results of the reference solver, all started from the
    state before the step, and the error is the norm of the difference from the extrapolation without the coarsest result. *)
Theorem C37_step : forall (S Q : Type) (rs : refsolver QcNum S) (sq : stepseq Q) (ev : events QcNum S) (c : xcfg QcNum) (n : nat) (s : xst QcNum S Q) (h : Qc) next (err : Qc) w,
  seq_ok sq (xc_stages c) -> ref_safe rs n -> length (x_x s) = n -> 1 <= xc_stages c -> (xc_nocheck c = false -> 2 <= xc_stages c) ->
  x_computed (N:=QcNum) rs sq ev c s h next err w ->
  exists w0 q0 zs q1, ev_start ev (x_x s) (x_t s) (x_s s) = Ret w0 /\ sq_take sq (xc_stages c) (sq_reset sq q0) = Ret (zs, q1) /\ increasing (map Z.to_nat zs) (xc_stages c) /\
    extrapolated rs (xc_sym c) (xc_nocheck c) (xc_stages c) n (xc_norm c) (x_t s) (x_x s) h (map Z.to_nat zs) w0 w next err.
Proof. exact @x_value. Qed.
Print Assumptions C37_step.
Theorem C37_step_exact : forall (S : Type) (rs : refsolver QcNum S) sym nocheck stages n norm (t : Qc) x (h : Qc) ns s s' next err (P : nat -> list Qc),
  increasing ns stages -> 1 <= stages -> extrapolated rs sym nocheck stages n norm t x h ns s s' next err ->
  (forall k s1 s2 v, In k ns -> ref_result (N:=QcNum) rs t x h k s1 s2 v -> forall c, c < n -> cmp_ v c = peval (P c) (node sym k)) ->
  forall c, c < n -> length (P c) <= stages -> cmp_ next c = peval (P c) 0%Qc.
Proof. exact @x_poly. Qed.
Print Assumptions C37_step_exact.
(** The library's fixed-step Runge-Kutta solvers as reference solvers: the result with k steps is k textbook steps of size h/k, from any state of the solver. *)
Theorem C37_rk_reference : forall (W : Type) (f : W -> Qc -> list Qc -> Outcome (list Qc)) (co : coeffs QcNum) (stages n : nat), wf_table co stages 1 -> co_last co = (-1)%Z ->
  forall w (t : Qc) x (h : Qc) k (s : Qc * rkst QcNum W), good_rhs (N:=QcNum) n (f w) -> rk_w (snd s) = w -> length x = n ->
  exists s' v traj, ref_result (N:=QcNum) (rk_ref (N:=QcNum) no_events f co n) t x h k s s' v /\ rk_w (snd s') = w /\ traj 0 = (t, x) /\ snd (traj k) = v /\
    forall i, i < k -> textbook_step co stages n (f w) (h / qn k)%Qc (traj i) (traj (S i)).
Proof. exact @rk_reference. Qed.
Print Assumptions C37_rk_reference.
Theorem C37_gragg_reference : forall (W : Type) (f : W -> Qc -> list Qc -> Outcome (list Qc)) (n : nat) (smooth : bool) (w : W) (t : Qc) (x : list Qc) (h : Qc) (k : nat) (s : gst QcNum W),
  good_rhs (N:=QcNum) n (f w) -> g_w s = w -> length x = n -> 0 < k ->
  exists s' v y slope, ref_result (N:=QcNum) (gragg_ref (N:=QcNum) no_events f smooth (1 / qn 2)%Qc (qn 2)) t x h k s s' v /\ g_w s' = w /\ y 0 = x /\
    midpoint n (f w) t (h / qn k)%Qc y slope (2 * k) /\
    forall c, c < n -> cmp_ v c = if smooth then ((cmp_ (y (2 * k - 1)%nat) c + qn 2 * cmp_ (y (2 * k)%nat) c + cmp_ (y (2 * k + 1)%nat) c) / qn 4)%Qc else cmp_ (y (2 * k)%nat) c.
Proof. exact @gragg_reference. Qed.
Print Assumptions C37_gragg_reference.

(** C38.  The values after a reset, as long as they fit an int: 1, 2, 3, ...; 1, 2, 4, 8, ...; 1, 2, 3, 4, 6, 8, 12, 16, ... *)
Theorem C38_values : forall count,
  ((Z.of_nat count < 2147483647)%Z -> forall q, exists q', sq_take harmonic count (sq_reset harmonic q) = Ret (map seq_harmonic (seq 0 count), q')) /\
  (count <= 30 -> forall q, exists q', sq_take romberg count (sq_reset romberg q) = Ret (map seq_romberg (seq 0 count), q')) /\
  (count <= 59 -> forall q, exists q', sq_take bulirsch count (sq_reset bulirsch q) = Ret (map seq_bulirsch (seq 0 count), q')).
Proof. intros count. exact (conj (fun H q => harmonic_take q count H) (conj (fun H q => romberg_take q count H) (fun H q => bulirsch_take q count H))). Qed.
Print Assumptions C38_values.
Theorem C38_increasing : forall a b, a < b -> (seq_harmonic a < seq_harmonic b)%Z /\ (seq_romberg a < seq_romberg b)%Z /\ (seq_bulirsch a < seq_bulirsch b)%Z.
Proof. exact (fun a b H => conj (harmonic_inc a b H) (conj (romberg_inc a b H) (bulirsch_inc a b H))). Qed.
Print Assumptions C38_increasing.
Theorem C38_at_least : forall k, (Z.of_nat k + 1 <= seq_harmonic k)%Z /\ (Z.of_nat k + 1 <= seq_romberg k)%Z /\ (Z.of_nat k + 1 <= seq_bulirsch k)%Z.
Proof. exact (fun k => conj (inc_ge _ harmonic_inc eq_refl k) (conj (inc_ge _ romberg_inc eq_refl k) (inc_ge _ bulirsch_inc eq_refl k))). Qed.
Print Assumptions C38_at_least.
Theorem C38_usable : forall m, 0 < m -> ((Z.of_nat m < 2147483647)%Z -> seq_ok harmonic m) /\ (m <= 30 -> seq_ok romberg m) /\ (m <= 59 -> seq_ok bulirsch m).
Proof. exact seqs_ok. Qed.
Print Assumptions C38_usable.

(** C39.  From setInitialState and a step size: after any number of steps the state is y_{2k} of the modified midpoint rule with substep h/2 and time is t + k h; the
    smoothed state is (y_{2k-1} + 2 y_{2k} + y_{2k+1})/4. *)
Theorem C39_midpoint : forall (W : Type) (f : W -> Qc -> list Qc -> Outcome (list Qc)) (n : nat) (w : W) (t h : Qc) (x : list Qc), good_rhs (N:=QcNum) n (f w) -> length x = n ->
  forall count (s : gst QcNum W), g_w s = w ->
  exists s' y slope, g_steps (N:=QcNum) no_events f (qn 2) count (g_size (N:=QcNum) h (g_set (N:=QcNum) t x s)) = Some s' /\
    y 0 = x /\ midpoint n (f w) t h y slope (2 * count) /\ g_t s' = (t + qn count * h)%Qc /\ g_u s' = y (2 * count) /\ g_w s' = w /\
    (forall half, g_state (N:=QcNum) false half s' = Ret (y (2 * count))) /\
    (0 < count -> exists z, g_state (N:=QcNum) true (1 / qn 2)%Qc s' = Ret z /\ length z = n /\
       forall c, c < n -> cmp_ z c = ((cmp_ (y (2 * count - 1)%nat) c + qn 2 * cmp_ (y (2 * count)%nat) c + cmp_ (y (2 * count + 1)%nat) c) / qn 4)%Qc).
Proof. exact @gragg_steps. Qed.
Print Assumptions C39_midpoint.
(** In the middle of a run, whatever came before: a new step size restarts the rule at the current time and state. *)
Theorem C39_new_size : forall (W : Type) (f : W -> Qc -> list Qc -> Outcome (list Qc)) (n : nat) (h : Qc) (s : gst QcNum W), good_rhs (N:=QcNum) n (f (g_w s)) -> length (g_u s) = n ->
  forall count, exists s' y slope, g_steps (N:=QcNum) no_events f (qn 2) count (g_size (N:=QcNum) h s) = Some s' /\
    y 0 = g_u s /\ midpoint n (f (g_w s)) (g_t s) h y slope (2 * count) /\ g_t s' = (g_t s + qn count * h)%Qc /\ g_u s' = y (2 * count) /\ g_w s' = g_w s /\
    (forall half, g_state (N:=QcNum) false half s' = Ret (y (2 * count))) /\
    (0 < count -> exists z, g_state (N:=QcNum) true (1 / qn 2)%Qc s' = Ret z /\ length z = n /\
       forall c, c < n -> cmp_ z c = ((cmp_ (y (2 * count - 1)%nat) c + qn 2 * cmp_ (y (2 * count)%nat) c + cmp_ (y (2 * count + 1)%nat) c) / qn 4)%Qc).
Proof. exact @gragg_new_size. Qed.
Print Assumptions C39_new_size.
(** One step in any arithmetic with any event controller: an exception leaves time and state as they were; otherwise the event controller decides where the step ends,
    and a truncated step restarts the recursion. *)
Theorem C39_step : forall (N : Num) (W : Type) (ev : events N W) f two (s s' : gst N W) r, g_step ev f two s = (s', r) ->
  match r with
  | GRet a => exists w1 f1 mid next er, ev_start ev (g_u s) (g_t s) (g_w s) = Ret w1 /\ f w1 (nadd N (g_t s) (ndiv N (g_h s) two)) mid = Ret f1 /\ ladd (g_u s) (lscale f1 (g_h s)) = Ret next /\
       ev_end ev (g_u s) next (nadd N (g_t s) (g_h s)) w1 = Ret (g_w s', er) /\ g_t s' = ev_t er /\ g_u s' = ev_x er /\ g_run s' = negb (ev_trunc er) /\
       a = mkPost (g_h s) true false (ev_trunc er) (n0 N) (ev_izf er) (ev_type er)
  | _ => g_t s' = g_t s /\ g_u s' = g_u s
  end.
Proof. exact @gragg_step. Qed.
Print Assumptions C39_step.

(** C59.  One call of doStep, any arithmetic, reference solver, step sequence and event controller: attempts are made from the same point until one is accepted, each
    refused one followed by one of the size the controller chose; an accepted one moves time and state once, anything else (but for an undefined operation) not at all. *)
Theorem C59_attempts : forall (N : Num) (S Q : Type) (rs : refsolver N S) (sq : stepseq Q) (ev : events N S) (c : xcfg N) fuel (s s' : xst N S Q) posts r h0,
  x_step rs sq ev c fuel s = (s', posts, r) -> x_first c s = Some h0 ->
  exists rejected, x_refused c h0 rejected /\
  let h := x_cur h0 rejected in
  match r with
  | Some (AAccepted a) => posts = rejected ++ [a] /\ pa_accepted a = true /\ pa_changed a = asks (ctl c) h (pa_err a) /\ verdict (ctl c) h (pa_err a) = true /\
       pa_h a = next_size (ctl c) h (pa_err a) /\ x_first c s' = Some (pa_h a) /\ x_moved rs sq ev c s s' h (pa_err a) (pa_trunc a)
  | Some ATooSmall => posts = rejected /\ exists err, below_min (ctl c) h err = true /\ x_first c s' = Some (next_size (ctl c) h err) /\
       (if verdict (ctl c) h err then exists trunc, x_moved rs sq ev c s s' h err trunc else x_unmoved s s')
  | Some AThrow => posts = rejected /\ x_unmoved s s'
  | None => posts = rejected /\ x_unmoved s s' /\ length posts = fuel
  | Some (ARejected _) => False
  | Some AUb => posts = rejected
  end.
Proof. exact @xtrace. Qed.
Print Assumptions C59_attempts.
(** With at least two stages (one without error control), a step sequence that increases and callbacks without undefined behaviour, no call has any, and the
    solver is ready for the next call, whatever the outcome. *)
Theorem C59_defined : forall (N : Num) (S Q : Type) (rs : refsolver N S) (sq : stepseq Q) (ev : events N S) (c : xcfg N) (n : nat),
  xc_n c = n -> 1 <= xc_stages c -> (xc_nocheck c = false -> 2 <= xc_stages c) -> seq_ok sq (xc_stages c) -> ref_safe rs n -> (forall d, length d = n -> xc_norm c d <> UB) ->
  (forall x t w, ev_start ev x t w <> UB) /\ (forall x y t w, length x = n -> length y = n -> ev_end ev x y t w = Throw \/ exists w' er, ev_end ev x y t w = Ret (w', er) /\ length (ev_x er) = n) ->
  forall fuel (s s' : xst N S Q) posts r, x_ready c s -> x_step rs sq ev c fuel s = (s', posts, r) -> r <> Some AUb /\ x_ready c s'.
Proof. exact @x_step_safe. Qed.
Print Assumptions C59_defined.
Theorem C59_set_ready : forall (N : Num) (S Q : Type) (rs : refsolver N S) (ev : events N S) (c : xcfg N) (n : nat), xc_n c = n ->
  forall soft t x (s s' : xst N S Q), length x = n -> x_set rs ev soft t x s = Ret s' -> x_ready c s' /\ x_first c s' = Some (xc_hinit c) /\ x_t s' = t /\ x_x s' = x.
Proof. exact @x_set_ready. Qed.
Print Assumptions C59_set_ready.
(** The library's solvers meet the condition on reference solvers. *)
Theorem C59_references : forall (N : Num) (W : Type) (ev : events N W) f (n : nat), (forall w, safe_rhs n (f w)) ->
  (forall x t w, ev_start ev x t w <> UB) /\ (forall x y t w, length x = n -> length y = n -> ev_end ev x y t w = Throw \/ exists w' er, ev_end ev x y t w = Ret (w', er) /\ length (ev_x er) = n) ->
  (forall co stages, wf_table co stages 1 -> ref_safe (rk_ref ev f co n) n) /\ (forall smooth half two, ref_safe (gragg_ref ev f smooth half two) n).
Proof. exact (fun N W ev f n GR EV => conj (fun co stages WF => rk_ref_safe ev f co stages n WF GR EV) (fun smooth half two => gragg_ref_safe ev f n smooth half two GR EV)). Qed.
Print Assumptions C59_references.
