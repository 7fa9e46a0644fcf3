(** ExExt.v - concrete cases and refutations for C37, C38, C39 and C59. *)
From Coq Require Import List Arith Bool ZArith QArith Qcanon Lia.
From Verif Require Import Base BaseFacts VecModel VOps RkModel RkSpec StepModel StepSpec ExtModel ExtSpec ExtFacts ExtFacts2 ExtFacts3 ExtFacts4 ExtFacts5.
Import ListNotations.
Local Open Scope nat_scope.

Definition q (a : Z) : Qc := qc a 1.
(** * Neville: the values of 7 - 3 z + 2 z^2 at z = 1, 1/2, 1/4 (6, 6, 51/8): the value at zero is 7 *)
Example C37_case_nodes : increasing [1; 2; 4] 3.
Proof. split; [reflexivity|]. split; [cbn; lia|]. intros i j I J. destruct i as [|[|[|i]]]; destruct j as [|[|[|j]]]; cbn; lia. Qed.
Example C37_case : (r <- neville (N:=QcNum) false [1; 2; 4] 3 [[q 6]; [q 6]; [qc 51 8]] ;; Ret (map (map this) r)) = Ret [[(7 # 1)%Q]; [(27 # 4)%Q]; [(51 # 8)%Q]].
Proof. vm_compute. reflexivity. Qed.
Example C37_case_poly : forall k, k < 3 -> cmp_ (nth k [[q 6]; [q 6]; [qc 51 8]] []) 0 = peval [q 7; q (-3); q 2] (node false (nth k [1; 2; 4] 0)).
Proof. intros [|[|[|k]]] K; try lia; apply Qc_is_canon; vm_compute; reflexivity. Qed.
(** symmetric: 7 - 3 z^2 at 1, 1/2 *)
Example C37_case_sym : (r <- neville (N:=QcNum) true [1; 2] 2 [[q 4]; [qc 25 4]] ;; Ret (map (map this) r)) = Ret [[(7 # 1)%Q]; [(25 # 4)%Q]].
Proof. vm_compute. reflexivity. Qed.
(** the numbers of steps must increase: with equal ones the results are combined arbitrarily (here 1/0 = 0) *)
Theorem C37_increasing_refuted : ~ (forall ns (Ts : list (list Qc)), length ns = 2 -> table Ts 2 1 -> (forall k, k < 2 -> cmp_ (nth k Ts []) 0 = peval [q 1; q 1] (node false (nth k ns 0))) ->
  exists Ts', neville (N:=QcNum) false ns 2 Ts = Ret Ts' /\ cmp_ (nth 0 Ts' []) 0 = q 1).
Proof.
  intros H. destruct (H [1; 1] [[q 2]; [q 2]] eq_refl) as (Ts' & E & V).
  - split; [cbn; lia|]. intros [|[|k]] K; [reflexivity|reflexivity|lia].
  - intros [|[|k]] K; [apply Qc_is_canon; reflexivity|apply Qc_is_canon; reflexivity|lia].
  - assert (Z : (r <- neville (N:=QcNum) false [1; 1] 2 [[q 2]; [q 2]] ;; Ret (map (map this) r)) = Ret [[(2 # 1)%Q]; [(2 # 1)%Q]]) by (vm_compute; reflexivity).
    change (nT QcNum) with Qc in *. rewrite E in Z. cbn [obind] in Z. inversion Z as [Z1]. destruct Ts' as [|[|a u] r]; try discriminate. cbn in V. subst a. cbn in Z1. discriminate Z1.
Qed.

(** * Step sequences *)
Example C38_case : map seq_bulirsch (seq 0 10) = [1; 2; 3; 4; 6; 8; 12; 16; 24; 32]%Z. Proof. reflexivity. Qed.
Example C38_case_romberg : map seq_romberg (seq 0 6) = [1; 2; 4; 8; 16; 32]%Z. Proof. reflexivity. Qed.
Example C38_case_reset : sq_take bulirsch 4 (sq_reset bulirsch (mkBul 7 12 16)) = Ret ([1; 2; 3; 4]%Z, mkBul 4 6 8). Proof. reflexivity. Qed.
(** The sequences are not infinite: the 31st call of the Romberg sequence and the 60th of the Bulirsch sequence overflow an int. *)
Theorem C38_unbounded_refuted : ~ (forall count, exists r, sq_take romberg count (sq_reset romberg 0%Z) = Ret r) /\ ~ (forall count, exists r, sq_take bulirsch count (sq_reset bulirsch (mkBul 0 0 0)) = Ret r).
Proof. split; intros H; [destruct (H 31) as (r & E)|destruct (H 60) as (r & E)]; vm_compute in E; discriminate E. Qed.

(** * Gragg: x' = x, h = 1: y = 1, 3/2, 5/2, 4, 13/2; smoothed after two steps: (4 + 13 + 21/2)/4 *)
Definition growth (b : bool) (_ : Qc) (x : list Qc) : Outcome (list Qc) :=
  if b then Ret x else match x with [a] => if Qc_eq_dec a (q 4) then Throw else Ret x | _ => Ret x end.
Definition g0 (b : bool) : gst QcNum bool := mkG (N:=QcNum) 0%Qc [] [] [] true 0%Qc b.
Definition gstart (b : bool) : gst QcNum bool := g_size (N:=QcNum) (q 1) (g_set (N:=QcNum) 0%Qc [q 1] (g0 b)).
Definition gshow (s : gst QcNum bool) : Q * list Q * Outcome (list Q) := (this (g_t s), map this (g_u s), r <- g_state (N:=QcNum) true (qc 1 2) s ;; Ret (map this r)).
Example C39_case : option_map gshow (g_steps (N:=QcNum) no_events growth (q 2) 2 (gstart true)) = Some ((2 # 1)%Q, [(13 # 2)%Q], Ret [(55 # 8)%Q]).
Proof. vm_compute. reflexivity. Qed.
(** after these two steps a step of 1/2 from (2, 13/2): 65/8, 169/16 *)
Example C39_new_size_case : option_map (fun s => (this (g_t s), map this (g_u s))) (match g_steps (N:=QcNum) no_events growth (q 2) 2 (gstart true) with
    Some s => g_steps (N:=QcNum) no_events growth (q 2) 1 (g_size (N:=QcNum) (qc 1 2) s) | None => None end) = Some ((5 # 2)%Q, [(169 # 16)%Q]).
Proof. vm_compute. reflexivity. Qed.
Example C39_case_rhs : good_rhs (N:=QcNum) 1 (growth true). Proof. intros t x L. exists x. split; [reflexivity|exact L]. Qed.
(** A step that failed cannot be repeated: the model refuses one argument, the user catches the exception, mends the model and repeats the step; time and state had not
    changed, but the result is 31/4 instead of y_4 = 13/2. *)
Definition mend (s : gst QcNum bool) : gst QcNum bool := mkG (N:=QcNum) (g_t s) (g_u s) (g_v s) (g_f s) (g_run s) (g_h s) true.
Definition retry : option (Q * list Q) :=
  match g_steps (N:=QcNum) no_events growth (q 2) 1 (gstart false) with
  | Some s1 => match g_step (N:=QcNum) no_events growth (q 2) s1 with
               | (s2, GThrow) => match g_step (N:=QcNum) no_events growth (q 2) (mend s2) with (s3, GRet _) => Some (this (g_t s3), map this (g_u s3)) | _ => None end
               | _ => None end
  | None => None end.
Definition after1 : gst QcNum bool := match g_steps (N:=QcNum) no_events growth (q 2) 1 (gstart false) with Some s => s | None => gstart false end.
Theorem C39_retry_refuted : retry = Some ((2 # 1)%Q, [(31 # 4)%Q]) /\
  ~ (forall (s1 s2 s3 s4 : gst QcNum bool) a b, g_step (N:=QcNum) no_events growth (q 2) s1 = (s2, GThrow) -> g_step (N:=QcNum) no_events growth (q 2) (mend s2) = (s3, GRet a) ->
       g_step (N:=QcNum) no_events growth (q 2) (mend s1) = (s4, GRet b) -> g_u s3 = g_u s4).
Proof.
  split; [vm_compute; reflexivity|]. intros H.
  set (st := g_step (N:=QcNum) no_events growth (q 2)) in H.
  assert (Z : (let '(s2, r2) := st after1 in let '(s3, r3) := st (mend s2) in let '(s4, r4) := st (mend after1) in
     (match r2 with GThrow => true | _ => false end, match r3 with GRet _ => true | _ => false end, match r4 with GRet _ => true | _ => false end, map this (g_u s3), map this (g_u s4))) = (true, true, true, [(31 # 4)%Q], [(13 # 2)%Q])).
  { vm_compute. reflexivity. }
  destruct (st after1) as [s2 r2] eqn:E2. destruct (st (mend s2)) as [s3 r3] eqn:E3. destruct (st (mend after1)) as [s4 r4] eqn:E4. clearbody st.
  destruct r2, r3, r4; cbn [fst snd] in Z; try discriminate Z. specialize (H _ _ _ _ _ _ E2 E3 E4). change (nT QcNum) with Qc in *. rewrite H in Z. inversion Z. congruence.
Qed.
(** setInitialState tells the event controller nothing; that of the other explicit solvers resets it. *)
Theorem C39_resets_events_refuted : ~ (forall (W : Type) (ev : events QcNum W) t x (s : gst QcNum W), g_w (g_set (N:=QcNum) t x s) = ev_reset ev (g_w s)).
Proof.
  intros H. specialize (H bool (mkEvents (N:=QcNum) (fun _ => true) (fun _ _ w => Ret w) (fun _ x2 t2 w => Ret (w, mkEvres (N:=QcNum) x2 t2 false None 0%Z))) 0%Qc [] (g0 false)). discriminate H.
Qed.

(** * The solver: explicit Euler as the reference solver, harmonic sequence, x' = x, three stages *)
Definition euler_ref : refsolver QcNum (Qc * rkst QcNum bool) := rk_ref (N:=QcNum) no_events growth tab_euler 1.
Definition xc (stages : nat) (nocheck : bool) (sc : Qc -> Qc -> Qc * bool * bool) : xcfg QcNum :=
  mkXcfg (N:=QcNum) 1 (q 1) (qc 1 1000) false nocheck stages (fun d => Ret (linf (N:=QcNum) d)) sc.
Definition x00 : xst QcNum (Qc * rkst QcNum bool) Z := mkX (N:=QcNum) 0%Qc [] None [] (0%Qc, mkRk (N:=QcNum) 0%Qc [] None out_empty true) 0%Z.
Definition xstart : xst QcNum (Qc * rkst QcNum bool) Z := match x_set euler_ref (no_events (N:=QcNum)) true 0%Qc [q 1] x00 with Ret s => s | _ => x00 end.
Definition xshow (r : xst QcNum (Qc * rkst QcNum bool) Z * list (postarg QcNum) * option (attempt QcNum)) : Q * list Q * option Q * list (Q * bool * Q) * nat :=
  let '(s, posts, o) := r in
  (this (x_t s), map this (x_x s), option_map this (x_h s), map (fun a => (this (pa_h (N:=QcNum) a), pa_accepted (N:=QcNum) a, this (pa_err (N:=QcNum) a))) posts,
   match o with None => 0 | Some AUb => 1 | Some AThrow => 2 | Some ATooSmall => 3 | Some (ARejected _) => 4 | Some (AAccepted _) => 5 end).
(** halves the step if the error exceeds the tolerance, doubles it otherwise *)
Definition halving (tol : Qc) (h err : Qc) : Qc * bool * bool := if nltb QcNum tol err then ((h / q 2)%Qc, false, true) else ((h * q 2)%Qc, true, true).
Example C59_case : xshow (x_step (N:=QcNum) euler_ref harmonic no_events (xc 3 false (halving (qc 1 100))) 5 xstart) =
  ((1 # 2)%Q, [(79 # 48)%Q], Some (1 # 1)%Q, [((1 # 2)%Q, false, (1 # 18)%Q); ((1 # 1)%Q, true, (1 # 144)%Q)], 5).
Proof. vm_compute. reflexivity. Qed.

Lemma euler_wf : wf_table tab_euler 1 1. Proof. repeat split; try reflexivity. cbn. lia. Qed.
Lemma growth_safe w : safe_rhs (N:=QcNum) 1 (growth w).
Proof.
  intros t x L. unfold growth. destruct w; [right; exists x; auto|]. destruct x as [|a [|b x]]; try discriminate. destruct (Qc_eq_dec a (q 4)); [left; reflexivity|right; exists [a]; auto].
Qed.
Lemma no_events_safe {W} n : (forall x t (w : W), ev_start (no_events (N:=QcNum)) x t w <> UB) /\
  (forall (x y : list Qc) t (w : W), length x = n -> length y = n -> ev_end (no_events (N:=QcNum)) x y t w = Throw \/ exists w' er, ev_end (no_events (N:=QcNum)) x y t w = Ret (w', er) /\ length (ev_x er) = n).
Proof. split; [discriminate|]. intros x y t w _ L. right. exists w. eexists. split; [reflexivity|exact L]. Qed.
(** the hypotheses of C37_step and C59_defined hold here *)
Example C59_case_conditions : xc_n (xc 3 false (halving (qc 1 100))) = 1 /\ seq_ok harmonic 3 /\ ref_safe euler_ref 1 /\ x_ready (xc 3 false (halving (qc 1 100))) xstart /\
  x_first (xc 3 false (halving (qc 1 100))) xstart = Some (q 1) /\ (forall d : list Qc, length d = 1 -> xc_norm (xc 3 false (halving (qc 1 100))) d <> UB).
Proof.
  split; [reflexivity|]. split; [apply seqs_ok; [lia|reflexivity]|]. split; [exact (rk_ref_safe (N:=QcNum) no_events growth tab_euler 1 1 euler_wf growth_safe (no_events_safe 1))|].
  split; [split; [reflexivity|left; reflexivity]|]. split; [reflexivity|discriminate].
Qed.
(** * Where the conditions matter.  A maximal number of stages of one with error control reads and writes beyond the table. *)
Theorem C59_one_stage_refuted : ~ (forall (c : xcfg QcNum) fuel, 1 <= xc_stages c -> seq_ok harmonic (xc_stages c) -> x_ready c xstart -> snd (x_step (N:=QcNum) euler_ref harmonic no_events c fuel xstart) <> Some AUb).
Proof.
  intros H. apply (H (xc 1 false (halving (qc 1 100))) 1); [cbn; lia|exact (proj1 (seqs_ok 1 (le_n 1)) eq_refl)|split; [reflexivity|left; reflexivity]|]. vm_compute. reflexivity.
Qed.
(** Raising the number of stages between two steps, without a new initial state, writes beyond the table, which was made for the former number. *)
Definition second : xst QcNum (Qc * rkst QcNum bool) Z := fst (fst (x_step (N:=QcNum) euler_ref harmonic no_events (xc 2 true (halving (qc 1 100))) 1 xstart)).
Theorem C59_more_stages_refuted : xshow (x_step (N:=QcNum) euler_ref harmonic no_events (xc 2 true (halving (qc 1 100))) 1 xstart) = ((1 # 1)%Q, [(5 # 2)%Q], Some (1 # 1)%Q, [((1 # 1)%Q, true, (0 # 1)%Q)], 5) /\
  snd (x_step (N:=QcNum) euler_ref harmonic no_events (xc 3 true (halving (qc 1 100))) 1 second) = Some AUb.
Proof. split; vm_compute; reflexivity. Qed.
(** No stages at all: the state silently becomes zero. *)
Theorem C59_no_stages_refuted : xshow (x_step (N:=QcNum) euler_ref harmonic no_events (xc 0 true (halving (qc 1 100))) 1 xstart) = ((1 # 1)%Q, [(0 # 1)%Q], Some (1 # 1)%Q, [((1 # 1)%Q, true, (0 # 1)%Q)], 5).
Proof. vm_compute. reflexivity. Qed.
(** The observers of an accepted step are not told its size, unlike those of the embedded Runge-Kutta solver (C36_attempts): the step from 0 to 1/2 is reported with the
    size 1 of the next one. *)
Theorem C59_reported_size_refuted : ~ (forall (c : xcfg QcNum) fuel s' posts a, x_step (N:=QcNum) euler_ref harmonic no_events c fuel xstart = (s', posts, Some (AAccepted a)) -> x_t s' = (x_t xstart + pa_h a)%Qc).
Proof.
  intros H. set (xs := x_step (N:=QcNum) euler_ref harmonic no_events (xc 3 false (halving (qc 1 100))) 5 xstart).
  assert (Z : (let '(s', _, r) := xs in match r with Some (AAccepted a) => Some (this (x_t s'), this (pa_h a)) | _ => None end) = Some ((1 # 2)%Q, (1 # 1)%Q)) by (vm_compute; reflexivity).
  destruct xs as [[s' posts] r] eqn:E. unfold xs in E. destruct r as [[| | |a|a]|]; try discriminate Z. specialize (H _ _ _ _ _ E). inversion Z as [[Z1 Z2]].
  assert (Z3 : pa_h a = q 1) by (apply Qc_is_canon; rewrite Z2; reflexivity). rewrite Z3 in H. rewrite H in Z1. vm_compute in Z1. discriminate Z1.
Qed.
