(** ExStep.v - concrete cases and refutations for C35 and C36. *)
From Coq Require Import List Arith Bool ZArith QArith Qcanon Reals Lra Lia.
From Verif Require Import Base BaseFacts VecModel VOps RkModel RkSpec StepModel StepSpec StepFacts StepFacts2.
Import ListNotations.
Local Open Scope R_scope.

(** the default settings are sensible *)
Example C35_defaults : sensible default_settings.
Proof. unfold sensible, default_settings. cbn. repeat split; try lra. Qed.
(** order 1, error four times the tolerance: p = 1/2, the step is refused and shrinks to 0.4 h *)
Lemma half : Rpower (/ 4) (1 / (INR 1 + 1)) = / 2.
Proof.
  replace (/ 4) with ((/ 2) * (/ 2)) by lra. replace (1 / (INR 1 + 1)) with (/ 2) by (cbn; lra). rewrite Rpower_sqrt by lra. apply sqrt_square. lra.
Qed.
Example C35_rejected_case : controlR default_settings 1 (4 / 1000000) 1 = (4 / 10, false, true).
Proof.
  rewrite control_cases by lra. unfold pf. replace (sc_tol default_settings / (4 / 1000000)) with (/ 4) by (cbn; lra). rewrite half.
  unfold Rleb, Rltb. destruct (Rle_dec 1 (/ 2)); [lra|]. destruct (Rlt_dec (1 - geom_eps) (/ 2)); [unfold geom_eps in *; lra|].
  cbn [sc_decMax sc_ins default_settings]. destruct (Rlt_dec 0 (/ 10)); [|lra]. destruct (Rlt_dec (/ 2 * (8 / 10)) (/ 10)); [lra|]. cbn [andb]. f_equal. f_equal. lra.
Qed.
(** error a quarter of the tolerance: p = 2, the step is accepted and grows to 1.6 h *)
Example C35_accepted_case : controlR default_settings 1 (/ 4000000) 1 = (16 / 10, true, true).
Proof.
  rewrite control_cases by lra. unfold pf. replace (sc_tol default_settings / (/ 4000000)) with 4 by (cbn; lra).
  assert (H : Rpower 4 (1 / (INR 1 + 1)) = 2).
  { replace 4 with (2 * 2) by lra. replace (1 / (INR 1 + 1)) with (/ 2) by (cbn; lra). rewrite Rpower_sqrt by lra. apply sqrt_square. lra. }
  rewrite H. unfold Rleb, Rltb, inc_cap, Rltb. destruct (Rle_dec 1 2); [|lra]. cbn [sc_decMax sc_ins sc_maxThr sc_incMin sc_incMax default_settings].
  destruct (Rlt_dec 0 0); [lra|]. cbn [andb]. destruct (Rlt_dec 0 (13 / 10)); [|lra]. destruct (Rlt_dec (2 * (8 / 10)) (13 / 10)); [lra|]. cbn [andb].
  destruct (Rlt_dec 0 2); [|lra]. destruct (Rlt_dec 2 (2 * (8 / 10))); [lra|]. cbn [andb]. f_equal. f_equal. lra.
Qed.
(** the error may exceed the tolerance by the slack and be accepted *)
Example C35_slack_case : accepted (controlR default_settings 1 (/ 1000000 * (1 + / 200000)) 1) = true.
Proof. apply accept_iff; [cbn; lra|lra|]. unfold geom_eps. cbn. lra. Qed.
(** "the step size does not exceed max_threshold" holds only for steps that grow: a longer (initial) step stays as it is. *)
Theorem C35_max_threshold_refuted :
  ~ (forall (s : scset RNum) (h err : R) (n : nat), sensible s -> 0 <= err -> 0 < h -> 0 < sc_maxThr s -> accepted (controlR s h err n) = true -> newStep (controlR s h err n) <= sc_maxThr s).
Proof.
  intros H. set (s := mkSc (N:=RNum) (/ 1000000) (8 / 10) (13 / 10) 2 (/ 10) 1).
  specialize (H s 10 0 1%nat). rewrite control_zero in H by reflexivity. cbn in H.
  assert (S : sensible s) by (unfold sensible, s; cbn; repeat split; lra). specialize (H S ltac:(lra) ltac:(lra) ltac:(lra) eq_refl). lra.
Qed.

(** * Adaptive stepping, exact arithmetic: Heun's method with embedded Euler, x' = x, a controller of order 0 (pow(x, 1) = x) *)
Local Open Scope nat_scope.
Definition q (a : Z) : Qc := qc a 1.
Definition heun : coeffs QcNum := mkCo (N:=QcNum) [q 1] [qc 1 2; qc 1 2; q 1; 0%Qc] [q 1] (-1).
Definition sc0 (tol : Qc) : scset QcNum := mkSc (N:=QcNum) tol (qc 8 10) (qc 13 10) (q 2) (qc 1 10) 0%Qc.
Definition growth (_ : unit) (_ : Qc) (x : list Qc) : Outcome (list Qc) := Ret x.
Definition cfg (tol hinit hmin : Qc) : erkcfg QcNum :=
  mkErk (N:=QcNum) heun 1 hinit hmin 0 false false 0%Qc (fun d => Ret (linf (N:=QcNum) d)) (fun h err => control (N:=QcNum) (fun x _ => x) (qc 1 100000) (sc0 tol) h err 0%Qc).
Definition start : rkst QcNum unit := erk_set (N:=QcNum) no_events 0%Qc [q 1] (mkRk (N:=QcNum) 0%Qc [] None out_empty tt).
Definition show (r : rkst QcNum unit * list (postarg QcNum) * option (attempt QcNum)) : Q * list Q * option Q * list (Q * bool * Q) * nat :=
  let '(s, posts, o) := r in
  (this (rk_t s), map this (rk_x s), option_map this (rk_h s), map (fun a => (this (pa_h (N:=QcNum) a), pa_accepted (N:=QcNum) a, this (pa_err (N:=QcNum) a))) posts,
   match o with None => 0 | Some AUb => 1 | Some AThrow => 2 | Some ATooSmall => 3 | Some (ARejected _) => 4 | Some (AAccepted _) => 5 end).
(** the first attempt (h = 1, error 1/2) is refused, the second (h = 1/10, error 1/200) accepted *)
Example C36_case : show (erk_step (N:=QcNum) no_events growth (cfg (qc 1 100) (q 1) (qc 1 1000)) 5 start) =
  ((1 # 10)%Q, [(221 # 200)%Q], Some (4 # 25)%Q, [((1 # 1)%Q, false, (1 # 2)%Q); ((1 # 10)%Q, true, (1 # 200)%Q)], 5).
Proof. vm_compute. reflexivity. Qed.
Lemma heun_wf : wf_table heun 2 2. Proof. repeat split; try reflexivity. unfold heun. cbn. lia. Qed.
Example C36_hypotheses : let c := cfg (qc 1 100) (q 1) (qc 1 1000) in
  wf_table (e_co c) 2 2 /\ shortcut_ok (e_co c) 2 /\ e_n c = 1 /\ e_mode c < 2 /\ e_nocheck c = false /\ (forall d, length d = 1 -> exists e, e_norm c d = Ret e) /\
  good_rhs (N:=QcNum) 1 (growth tt) /\ erk_ready 2 1 start.
Proof.
  cbn zeta. split; [exact heun_wf|]. split; [left; reflexivity|]. split; [reflexivity|]. split; [cbn; lia|]. split; [reflexivity|]. split; [intros; cbn; eauto|].
  split; [intros t x L; exists x; auto|]. split; [reflexivity|left; reflexivity].
Qed.
(** refused until the minimum is reached: nothing has moved *)
Example C36_fails_case : show (erk_step (N:=QcNum) no_events growth (cfg (qc 1 100000000) (q 1) (qc 1 50)) 5 start) =
  (0%Q, [(1 # 1)%Q], Some (1 # 100)%Q, [((1 # 1)%Q, false, (1 # 2)%Q)], 3).
Proof. vm_compute. reflexivity. Qed.
(** "A call that fails leaves time and state unchanged" is false: if the step size asked for after an accepted step is at or below the minimum
    (for instance because h_init was below h_min), the exception comes after the state has been advanced, and the observers are not told. *)
Theorem C36_failure_leaves_state_refuted :
  ~ (forall fuel (s s' : rkst QcNum unit) posts, erk_ready 2 1 s -> erk_step (N:=QcNum) no_events growth (cfg (qc 1 100) (qc 1 100) (qc 1 50)) fuel s = (s', posts, Some ATooSmall) -> unmoved s s').
Proof.
  intros H. set (r := erk_step (N:=QcNum) no_events growth (cfg (qc 1 100) (qc 1 100) (qc 1 50)) 1 start).
  assert (E : show r = ((1 # 100)%Q, [(20201 # 20000)%Q], Some (1 # 50)%Q, [], 3)) by (vm_compute; reflexivity).
  destruct r as [[s' posts] o] eqn:ER. unfold r in ER. unfold show in E. inversion E as [[E1 E2 E3 E4 E5]]. clear E.
  destruct o as [[| | |a|a]|]; try discriminate E5.
  assert (RD : erk_ready 2 1 start) by (split; [reflexivity|left; reflexivity]).
  destruct (H 1 start s' posts RD ER) as (U & _). rewrite U in E1. cbn in E1. discriminate E1.
Qed.

(** * Not a number *)
Definition qn' (a : Z) : option Qc := Some (q a).
Definition heunN : coeffs NanNum := mkCo (N:=NanNum) [qn' 1] [Some (qc 1 2); Some (qc 1 2); qn' 1; qn' 0] [qn' 1] (-1).
Definition scN : scset NanNum := mkSc (N:=NanNum) (Some (qc 1 100)) (Some (qc 8 10)) (Some (qc 13 10)) (qn' 2) (Some (qc 1 10)) (qn' 0).
(** any power function that gives NaN for a NaN base *)
Definition strictpw (x y : option Qc) : option Qc := match x, y with Some a, Some _ => Some a | _, _ => None end.
Definition cfgN (norm : list (option Qc) -> option Qc) : erkcfg NanNum :=
  mkErk (N:=NanNum) heunN 1 (qn' 1) (Some (qc 1 1000)) 0 false false (qn' 0) (fun d => Ret (norm d)) (fun h err => control (N:=NanNum) strictpw (Some (qc 1 100000)) scN h err (qn' 0)).
(** a right-hand side outside its domain gives NaN *)
Definition undef (_ : unit) (_ : option Qc) (x : list (option Qc)) : Outcome (list (option Qc)) := Ret (map (fun _ => None) x).
Definition startN : rkst NanNum unit := erk_set (N:=NanNum) no_events (qn' 0) [qn' 1] (mkRk (N:=NanNum) (qn' 0) [] None out_empty tt).
Definition showN (r : rkst NanNum unit * list (postarg NanNum) * option (attempt NanNum)) : list (option Q) * list (bool * option Q) :=
  let '(s, posts, o) := r in (map (option_map this) (rk_x s), map (fun a => (pa_accepted (N:=NanNum) a, option_map this (pa_err (N:=NanNum) a))) posts).
(** "A step is accepted only if its error is within tolerance" fails for NaN: the maximum norm of a NaN difference is 0, so a step that has computed NaN is accepted with error 0. *)
Theorem C36_nan_step_refuted :
  ~ (forall fuel (s s' : rkst NanNum unit) posts a, erk_ready 2 1 s -> erk_step (N:=NanNum) no_events undef (cfgN (linf (N:=NanNum))) fuel s = (s', posts, Some (AAccepted a)) ->
       ~ In (None : option Qc) (rk_x s')).
Proof.
  intros H. set (r := erk_step (N:=NanNum) no_events undef (cfgN (linf (N:=NanNum))) 1 startN).
  assert (E : showN r = ([None], [(true, Some 0%Q)])) by (vm_compute; reflexivity).
  destruct r as [[s' posts] o] eqn:ER. unfold r in ER. unfold showN in E. inversion E as [[E1 E2]]. clear E.
  assert (A : exists a, o = Some (AAccepted a)).
  { apply trace in ER. destruct ER as (_ & rej & FR & M). destruct o as [[| | |a|a]|]; [..|eauto|].
    - subst posts. destruct rej as [|b [|]]; cbn in E2; try discriminate E2. inversion E2. apply Forall_inv in FR. destruct FR as (F & _). congruence.
    - destruct M as (-> & _). destruct rej as [|b [|]]; cbn in E2; try discriminate E2. inversion E2. apply Forall_inv in FR. destruct FR as (F & _). congruence.
    - destruct M as (-> & _). destruct rej as [|b [|]]; cbn in E2; try discriminate E2. inversion E2. apply Forall_inv in FR. destruct FR as (F & _). congruence.
    - contradiction.
    - destruct M as (-> & _). destruct rej as [|b [|]]; cbn in E2; try discriminate E2. inversion E2. apply Forall_inv in FR. destruct FR as (F & _). congruence. }
  destruct A as (a & ->). assert (RD : erk_ready 2 1 startN) by (split; [reflexivity|left; reflexivity]).
  apply (H 1 startN s' posts a RD ER). change (nT NanNum) with (option Qc) in *. destruct (rk_x s') as [|[y|] [|]]; cbn in E1; try discriminate E1. left. reflexivity.
Qed.
(** "Every call ends" fails for an error norm that gives NaN: all attempts are refused, the step size becomes NaN and never compares below the minimum. *)
Definition nan_norm (_ : list (option Qc)) : option Qc := None.
Definition stuck (s : rkst NanNum unit) : Prop := erk_ready 2 1 s.
Lemma stuck_step s : stuck s -> exists s' a, erk_attempt (N:=NanNum) no_events undef (cfgN nan_norm) s = (s', ARejected a) /\ stuck s'.
Proof.
  intros RD. destruct (erk_attempt (N:=NanNum) no_events undef (cfgN nan_norm) s) as [s' r] eqn:E.
  assert (WF : wf_table (e_co (cfgN nan_norm)) 2 2) by (repeat split; try reflexivity; cbn; lia).
  assert (SR : forall w, safe_rhs (N:=NanNum) 1 (undef w)) by (intros w t x L; right; eexists; split; [reflexivity|rewrite map_length; exact L]).
  assert (NM : forall d : list (nT NanNum), length d = 1 -> e_norm (cfgN nan_norm) d <> UB) by (intros; discriminate).
  assert (EV : (forall (x : list (nT NanNum)) t (w : unit), ev_start no_events x t w <> UB) /\ (forall (x y : list (nT NanNum)) t (w : unit), length x = 1 -> length y = 1 -> ev_end no_events x y t w <> UB)) by (split; intros; discriminate).
  destruct (attempt_safe (N:=NanNum) no_events undef (cfgN nan_norm) 2 1 WF eq_refl ltac:(cbn; lia) NM SR EV s s' r RD E) as (A1 & A2).
  destruct r as [| | |a|a].
  - contradiction.
  - exfalso. revert E. unfold erk_attempt. destruct (init_shaped_gen (N:=NanNum) (cfgN nan_norm) 2 1 WF eq_refl ltac:(cbn; lia) s RD) as (SH & h & FS).
    destruct (init_fields (cfgN nan_norm) s) as (I1 & I2 & I3 & I4). rewrite I1, I2, I3, I4, FS. cbn [ev_start no_events fail].
    destruct (RkFacts3.compute_safe (N:=NanNum) (e_co (cfgN nan_norm)) 2 1 2 (undef (rk_w s)) (rk_x s) (rk_t s) h WF (SR _) (proj1 RD) _ SH) as [(o & log & EC & SO & _)|(EC & F)].
    2: { destruct F as (t & x & _ & F). discriminate F. }
    rewrite EC. cbn [fail fst]. destruct SO as (Sk & Sx & Sb & Uk & Ux). change (e_mode (cfgN nan_norm)) with 0. change (nT NanNum) with (option Qc) in *.
    assert (SX : @length (list (option Qc)) (o_x2 o) = 2) by exact Sx. rewrite (rd_ok (A:=list (option Qc)) _ 0 []) by lia. cbn [fail].
    assert (ER : erk_error (cfgN nan_norm) o = Ret None).
    { unfold erk_error. cbn [e_nocheck cfgN negb orb]. change (nT NanNum) with (option Qc) in *. rewrite (rd_ok (A:=list (option Qc)) _ 0 []), (rd_ok (A:=list (option Qc)) _ 1 []) by lia. cbn [obind]. unfold lsub. rewrite (NewtFacts.lzip_ok (N:=NanNum)).
      - reflexivity.
      - assert (L : forall i, i < 2 -> @length (option Qc) (nth i (o_x2 o) []) = 1) by (intros i Hi; apply Ux, nth_In; change (nT NanNum) with (option Qc); lia).
        change (nT NanNum) with (option Qc). rewrite !L by lia. lia. }
    rewrite ER. cbn. destruct h; cbn; discriminate.
  - apply attempt_inv in E. destruct E as (h & err & acc & trunc & PA & BM). destruct PA as (w1 & o & log & next & F & ES & EC & ENx & EE & V & Q).
    assert (err = None). { unfold erk_error in EE. cbn [e_nocheck cfgN negb orb] in EE. NewtFacts.binv EE. NewtFacts.binv EE. NewtFacts.binv EE. cbn in EE. inversion EE. reflexivity. }
    subst err. exfalso. unfold below_min, next_size in BM. cbn in BM. destruct h; cbn in BM; discriminate BM.
  - exists s', a. split; [reflexivity|]. exact (A2 a eq_refl).
  - apply attempt_inv in E. destruct E as (PA & BM & _). destruct PA as (w1 & o & log & next & F & ES & EC & ENx & EE & V & Q).
    assert (EN : pa_err a = None). { unfold erk_error in EE. cbn [e_nocheck cfgN negb orb] in EE. NewtFacts.binv EE. NewtFacts.binv EE. NewtFacts.binv EE. cbn in EE. inversion EE. reflexivity. }
    exfalso. rewrite EN in V. unfold verdict in V. cbn in V. discriminate V.
Qed.
Theorem C36_nan_norm_refuted : ~ (exists fuel r, snd (erk_step (N:=NanNum) no_events undef (cfgN nan_norm) fuel startN) = Some r).
Proof.
  intros (fuel & r & E). assert (ST : stuck startN) by (split; [reflexivity|left; reflexivity]). revert E ST. generalize startN. induction fuel as [|k I]; intros s E ST; [discriminate E|].
  cbn in E. destruct (stuck_step s ST) as (s' & a & EA & ST'). rewrite EA in E. destruct (erk_step (N:=NanNum) no_events undef (cfgN nan_norm) k s') as [[s2 l] r2] eqn:ES. apply (I s'); [rewrite ES; exact E|exact ST'].
Qed.
