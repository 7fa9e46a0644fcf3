(** StepFacts.v - lemmas about the step size controller over the reals. *)
From Coq Require Import List Arith Bool ZArith QArith Qcanon Reals Lra Lia.
From Verif Require Import Base VecModel VOps RkModel StepModel StepSpec.
Import ListNotations.
Local Open Scope R_scope.

Lemma Rltb_spec a b : if Rltb a b then a < b else b <= a.
Proof. unfold Rltb. destruct (Rlt_dec a b); lra. Qed.
Lemma Rleb_spec a b : if Rleb a b then a <= b else b < a.
Proof. unfold Rleb. destruct (Rle_dec a b); lra. Qed.
Ltac rb a b := let H := fresh "B" in pose proof (Rltb_spec a b) as H; destruct (Rltb a b).
Lemma root_pow x n : 0 < x -> Rpower x (1 / (INR n + 1)) ^ (S n) = x.
Proof.
  intros X. rewrite <- Rpower_pow by apply exp_pos. rewrite Rpower_mult, S_INR. pose proof (pos_INR n) as P.
  replace (1 / (INR n + 1) * (INR n + 1)) with 1 by (field; lra). apply Rpower_1. exact X.
Qed.
Lemma pow_lt_iff a b n : 0 <= a -> 0 <= b -> (a < b <-> a ^ S n < b ^ S n).
Proof.
  intros A B. split.
  - intros L. induction n as [|n IH]; [simpl; lra|]. change (a * a ^ S n < b * b ^ S n).
    assert (0 <= a ^ S n) by (apply pow_le; exact A). nra.
  - intros L. destruct (Rlt_le_dec a b) as [|G]; [assumption|]. exfalso. pose proof (pow_incr b a (S n) (conj B G)). lra.
Qed.
(** the factor p: p^(order+1) * err = tol *)
Lemma factor tol err n : 0 < tol -> 0 < err -> let p := Rpower (tol / err) (1 / (INR n + 1)) in 0 < p /\ p ^ S n * err = tol.
Proof.
  intros TT E p. split; [apply exp_pos|]. unfold p. rewrite root_pow; [field; lra|]. apply Rdiv_lt_0_compat; assumption.
Qed.
Lemma factor_cmp tol err n c : 0 < tol -> 0 < err -> 0 <= c -> (Rpower (tol / err) (1 / (INR n + 1)) <= c <-> tol <= c ^ S n * err).
Proof.
  intros TT E C. destruct (factor tol err n TT E) as (P & Q). set (p := Rpower (tol / err) (1 / (INR n + 1))) in *. rewrite <- Q. split; intros H.
  - apply Rmult_le_compat_r; [lra|]. apply pow_incr. lra.
  - destruct (Rle_lt_dec p c) as [|G]; [assumption|exfalso]. apply (pow_lt_iff c p n) in G; try lra. nra.
Qed.

Section C.
Context (s : scset RNum) (h err : R) (n : nat).
Lemma control_zero : err = 0 -> controlR s h err n = (h, true, false).
Proof. intros ->. unfold controlR, control. cbn. unfold Reqb. destruct (Req_EM_T 0 0); [reflexivity|lra]. Qed.
Definition pf : R := Rpower (sc_tol s / err) (1 / (INR n + 1)).
Definition inc_cap (pd : R) : R := if Rltb 0 (sc_incMax s) && Rltb (sc_incMax s) pd then sc_incMax s else pd.
Lemma control_cases : err <> 0 ->
  controlR s h err n =
   (if Rleb 1 pf then
      let pd := pf * sc_ins s in
      let over := Rltb 0 (sc_maxThr s) && Rltb (sc_maxThr s) (pd * h) in
      let pd1 := if over then sc_maxThr s / h else pd in
      if over && Rltb pd1 1 then (h, true, false)
      else if Rltb 0 (sc_incMin s) && Rltb pd1 (sc_incMin s) then (h, true, false)
      else (h * inc_cap pd1, true, true)
    else if Rltb (1 - geom_eps) pf then (h, true, false)
    else (h * (if Rltb 0 (sc_decMax s) && Rltb (pf * sc_ins s) (sc_decMax s) then sc_decMax s else pf * sc_ins s), false, true)).
Proof. intros E. unfold controlR, control. cbn -[Rpower]. unfold Reqb. destruct (Req_EM_T err 0); [contradiction|]. reflexivity. Qed.
End C.

Lemma eps_range : 0 < geom_eps /\ geom_eps < 1. Proof. unfold geom_eps. lra. Qed.
Theorem accept_iff (s : scset RNum) (h err : R) (n : nat) : 0 < sc_tol s -> 0 <= err -> (accepted (controlR s h err n) = true <-> (1 - geom_eps) ^ S n * err < sc_tol s).
Proof.
  intros TT E. destruct (Req_EM_T err 0) as [->|NE].
  - rewrite control_zero by reflexivity. cbn. split; [intros _; lra|reflexivity].
  - rewrite control_cases by exact NE. pose proof eps_range as ER. pose proof (factor_cmp (sc_tol s) err n (1 - geom_eps) TT ltac:(lra) ltac:(lra)) as FC.
    pose proof (Rleb_spec 1 (pf s err n)) as B. destruct (Rleb 1 (pf s err n)).
    + assert (NP : ~ pf s err n <= 1 - geom_eps) by lra. assert (Q : (1 - geom_eps) ^ S n * err < sc_tol s).
      { destruct (Rlt_le_dec ((1 - geom_eps) ^ S n * err) (sc_tol s)) as [|G]; [assumption|]. exfalso. apply NP, FC. exact G. }
      split; [auto|]. intros _. cbv zeta. repeat match goal with |- context [if ?b then _ else _] => destruct b end; reflexivity.
    + rb (1 - geom_eps) (pf s err n).
      * split; [intros _|reflexivity]. destruct (Rlt_le_dec ((1 - geom_eps) ^ S n * err) (sc_tol s)) as [|G]; [assumption|]. exfalso. apply FC in G. unfold pf in *. lra.
      * cbn [accepted fst snd]. split; [discriminate|]. intros G. exfalso. assert (B1 : pf s err n <= 1 - geom_eps) by exact B0. apply FC in B1. apply (Rlt_not_le _ _ G). exact B1.
Qed.
Theorem within_tolerance (s : scset RNum) (h err : R) (n : nat) : 0 < sc_tol s -> 0 <= err -> err <= sc_tol s -> accepted (controlR s h err n) = true.
Proof.
  intros TT E L. apply accept_iff; [assumption|assumption|]. pose proof eps_range as ER.
  assert (P1 : (1 - geom_eps) ^ S n <= 1 - geom_eps).
  { simpl. pose proof (pow_incr (1 - geom_eps) 1 n ltac:(lra)) as PI. rewrite pow1 in PI. assert (0 <= (1 - geom_eps) ^ n) by (apply pow_le; lra). nra. }
  assert (P0 : 0 < (1 - geom_eps) ^ S n) by (apply pow_lt; lra). destruct (Req_EM_T err 0) as [->|]; [rewrite Rmult_0_r; exact TT|]. apply Rle_lt_trans with ((1 - geom_eps) * err); [apply Rmult_le_compat_r; assumption|]. apply Rlt_le_trans with err; [|exact L]. nra.
Qed.
Theorem accepted_step (s : scset RNum) (h err : R) (n : nat) : sensible s -> 0 <= err -> 0 < h -> accepted (controlR s h err n) = true ->
  h <= newStep (controlR s h err n) /\ (0 < sc_incMax s -> newStep (controlR s h err n) <= Rmax 1 (sc_incMax s) * h) /\
  (0 < sc_maxThr s -> newStep (controlR s h err n) <= Rmax h (sc_maxThr s)) /\
  (changed (controlR s h err n) = false -> newStep (controlR s h err n) = h).
Proof.
  intros (S1 & S2 & S3 & S4 & S5 & S6 & S7 & S8) E H. destruct (Req_EM_T err 0) as [->|NE].
  - rewrite control_zero by reflexivity. cbn. intros _. pose proof (Rmax_l 1 (sc_incMax s)). pose proof (Rmax_l h (sc_maxThr s)). repeat split; intros; try lra. nra.
  - rewrite control_cases by exact NE. assert (SAME : h <= h /\ (0 < sc_incMax s -> h <= Rmax 1 (sc_incMax s) * h) /\ (0 < sc_maxThr s -> h <= Rmax h (sc_maxThr s)) /\ (false = false -> h = h)).
    { pose proof (Rmax_l 1 (sc_incMax s)). pose proof (Rmax_l h (sc_maxThr s)). repeat split; intros; try lra. nra. }
    destruct (Rleb 1 (pf s err n)); [|rb (1 - geom_eps) (pf s err n); [intros _; exact SAME|cbn; discriminate]].
    cbv zeta. set (pd := pf s err n * sc_ins s) in *. set (over := Rltb 0 (sc_maxThr s) && Rltb (sc_maxThr s) (pd * h)).
    set (pd1 := if over then sc_maxThr s / h else pd).
    destruct (over && Rltb pd1 1); [intros _; exact SAME|].
    destruct (Rltb 0 (sc_incMin s) && Rltb pd1 (sc_incMin s)) eqn:EM; [intros _; exact SAME|]. intros _. unfold newStep, changed. cbn [fst snd].
    assert (G1 : sc_incMin s <= pd1).
    { rb 0 (sc_incMin s); cbn in EM; [rb pd1 (sc_incMin s); [discriminate|exact B0]|cbn in *; lra]. }
    assert (THR : 0 < sc_maxThr s -> pd1 * h <= sc_maxThr s).
    { intros MT. unfold pd1, over. rb 0 (sc_maxThr s); cbn in *; [|lra]. rb (sc_maxThr s) (pd * h); cbn; [|lra].
      right. field. lra. }
    assert (CAP : 1 <= inc_cap s pd1 /\ inc_cap s pd1 <= pd1 /\ (0 < sc_incMax s -> inc_cap s pd1 <= sc_incMax s)).
    { unfold inc_cap. rb 0 (sc_incMax s); cbn [andb]; cbn in *; [rb (sc_incMax s) pd1|]; cbn in *; repeat split; intros; try lra. }
    destruct CAP as (C1 & C2 & C3). cbn in *. split; [nra|]. split.
    + intros IM. pose proof (Rmax_r 1 (sc_incMax s)). specialize (C3 IM). nra.
    + split; [|discriminate]. intros MT. specialize (THR MT). pose proof (Rmax_r h (sc_maxThr s)). nra.
Qed.
Theorem rejected_step (s : scset RNum) (h err : R) (n : nat) : sensible s -> 0 < h -> accepted (controlR s h err n) = false ->
  changed (controlR s h err n) = true /\ newStep (controlR s h err n) <= shrink s * h /\ shrink s < 1 /\
  0 < newStep (controlR s h err n) /\ sc_decMax s * h <= newStep (controlR s h err n).
Proof.
  intros (S1 & S2 & S3 & S4 & S5 & S6 & S7 & S8) H. pose proof eps_range as ER. destruct (Req_EM_T err 0) as [->|NE].
  - rewrite control_zero by reflexivity. cbn. discriminate.
  - rewrite control_cases by exact NE. destruct (Rleb 1 (pf s err n)).
    + cbv zeta. repeat match goal with |- context [if ?b then _ else _] => destruct b end; cbn; discriminate.
    + rb (1 - geom_eps) (pf s err n); [cbn; discriminate|]. intros _. unfold newStep, changed, shrink. cbn [fst snd].
      assert (P : 0 < pf s err n) by apply exp_pos.
      pose proof (Rmax_l (sc_ins s * (1 - geom_eps)) (sc_decMax s)) as M1. pose proof (Rmax_r (sc_ins s * (1 - geom_eps)) (sc_decMax s)) as M2.
      assert (M3 : Rmax (sc_ins s * (1 - geom_eps)) (sc_decMax s) < 1) by (apply Rmax_lub_lt; [cbn in *; nra|exact S7]).
      assert (PI : pf s err n * sc_ins s <= sc_ins s * (1 - geom_eps)) by (cbn in *; nra).
      assert (PP : 0 < pf s err n * sc_ins s) by (apply Rmult_lt_0_compat; [exact P|exact S2]).
      split; [reflexivity|]. split; [|split; [exact M3|]].
      * rb 0 (sc_decMax s); cbn [andb]; [rb (pf s err n * sc_ins s) (sc_decMax s)|]; cbn in *; nra.
      * rb 0 (sc_decMax s); cbn [andb]; [rb (pf s err n * sc_ins s) (sc_decMax s)|]; cbn in *; split; nra.
Qed.
(** what the factors are, exactly *)
Theorem step_value (s : scset RNum) (h err : R) (n : nat) : sensible s -> 0 < h -> 0 < err -> changed (controlR s h err n) = true ->
  exists p, 0 < p /\ p ^ S n * err = sc_tol s /\
    (accepted (controlR s h err n) = true -> newStep (controlR s h err n) =
       Rmin (Rmin (h * (p * sc_ins s)) (if Req_EM_T (sc_maxThr s) 0 then h * (p * sc_ins s) else sc_maxThr s)) (if Req_EM_T (sc_incMax s) 0 then h * (p * sc_ins s) else h * sc_incMax s)) /\
    (accepted (controlR s h err n) = false -> newStep (controlR s h err n) = h * Rmax (p * sc_ins s) (sc_decMax s)).
Proof.
  intros (S1 & S2 & S3 & S4 & S5 & S6 & S7 & S8) H E. pose proof eps_range as ER. exists (pf s err n).
  destruct (factor (sc_tol s) err n S1 E) as (P & Q). fold (pf s err n) in P, Q. revert H0. rewrite control_cases by (cbn in *; lra). intros CH.
  assert (PP : 0 < pf s err n * sc_ins s) by (apply Rmult_lt_0_compat; [exact P|exact S2]).
  split; [exact P|]. split; [exact Q|].
  destruct (Rleb 1 (pf s err n)).
  - revert CH. cbv zeta. set (pd := pf s err n * sc_ins s) in *. set (over := Rltb 0 (sc_maxThr s) && Rltb (sc_maxThr s) (pd * h)).
    set (pd1 := if over then sc_maxThr s / h else pd).
    destruct (over && Rltb pd1 1); [cbn; discriminate|]. destruct (Rltb 0 (sc_incMin s) && Rltb pd1 (sc_incMin s)); [cbn; discriminate|].
    intros _. unfold accepted, newStep. cbn [fst snd]. split; [intros _|discriminate].
    assert (A : h * pd1 = Rmin (h * pd) (if Req_EM_T (sc_maxThr s) 0 then h * pd else sc_maxThr s)).
    { unfold pd1, over. rb 0 (sc_maxThr s); cbn [andb].
      - destruct (Req_EM_T (sc_maxThr s) 0) as [Z|Z]; [cbn in *; lra|]. rb (sc_maxThr s) (pd * h); cbn in *.
        + rewrite Rmin_right by lra. field. lra.
        + rewrite Rmin_left by lra. reflexivity.
      - destruct (Req_EM_T (sc_maxThr s) 0) as [Z|Z]; [|exfalso; apply Z; cbn in *; lra]. rewrite Rmin_left by lra. reflexivity. }
    rewrite <- A. assert (A2 : pd1 <= pd) by (apply (Rmult_le_reg_l h); [exact H|]; rewrite A; apply Rmin_l). clear A. unfold inc_cap. rb 0 (sc_incMax s); cbn [andb].
    + destruct (Req_EM_T (sc_incMax s) 0) as [Z|Z]; [cbn in *; lra|]. rb (sc_incMax s) pd1.
      * rewrite Rmin_right; [reflexivity|cbn in *; nra].
      * rewrite Rmin_left; [reflexivity|cbn in *; nra].
    + destruct (Req_EM_T (sc_incMax s) 0) as [Z|Z]; [|exfalso; destruct S5; [contradiction|cbn in *; lra]]. rewrite Rmin_left; [reflexivity|cbn in *; nra].
  - destruct (Rltb (1 - geom_eps) (pf s err n)); [cbn in CH; discriminate|]. unfold accepted, newStep. cbn [fst snd]. split; [discriminate|intros _]. f_equal.
    rb 0 (sc_decMax s); cbn [andb].
    + rb (pf s err n * sc_ins s) (sc_decMax s); [rewrite Rmax_right; [reflexivity|cbn in *; lra]|rewrite Rmax_left; [reflexivity|cbn in *; lra]].
    + rewrite Rmax_left; [reflexivity|cbn in *; lra].
Qed.
