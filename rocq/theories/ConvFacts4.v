(** ConvFacts4.v - the local error of a consistent method, and convergence. *)
From Coq Require Import List Arith Lia Bool ZArith QArith Qcanon Reals Lra.
From Verif Require Import Base BaseFacts VecModel VOps RkModel RkSpec StepModel StepSpec ConvSpec ConvFacts ConvFacts2 ConvFacts3.
Import ListNotations.
Local Open Scope R_scope.

Lemma lip_x n L f : lipschitz n L f -> lipschitz_x n L f.
Proof. intros H t x y d Lx Ly N. pose proof (H t t x y d Lx Ly N) as K. rewrite Rminus_eq_0, Rabs_R0, Rplus_0_l in K. exact K. Qed.

(** deviation of the stage slopes from the slope at the start, per unit of h *)
Fixpoint devs (co : coeffs RNum) (L M H : R) (s : nat) : list R :=
  match s with O => [] | S m => let e := devs co L M H m in e ++ [L * (Rabs (CR_ co m) + rsum m (fun i => Rabs (AR_ co m i) * (M + H * nth i e 0)))] end.
Lemma devs_length co L M H m : length (devs co L M H m) = m.
Proof. induction m as [|m I]; [reflexivity|]. simpl. rewrite app_length, I. simpl. lia. Qed.
Lemma devs_low co L M H s m d : (s < d)%nat -> (d <= m)%nat -> nth s (devs co L M H m) 0 = nth s (devs co L M H d) 0.
Proof.
  intros Hs. induction 1 as [|m Hm I]; [reflexivity|]. simpl. rewrite app_nth1 by (rewrite devs_length; lia). exact I.
Qed.
Lemma devs_at co L M H s m : (s < m)%nat ->
  nth s (devs co L M H m) 0 = L * (Rabs (CR_ co s) + rsum s (fun i => Rabs (AR_ co s i) * (M + H * nth i (devs co L M H m) 0))).
Proof.
  intros Hs. rewrite (devs_low co L M H s m (S s)) by lia. simpl. rewrite app_nth2 by (rewrite devs_length; lia). rewrite devs_length, Nat.sub_diag. simpl.
  f_equal. f_equal. apply rsum_ext. intros i Hi. rewrite (devs_low co L M H i m s) by lia. reflexivity.
Qed.
Lemma devs_nonneg co L M H m : 0 <= L -> 0 <= M -> 0 <= H -> forall s, 0 <= nth s (devs co L M H m) 0.
Proof.
  intros HL HM HH s. destruct (le_lt_dec m s) as [Hs|Hs]; [rewrite nth_overflow by (rewrite devs_length; lia); lra|].
  revert Hs. induction s as [s I] using lt_wf_ind. intros Hs. rewrite devs_at by assumption.
  apply Rmult_le_pos; [assumption|]. pose proof (Rabs_pos (CR_ co s)).
  assert (0 <= rsum s (fun i => Rabs (AR_ co s i) * (M + H * nth i (devs co L M H m) 0))); [|lra].
  apply rsum_nonneg. intros i Hi. apply Rmult_le_pos; [apply Rabs_pos|]. assert (0 <= H * nth i (devs co L M H m) 0) by (apply Rmult_le_pos; [assumption|apply I; lia]). lra.
Qed.
Definition local_const (co : coeffs RNum) (stages ix : nat) (L M H : R) : R :=
  rsum stages (fun s => Rabs (BR_ co stages ix s) * nth s (devs co L M H stages) 0) + L * (1 + M).
Lemma local_const_nonneg co stages ix L M H : 0 <= L -> 0 <= M -> 0 <= H -> 0 <= local_const co stages ix L M H.
Proof.
  intros HL HM HH. unfold local_const. assert (0 <= L * (1 + M)) by (apply Rmult_le_pos; lra).
  assert (0 <= rsum stages (fun s => Rabs (BR_ co stages ix s) * nth s (devs co L M H stages) 0)); [|lra].
  apply rsum_nonneg. intros i Hi. apply Rmult_le_pos; [apply Rabs_pos|apply devs_nonneg; assumption].
Qed.

Lemma path_inv co stages n ix F s l s' : path co stages n ix F s l s' ->
  match l with [] => s' = s | h :: r => exists s1, tstep co stages n ix F h s s1 /\ path co stages n ix F s1 r s' end.
Proof. destruct 1; [reflexivity|]. eexists; split; eassumption. Qed.
Section Local.
Context (co : coeffs RNum) (stages n ix : nat) (f : R -> list R -> list R) (L M H delta : R) (X : R -> list R).
Hypothesis SZ : sized n f.
Hypothesis HL : 0 <= L.
Hypothesis HM : 0 <= M.
Hypothesis LIP : lipschitz n L f.
Hypothesis CONS : consistent co stages ix delta.
Notation F := (fun t x => Ret (f t x)).

(** the exact solution moves at most M per unit of time *)
Lemma moves t t1 : t < t1 -> solves n f X t t1 -> (forall u j, t <= u <= t1 -> (j < n)%nat -> Rabs (cmpR (f u (X u)) j) <= M) ->
  near n (X t1) (X t) (M * (t1 - t)).
Proof.
  intros Ht SO HB j Hj.
  destruct (MVT_cor2 (fun u => cmpR (X u) j) (fun u => cmpR (f u (X u)) j) t t1 Ht) as [c [E [C1 C2]]]; [intros c Hc; apply (proj2 (SO c Hc)); assumption|].
  rewrite E, Rabs_mult, (Rabs_right (t1 - t)) by lra. apply Rmult_le_compat_r; [lra|]. apply HB; [lra|assumption].
Qed.
Lemma exact_step t h : 0 < h -> solves n f X t (t + h) -> (forall u j, t <= u <= t + h -> (j < n)%nat -> Rabs (cmpR (f u (X u)) j) <= M) ->
  forall j, (j < n)%nat -> Rabs (cmpR (X (t + h)) j - (cmpR (X t) j + h * cmpR (f t (X t)) j)) <= h * (L * (1 + M) * h).
Proof.
  intros Hh SO HB j Hj.
  destruct (MVT_cor2 (fun u => cmpR (X u) j) (fun u => cmpR (f u (X u)) j) t (t + h)) as [c [E [C1 C2]]]; [lra|intros c Hc; apply (proj2 (SO c Hc)); assumption|].
  replace (cmpR (X (t + h)) j - (cmpR (X t) j + h * cmpR (f t (X t)) j)) with (h * (cmpR (f c (X c)) j - cmpR (f t (X t)) j)).
  2:{ transitivity ((cmpR (X (t + h)) j - cmpR (X t) j) - h * cmpR (f t (X t)) j); [|ring]. rewrite E. ring. }
  rewrite Rabs_mult, (Rabs_right h) by lra. apply Rmult_le_compat_l; [lra|].
  assert (NC : near n (X c) (X t) (M * (c - t))).
  { apply moves; [assumption| |]; [intros u Hu; apply SO; lra|intros u i Hu Hi; apply HB; [lra|assumption]]. }
  assert (LC : length (X c) = n) by (apply SO; lra). assert (LT : length (X t) = n) by (apply SO; lra).
  pose proof (LIP c t (X c) (X t) (M * (c - t)) LC LT NC j Hj) as K. eapply Rle_trans; [exact K|]. rewrite (Rabs_right (c - t)) by lra.
  replace (c - t + M * (c - t)) with ((1 + M) * (c - t)) by ring. rewrite <- Rmult_assoc. apply Rmult_le_compat_l; [apply Rmult_le_pos; lra|lra].
Qed.
Lemma stage_dev x t h evals k : 0 < h <= H -> length x = n -> (forall j, (j < n)%nat -> Rabs (cmpR (f t x) j) <= M) -> stagesR co stages n F x t h evals k ->
  forall s, (s < stages)%nat -> near n (nth s k []) (f t x) (h * nth s (devs co L M H stages) 0).
Proof.
  intros Hh Lx HB [_ [_ H1]] s. induction s as [s I] using lt_wf_ind. intros Hs.
  destruct (H1 s Hs) as [a [_ [E1 [L1 A1]]]]. injection E1 as <-. rewrite devs_at by assumption.
  assert (NA : near n a x (h * rsum s (fun i => Rabs (AR_ co s i) * (M + H * nth i (devs co L M H stages) 0)))).
  { intros j Hj. rewrite A1 by assumption. replace (cmpR x j + h * rsum s (fun i => AR_ co s i * cmpR (nth i k []) j) - cmpR x j) with (h * rsum s (fun i => AR_ co s i * cmpR (nth i k []) j)) by ring.
    rewrite Rabs_mult, (Rabs_right h) by lra. apply Rmult_le_compat_l; [lra|]. apply rsum_dom. intros i Hi.
    assert (IS : (i < stages)%nat) by lia. pose proof (I i Hi IS j Hj) as K.
    replace (cmpR (nth i k []) j) with ((cmpR (nth i k []) j - cmpR (f t x) j) + cmpR (f t x) j) by ring. eapply Rle_trans; [apply Rabs_triang|].
    rewrite Rplus_comm. apply Rplus_le_compat; [apply HB; assumption|]. eapply Rle_trans; [exact K|]. apply Rmult_le_compat_r; [|lra].
    apply devs_nonneg; [assumption|assumption|lra]. }
  intros j Hj. eapply Rle_trans; [exact (LIP _ t a x _ L1 Lx NA j Hj)|]. replace (t + h * CR_ co s - t) with (h * CR_ co s) by ring.
  rewrite Rabs_mult, (Rabs_right h) by lra. right. ring.
Qed.
Lemma local_error t h x' : 0 < h <= H -> solves n f X t (t + h) -> (forall u j, t <= u <= t + h -> (j < n)%nat -> Rabs (cmpR (f u (X u)) j) <= M) ->
  tstep co stages n ix F h (t, X t) (t + h, x') -> near n x' (X (t + h)) (h * (local_const co stages ix L M H * h + M * delta)).
Proof.
  intros Hh SO HB [_ [ev [k [S1 [_ R1]]]]] j Hj. simpl in *.
  assert (LT : length (X t) = n) by (apply SO; lra).
  assert (HB0 : forall j, (j < n)%nat -> Rabs (cmpR (f t (X t)) j) <= M) by (intros i Hi; apply HB; [lra|assumption]).
  pose proof (exact_step t h (proj1 Hh) SO HB j Hj) as EX. rewrite R1 by assumption.
  set (g := cmpR (f t (X t)) j) in *.
  replace (cmpR (X t) j + h * rsum stages (fun s => BR_ co stages ix s * cmpR (nth s k []) j) - cmpR (X (t + h)) j)
    with (h * rsum stages (fun s => BR_ co stages ix s * (cmpR (nth s k []) j - g)) + h * ((rsum stages (fun s => BR_ co stages ix s) - 1) * g) - (cmpR (X (t + h)) j - (cmpR (X t) j + h * g))).
  2:{ rewrite (rsum_ext stages (fun s => BR_ co stages ix s * (cmpR (nth s k []) j - g)) (fun s => BR_ co stages ix s * cmpR (nth s k []) j - BR_ co stages ix s * g)) by (intros; ring).
      rewrite <- (rsum_minus stages (fun s => BR_ co stages ix s * cmpR (nth s k []) j) (fun s => BR_ co stages ix s * g)), <- (rsum_mult stages (fun s => BR_ co stages ix s) g). ring. }
  eapply Rle_trans; [apply Rabs_triang|]. rewrite Rabs_Ropp. eapply Rle_trans; [apply Rplus_le_compat_r, Rabs_triang|].
  assert (T1 : Rabs (h * rsum stages (fun s => BR_ co stages ix s * (cmpR (nth s k []) j - g))) <= h * (rsum stages (fun s => Rabs (BR_ co stages ix s) * nth s (devs co L M H stages) 0) * h)).
  { rewrite Rabs_mult, (Rabs_right h) by lra. apply Rmult_le_compat_l; [lra|]. rewrite rsum_mult.
    rewrite (rsum_ext stages (fun s => Rabs (BR_ co stages ix s) * nth s (devs co L M H stages) 0 * h) (fun s => Rabs (BR_ co stages ix s) * (h * nth s (devs co L M H stages) 0))) by (intros; ring).
    apply rsum_dom. intros s Hs. exact (stage_dev (X t) t h ev k Hh LT HB0 S1 s Hs j Hj). }
  assert (T2 : Rabs (h * ((rsum stages (fun s => BR_ co stages ix s) - 1) * g)) <= h * (M * delta)).
  { rewrite !Rabs_mult, (Rabs_right h) by lra. apply Rmult_le_compat_l; [lra|]. rewrite Rmult_comm. apply Rmult_le_compat; [apply Rabs_pos|apply Rabs_pos|apply HB0; assumption|exact CONS]. }
  unfold local_const. lra.
Qed.

(** textbook steps exist: build the slopes one after the other *)
Lemma tstep_exists t x h : length x = n -> exists x', tstep co stages n ix F h (t, x) (t + h, x').
Proof.
  intros Lx.
  assert (ST : forall m, (m <= stages)%nat -> exists evals k, length evals = m /\ length k = m /\ (forall i, (i < m)%nat -> length (nth i k []) = n) /\
     forall s, (s < m)%nat -> exists arg, nth_error evals s = Some (t + h * CR_ co s, arg) /\ F (t + h * CR_ co s) arg = Ret (nth s k []) /\ length arg = n /\
       forall j, (j < n)%nat -> cmpR arg j = cmpR x j + h * rsum s (fun i => AR_ co s i * cmpR (nth i k []) j)).
  { induction m as [|m I]; intros Hm; [exists [], []; repeat split; auto; intros; lia|].
    destruct I as [ev [k [L1 [L2 [L3 I]]]]]; [lia|].
    set (arg := map (fun j => cmpR x j + h * rsum m (fun i => AR_ co m i * cmpR (nth i k []) j)) (seq 0 n)).
    assert (LA : length arg = n) by (unfold arg; rewrite map_length, seq_length; reflexivity).
    exists (ev ++ [(t + h * CR_ co m, arg)]), (k ++ [f (t + h * CR_ co m) arg]).
    split; [rewrite app_length, L1; simpl; lia|]. split; [rewrite app_length, L2; simpl; lia|]. split.
    - intros i Hi. destruct (Nat.eq_dec i m) as [->|NE]; [rewrite app_nth2 by lia; rewrite L2, Nat.sub_diag; simpl; apply SZ; assumption|].
      rewrite app_nth1 by lia. apply L3. lia.
    - intros s Hs. destruct (Nat.eq_dec s m) as [->|NE].
      + exists arg. rewrite nth_error_app2 by lia. rewrite L1, Nat.sub_diag. split; [reflexivity|]. rewrite app_nth2 by lia. rewrite L2, Nat.sub_diag. simpl.
        split; [reflexivity|]. split; [assumption|]. intros j Hj. unfold arg, cmpR at 1.
        rewrite (nth_map_seq n (fun j => cmpR x j + h * rsum m (fun i => AR_ co m i * cmpR (nth i k []) j)) 0 j Hj). f_equal. f_equal.
        apply rsum_ext. intros i Hi. rewrite app_nth1 by lia. reflexivity.
      + destruct (I s) as [a [A1 [A2 [A3 A4]]]]; [lia|]. exists a. rewrite nth_error_app1 by lia. rewrite app_nth1 by lia. split; [assumption|]. split; [assumption|]. split; [assumption|].
        intros j Hj. rewrite A4 by assumption. f_equal. f_equal. apply rsum_ext. intros i Hi. rewrite app_nth1 by lia. reflexivity. }
  destruct (ST stages (le_n _)) as [ev [k [L1 [L2 [L3 S1]]]]].
  exists (map (fun j => cmpR x j + h * rsum stages (fun s => BR_ co stages ix s * cmpR (nth s k []) j)) (seq 0 n)).
  split; [reflexivity|]. exists ev, k. split; [split; [assumption|split; assumption]|]. split; [cbn [snd]; rewrite map_length, seq_length; reflexivity|].
  intros j Hj. unfold cmpR at 1. cbn [snd]. rewrite (nth_map_seq n (fun j => cmpR x j + h * rsum stages (fun s => BR_ co stages ix s * cmpR (nth s k []) j)) 0 j Hj). reflexivity.
Qed.
(** accumulation over a path with any positive steps *)
Lemma global_error : forall l s s' e, path co stages n ix F s l s' -> Forall (fun h => 0 < h <= H) l -> 0 <= e -> 0 <= delta ->
  length (snd s) = n ->
  solves n f X (fst s) (fst s + total l) -> (forall u j, fst s <= u <= fst s + total l -> (j < n)%nat -> Rabs (cmpR (f u (X u)) j) <= M) ->
  near n (snd s) (X (fst s)) e ->
  forall hm, Forall (fun h => h <= hm) l ->
  fst s' = fst s + total l /\
  near n (snd s') (X (fst s')) (exp (growth co stages ix L H * total l) * (e + total l * (local_const co stages ix L M H * hm + M * delta))).
Proof.
  induction l as [|h l I]; intros s s' e P FA He Hd Ls SO HB NR hm FM.
  - apply path_inv in P. subst s'. simpl. rewrite Rplus_0_r. split; [reflexivity|]. rewrite Rmult_0_r, exp_0, Rmult_0_l, Rplus_0_r, Rmult_1_l. exact NR.
  - apply path_inv in P. destruct P as [s1 [TS P1]]. pose proof (Forall_inv FA) as Hh. pose proof (Forall_inv_tail FA) as FA'.
    pose proof (Forall_inv FM) as Hm. pose proof (Forall_inv_tail FM) as FM'. cbv beta in Hh, Hm. simpl total in *.
    assert (TL : 0 <= total l). { clear - FA'. induction FA' as [|a l [A _] _ I]; simpl; lra. }
    destruct s as [t x], s1 as [t1 x1]. pose proof (proj1 TS) as TT. pose proof TS as TS0. destruct TS0 as [_ [_ [k0 [_ [Lx1 _]]]]]. simpl in TT, NR, Ls, SO, HB, Lx1. subst t1.
    assert (LT : length (X t) = n) by (apply SO; lra). destruct (tstep_exists t (X t) h LT) as [y TY].
    set (K := local_const co stages ix L M H) in *. set (G := growth co stages ix L H).
    assert (G0 : 0 <= G) by (apply growth_nonneg; lra). assert (K0 : 0 <= K) by (apply local_const_nonneg; lra).
    assert (N1 : near n x1 y ((1 + h * G) * e)).
    { eapply near_weaken; [exact (step_spread co stages n ix f L (lip_x n L f LIP) x (X t) t h x1 y e ltac:(lra) He NR TS TY)|].
      apply Rmult_le_compat_r; [assumption|]. apply Rplus_le_compat_l, Rmult_le_compat_l; [lra|]. apply growth_mono; lra. }
    assert (N2 : near n y (X (t + h)) (h * (K * h + M * delta))).
    { apply local_error; [assumption| | |exact TY]; [intros u Hu; apply SO; lra|intros u j Hu Hj; apply HB; [lra|assumption]]. }
    pose proof (near_trans _ _ _ _ _ _ N1 N2) as N3.
    assert (MD : 0 <= M * delta) by (apply Rmult_le_pos; assumption).
    assert (KH : 0 <= K * h) by (apply Rmult_le_pos; lra). assert (KHM : K * h <= K * hm) by (apply Rmult_le_compat_l; lra).
    assert (E1 : 0 <= (1 + h * G) * e + h * (K * h + M * delta)).
    { assert (0 <= (1 + h * G) * e) by (apply Rmult_le_pos; [assert (0 <= h * G) by (apply Rmult_le_pos; lra); lra|assumption]).
      assert (0 <= h * (K * h + M * delta)) by (apply Rmult_le_pos; lra). lra. }
    destruct (I (t + h, x1) s' _ P1 FA' E1 Hd Lx1) with (hm := hm) as [T2 N4]; [intros u Hu; apply SO; simpl in Hu; lra|intros u j Hu Hj; apply HB; [simpl in Hu; lra|assumption]|exact N3|exact FM'|].
    split; [rewrite T2; cbn [fst]; ring|]. eapply near_weaken; [exact N4|]. fold K. fold G.
    set (c := K * hm + M * delta). assert (C0 : 0 <= c) by (unfold c; lra).
    assert (EH : 1 + h * G <= exp (G * h)) by (rewrite (Rmult_comm h G); pose proof (exp_ineq1_le (G * h)); lra).
    replace (G * (h + total l)) with (G * h + G * total l) by ring. rewrite exp_plus.
    replace (exp (G * h) * exp (G * total l) * (e + (h + total l) * c)) with (exp (G * total l) * (exp (G * h) * (e + (h + total l) * c))) by ring.
    apply Rmult_le_compat_l; [left; apply exp_pos|].
    assert (HG : 0 <= h * G) by (apply Rmult_le_pos; lra).
    assert (A1 : h * (K * h + M * delta) <= h * c) by (apply Rmult_le_compat_l; [lra|unfold c; lra]).
    assert (A2 : 0 <= (h + total l) * c) by (apply Rmult_le_pos; lra).
    assert (A3 : (1 + h * G) * (e + (h + total l) * c) <= exp (G * h) * (e + (h + total l) * c)) by (apply Rmult_le_compat_r; lra).
    assert (A4 : 0 <= h * G * ((h + total l) * c)) by (apply Rmult_le_pos; assumption).
    lra.
Qed.
End Local.
