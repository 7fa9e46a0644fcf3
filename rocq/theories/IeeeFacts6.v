(** IeeeFacts6.v - the Gragg solver in doubles makes the run in rounded arithmetic. *)
From Coq Require Import List Arith Bool ZArith Lia Reals Lra.
From Flocq Require Import Core IEEE754.BinarySingleNaN.
From Verif Require Import Base BaseFacts VecModel VOps NewtModel NewtFacts ImpFacts RkModel RkSpec StepSpec ExtModel ConvSpec ConvFacts FpSpec FpFacts IfpFacts3 IeeeSpec IeeeFacts.
Import ListNotations.
Local Open Scope R_scope.
Notation b64 := binary64.

Lemma d_div x y a b : holds x a -> holds y b -> b <> 0 -> Rabs (a / b) <= Big -> holds (ndiv DNum x y) (b64 (a / b)).
Proof.
  intros [F1 V1] [F2 V2] NZ H. assert (NY : B2R y <> 0) by (rewrite V2; exact NZ). pose proof (Bdiv_correct 53 1024 _ _ mode_NE x y NY) as C. rewrite V1, V2, F1 in C.
  change (round radix2 (SpecFloat.fexp 53 1024) (round_mode mode_NE) (a / b)) with (b64 (a / b)) in C.
  rewrite (Rlt_bool_true _ _ (in_range _ H)) in C. destruct C as (C1 & C2 & _). split; assumption.
Qed.

Section Any.
Context {N : Num}.
Definition axpyN (n : nat) (v f : list (nT N)) (c : nT N) : list (nT N) := map (fun j => nadd N (nth j v (n0 N)) (nmul N (nth j f (n0 N)) c)) (seq 0 n).
Lemma axpy_len n v f c : length (axpyN n v f c) = n.
Proof. unfold axpyN. rewrite map_length. apply seq_length. Qed.
Lemma axpy_nth n v f c j : (j < n)%nat -> nth j (axpyN n v f c) (n0 N) = nadd N (nth j v (n0 N)) (nmul N (nth j f (n0 N)) c).
Proof. intros Hj. unfold axpyN. rewrite nth_map_seq by exact Hj. reflexivity. Qed.
Lemma axpy_ok n v f c : length v = n -> length f = n -> ladd (N:=N) v (lscale (N:=N) f c) = Ret (axpyN n v f c).
Proof.
  intros LV LF. unfold ladd. rewrite lzip_ok by (rewrite lscale_length; lia). rewrite LV. f_equal. apply map_ext_in. intros j Hj. apply in_seq in Hj. f_equal.
  unfold lscale. rewrite nth_indep with (d' := nmul N (n0 N) c) by (rewrite map_length; lia). apply (map_nth (fun x => nmul N x c)).
Qed.
Lemma g_stepN {W : Type} (g : nT N -> list (nT N) -> list (nT N)) n two (s : gst N W) : (forall t x, length x = n -> length (g t x) = n) -> length (g_u s) = n ->
  (g_run s = true -> length (g_v s) = n /\ length (g_f s) = n) ->
  let v0 := if g_run s then g_v s else g_u s in let f0 := if g_run s then g_f s else g (g_t s) (g_u s) in let h2 := ndiv N (g_h s) two in
  let v1 := axpyN n v0 f0 h2 in let f1 := g (nadd N (g_t s) h2) v1 in let u2 := axpyN n (g_u s) f1 (g_h s) in let f2 := g (nadd N (g_t s) (g_h s)) u2 in let v2 := axpyN n v1 f2 h2 in
  exists a, g_step (N:=N) no_events (fun (_ : W) t x => Ret (g t x)) two s = (mkG (N:=N) (nadd N (g_t s) (g_h s)) u2 v2 f2 true (g_h s) (g_w s), GRet a).
Proof.
  intros SZ LU RUN v0 f0 h2 v1 f1 u2 f2 v2. destruct s as [ts us vs fs run hs ws]. cbn [g_t g_u g_v g_f g_run g_h g_w] in *.
  assert (LV : length v0 = n) by (unfold v0; destruct run; [apply RUN; reflexivity|exact LU]).
  assert (LF : length f0 = n) by (unfold f0; destruct run; [apply RUN; reflexivity|apply SZ; exact LU]).
  pose proof (axpy_ok n v0 f0 h2 LV LF) as E1. pose proof (axpy_ok n us f1 hs LU (SZ _ _ (axpy_len _ _ _ _))) as E2.
  pose proof (axpy_ok n v1 f2 h2 (axpy_len _ _ _ _) (SZ _ _ (axpy_len _ _ _ _))) as E3. fold v1 in E1. fold u2 in E2. fold v2 in E3.
  eexists. unfold g_step. cbn [g_t g_u g_v g_f g_run g_h g_w no_events ev_start gcall]. fold h2.
  assert (EV : forall (q : gst N W) k, gcall (N:=N) q (if run then Ret fs else Ret (g ts us)) k = k f0) by (intros q k; unfold f0; destruct run; reflexivity).
  rewrite EV. assert (EVV : g_v (if run then mkG (N:=N) ts us vs fs run hs ws else mkG (N:=N) ts us us fs run hs ws) = v0) by (unfold v0; destruct run; reflexivity).
  rewrite EVV, E1. cbn [gcall]. fold f1. rewrite E2. cbn [gcall]. fold f2. rewrite E3. cbn [gcall no_events ev_end ev_t ev_x ev_trunc negb]. reflexivity.
Qed.
End Any.

Section Gragg.
Context {W W' : Type} (n : nat) (gD : double -> list double -> list double) (g : R -> list R -> list R) (hD twoD : double) (h V G S : R).
Hypothesis HH : holds hD h.
Hypothesis H2 : holds twoD 2.
Hypothesis V0 : 0 <= V.
Hypothesis G0 : 0 <= G.
Hypothesis S0 : 0 <= S.
Notation Bd := (gragg_size V G h).
Notation Sd := (gragg_time h S).
Hypothesis RB : Bd <= 2 ^ 1000.
Hypothesis RS : Sd <= 2 ^ 1000.
Hypothesis RH : rhs_holds n Sd Bd G gD g.
Hypothesis SZD : sizedD n gD.
Hypothesis SZ : sized n g.
Notation h2 := (b64 (h / 2)).
Notation P := (2 * (G * (Rabs h + U)) + U).
Lemma grg_sizes : 0 <= G * (Rabs h + U) /\ 0 <= G * Rabs h <= G * (Rabs h + U) /\ 1 <= 2 ^ 1000 /\ Bd = 2 * (V + P) + U /\ V + P <= 2 ^ 1000 /\ V <= Bd /\ S <= Sd.
Proof.
  pose proof u_small as [U0 U1]. pose proof (Rabs_pos h) as PH. assert (Q : 0 <= G * Rabs h) by (apply Rmult_le_pos; assumption). assert (Q2 : 0 <= G * U) by (apply Rmult_le_pos; lra).
  unfold gragg_size, gragg_time in *. change (/ 2 ^ 53) with U in *. rewrite Rmult_plus_distr_l in *. pose proof (pow_R1_Rle 2 1000 ltac:(lra)). repeat split; lra.
Qed.
Lemma h2_size : Rabs h2 <= Rabs h + U.
Proof. pose proof (sizeU (h / 2) (Rabs h / 2) ltac:(unfold Rdiv; rewrite Rabs_mult, (Rabs_pos_eq (/ 2)) by lra; lra)). lra. Qed.
Lemma h2_holds : holds (ndiv DNum hD twoD) h2.
Proof.
  apply d_div; [exact HH|exact H2|lra|]. unfold Rdiv. rewrite Rabs_mult, (Rabs_pos_eq (/ 2)) by lra. pose proof (Rabs_pos h). unfold gragg_time in RS. rewrite <- big4. lra.
Qed.
Lemma axpy_holds vD v fD f cD c b : holdsV n vD v -> bound n v b -> 0 <= b <= 2 ^ 1000 -> holdsV n fD f -> bound n f G -> holds cD c -> Rabs c <= Rabs h + U ->
  holdsV n (axpyN (N:=DNum) n vD fD cD) (axpyN (N:=FNum b64) n v f c) /\ bound n (axpyN (N:=FNum b64) n v f c) (2 * (b + P) + U).
Proof.
  intros HV BV Hb HF BF HC Cc. destruct grg_sizes as (Q1 & Q2 & Q3 & Q4 & Q5 & _). pose proof u_small as [U0 U1]. pose proof big4 as BG.
  assert (T1 : forall j, (j < n)%nat -> Rabs (cmpR f j * c) <= G * (Rabs h + U)) by (intros j Hj; apply mulb; [apply BF; exact Hj|exact Cc]).
  assert (T2 : forall j, (j < n)%nat -> Rabs (cmpR v j + b64 (cmpR f j * c)) <= b + P).
  { intros j Hj. eapply Rle_trans; [apply Rabs_triang|]. pose proof (BV j Hj). pose proof (sizeU _ _ (T1 j Hj)). lra. }
  split.
  - split; [exact (axpy_len (N:=DNum) _ _ _ _)|]. split; [exact (axpy_len (N:=FNum b64) _ _ _ _)|]. intros j Hj.
    change dzero with (n0 DNum). unfold cmpR. change 0 with (n0 (FNum b64)). rewrite (axpy_nth (N:=DNum)), (axpy_nth (N:=FNum b64)) by exact Hj.
    change (n0 (FNum b64)) with 0. change (n0 DNum) with dzero. fold (cmpR v j) (cmpR f j). apply d_add; [apply HV; exact Hj| |].
    + apply d_mul; [apply HF; exact Hj|exact HC|]. eapply Rle_trans; [apply T1; exact Hj|]. lra.
    + eapply Rle_trans; [apply T2; exact Hj|]. lra.
  - intros j Hj. unfold cmpR at 1. change 0 with (n0 (FNum b64)). rewrite (axpy_nth (N:=FNum b64)) by exact Hj. apply sizeU. apply T2. exact Hj.
Qed.
(** The two solver objects hold the same numbers. *)
Definition same (sD : gst DNum W) (s : gst (FNum b64) W') : Prop :=
  holds (g_t sD) (g_t s) /\ holdsV n (g_u sD) (g_u s) /\ g_run sD = g_run s /\ g_h sD = hD /\ g_h s = h /\
  (g_run s = true -> holdsV n (g_v sD) (g_v s) /\ holdsV n (g_f sD) (g_f s) /\ bound n (g_f s) G).
Definition small (s : gst (FNum b64) W') : Prop := Rabs (g_t s : R) <= S /\ bound n (g_u s) V /\ (g_run s = true -> bound n (g_v s) V).
Notation stepD := (g_step (N:=DNum) no_events (rhs_ofD (W:=W) gD) twoD).
Notation stepF := (g_step (N:=FNum b64) no_events (rhs_ofF (W:=W') b64 g) 2).
Lemma step_holds sD s : same sD s -> small s -> exists sD' aD s' a, stepD sD = (sD', GRet aD) /\ stepF s = (s', GRet a) /\ same sD' s' /\ g_run s' = true.
Proof.
  intros (HT & HU & ER & ED & EF & HR) (BT & BU & BR). destruct grg_sizes as (Q1 & Q2 & Q3 & Q4 & Q5 & Q6 & Q7). pose proof u_small as [U0 U1]. pose proof big4 as BG. pose proof (Rabs_pos h) as PH.
  destruct sD as [tD uD vD fD rD hD' wD]. destruct s as [t u v f r h' w]. cbn [g_t g_u g_v g_f g_run g_h g_w] in *. subst rD hD' h'.
  destruct (g_stepN (N:=DNum) gD n twoD (mkG (N:=DNum) tD uD vD fD r hD wD) SZD (proj1 HU)) as (aD & SD).
  { cbn [g_run g_v g_f]. intros R. destruct (HR R) as (R1 & R2 & _). split; [apply R1|apply R2]. }
  destruct (g_stepN (N:=FNum b64) g n 2 (mkG (N:=FNum b64) t u v f r h w) SZ (proj1 (proj2 HU))) as (a & SF).
  { cbn [g_run g_v g_f]. intros R. destruct (HR R) as (R1 & R2 & _). split; [apply R1|apply R2]. }
  cbn [g_t g_u g_v g_f g_run g_h g_w] in SD, SF. change (ndiv (FNum b64) h 2) with h2 in SF. change (nadd (FNum b64) t h2) with (b64 (t + h2)) in SF. change (nadd (FNum b64) t h) with (b64 (t + h)) in SF.
  set (v0D := if r then vD else uD) in SD. set (v0 := (if r then v else u) : list R) in SF. set (f0D := if r then fD else gD tD uD) in SD. set (f0 := (if r then f else g t u) : list R) in SF.
  assert (Z1 : holdsV n v0D v0 /\ bound n v0 V) by (unfold v0D, v0; destruct r; [split; [apply HR; reflexivity|apply BR; reflexivity]|split; assumption]). destruct Z1 as [HV0 BV0].
  assert (BU' : bound n u Bd) by (intros j Hj; eapply Rle_trans; [apply BU; exact Hj|exact Q6]).
  assert (Z2 : holdsV n f0D f0 /\ bound n f0 G). { unfold f0D, f0. destruct r; [split; apply HR; reflexivity|]. apply RH; try assumption. lra. } destruct Z2 as [HF0 BF0].
  destruct (axpy_holds _ _ _ _ _ _ V HV0 BV0 ltac:(lra) HF0 BF0 h2_holds h2_size) as [HV1 BV1]. rewrite <- Q4 in BV1.
  pose proof h2_size as Hh2.
  assert (TB1 : Rabs (t + h2) <= S + Rabs h + U) by (eapply Rle_trans; [apply Rabs_triang|]; lra).
  assert (TB2 : Rabs (t + h) <= S + Rabs h) by (eapply Rle_trans; [apply Rabs_triang|]; lra).
  assert (HT1 : holds (nadd DNum tD (ndiv DNum hD twoD)) (b64 (t + h2))) by (apply d_add; [exact HT|apply h2_holds|]; unfold gragg_time in RS; lra).
  assert (HT2 : holds (nadd DNum tD hD) (b64 (t + h))) by (apply d_add; [exact HT|exact HH|]; unfold gragg_time in RS; lra).
  assert (ST1 : Rabs (b64 (t + h2)) <= Sd) by (pose proof (sizeU _ _ TB1); unfold gragg_time; lra). assert (ST2 : Rabs (b64 (t + h)) <= Sd) by (pose proof (sizeU _ _ TB2); unfold gragg_time; lra).
  destruct (RH _ _ _ _ HT1 HV1 ST1 BV1) as [HF1 BF1].
  destruct (axpy_holds _ _ _ _ _ _ V HU BU ltac:(lra) HF1 BF1 HH ltac:(lra)) as [HU2 BU2]. rewrite <- Q4 in BU2.
  destruct (RH _ _ _ _ HT2 HU2 ST2 BU2) as [HF2 BF2].
  destruct (axpy_holds _ _ _ _ _ _ Bd HV1 BV1 ltac:(lra) HF2 BF2 h2_holds h2_size) as [HV2 BV2].
  eexists _, aD, _, a. split; [exact SD|]. split; [exact SF|]. split; [|reflexivity].
  split; [exact HT2|]. split; [exact HU2|]. split; [reflexivity|]. split; [reflexivity|]. split; [reflexivity|]. intros _. cbn [g_v g_f]. split; [exact HV2|]. split; [exact HF2|exact BF2].
Qed.
Notation runD := (g_steps (N:=DNum) no_events (rhs_ofD (W:=W) gD) twoD).
Notation runF := (g_steps (N:=FNum b64) no_events (rhs_ofF (W:=W') b64 g) 2).
Lemma runs_hold count : forall sD s, same sD s -> (forall m s', (m <= count)%nat -> runF m s = Some s' -> small s') ->
  exists sD' s', runD count sD = Some sD' /\ runF count s = Some s' /\ same sD' s'.
Proof.
  induction count as [|c I]; intros sD s SM BD.
  - exists sD, s. split; [reflexivity|]. split; [reflexivity|exact SM].
  - destruct (step_holds sD s SM (BD 0%nat s ltac:(lia) eq_refl)) as (s1D & aD & s1 & a & E1 & E2 & SM1 & _).
    destruct (I s1D s1 SM1) as (sD' & s' & R1 & R2 & R3).
    { intros m s' Hm E. apply (BD (Datatypes.S m) s'); [lia|]. cbn [g_steps]. rewrite E2. exact E. }
    exists sD', s'. split; [cbn [g_steps]; rewrite E1; exact R1|]. split; [cbn [g_steps]; rewrite E2; exact R2|exact R3].
Qed.
Lemma state_holds sD s smooth halfD : same sD s -> small s -> holds halfD (/ 2) -> exists zD z, g_state (N:=DNum) smooth halfD sD = Ret zD /\ g_state (N:=FNum b64) smooth (/ 2) s = Ret z /\ holdsV n zD z.
Proof.
  intros (HT & HU & ER & ED & EF & HR) (BT & BU & BR) HF. unfold g_state. rewrite ER. destruct (smooth && g_run s) eqn:C.
  - apply andb_true_iff in C. destruct C as [_ C]. destruct (HR C) as (HV & _). specialize (BR C). destruct grg_sizes as (Q1 & Q2 & Q3 & Q4 & Q5 & Q6 & Q7). pose proof u_small as [U0 U1]. pose proof big4 as BG.
    assert (SC : forall vD v, holdsV n vD v -> bound n v V -> holdsV n (lscale (N:=DNum) vD halfD) (lscale (N:=FNum b64) v (/ 2)) /\ bound n (lscale (N:=FNum b64) v (/ 2)) (V + U)).
    { intros vD v (L1 & L2 & Hv) Bv.
      assert (X1 : forall j, (j < n)%nat -> nth j (lscale (N:=DNum) vD halfD) dzero = nmul DNum (nth j vD dzero) halfD).
      { intros j Hj. unfold lscale. change (nT DNum) with double. rewrite nth_indep with (d' := nmul DNum dzero halfD) by (rewrite map_length; lia). apply (map_nth (fun x : double => nmul DNum x halfD)). }
      assert (X2 : forall j, (j < n)%nat -> cmpR (lscale (N:=FNum b64) v (/ 2)) j = b64 (cmpR v j * / 2)).
      { intros j Hj. unfold cmpR, lscale. change (nT (FNum b64)) with R. rewrite nth_indep with (d' := b64 (0 * / 2)) by (rewrite map_length; lia). apply (map_nth (fun x : R => b64 (x * / 2))). }
      assert (X3 : forall j, (j < n)%nat -> Rabs (cmpR v j * / 2) <= V / 2) by (intros j Hj; rewrite Rabs_mult, (Rabs_pos_eq (/ 2)) by lra; pose proof (Bv j Hj); lra).
      split; [split; [rewrite (lscale_length (N:=DNum)); exact L1|split; [rewrite (lscale_length (N:=FNum b64)); exact L2|]]|].
      - intros j Hj. rewrite X1, X2 by exact Hj. apply d_mul; [apply Hv; exact Hj|exact HF|]. pose proof (X3 j Hj). lra.
      - intros j Hj. rewrite X2 by exact Hj. pose proof (sizeU _ _ (X3 j Hj)). lra. }
    destruct (SC _ _ HU BU) as [A1 A2]. destruct (SC _ _ HV BR) as [B1 B2]. pose proof A1 as (A11 & A12 & A13). pose proof B1 as (B11 & B12 & B13).
    eexists _, _. unfold ladd. split; [apply lzip_ok; change (nT DNum) with double in *; lia|]. split; [apply lzip_ok; change (nT (FNum b64)) with R in *; lia|].
    change (nT DNum) with double in *. change (nT (FNum b64)) with R in *. rewrite A11, A12. split; [rewrite map_length; apply seq_length|]. split; [rewrite map_length; apply seq_length|]. intros j Hj.
    unfold cmpR. rewrite !nth_map_seq by exact Hj. apply d_add; [apply A13; exact Hj|apply B13; exact Hj|]. eapply Rle_trans; [apply Rabs_triang|]. eapply Rle_trans; [apply Rplus_le_compat; [exact (A2 j Hj)|exact (B2 j Hj)]|]. lra.
  - exists (g_u sD), (g_u s). split; [reflexivity|]. split; [reflexivity|exact HU].
Qed.
Theorem gragg_same_run (sD : gst DNum W) (s : gst (FNum b64) W') count : holds (g_t sD) (g_t s) -> holdsV n (g_u sD) (g_u s) ->
  (forall m s', (m <= count)%nat -> runF m (g_size (N:=FNum b64) h s) = Some s' -> Rabs (g_t s' : R) <= S /\ bound n (g_u s') V /\ (g_run s' = true -> bound n (g_v s') V)) ->
  exists sD' s', runD count (g_size (N:=DNum) hD sD) = Some sD' /\ runF count (g_size (N:=FNum b64) h s) = Some s' /\ holds (g_t sD') (g_t s') /\ holdsV n (g_u sD') (g_u s') /\
    forall smooth halfD, holds halfD (/ 2) -> exists zD z, g_state (N:=DNum) smooth halfD sD' = Ret zD /\ g_state (N:=FNum b64) smooth (/ 2) s' = Ret z /\ holdsV n zD z.
Proof.
  intros HT HU BD. destruct (runs_hold count (g_size (N:=DNum) hD sD) (g_size (N:=FNum b64) h s)) as (sD' & s' & R1 & R2 & R3); [|exact BD|].
  { split; [exact HT|]. split; [exact HU|]. split; [reflexivity|]. split; [reflexivity|]. split; [reflexivity|]. cbn [g_run g_size]. discriminate. }
  exists sD', s'. split; [exact R1|]. split; [exact R2|]. split; [apply R3|]. split; [apply R3|]. intros smooth halfD HF. apply state_holds; [exact R3|apply (BD count s' (le_n _) R2)|exact HF].
Qed.
End Gragg.
