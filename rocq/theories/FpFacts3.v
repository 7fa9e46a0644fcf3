(** FpFacts3.v - rounding errors of one step, continued: accumulations, stages, results. *)
From Coq Require Import List Arith Lia Bool ZArith QArith Qcanon Reals Lra Psatz.
From Verif Require Import Base BaseFacts VecModel VOps NewtFacts NewtFacts4 RkModel RkSpec RkFacts RkFacts2 RkFacts3 StepModel StepSpec ConvSpec ConvFacts ConvFacts2 ConvFacts3 ConvFacts4 ConvFacts5 FpSpec FpFacts FpFacts2.
Import ListNotations.
Local Open Scope R_scope.

Lemma map_rnd rnd (cs : list R) i : rnd 0 = 0 -> nth i (map rnd cs) 0 = rnd (nth i cs 0).
Proof. intros Z. transitivity (nth i (map rnd cs) (rnd 0)); [rewrite Z; reflexivity|]. apply map_nth. Qed.
Lemma acc_err H A : 0 <= H -> 0 <= A -> forall Bk Ek B0 E0, 0 <= Bk -> 0 <= Ek -> 0 <= B0 -> 0 <= E0 -> forall count, exists B E, 0 <= B /\ 0 <= E /\
  forall rnd u eta V psi h, setting rnd u eta V psi h H -> forall (cs : list R) p (ks kfs : list (list R)) j w wf,
  (forall i, (i < count)%nat -> Rabs (nth (p + i) cs 0) <= A) ->
  (forall i, (i < count)%nat -> Rabs (cmpR (nth i ks []) j) <= Bk * V /\ Rabs (cmpR (nth i kfs []) j - cmpR (nth i ks []) j) <= Ek * (V * (u + eta) + psi)) ->
  Rabs w <= B0 * V -> Rabs (wf - w) <= E0 * (V * (u + eta) + h * psi) ->
  Rabs (acc_of (N:=FNum rnd) (map rnd cs) p h kfs j count wf - (w + h * rsum count (fun i => nth (p + i) cs 0 * cmpR (nth i ks []) j))) <= E * (V * (u + eta) + h * psi) /\
  Rabs (w + h * rsum count (fun i => nth (p + i) cs 0 * cmpR (nth i ks []) j)) <= B * V.
Proof.
  intros HH HA Bk Ek B0 E0 HBk HEk HB0 HE0. induction count as [|m I].
  - exists B0, E0. split; [assumption|]. split; [assumption|]. intros rnd u eta V psi h S cs p ks kfs j w wf _ _ W1 W2. simpl. rewrite Rmult_0_r, Rplus_0_r. split; assumption.
  - destruct I as [B [E [HB [HE I]]]]. exists (B + H * A * Bk), (E1 H A Bk Ek B E).
    assert (HAB : 0 <= H * A * Bk) by (apply Rmult_le_pos; [apply Rmult_le_pos|]; lra).
    split; [lra|]. split.
    { unfold E1, Q1, P1. assert (0 <= (2 * A + 1) * H) by (apply Rmult_le_pos; lra). assert (0 <= H * (A + 1)) by (apply Rmult_le_pos; lra).
      assert (0 <= H * A) by (apply Rmult_le_pos; lra). set (P := (2 * A + 1) * H + 1 + H * (A + 1)). assert (0 <= P) by (unfold P; lra).
      assert (0 <= Ek * (H * A + 3 * P + A)) by (apply Rmult_le_pos; lra). assert (0 <= Bk * P) by (apply Rmult_le_pos; lra).
      assert (0 <= H * (A + 1) * Bk) by (apply Rmult_le_pos; lra). lra. }
    intros rnd u eta V psi h S cs p ks kfs j w wf C K W1 W2.
    destruct (I rnd u eta V psi h S cs p ks kfs j w wf) as [I1 I2]; [intros; apply C; lia|intros; apply K; lia|assumption|assumption|].
    destruct (K m) as [K1 K2]; [lia|]. pose proof (C m (Nat.lt_succ_diag_r m)) as C1.
    destruct (acc_step rnd u eta V psi h H S A Bk Ek B E (nth (p + m) cs 0) (cmpR (nth m ks []) j) (cmpR (nth m kfs []) j) _ _ HA HBk HEk HB HE C1 K1 K2 I2 I1) as [X1 X2].
    assert (Z : rnd 0 = 0) by apply S.
    assert (EW : w + h * rsum (Datatypes.S m) (fun i => nth (p + i) cs 0 * cmpR (nth i ks []) j) =
      w + h * rsum m (fun i => nth (p + i) cs 0 * cmpR (nth i ks []) j) + h * (nth (p + m) cs 0 * cmpR (nth m ks []) j)) by (simpl; ring).
    rewrite EW. split; [|exact X2].
    cbn [acc_of]. change (neqb (FNum rnd) (nth (p + m) (map rnd cs) (n0 (FNum rnd))) (n0 (FNum rnd))) with (Reqb (nth (p + m) (map rnd cs) 0) 0).
    change (nth (p + m) (map rnd cs) (n0 (FNum rnd))) with (nth (p + m) (map rnd cs) 0). rewrite (map_rnd rnd cs (p + m) Z). exact X1.
Qed.

Section Step.
Context (co : coeffs RNum) (stages n ix : nat) (f : R -> list R -> list R) (L F0 A H : R).
Hypothesis LL : 0 <= L.
Hypothesis HF0 : 0 <= F0.
Hypothesis HA : 0 <= A.
Hypothesis HH : 0 <= H.
Hypothesis LIP : lipschitz n L f.
Hypothesis SLOPE : forall t x b, length x = n -> bound n x b -> bound n (f t x) (F0 + L * (Rabs t + b)).
Hypothesis EA : forall i, Rabs (nth i (co_a co) 0) <= A.
Hypothesis EB : forall i, Rabs (nth i (co_b co) 0) <= A.
Hypothesis EC : forall i, Rabs (nth i (co_c co) 0) <= A.
Notation F := (fun t x => Ret (f t x)).
(** the data of one exact step and one rounded step, started at the same state *)
Definition twin rnd u eta V psi h (g : R -> list R -> list R) phi x t tf theta evals k evalsf kf : Prop :=
  setting rnd u eta V psi h H /\ accurate n phi f g /\ 0 <= phi /\ 0 <= theta /\ V * phi + theta <= psi /\ length x = n /\ bound n x V /\ Rabs t <= V /\ Rabs (tf - t) <= theta /\
  stagesR co stages n F x t h evals k /\ stagesN (N:=FNum rnd) (tabF rnd co) stages n (fun t x => Ret (g t x)) x tf h evalsf kf.

Lemma CR_le s : Rabs (CR_ co s) <= A.
Proof. unfold CR_. destruct s; [rewrite Rabs_R0; assumption|apply EC]. Qed.
Lemma twin_stages s : (s <= stages)%nat -> exists B E, 0 <= B /\ 0 <= E /\ forall rnd u eta V psi h g phi x t tf theta evals k evalsf kf,
  twin rnd u eta V psi h g phi x t tf theta evals k evalsf kf -> forall i j, (i < s)%nat -> (j < n)%nat ->
  Rabs (cmpR (nth i k []) j) <= B * V /\ Rabs (cmpR (nth i kf []) j - cmpR (nth i k []) j) <= E * (V * (u + eta) + psi).
Proof.
  induction s as [|s I]; intros Hs.
  - exists 0, 0. split; [lra|]. split; [lra|]. intros. lia.
  - destruct I as [B [E [HB [HE I]]]]; [lia|].
    destruct (acc_err H A HH HA B E 1 0 HB HE) with (count := s) as [Ba [Ea [HBa [HEa ACC]]]]; [lra|lra|].
    set (P := P1 H A). assert (HP : 0 <= P).
    { unfold P, P1. assert (0 <= (2 * A + 1) * H) by (apply Rmult_le_pos; lra). assert (0 <= H * (A + 1)) by (apply Rmult_le_pos; lra). lra. }
    assert (HAn : 0 <= H * A) by (apply Rmult_le_pos; assumption).
    set (Et := 2 * (1 + P) + (1 + H * A) + 1). assert (HEt : 1 <= Et) by (unfold Et; lra).
    set (Kb := 1 + (Et * 3 + (1 + H * A)) + (Ea * (1 + 2 * H) + Ba)).
    assert (HKb : 0 <= Kb). { unfold Kb. assert (0 <= Ea * (1 + 2 * H)) by (apply Rmult_le_pos; lra). lra. }
    set (En := Kb + L * (Et + Ea * (1 + H))). set (Bn := F0 + L * (1 + H * A + Ba)).
    assert (HEn : 0 <= En). { unfold En. assert (0 <= Ea * (1 + H)) by (apply Rmult_le_pos; lra). assert (0 <= L * (Et + Ea * (1 + H))) by (apply Rmult_le_pos; lra). lra. }
    assert (HBn : 0 <= Bn). { unfold Bn. assert (0 <= L * (1 + H * A + Ba)) by (apply Rmult_le_pos; lra). lra. }
    exists (B + Bn), (E + En). split; [lra|]. split; [lra|].
    intros rnd u eta V psi h g phi x t tf theta evals k evalsf kf TW i j Hi Hj. pose proof TW as [ST [AC [PH [TH [PS [Lx [BX [TV [TT [SR SN]]]]]]]]]].
    assert (RS : 0 <= u /\ 0 <= eta /\ u + eta <= 1 /\ 1 <= V /\ 0 <= psi <= 2 * V /\ 0 <= h <= H) by apply ST. destruct RS as [U0 [T0 [E1' [V1 [P0 H0]]]]].
    set (D2 := V * (u + eta) + psi). assert (VE : 0 <= V * (u + eta)) by (apply Rmult_le_pos; lra).
    assert (D20 : 0 <= D2) by (unfold D2; lra). assert (EV : u + eta <= V * (u + eta)) by (apply Rle_trans with (1 * (u + eta)); [lra|apply Rmult_le_compat_r; lra]).
    assert (VE1 : V * (u + eta) <= V * 1) by (apply Rmult_le_compat_l; lra).
    destruct (Nat.eq_dec i s) as [->|NE].
    2:{ destruct (I rnd u eta V psi h g phi x t tf theta evals k evalsf kf TW i j) as [I1 I2]; [lia|assumption|].
        assert (0 <= Bn * V) by (apply Rmult_le_pos; lra). assert (0 <= En * D2) by (apply Rmult_le_pos; lra). unfold D2 in *. split; lra. }
    destruct SR as [_ [_ SR]]. destruct (SR s) as [arg [_ [FA [La HA_]]]]; [lia|]. injection FA as FA.
    destruct SN as [_ [_ SN]]. destruct (SN s) as [ts [argf [_ [GA [Lf [_ [ET HF_]]]]]]]; [lia|]. injection GA as GA.
    set (D := V * (u + eta) + h * psi). assert (HPsi : h * psi <= H * psi) by (apply Rmult_le_compat_r; lra). assert (hp0 : 0 <= h * psi) by (apply Rmult_le_pos; lra).
    assert (DD2 : D <= (1 + H) * D2). { unfold D, D2. assert (0 <= H * (V * (u + eta))) by (apply Rmult_le_pos; lra). lra. }
    assert (DV : D <= (1 + 2 * H) * V). { unfold D. assert (H * psi <= H * (2 * V)) by (apply Rmult_le_compat_l; lra). lra. }
    assert (D2V : D2 <= 3 * V) by (unfold D2; lra).
    assert (AG : forall j, (j < n)%nat -> Rabs (cmpR argf j - cmpR arg j) <= Ea * D /\ Rabs (cmpR arg j) <= Ba * V).
    { intros q Hq. rewrite (HA_ q Hq). change (cmpR argf q) with (nth q argf (n0 (FNum rnd))). rewrite (HF_ q Hq).
      apply (ACC rnd u eta V psi h ST (co_a co) (tri s) k kf q (cmpR x q) (cmpR x q)).
      - intros; apply EA.
      - intros r Hr. apply (I rnd u eta V psi h g phi x t tf theta evals k evalsf kf TW r q Hr Hq).
      - rewrite Rmult_1_l. apply BX. assumption.
      - rewrite Rminus_diag_eq by reflexivity. rewrite Rabs_R0, Rmult_0_l. lra. }
    assert (TS : Rabs (t + h * CR_ co s) <= (1 + H * A) * V).
    { eapply Rle_trans; [apply Rabs_triang|]. assert (X : Rabs (h * CR_ co s) <= H * A) by (apply abs_mul; [rewrite Rabs_pos_eq; lra|apply CR_le]).
      assert (H * A * 1 <= H * A * V) by (apply Rmult_le_compat_l; lra). lra. }
    assert (TE : Rabs (ts - (t + h * CR_ co s)) <= Et * D2).
    { destruct s as [|q].
      - rewrite ET. unfold CR_. rewrite Rmult_0_r, Rplus_0_r. eapply Rle_trans; [exact TT|].
        assert (TD : theta <= D2). { unfold D2. assert (0 <= V * phi) by (apply Rmult_le_pos; lra). lra. }
        apply Rle_trans with (1 * D2); [lra|apply Rmult_le_compat_r; lra].
      - rewrite ET. change (nth q (co_c (tabF rnd co)) (n0 (FNum rnd))) with (nth q (map rnd (co_c co)) 0). rewrite map_rnd by apply ST.
        change (nadd (FNum rnd) tf (nmul (FNum rnd) h (rnd (nth q (co_c co) 0)))) with (rnd (tf + rnd (h * rnd (nth q (co_c co) 0)))).
        unfold Et. apply (rnd_step rnd u eta V psi h H ST D2 (1 + P) (1 + H * A)); [unfold D2; lra|lra|lra| |exact TS].
        pose proof (prod_err rnd u eta V psi h H ST A (nth q (co_c co) 0) HA (EC q)) as PE. fold P in PE. cbn [CR_].
        replace (tf + rnd (h * rnd (nth q (co_c co) 0)) - (t + h * nth q (co_c co) 0)) with ((tf - t) + (rnd (h * rnd (nth q (co_c co) 0)) - h * nth q (co_c co) 0)) by ring.
        eapply Rle_trans; [apply Rabs_triang|]. assert (TD : theta <= D2). { unfold D2. assert (0 <= V * phi) by (apply Rmult_le_pos; lra). lra. }
        assert (P * (u + eta) <= P * D2) by (apply Rmult_le_compat_l; [assumption|]; unfold D2; lra). lra. }
    assert (TSF : Rabs ts <= Et * 3 * V + (1 + H * A) * V).
    { eapply Rle_trans; [exact (abs_from _ _ _ _ TE TS)|]. assert (Et * D2 <= Et * (3 * V)) by (apply Rmult_le_compat_l; lra). lra. }
    assert (BF : bound n argf (Ea * ((1 + 2 * H) * V) + Ba * V)).
    { intros q Hq. destruct (AG q Hq) as [G1 G2]. eapply Rle_trans; [exact (abs_from _ _ _ _ G1 G2)|]. assert (Ea * D <= Ea * ((1 + 2 * H) * V)) by (apply Rmult_le_compat_l; lra). lra. }
    assert (BE : bound n arg (Ba * V)) by (intros q Hq; apply AG; assumption).
    split.
    { rewrite <- FA. eapply Rle_trans; [apply (SLOPE _ arg (Ba * V) La BE j Hj)|].
      assert (L * (Rabs (t + h * CR_ co s) + Ba * V) <= L * ((1 + H * A) * V + Ba * V)) by (apply Rmult_le_compat_l; lra).
      assert (F0 * 1 <= F0 * V) by (apply Rmult_le_compat_l; lra). unfold Bn.
      replace ((B + (F0 + L * (1 + H * A + Ba))) * V) with (B * V + F0 * V + L * ((1 + H * A) * V + Ba * V)) by ring.
      assert (0 <= B * V) by (apply Rmult_le_pos; lra). lra. }
    assert (GA' : @nth (list R) s kf [] = g ts argf) by (symmetry; exact GA).
    change (Rabs (cmpR (@nth (list R) s kf []) j - cmpR (nth s k []) j) <= (E + En) * (V * (u + eta) + psi)). rewrite GA', <- FA.
    pose proof (AC ts argf _ Lf BF j Hj) as N1.
    assert (N2 : Rabs (cmpR (f ts argf) j - cmpR (f (t + h * CR_ co s) arg) j) <= L * (Et * D2 + Ea * D)).
    { eapply Rle_trans; [apply (LIP ts (t + h * CR_ co s) argf arg (Ea * D) Lf La); [intros q Hq; apply AG; assumption|assumption]|]. apply Rmult_le_compat_l; [assumption|]. lra. }
    eapply Rle_trans; [exact (tri3 _ _ _ _ _ N1 N2)|].
    assert (Q1 : phi * (1 + Rabs ts + (Ea * ((1 + 2 * H) * V) + Ba * V)) <= phi * (Kb * V)).
    { apply Rmult_le_compat_l; [assumption|]. unfold Kb. assert (1 <= V) by assumption. lra. }
    assert (Q2 : phi * (Kb * V) <= Kb * D2).
    { replace (phi * (Kb * V)) with (Kb * (V * phi)) by ring. apply Rmult_le_compat_l; [assumption|]. unfold D2. lra. }
    assert (Q3 : L * (Et * D2 + Ea * D) <= L * (Et * D2 + Ea * ((1 + H) * D2))) by (apply Rmult_le_compat_l; [assumption|]; apply Rplus_le_compat_l; apply Rmult_le_compat_l; assumption).
    unfold En. replace ((E + (Kb + L * (Et + Ea * (1 + H)))) * (V * (u + eta) + psi)) with (E * D2 + Kb * D2 + L * (Et * D2 + Ea * ((1 + H) * D2))) by (unfold D2; ring).
    assert (0 <= E * D2) by (apply Rmult_le_pos; lra). lra.
Qed.
Lemma rsum_const c m : rsum m (fun _ => c) = INR m * c.
Proof. induction m as [|m I]; [simpl; ring|]. cbn [rsum]. rewrite I, S_INR. ring. Qed.
(** one step: the rounding errors, and how far the exact step moves *)
Lemma twin_step : exists K, 0 <= K /\ forall rnd u eta V psi h g phi x t tf theta evals k evalsf kf x2 x2f,
  twin rnd u eta V psi h g phi x t tf theta evals k evalsf kf -> resultR co stages n ix x h k x2 -> resultN (N:=FNum rnd) (tabF rnd co) stages n ix x h kf x2f ->
  near n x2f x2 (K * (V * (u + eta) + h * psi)) /\ near n x2 x (h * (K * V)).
Proof.
  destruct (twin_stages stages (Nat.le_refl _)) as [B [E [HB [HE I]]]].
  destruct (acc_err H A HH HA B E 1 0 HB HE) with (count := stages) as [Ba [Ea [HBa [HEa ACC]]]]; [lra|lra|].
  assert (SP : 0 <= INR stages * (A * B)) by (apply Rmult_le_pos; [apply pos_INR|apply Rmult_le_pos; assumption]).
  exists (Ea + INR stages * (A * B)). split; [lra|].
  intros rnd u eta V psi h g phi x t tf theta evals k evalsf kf x2 x2f TW [L2 R2] [L2f R2f]. pose proof TW as [ST [AC [PH [TH [PS [Lx [BX [TV [TT [SR SN]]]]]]]]]].
  assert (RS : 0 <= u /\ 0 <= eta /\ u + eta <= 1 /\ 1 <= V /\ 0 <= psi <= 2 * V /\ 0 <= h <= H) by apply ST. destruct RS as [U0 [T0 [E1' [V1 [P0 H0]]]]].
  assert (D0 : 0 <= V * (u + eta) + h * psi). { assert (0 <= V * (u + eta)) by (apply Rmult_le_pos; lra). assert (0 <= h * psi) by (apply Rmult_le_pos; lra). lra. }
  split; intros j Hj.
  - rewrite (R2 j Hj). change (cmpR x2f j) with (nth j x2f (n0 (FNum rnd))). rewrite (R2f j Hj).
    destruct (ACC rnd u eta V psi h ST (co_b co) (ix * stages)%nat k kf j (cmpR x j) (cmpR x j)) as [X _].
    + intros; apply EB.
    + intros r Hr. apply (I rnd u eta V psi h g phi x t tf theta evals k evalsf kf TW r j Hr Hj).
    + rewrite Rmult_1_l. apply BX. assumption.
    + rewrite Rminus_diag_eq by reflexivity. rewrite Rabs_R0, Rmult_0_l. lra.
    + eapply Rle_trans; [exact X|]. apply Rmult_le_compat_r; [assumption|]. lra.
  - rewrite (R2 j Hj). replace (cmpR x j + h * rsum stages (fun s => BR_ co stages ix s * cmpR (nth s k []) j) - cmpR x j) with (h * rsum stages (fun s => BR_ co stages ix s * cmpR (nth s k []) j)) by ring.
    apply Rle_trans with (h * (INR stages * (A * (B * V)))).
    + apply abs_mul; [rewrite Rabs_pos_eq; lra|].
      eapply Rle_trans; [apply (rsum_dom stages (fun s => BR_ co stages ix s) (fun s => cmpR (nth s k []) j) (fun _ => B * V))|].
      * intros i Hi. apply (I rnd u eta V psi h g phi x t tf theta evals k evalsf kf TW i j Hi Hj).
      * rewrite <- rsum_const. apply rsum_le. intros i Hi. apply Rmult_le_compat_r; [apply Rmult_le_pos; lra|]. apply EB.
    + apply Rmult_le_compat_l; [lra|]. replace (INR stages * (A * (B * V))) with (INR stages * (A * B) * V) by ring. apply Rmult_le_compat_r; lra.
Qed.
End Step.
