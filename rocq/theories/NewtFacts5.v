(** NewtFacts5.v - final forms of the statements about the Newton solver. *)
From Coq Require Import List Arith Bool QArith Qcanon Lia.
From Verif Require Import Base BaseFacts SMap SpModel MapModel JacModel JacSpec VecModel VOps LUModel LUSpec NewtModel NewtSpec NewtFacts NewtFacts2 NewtFacts3 NewtFacts4.
Import ListNotations.
Local Open Scope nat_scope.

Lemma ls_nan_decrease (lit : ls_lit NanNum) eta max g dir x0 f0 res alpha res' log : l_eta lit = Some eta -> (eta <= 1)%Qc ->
  lineSearch lit max g dir x0 f0 res = Ret (alpha, res', log) ->
  (alpha = Some 0%Qc /\ res' = res) \/ (residual_at g dir x0 alpha res' /\ exists a b, lnorm2 (N:=NanNum) res' = Some a /\ lnorm2 (N:=NanNum) f0 = Some b /\ (a < b)%Qc).
Proof.
  intros E L H. destruct (lineSearch_ok lit g dir x0 f0 (nan_ls_order lit eta E L) _ _ _ _ _ H)
    as [fw [bw [nf [nb [Q1 [Q2 [Q3 [Q4 [Q5 [Q6 [Q7 [Q8 [Q9 [Q10 Q11]]]]]]]]]]]]]]. destruct Q11 as [[A [B _]]|[r [S1 [S2 [S3 S4]]]]].
  - left. auto.
  - right. split; [assumption|]. destruct (Q6 _ _ S1) as [f [[x [R1 R2]] R3]]. destruct S3 as [x' [T1 T2]]. rewrite R1 in T1. injection T1 as <-. rewrite R2 in T2. injection T2 as <-.
    rewrite R3 in S2. apply nan_improves in S2. assumption.
Qed.
Lemma ls_nan_zero (lit : ls_lit NanNum) eta max g dir x0 f0 res alpha res' log : l_eta lit = Some eta -> (eta <= 1)%Qc ->
  lineSearch lit max g dir x0 f0 res = Ret (alpha, res', log) -> (forall v, In v f0 -> v = Some 0%Qc) -> alpha = Some 0%Qc /\ res' = res.
Proof.
  intros E L H Z. destruct (ls_nan_decrease lit eta max g dir x0 f0 res alpha res' log E L H) as [X|[_ [a [b [A [B C]]]]]]; [assumption|].
  exfalso. assert (F : lnorm2 (N:=NanNum) f0 = Some 0%Qc).
  { unfold lnorm2. simpl. change (Some (Q2Qc 0)) with (Some 0%Qc). clear -Z. induction f0 as [|v f I]; [reflexivity|]. simpl. rewrite (Z v) by (simpl; auto).
    replace (lift2 Qcplus (Some 0%Qc) (lift2 Qcmult (Some 0%Qc) (Some 0%Qc))) with (Some 0%Qc) by (simpl; f_equal; ring). apply I. intros. apply Z. simpl. auto. }
  rewrite F in B. injection B as <-. apply nan_lnorm2_nonneg in A. apply (Qclt_not_le _ _ C A).
Qed.

Lemma iteration_facts {S} (dd : ddir QcNum S) lit mt g h p q n q' st : ls_order lit -> p_valid p = false -> e_cur (p_est p) = p_x p ->
  pf_hist dd lit mt g h p = Ret q -> pf_iteration dd lit mt g n q = Ret (q', st) ->
  exists f f', mapf g (p_x q) = Ret f /\ mapf g (p_x q') = Ret f' /\ pf_residual g q' = Ret (f', q') /\
    ((exists v, In v f /\ v <> 0%Qc) -> (lnorm2 (N:=QcNum) f' <= lnorm2 (N:=QcNum) f)%Qc) /\
    ((exists v, In v f /\ v <> 0%Qc) -> p_ratio q' <> 0%Qc -> (lnorm2 (N:=QcNum) f' < lnorm2 (N:=QcNum) f)%Qc) /\
    (p_ratio q' = 0%Qc -> p_x q' = p_x q /\ st <> EContinue) /\
    (st = EConverged -> (forall v, In v f' -> (Qcabs v <= e_absTol (p_est q))%Qc) /\
       ((exists v, In v (p_x q) /\ v <> 0%Qc) -> forall i, i < length (p_x q') ->
          (Qcabs (nth i (p_x q') 0 - nth i (p_x q) 0) <= e_relTol (p_est q) * linf (N:=QcNum) (p_x q))%Qc)).
Proof.
  intros LO V C E X. assert (OK : pf_ok g p) by (split; [congruence|assumption]). pose proof (pf_hist_ok dd lit mt g LO qc_zero_step h p q OK E) as OKq.
  destruct (pf_iteration_ok dd lit mt g LO qc_zero_step n q q' st OKq X) as [OK' [Vq' [f [d [t [G1 [G2 [G3 [G4 [G5 [G6 [G7 G8]]]]]]]]]]]].
  exists f, (p_f q'). split; [assumption|]. split; [assumption|]. split; [unfold pf_residual; rewrite Vq'; reflexivity|].
  assert (NZ : (exists v, In v f /\ v <> 0%Qc) -> lnorm2 (N:=QcNum) f <> 0%Qc). { intros [v [I1 I2]] Z. apply I2. exact (proj1 (lnorm2_zero f) Z v I1). }
  split; [|split; [|split]].
  - intros H. destruct G6 as [[_ [_ G6]]|G6]; [rewrite G6; apply Qcle_refl|]. apply Qclt_le_weak. eapply qc_improves; eauto.
  - intros H R. destruct G6 as [[G6 _]|G6]; [contradiction|]. eapply qc_improves; eauto.
  - intros R. split.
    + rewrite R in G5. apply (lzip_zero (N:=QcNum) qc_zero_step) in G5. assumption.
    + rewrite G8. replace (neqb QcNum (p_ratio q') (n0 QcNum)) with true by (symmetry; apply Qceqb_eq; assumption). destruct (est_status (p_est q')); discriminate.
  - intros ->. assert (ES : est_status (p_est q') = EConverged). { destruct (est_status (p_est q')); try reflexivity; [|discriminate]. destruct (neqb QcNum (p_ratio q') (n0 QcNum)); discriminate. }
    destruct (est_converged _ _ _ _ G7 ES) as [A B]. split.
    + intros v I. destruct (In_nth _ _ 0%Qc I) as [i [Hi Ev]]. rewrite <- Ev. apply A. assumption.
    + intros H i Hi. rewrite (proj2 OKq) in B. exact (B H i Hi).
Qed.

Lemma affine_step_guess n A b (F : list Qc -> list Qc) (g : vmapping QcNum) dx (lit : ls_lit QcNum) mt (p0 : perf QcNum (S:=LUModel.lu)) (x0 : list Qc) it : computes g F n n -> affine n A b F -> dx <> 0%Qc -> solvable_pattern n A ->
  (l_eta lit <= 1)%Qc -> 0 < mt -> length x0 = n ->
  exists q st, pf_iteration (simple_dd dx None g) lit mt g it (pf_guess (simple_dd dx None g) x0 true p0) = Ret (q, st) /\ length (p_x q) = n /\ (forall v, In v (F (p_x q)) -> v = 0%Qc).
Proof.
  intros CF AF DX SP LE MT L. assert (OK : ap_ok n g (pf_guess (simple_dd dx None g) x0 true p0)).
  { split; [split; [discriminate|reflexivity]|]. split; [exact L|]. left. reflexivity. }
  destruct (affine_iteration n A b F g dx lit mt CF AF DX SP (qc_ls_order lit LE) MT _ it OK) as [q [st [E [[_ [Lq _]] [Z _]]]]]. exists q, st. auto.
Qed.
Lemma affine_run_guess n A b (F : list Qc -> list Qc) (g : vmapping QcNum) dx (lit : ls_lit QcNum) mt (p0 : perf QcNum (S:=LUModel.lu)) (x0 : list Qc) limit : computes g F n n -> affine n A b F -> dx <> 0%Qc -> solvable_pattern n A ->
  (l_eta lit <= 1)%Qc -> 0 < mt -> length x0 = n -> 2 <= limit -> (0 <= e_absTol (p_est p0))%Qc -> (0 <= e_relTol (p_est p0))%Qc ->
  (forall y d, length y = n -> (forall v, In v (F y) -> v = 0%Qc) -> lsub (N:=QcNum) y x0 = Ret d ->
     (e_relMax (p_est p0) <= 0)%Qc \/ linf (N:=QcNum) x0 = 0%Qc \/ (linf (N:=QcNum) d < e_relMax (p_est p0) * linf (N:=QcNum) x0)%Qc) ->
  exists s' log, nrun (plain_comps (simple_dd dx None g) lit mt g) limit (pf_guess (simple_dd dx None g) x0 true p0) = Ret (s', log, NConverged) /\
    length (p_x s') = n /\ (forall v, In v (F (p_x s')) -> v = 0%Qc) /\ length (iter_numbers log) <= 2.
Proof.
  intros CF AF DX SP LE MT L LM T1 T2 TH. assert (OK : ap_ok n g (pf_guess (simple_dd dx None g) x0 true p0)).
  { split; [split; [discriminate|reflexivity]|]. split; [exact L|]. left. reflexivity. }
  destruct (affine_run n A b F g dx lit mt CF AF DX SP (qc_ls_order lit LE) MT _ limit OK LM T1 T2 TH) as [s' [log [E [Z [Lq [I _]]]]]]. exists s', log. auto.
Qed.
Lemma simple_hist_fresh dx jt n h : Forall (usable dx jt n) h -> exists ds s', simple_hist dx jt h lu_empty = Ret (ds, s') /\ Forall2 (newton_direction dx jt n) h ds.
Proof. intros U. destruct (simple_hist_ok dx jt n h lu_empty (or_introl eq_refl) U) as [ds [s' [E [D _]]]]. eauto. Qed.
Lemma run_summary {N : Num} {S} (c : comps N S) limit s s' log st : nrun c limit s = Ret (s', log, st) ->
  exists s0 a b, c_reset c s = Ret s0 /\ a <= limit /\ b <= limit /\
    iter_numbers log = seq 0 a ++ seq 0 b /\ obs_numbers log = seq 0 (a + b) /\ followed log /\
    (guesses log = [] /\ b = 0 \/ guesses log = [c_sol c s0]).
Proof. intros E. destruct (run_ok c limit s s' log st E) as [s0 [a [b H]]]. exists s0, a, b. tauto. Qed.
Lemma run_results {N : Num} {S} (c : comps N S) limit s s' log st : nrun c limit s = Ret (s', log, st) ->
  (st = NTerminated <-> exists m, In (EvObs m true) log) /\ (st = NTerminated -> exists m, ends_with log [EvObs m true]) /\
  (st = NConverged <-> In true (successes log)) /\
  (st = NConverged -> exists n m, ends_with log [EvIter n EConverged; EvObs m false; EvAdjust false; EvReport true]) /\
  (st = NDiverged -> guesses log <> [] /\ exists n m, ends_with log [EvIter n EDiverged; EvObs m false; EvAdjust false; EvReport false]) /\
  (st = NLimit -> ends_with log [EvReport false] /\
     (length (iter_numbers log) >= limit \/ exists n, In (EvIter n EDiverged) log)).
Proof.
  intros E. destruct (run_ok c limit s s' log st E) as [s0 [a [b [H0 [H1 [H2 [H3 [H4 [H5 [H6 [H7 [H8 [H9 [H10 [H11 [H12 [H13 H14]]]]]]]]]]]]]]]]].
  split; [exact H7|]. split; [exact H8|]. split; [exact H12|]. split; [exact H9|]. split.
  - intros Q. destruct (H10 Q) as [A B]. split; [rewrite B; discriminate|exact A].
  - intros Q. split; [auto|]. rewrite H3, app_length, !seq_length. destruct (H14 Q) as [[A B]|[[A B]|A]]; [left; lia|left; lia|right; assumption].
Qed.
