(** ExIfp.v - examples for C87. *)
From Coq Require Import List Arith Bool ZArith Lia Lra Permutation Reals.
From Flocq Require Import Core.
From Verif Require Import Base BaseFacts VecModel VOps MapModel NewtModel NewtSpec RkModel RkSpec StepSpec ExtModel ImpModel ImpSpec ConvSpec FpSpec ImcSpec IfpSpec FpFacts4 PropIfp.
Import ListNotations.
Local Open Scope R_scope.

(** x' = (t - x) + 1, which the line x = t solves; implicit Euler with h = 1/2; the exact Newton direction. *)
Definition draw (t : R) (x : list R) : list R := match x with [v] => [(t - v) + 1] | _ => [] end.
Definition lineX (t : R) : list R := [t].
Section Line.
Context (rnd : R -> R).
Definition nwd (g : vmapping (FNum rnd)) : ddir (FNum rnd) unit := mkDD (N:=FNum rnd) (fun _ s => s) (fun _ => false) (fun x f n s => Ret (map (fun v : R => - (v * 2 / 3)) f, s)) (fun _ s => s).
Definition litF : ls_lit (FNum rnd) := mkLit (N:=FNum rnd) (4 / 5) (1 / 2) (-1).
Definition cF : icfg (FNum rnd) unit unit := mkIcfg (N:=FNum rnd) (1 / 2) 0 1 (fun _ t x => Ret (draw t x)) (fun _ _ w => Ret w) None None 1.
Definition estF : sest (FNum rnd) := mkEst (N:=FNum rnd) (1 / 1000) 2 0 0 [] 0 0.
Definition sF : ist (FNum rnd) unit unit (perf (FNum rnd) (S:=unit)) := mkI (N:=FNum rnd) (mkEM (N:=FNum rnd) 1 0 0 [] [] false) true (mkPerf (N:=FNum rnd) [] [] false 1 estF tt) tt tt.
Context (K : Z) (u eta : R).
Hypothesis K0 : (16 <= K)%Z.
Hypothesis QF : forall k, (Z.abs k <= K)%Z -> rnd (IZR k / 16) = IZR k / 16.
Hypothesis RD : rounds rnd u eta.
Hypothesis U0 : 0 <= u.
Hypothesis E0 : 0 <= eta.
Hypothesis W1 : u + eta <= 1.
Lemma fixed x k : x = IZR k / 16 -> (Z.abs k <= K)%Z -> rnd x = x.
Proof using QF. intros -> H. apply QF. exact H. Qed.
Notation emp := (em_vmapping (N:=FNum rnd) 0 1 (fun (t : R) (x : list R) => Ret (draw t x))).
Lemma resid (m : Z) (v : R) hh f0 vv : (0 <= m)%Z -> (8 * m + 16 <= K)%Z -> 
  (v = IZR m / 2 \/ v = IZR (m + 1) / 2) -> mapf (emp (em_setStep (N:=FNum rnd) (1 / 2) (mkEM (N:=FNum rnd) 1 hh (IZR m / 2) [IZR m / 2] f0 vv))) [v] = Ret [if Reqb v (IZR m / 2) then - (3 / 4) else 0].
Proof.
  intros M0 MK V.
  assert (X : forall f, em_expand (N:=FNum rnd) 0 1 (mkEM (N:=FNum rnd) 1 (1 / 2) (IZR m / 2) [IZR m / 2] f true) [v] = Ret [v]) by reflexivity.
  cbn -[Rltb Reqb Rleb IZR Rabs plus em_expand]. rewrite X. cbn -[Rltb Reqb Rleb IZR Rabs plus em_expand].
  rewrite (fixed (1 - 1) 0), (fixed (- (1 / 2) * (1 - 1)) 0), (fixed (_ * (- (1 / 2) * (1 - 1))) 0) by (lia || field).
  rewrite (fixed (- (1 / 2) * 1) (-8)), (fixed (IZR m / 2 + 1 / 2) (8 * m + 8)) by (try lia; try rewrite plus_IZR, mult_IZR; field).
  assert (Q : IZR (m + 1) = IZR m + 1) by apply plus_IZR.
  destruct V as [-> | ->]; rewrite ?Q.
  - replace (Reqb _ _) with true by (symmetry; unfold Reqb; destruct (Req_EM_T _ _); congruence).
    rewrite (fixed (IZR m / 2 - IZR m / 2) 0), (fixed (_ + _ * (- (1 / 2) * (1 - 1))) 0), (fixed (_ * (- (1 / 2) * 1)) (-12)), (fixed (_ + _ * (- (1 / 2) * 1)) (-12)) by (lia || field).
    do 2 f_equal. field.
  - replace (Reqb _ _) with false by (symmetry; unfold Reqb; destruct (Req_EM_T _ _); [lra | reflexivity]).
    rewrite (fixed ((IZR m + 1) / 2 - IZR m / 2) 8), (fixed (_ + _ * (- (1 / 2) * (1 - 1))) 8), (fixed (_ * (- (1 / 2) * 1)) (-8)), (fixed (_ + _ * (- (1 / 2) * 1)) 0) by (lia || field).
    do 2 f_equal. field.
Qed.
Lemma rl a b : a < b -> Rltb a b = true.
Proof. intros H. unfold Rltb. destruct (Rlt_dec a b); [reflexivity | contradiction]. Qed.
Lemma rle a b : a <= b -> Rleb a b = true.
Proof. intros H. unfold Rleb. destruct (Rle_dec a b); [reflexivity | contradiction]. Qed.
Lemma search (m : Z) (g : vmapping (FNum rnd)) k : (0 <= m)%Z -> (8 * m + 16 <= K)%Z -> mapf g [IZR (m + 1) / 2] = Ret [0] ->
  lineSearch (N:=FNum rnd) litF (S k) g [- (- (3 / 4) * 2 / 3)] [IZR m / 2] [- (3 / 4)] [- (3 / 4)] = Ret (1, [0], [(1, 0)]) /\
  ladd (N:=FNum rnd) [IZR m / 2] (lscale (N:=FNum rnd) [- (- (3 / 4) * 2 / 3)] 1) = Ret [IZR (m + 1) / 2].
Proof.
  intros M0 MK R2. assert (Q : IZR (m + 1) = IZR m + 1) by apply plus_IZR.
  assert (N : ladd (N:=FNum rnd) [IZR m / 2] (lscale (N:=FNum rnd) [- (- (3 / 4) * 2 / 3)] 1) = Ret [IZR (m + 1) / 2]).
  { cbn -[IZR]. rewrite (fixed (_ * 1) 8), (fixed (_ + _) (8 * m + 8)) by (try lia; try rewrite plus_IZR, mult_IZR; field). rewrite Q. do 2 f_equal. field. }
  split; [| exact N].
  unfold lineSearch, ls_loop. fold (ls_loop (N:=FNum rnd)). unfold ls_next. change (n1 (FNum rnd)) with 1. rewrite N. cbn [obind]. rewrite R2. cbn [obind].
  assert (Z0 : ndiv (FNum rnd) (lnorm2 (N:=FNum rnd) [0]) (lnorm2 (N:=FNum rnd) [- (3 / 4)]) = 0).
  { cbn -[IZR]. rewrite (fixed (0 * 0) 0), (fixed (0 + 0 * 0) 0), (fixed (_ * _) 9), (fixed (0 + _ * _) 9) by (lia || field). rewrite (fixed _ 0) by (lia || field). field. }
  cbv zeta. rewrite Z0. cbn [ls_best ls_log ls_alpha ls_res]. change (nltb (FNum rnd)) with Rltb. rewrite (rl 0 1) by lra. cbn [ls_best l_eta litF]. rewrite (rl 0 (4 / 5)) by lra.
  cbn [negb andb ls_alpha ls_res ls_log app]. reflexivity.
Qed.
Lemma iter (m : Z) (g : vmapping (FNum rnd)) n pf pr e3 e4 e6 e7 : (0 <= m)%Z -> (8 * m + 16 <= K)%Z -> mapf g [IZR m / 2] = Ret [- (3 / 4)] -> mapf g [IZR (m + 1) / 2] = Ret [0] ->
  exists e, pf_iteration (nwd g) litF 3 g n (mkPerf (N:=FNum rnd) [IZR m / 2] pf false pr (mkEst (N:=FNum rnd) (1 / 1000) 2 e3 e4 [IZR m / 2] e6 e7) tt) = Ret (mkPerf (N:=FNum rnd) [IZR (m + 1) / 2] [0] true 1 e tt, EConverged) /\
    e_absTol e = 1 / 1000 /\ e_relTol e = 2.
Proof.
  intros M0 MK R1 R2. assert (Q : IZR (m + 1) = IZR m + 1) by apply plus_IZR.
  assert (P : 0 <= IZR m) by (apply IZR_le; lia).
  destruct (search m g 2 M0 MK R2) as [LS LA].
  unfold pf_iteration, pf_residual. cbn [p_valid p_x]. rewrite R1. cbn [obind nwd dd_dir map p_x p_f p_dd p_est p_valid]. rewrite LS. cbn [obind]. rewrite LA. cbn [obind].
  assert (ES : exists e, est_set (N:=FNum rnd) [IZR (m + 1) / 2] [0] (mkEst (N:=FNum rnd) (1 / 1000) 2 e3 e4 [IZR m / 2] e6 e7) = Ret e /\ est_status e = EConverged /\ e_absTol e = 1 / 1000 /\ e_relTol e = 2).
  { unfold est_set. cbn [e_cur e_absTol e_relTol e_absMax e_relMax].
    assert (D : lsub (N:=FNum rnd) [IZR (m + 1) / 2] [IZR m / 2] = Ret [1 / 2]).
    { cbn -[IZR]. rewrite (fixed _ 8) by (try lia; rewrite Q; field). rewrite Q. do 2 f_equal. field. }
    rewrite D. cbn [obind]. eexists. split; [reflexivity|]. split; [|split; reflexivity].
    assert (I : forall v : R, 0 <= v -> linf (N:=FNum rnd) [v] = v).
    { intros v V. unfold linf. cbn [fold_left]. unfold nmax. change (n0 (FNum rnd)) with 0. change (nabs (FNum rnd) v) with (Rabs v). change (nltb (FNum rnd)) with Rltb. rewrite Rabs_pos_eq by exact V. unfold Rltb.
      destruct (Rlt_dec _ _); lra. }
    rewrite (I 0), (I (1 / 2)), (I (IZR m / 2)) by lra. change (nltb (FNum rnd)) with Rltb. change (n0 (FNum rnd)) with 0. unfold est_status. cbn [e_abs e_absTol e_rel e_relTol]. change (nleb (FNum rnd)) with Rleb.
    rewrite (rle 0 (1 / 1000)) by lra. cbn [andb]. rewrite rle; [reflexivity|].
    unfold Rltb. destruct (Rlt_dec _ _) as [L|]; [|lra]. change (rnd (1 / 2 / (IZR m / 2)) <= 2).
    assert (M1 : 1 <= IZR m). { apply IZR_le. assert (0 < m)%Z by (apply lt_IZR; lra). lia. }
    assert (V : 0 < 1 / 2 / (IZR m / 2) <= 1).
    { split; [apply Rdiv_lt_0_compat; lra|]. apply (Rmult_le_reg_r (IZR m / 2)); [lra|]. unfold Rdiv at 1. rewrite Rmult_assoc, Rinv_l by lra. lra. }
    pose proof (proj2 RD (1 / 2 / (IZR m / 2))) as H. rewrite (Rabs_pos_eq (1 / 2 / _)) in H by lra. apply Rabs_le_inv in H.
    assert (u * (1 / 2 / (IZR m / 2)) <= u * 1) by (apply Rmult_le_compat_l; lra). lra. }
  destruct ES as [e [ES [ST [A1 A2]]]]. exists e. split; [|split; assumption]. rewrite ES. cbn [obind]. rewrite ST. reflexivity.
Qed.
Lemma one (s : ist (FNum rnd) unit unit (perf (FNum rnd) (S:=unit))) (m : Z) lim : (0 <= m)%Z -> (8 * m + 16 <= K)%Z -> em_t (i_map s) = IZR m / 2 -> em_x (i_map s) = [IZR m / 2] -> em_alpha (i_map s) = 1 -> e_absTol (p_est (i_nw s)) = 1 / 1000 -> e_relTol (p_est (i_nw s)) = 2 ->
  exists s' a, i_step no_events (plain_newton nwd litF 3 (S lim)) cF s = (s', IDone a) /\ em_t (i_map s') = IZR (m + 1) / 2 /\ em_x (i_map s') = [IZR (m + 1) / 2] /\ em_alpha (i_map s') = 1 /\ e_absTol (p_est (i_nw s')) = 1 / 1000 /\ e_relTol (p_est (i_nw s')) = 2.
Proof.
  intros M0 MK ET EX EA EB EC. destruct s as [[al hh tt' xx f0 vv] hard [px pf pv pr [e1 e2 e3 e4 e5 e6 e7] []] [] []].
  cbn [i_map em_t em_x em_alpha i_nw p_est e_absTol e_relTol] in *. subst al tt' xx e1 e2.
  pose proof (resid m (IZR m / 2) hh f0 vv M0 MK (or_introl eq_refl)) as R1. pose proof (resid m (IZR (m + 1) / 2) hh f0 vv M0 MK (or_intror eq_refl)) as R2.
  assert (Q : IZR (m + 1) = IZR m + 1) by apply plus_IZR.
  replace (Reqb _ _) with true in R1 by (symmetry; unfold Reqb; destruct (Req_EM_T _ _); congruence).
  replace (Reqb _ _) with false in R2 by (symmetry; unfold Reqb; destruct (Req_EM_T _ _); [lra | reflexivity]).
  destruct (iter m _ 0 pf 1 e3 e4 0 0 M0 MK R1 R2) as [e [IT [A1 A2]]].
  unfold i_step. cbn [cF ic_h ic_nd ic_nf ic_pred i_map i_hard i_nw i_pr i_w ifail ic_before]. 
  set (mm := em_setStep (N:=FNum rnd) (1 / 2) _) in *.
  change (em_x mm) with [IZR m / 2]. change (em_t mm) with (IZR m / 2).
  change (em_eqn (N:=FNum rnd) 0 1 [IZR m / 2]) with (Ret [IZR m / 2]). cbn [ifail].
  unfold i_order. cbn [cF ic_ord ifail]. cbn [plain_newton nw_guess ifail].
  cbn [no_events ev_start ifail]. unfold i_vmapping. cbn [ic_ord ic_nd ic_nf cF ic_rhs].
  match goal with |- context [nw_run _ _ ?q] => set (p := q) end.
  match type of IT with pf_iteration _ _ _ ?gg _ _ = _ => set (g := gg) in * end.
  assert (RUN : nw_run (plain_newton nwd litF 3 (S lim)) g p = Ret (mkPerf (N:=FNum rnd) [IZR (m + 1) / 2] [0] true 1 e tt, NConverged)).
  { change (nw_run (plain_newton nwd litF 3 (S lim)) g p) with (obind (nrun (plain_comps (nwd g) litF 3 g) (S lim) p) (fun r => let '(p', _, stt) := r in Ret (p', stt))).
    assert (AT : forall lg, attempt (plain_comps (nwd g) litF 3 g) (S lim) 0 0 false (mkPerf (N:=FNum rnd) [IZR m / 2] pf false 1 (mkEst (N:=FNum rnd) (1 / 1000) 2 e3 e4 [IZR m / 2] 0 0) tt) lg =
      Ret (mkPerf (N:=FNum rnd) [IZR (m + 1) / 2] [0] true 1 e tt, (lg ++ [EvIter 0 EConverged; EvObs 0 false]) ++ [EvAdjust false] ++ [EvReport true], 1%nat, Some NConverged)).
    { intros lg. cbn [attempt]. change (c_iter (plain_comps (nwd g) litF 3 g)) with (pf_iteration (nwd g) litF 3 g). rewrite IT. cbn [obind fst snd]. cbn. rewrite <- !app_assoc. reflexivity. }
    unfold nrun. change (c_reset (plain_comps (nwd g) litF 3 g) p) with (Ret (mkPerf (N:=FNum rnd) [IZR m / 2] pf false 1 (mkEst (N:=FNum rnd) (1 / 1000) 2 e3 e4 [IZR m / 2] 0 0) tt)).
    cbn [obind]. rewrite AT. reflexivity. }
  change (em_vmapping (N:=FNum rnd) 0 1 _ mm) with g. rewrite RUN. cbn [ifail].
  unfold i_unorder. cbn [cF ic_ord ifail].
  change (nw_sol (plain_newton nwd litF 3 (S lim)) _) with [IZR (m + 1) / 2].
  assert (X : em_expand (N:=FNum rnd) 0 1 mm [IZR (m + 1) / 2] = Ret [IZR (m + 1) / 2]) by reflexivity.
  rewrite X. cbn [ifail no_events ev_end ev_trunc ev_t ev_x].
  do 2 eexists. split; [reflexivity|]. cbn [i_map i_nw p_est em_setState em_t em_x em_alpha]. repeat split; try assumption; try reflexivity.
  change (rnd (IZR m / 2 + 1 / 2) = IZR (m + 1) / 2). rewrite (fixed _ (8 * m + 8)) by (try lia; rewrite plus_IZR, mult_IZR; field). rewrite Q. field.
Qed.
Lemma many (s : ist (FNum rnd) unit unit (perf (FNum rnd) (S:=unit))) lim count : forall (m : Z), (0 <= m)%Z -> (8 * (m + Z.of_nat count) + 16 <= K)%Z -> em_t (i_map s) = IZR m / 2 -> em_x (i_map s) = [IZR m / 2] -> em_alpha (i_map s) = 1 -> e_absTol (p_est (i_nw s)) = 1 / 1000 -> e_relTol (p_est (i_nw s)) = 2 ->
  exists s', i_steps no_events (plain_newton nwd litF 3 (S lim)) cF count s = Some s' /\ em_x (i_map s') = [IZR (m + Z.of_nat count) / 2].
Proof.
  revert s. induction count as [|k IH]; intros s m M0 MK A1 A2 A3 A4 A5.
  - exists s. split; [reflexivity|]. rewrite Z.add_0_r. exact A2.
  - destruct (one s m lim M0 ltac:(lia) A1 A2 A3 A4 A5) as (s' & a & E & B1 & B2 & B3 & B4 & B5). cbn [i_steps]. rewrite E.
    destruct (IH s' (m + 1)%Z ltac:(lia) ltac:(lia) B1 B2 B3 B4 B5) as (s2 & E2 & X2). exists s2. split; [exact E2|]. rewrite X2. do 3 f_equal. lia.
Qed.
End Line.

(** binary64 meets the assumptions about rounding. *)
#[local] Instance ifp_prec : Prec_gt_0 53 := eq_refl.
Example C87_hypotheses : rounds binary64 (/ 2 ^ 53) (/ 2 ^ 1075) /\ idempotent binary64 /\ 0 <= / 2 ^ 53 /\ 0 <= / 2 ^ 1075 /\ / 2 ^ 53 + / 2 ^ 1075 <= / 2 ^ 52 /\ binary64 (1 / 3) <> 1 / 3.
Proof.
  assert (A : forall n, 0 < / 2 ^ n) by (intros n; apply Rinv_0_lt_compat, pow_lt; lra).
  split; [apply binary64_rounds|]. split; [intros z; apply round_generic; [apply valid_rnd_N | apply generic_format_round; [apply FLT_exp_valid; reflexivity | apply valid_rnd_N]]|].
  split; [left; apply A|]. split; [left; apply A|]. split.
  - assert (/ 2 ^ 1075 <= / 2 ^ 53) by (apply Rinv_le_contravar; [apply pow_lt; lra | apply Rle_pow; [lra | lia]]).
    assert (2 * / 2 ^ 53 = / 2 ^ 52) by (change (2 ^ 53) with (2 * 2 ^ 52); field; apply pow_nonzero; lra). lra.
  - intros E.
    assert (G : generic_format radix2 (FLT_exp (-1074) 53) (1 / 3)).
    { rewrite <- E. apply generic_format_round; [apply FLT_exp_valid; reflexivity | apply valid_rnd_N]. }
    apply FLT_format_generic in G; [|reflexivity]. destruct G as [f Ef _ _]. destruct f as [mm ex]. unfold F2R in Ef. cbn [Fnum Fexp] in Ef.
    destruct (Z_le_gt_dec 0 ex) as [P|P].
    + assert (H : bpow radix2 ex = IZR (2 ^ ex)) by (symmetry; exact (IZR_Zpower radix2 ex P)). rewrite H, <- mult_IZR in Ef. assert (F : IZR (3 * (mm * 2 ^ ex)) = 1) by (rewrite mult_IZR; lra). apply eq_IZR in F. lia.
    + assert (H : bpow radix2 ex * IZR (2 ^ (- ex)) = 1). { replace (IZR (2 ^ (- ex))) with (bpow radix2 (- ex)) by (symmetry; apply (IZR_Zpower radix2); lia). rewrite <- bpow_plus. replace (ex + - ex)%Z with 0%Z by lia. reflexivity. }
      assert (F : IZR (3 * mm) = IZR (2 ^ (- ex))).
      { rewrite mult_IZR. transitivity (3 * (IZR mm * bpow radix2 ex) * IZR (2 ^ (- ex))); [|rewrite <- Ef; field]. transitivity (3 * IZR mm * (bpow radix2 ex * IZR (2 ^ (- ex)))); [rewrite H; ring | ring]. }
      apply eq_IZR in F. assert (D : (3 | 2 ^ (- ex))%Z) by (exists mm; lia).
      assert (forall n : nat, ~ (3 | 2 ^ Z.of_nat n)%Z).
      { induction n as [|n IH]; intros [q Hq]; [change (2 ^ Z.of_nat 0)%Z with 1%Z in Hq; lia|]. rewrite Nat2Z.inj_succ, Z.pow_succ_r in Hq by lia. apply IH. exists (2 ^ Z.of_nat n - q)%Z. lia. }
      apply (H0 (Z.to_nat (- ex))). rewrite Z2Nat.id by lia. exact D.
Qed.
Lemma b64_16 k : (Z.abs k <= 2 ^ 50)%Z -> binary64 (IZR k / 16) = IZR k / 16.
Proof.
  intros H. apply round_generic; [apply valid_rnd_N|]. apply generic_format_FLT. exists (Float radix2 k (-4)).
  - unfold F2R. cbn [Fnum Fexp]. change (bpow radix2 (-4)) with (/ 16). reflexivity.
  - cbn [Fnum]. change (Zpower radix2 53) with 9007199254740992%Z. lia.
  - cbn [Fexp]. lia.
Qed.
(** The run: all of 2^40 steps and more return, the states are of size at most T = count/2, and the theorems bound the error by their formulas. *)
Lemma draw_lip : lipschitz_x 1 1 draw.
Proof.
  intros t x y d Lx Ly H. destruct x as [|a [|? x]]; try discriminate Lx. destruct y as [|b [|? y]]; try discriminate Ly.
  intros [|j] Hj; [|lia]. specialize (H 0%nat Hj). unfold cmpR in *. cbn [nth draw] in *. replace (t - a + 1 - (t - b + 1)) with (- (a - b)) by ring. rewrite Rabs_Ropp. lra.
Qed.
Lemma draw_one_sided : one_sided 1 0 draw.
Proof.
  intros t x y Lx Ly. destruct x as [|a [|? x]]; try discriminate Lx. destruct y as [|b [|? y]]; try discriminate Ly. cbn [rsum draw]. unfold cmpR. cbn [nth].
  pose proof (Rle_0_sqr (a - b)) as Q. unfold Rsqr in Q. lra.
Qed.
Lemma draw_line t j : (j < 1)%nat -> cmpR (draw t (lineX t)) j = 1.
Proof. intros Hj. assert (j = 0)%nat by lia. subst. unfold cmpR, draw, lineX. cbn [nth]. ring. Qed.
Lemma lineX_solves t0 t1 : solves 1 draw lineX t0 t1.
Proof. intros t Ht. split; [reflexivity|]. intros j Hj. rewrite draw_line by exact Hj. assert (j = 0)%nat by lia. subst. apply derivable_pt_lim_id. Qed.
Lemma lineX_slope t0 t1 : slope_changes 1 draw lineX t0 t1 0.
Proof. intros s t j _ _ Hj. rewrite !draw_line by exact Hj. rewrite Rminus_diag_eq, Rabs_R0 by reflexivity. lra. Qed.
Lemma draw_slopes S B : 0 <= S -> 0 <= B -> slopes_within 1 S B (1 + S + B) 1 draw.
Proof.
  intros S0 B0 t s x Ht Hs L H. destruct x as [|a [|? x]]; try discriminate L. specialize (H 0%nat Nat.lt_0_1). unfold cmpR in H. cbn [nth] in H.
  apply Rabs_le_inv in Ht. apply Rabs_le_inv in H.
  split; intros [|j] Hj; try lia; unfold cmpR; cbn [nth draw].
  - apply Rabs_le. lra.
  - replace (t - a + 1 - (s - a + 1)) with (t - s) by ring. lra.
Qed.
Example C87_case : forall count : nat, (Z.of_nat count <= 2 ^ 40)%Z ->
  let T := INR count / 2 in let w := / 2 ^ 53 + / 2 ^ 1075 in
  let eps := 1 / 1000 + step_noise T (1 + 2 * (1 + 0 + T) + T) 1 (1 + 0 + T) T (1 / 2) w 0 in
  exists s', i_steps no_events (plain_newton (nwd binary64) (litF binary64) 3 5) (cF binary64) count (i_set (N:=FNum binary64) 0 [0] false (sF binary64)) = Some s' /\
    near 1 (em_x (i_map s')) (lineX (0 + INR count * (1 / 2))) (exp (2 * 1 * T) * (0 + 2 * T * (0 * (1 / 2) + eps / (1 / 2)))) /\
    dist2 1 (em_x (i_map s')) (lineX (0 + INR count * (1 / 2))) <= dist2 1 [0] (lineX 0) + T * (sqrt (INR 1) * (0 * (1 / 2) + eps / (1 / 2))).
Proof.
  intros count HC T w eps. destruct C87_hypotheses as (RD & ID & U0 & E0 & W & _).
  assert (W1 : / 2 ^ 52 = / 4503599627370496) by (f_equal; lra).
  assert (T0 : 0 <= T) by (unfold T; pose proof (pos_INR count); lra).
  assert (RUN : forall i, (i <= count)%nat -> exists s', i_steps no_events (plain_newton (nwd binary64) (litF binary64) 3 5) (cF binary64) i (i_set (N:=FNum binary64) 0 [0] false (sF binary64)) = Some s' /\ em_x (i_map s') = [IZR (0 + Z.of_nat i) / 2]).
  { intros i Hi. apply (many binary64 (2 ^ 50) (/ 2 ^ 53) (/ 2 ^ 1075) ltac:(lia) b64_16 RD U0 ltac:(lra) (i_set (N:=FNum binary64) 0 [0] false (sF binary64)) 4 i 0%Z);
      [lia | change (2 ^ 50)%Z with 1125899906842624%Z; change (2 ^ 40)%Z with 1099511627776%Z in HC; lia | cbn -[IZR]; field | cbn -[IZR]; f_equal; field | reflexivity | reflexivity | reflexivity]. }
  destruct (RUN count (le_n _)) as [s' [E X]]. exists s'. split; [exact E|].
  assert (C2 : 3 * INR count * w <= 1).
  { assert (INR count <= 1099511627776) by (rewrite INR_IZR_INZ; apply IZR_le; change (2 ^ 40)%Z with 1099511627776%Z in HC; exact HC).
    assert (w <= / 4503599627370496) by (unfold w; lra). assert (0 <= w) by (unfold w; lra).
    apply Rle_trans with (3 * 1099511627776 * / 4503599627370496); [|lra]. apply Rmult_le_compat; try lra. pose proof (pos_INR count). lra. }
  assert (BD : forall i si, (i <= count)%nat -> i_steps no_events (plain_newton (nwd binary64) (litF binary64) 3 5) (cF binary64) i (i_set (N:=FNum binary64) 0 [0] false (sF binary64)) = Some si -> bound (n_vars (cF binary64)) (em_x (i_map si)) T).
  { intros i si Hi Ei. destruct (RUN i Hi) as [s2 [E2 X2]]. assert (s2 = si) by congruence. subst s2. rewrite X2. intros [|j] Hj; [|change (S j < 1)%nat in Hj; lia].
    unfold cmpR. cbn [nth]. rewrite Z.add_0_l, <- INR_IZR_INZ. rewrite Rabs_pos_eq by (pose proof (pos_INR i); lra). unfold T. apply le_INR in Hi. lra. }
  assert (CN : forall w0, computes_near (n_vars (cF binary64)) (2 * (1 + Rabs 0 + T)) T 0 (ic_rhs (cF binary64) w0) draw).
  { intros w0 t x L. exists (draw t x). split; [reflexivity|]. destruct x as [|a [|? x]]; try discriminate L. split; [reflexivity|]. intros _ _ j Hj. rewrite Rminus_diag_eq, Rabs_R0 by reflexivity. lra. }
  rewrite Rabs_R0 in *.
  assert (SW : slopes_within (n_vars (cF binary64)) (2 * (1 + 0 + T)) T (1 + 2 * (1 + 0 + T) + T) 1 draw) by (apply draw_slopes; lra).
  assert (PF : positions_first (ic_nd (cF binary64)) (ic_nf (cF binary64)) draw) by (intros t x j _ Hj; exfalso; exact (Nat.nlt_0_r _ Hj)).
  assert (MX : machine binary64 [0]) by (intros v [<-|[]]; exact (proj1 RD)).
  assert (W2 : / 2 ^ 53 + / 2 ^ 1075 <= 1) by lra. assert (LE : (l_eta (litF binary64) : R) <= 1) by (cbn -[IZR]; lra).
  assert (CH : INR count * (ic_h (cF binary64) : R) <= T) by (cbn -[IZR INR]; unfold T; lra).
  assert (TS : 2 * (1 + Rabs 0 + T) <= 2 * (1 + 0 + T)) by (rewrite Rabs_R0; lra).
  assert (TF : 0 <= toleranceF (sF binary64)) by (unfold toleranceF; cbn -[IZR]; lra).
  assert (H0 : 0 <= (ic_h (cF binary64) : R)) by (cbn -[IZR]; lra). assert (H1 : 0 < (ic_h (cF binary64) : R)) by (cbn -[IZR]; lra).
  pose proof (fun e f => C87_error binary64 (/ 2 ^ 53) (/ 2 ^ 1075) unit unit unit (nwd binary64) (litF binary64) 3 5 (cF binary64) draw (2 * (1 + 0 + T)) T (1 + 2 * (1 + 0 + T) + T) 1 0 RD ID U0 E0 W2 LE CN SW PF e f T0 ltac:(lra) ltac:(lra) ltac:(lra) H0
    lineX 0 T 0 count [0] false (sF binary64) s' TS ltac:(lra) H1 CH C2 TF eq_refl MX (lineX_solves _ _) E BD 1 0 ltac:(lra) draw_lip (lineX_slope _ _)) as TH.
  pose proof (fun e f => C87_stiff binary64 (/ 2 ^ 53) (/ 2 ^ 1075) unit unit unit (nwd binary64) (litF binary64) 3 5 (cF binary64) draw (2 * (1 + 0 + T)) T (1 + 2 * (1 + 0 + T) + T) 1 0 RD ID U0 E0 W2 LE CN SW PF e f T0 ltac:(lra) ltac:(lra) ltac:(lra) H0
    lineX 0 T 0 count [0] false (sF binary64) s' TS ltac:(lra) H1 CH C2 TF eq_refl MX (lineX_solves _ _) E BD draw_one_sided (lineX_slope _ _) eq_refl) as TS2.
  assert (A1 : forall o, ic_ord (cF binary64) = Some o -> Permutation (fst o) (seq 0 (ic_nd (cF binary64) + ic_nf (cF binary64))) /\ Permutation (snd o) (seq 0 (ic_nd (cF binary64) + ic_nf (cF binary64)))) by (intros o Ho; discriminate Ho).
  assert (A2 : forall pr, ic_pred (cF binary64) = Some pr -> forall h t x k q y q', pr h t x k q = Ret (y, q') -> machine binary64 y) by (intros pr Hp; discriminate Hp).
  specialize (TH A1 A2). specialize (TS2 A1 A2). rewrite Rabs_R0 in TH, TS2. split.
  - apply TH; cbn -[IZR]; try lra. intros [|j] Hj; [|lia]. unfold cmpR, lineX. cbn [nth]. rewrite Rminus_diag_eq, Rabs_R0 by reflexivity. lra.
  - apply TS2.
Qed.
