(** IfpFacts2.v - one step of the implicit alpha solver in rounded arithmetic. *)
From Coq Require Import List Arith Bool ZArith Lia Permutation Reals Lra Psatz.
From Verif Require Import Base BaseFacts SMap SpModel VecModel VOps MapModel MapSpec MapFacts JacModel NewtModel NewtSpec NewtFacts NewtFacts2 NewtFacts4 RkModel RkSpec RkFacts StepSpec
  ExtModel ExtFacts ExtFacts5 ImpModel ImpSpec ImpFacts ImpFacts3 ConvSpec FpSpec ImcSpec ImcFacts IfpSpec IfpFacts.
Import ListNotations.
Local Open Scope nat_scope.

Section Value.
Context {N : Num}.
Notation vec := (list (nT N)).
Notation cN := (fun (v : vec) j => nth j v (n0 N)).
Lemma lzip_nth op (a b : vec) : length a <= length b -> exists r, lzip (N:=N) op a b = Ret r /\ length r = length a /\ forall j, j < length a -> cN r j = op (cN a j) (cN b j).
Proof.
  intros H. eexists. split; [exact (lzip_ok op a b H)|]. split; [rewrite map_length, seq_length; reflexivity|].
  intros j J. rewrite nth_map_seq by exact J. reflexivity.
Qed.
Lemma scale_length (v : vec) k : length (lscale v k) = length v. Proof. apply map_length. Qed.
Lemma scale_nth (v : vec) k j : j < length v -> cN (lscale v k) j = nmul N (cN v j) k.
Proof. intros H. unfold lscale. rewrite (nth_indep _ (n0 N) (nmul N (n0 N) k)) by (rewrite map_length; exact H). apply (map_nth (fun x => nmul N x k)). Qed.
Lemma skip_nth (v : vec) k j : cN (skipn k v) j = cN v (k + j). Proof. apply nth_skipn'. Qed.
Variables (nd nf : nat).
Lemma expand_nth (m : emap N) (x : vec) : length (em_x m) = 2 * nd + nf -> length x = nd + nf ->
  exists X1 : vec, em_expand nd nf m x = Ret X1 /\ length X1 = 2 * nd + nf /\ skipn nd X1 = x /\
    forall i, i < nd -> cN X1 i = nadd N (nadd N (cN (em_x m) i) (nmul N (cN (em_x m) (nd + i)) (nmul N (em_h m) (nsub N (n1 N) (em_alpha m))))) (nmul N (cN X1 (nd + i)) (nmul N (em_h m) (em_alpha m))).
Proof.
  intros L0 L. unfold em_expand. rewrite L, Nat.eqb_refl. cbn [negb].
  rewrite lblk_ok by lia. cbn [obind].
  assert (LF : length (firstn nd (skipn 0 (em_x m))) = nd) by (rewrite firstn_length, skipn_length; lia).
  match goal with |- context[ladd ?a ?b] => destruct (lzip_nth (nadd N) a b) as (u1 & E1 & L1 & V1); [|unfold ladd; rewrite E1] end.
  { rewrite LF, scale_length, skipn_length. lia. }
  cbn [obind]. rewrite LF in L1, V1.
  match goal with |- context[lzip (nadd N) ?a ?b] => destruct (lzip_nth (nadd N) a b) as (u2 & E2 & L2 & V2); [|rewrite E2] end.
  { rewrite L1, scale_length. lia. }
  cbn [obind]. rewrite L1 in L2, V2. exists (u2 ++ x). split; [reflexivity|]. split; [rewrite app_length, L2, L; lia|].
  split; [rewrite skipn_app, L2, Nat.sub_diag, skipn_all2 by lia; reflexivity|].
  intros i Hi. assert (EX : nth (nd + i) (u2 ++ x) (n0 N) = nth i x (n0 N)) by (rewrite app_nth2 by lia; f_equal; lia).
  rewrite EX. rewrite app_nth1 by lia. rewrite V2, V1 by exact Hi. rewrite !scale_nth, skip_nth by (rewrite ?skipn_length; lia).
  rewrite nth_firstn' by exact Hi. reflexivity.
Qed.
Lemma map_nthN f (m : emap N) (x X1 F0 F1 : vec) : length (em_x m) = 2 * nd + nf -> length x = nd + nf -> em_valid m = false ->
  em_expand nd nf m x = Ret X1 -> f (em_t m) (em_x m) = Ret F0 -> f (nadd N (em_t m) (em_h m)) X1 = Ret F1 -> length F0 = 2 * nd + nf -> length F1 = 2 * nd + nf ->
  exists (d : vec) (m' : emap N), em_map nd nf f x m = Ret (d, m') /\ length d = nd + nf /\
    forall i, i < nd + nf -> cN d i = nadd N (nadd N (nsub N (cN X1 (nd + i)) (cN (em_x m) (nd + i))) (nmul N (cN F0 (nd + i)) (nmul N (nopp N (em_h m)) (nsub N (n1 N) (em_alpha m)))))
      (nmul N (cN F1 (nd + i)) (nmul N (nopp N (em_h m)) (em_alpha m))).
Proof.
  intros L0 L V E EF0 EF1 LF0 LF1. destruct (expand_nth m x L0 L) as (X & EX & LX & SX & _). rewrite EX in E. inversion E; subst X1. clear E.
  unfold em_map, em_prepare. rewrite V, EF0. cbn [obind]. unfold em_expand in *. cbn [em_t em_x em_h em_alpha em_f0]. rewrite EX. cbn [obind].
  rewrite EF1. cbn [obind].
  match goal with |- context[lsub ?a ?b] => destruct (lzip_nth (nsub N) a b) as (d1 & E1 & L1 & V1); [|unfold lsub; rewrite E1] end.
  { rewrite skipn_length. lia. }
  cbn [obind]. unfold ladd.
  match goal with |- context[lzip (nadd N) ?a ?b] => destruct (lzip_nth (nadd N) a b) as (d2 & E2 & L2 & V2); [|rewrite E2] end.
  { rewrite skipn_length, scale_length. lia. }
  cbn [obind].
  match goal with |- context[lzip (nadd N) ?a ?b] => destruct (lzip_nth (nadd N) a b) as (d3 & E3 & L3 & V3); [|rewrite E3] end.
  { rewrite scale_length, skipn_length. lia. }
  cbn [obind]. eexists d3, _. split; [reflexivity|]. split; [congruence|].
  intros i Hi. rewrite V3, V2, V1 by congruence. rewrite !scale_nth, !skip_nth, !scale_nth by (rewrite ?skipn_length; lia).
  rewrite <- SX, skip_nth. reflexivity.
Qed.
End Value.

Ltac fl := repeat match goal with H : context[nT (FNum ?r)] |- _ => progress change (nT (FNum r)) with R in H end; repeat match goal with |- context[nT (FNum ?r)] => change (nT (FNum r)) with R end; lia.
Section Step.
Context (rnd : R -> R) {W P D : Type} (ev : events (FNum rnd) W) (dd : vmapping (FNum rnd) -> ddir (FNum rnd) D) (lit : ls_lit (FNum rnd)) (mt limit : nat) (c : icfg (FNum rnd) W P).
Hypothesis R0 : rnd 0%R = 0%R.
Hypothesis ID : idempotent rnd.
Hypothesis LE : ((l_eta lit : R) <= 1)%R.
Hypothesis GR : forall w, good_rhs (N:=FNum rnd) (n_vars c) (ic_rhs c w).
Hypothesis PM : forall o, ic_ord c = Some o -> Permutation (fst o) (seq 0 (ic_nd c + ic_nf c)) /\ Permutation (snd o) (seq 0 (ic_nd c + ic_nf c)).
Hypothesis PR : forall pr, ic_pred c = Some pr -> forall h t x k q y q', pr h t x k q = Ret (y, q') -> machine rnd y.
Notation nw := (plain_newton dd lit mt limit).
Notation cF := (fun (v : list R) j => nth j v 0%R).
Lemma steady_is_machine (x : list R) : Forall (steady (N:=FNum rnd)) x -> machine rnd x.
Proof.
  intros F v I. rewrite Forall_forall in F. pose proof (F v I 0%R) as Q. cbn [nadd nmul n0 FNum] in Q. rewrite Rmult_0_r, R0, Rplus_0_r in Q. exact Q.
Qed.
Lemma machine_nth (x : list R) i : machine rnd x -> rnd (nth i x 0%R) = nth i x 0%R.
Proof. intros M. destruct (lt_dec i (length x)) as [H|H]; [apply M, nth_In; exact H|]. rewrite nth_overflow by fl. exact R0. Qed.
Lemma i_order_machine (x y : list R) : length x = ic_nd c + ic_nf c -> machine rnd x -> i_order c x = Ret y -> machine rnd y.
Proof.
  unfold i_order. intros L M E. destruct (ic_ord c) as [o|] eqn:EO; [|injection E as <-; exact M].
  destruct (PM o eq_refl) as [P1 _]. destruct (perm_bounds _ _ P1) as [_ [_ B1]].
  rewrite (order_ok (N:=FNum rnd) 0%R (fst o) x) in E by (intros i I; apply B1 in I; exact (Nat.lt_le_trans _ _ _ I (Nat.eq_le_incl _ _ (eq_sym L)))).
  injection E as <-. intros v I. unfold pick in I. apply in_map_iff in I. destruct I as (i & <- & _). apply machine_nth. exact M.
Qed.
Lemma i_unorder_machine (x y : list R) : length x = ic_nd c + ic_nf c -> machine rnd x -> i_unorder c x = Ret y -> machine rnd y.
Proof.
  unfold i_unorder. intros L M E. destruct (ic_ord c) as [o|] eqn:EO; [|injection E as <-; exact M].
  destruct (PM o eq_refl) as [P1 _]. destruct (perm_bounds _ _ P1) as [LO1 [ND1 B1]].
  destruct (unorder_ok (N:=FNum rnd) 0%R (fst o) [] x) as (w & EW & LW & VW & _).
  { intros i I. rewrite LO1. exact (proj1 (B1 i) I). }
  { rewrite LO1. exact (Nat.eq_le_incl _ _ (eq_sym L)). }
  change (nT (FNum rnd)) with R in *. rewrite EW in E. injection E as <-. intros v I. destruct (In_nth _ _ 0%R I) as (j & Hj & <-).
  assert (IJ : In j (fst o)). { apply (Permutation_in j (Permutation_sym P1)). apply in_seq. fl. }
  destruct (In_nth _ _ 0 IJ) as (i & Hi & <-). rewrite (VW ND1 i Hi). apply machine_nth. exact M.
Qed.
Definition rr (F0 F1 X0 X1 h al : R) : R := rnd (rnd (rnd (X1 - X0) + rnd (F0 * rnd (- h * rnd (1 - al)))) + rnd (F1 * rnd (- h * al))).
Definition rp (V0 V1 X0 h al : R) : R := rnd (rnd (X0 + rnd (V0 * rnd (h * rnd (1 - al)))) + rnd (V1 * rnd (h * al))).
Lemma residualF (s s' : ist (FNum rnd) W P (perf (FNum rnd) (S:=D))) a : length (em_x (i_map s)) = n_vars c -> machine rnd (em_x (i_map s)) -> i_step no_events nw c s = (s', IDone a) ->
  let X0 := em_x (i_map s) : list R in let t := em_t (i_map s) : R in let h := ic_h c : R in let al := em_alpha (i_map s) : R in
  exists w (X1 F0 F1 : list R),
    ic_rhs c w t X0 = Ret F0 /\ ic_rhs c w (rnd (t + h)) X1 = Ret F1 /\ length X1 = n_vars c /\ machine rnd X1 /\
    (forall i, i < ic_nd c -> cF X1 i = rp (cF X0 (ic_nd c + i)%nat) (cF X1 (ic_nd c + i)%nat) (cF X0 i) h al) /\
    (forall i, i < ic_nd c + ic_nf c ->
       (Rabs (rr (cF F0 (ic_nd c + i)%nat) (cF F1 (ic_nd c + i)%nat) (cF X0 (ic_nd c + i)%nat) (cF X1 (ic_nd c + i)%nat) h al) <= toleranceF s)%R) /\
    em_t (i_map s') = rnd (t + h) /\ em_x (i_map s') = X1 /\ em_alpha (i_map s') = al /\ toleranceF s' = toleranceF s.
Proof.
  intros L0 MX E X0 t h al. pose proof (step_inv no_events nw c s s' _ E) as (xp & pr1 & w1 & e0 & e1 & n2 & w2 & w3 & n3 & e2 & X2 & w4 & er & EP & EQ & EO & EG & _ & _ & ER & EU & EX & EE & -> & _).
  set (m := em_setStep (ic_h c) (i_map s)) in *. assert (Lm : length (em_x m) = 2 * ic_nd c + ic_nf c) by exact L0.
  cbn [no_events ev_end] in EE. inversion EE; subst w4 er. clear EE. cbn [ev_t ev_x ev_trunc].
  assert (L2 : length e2 = ic_nd c + ic_nf c). { unfold em_expand in EX. destruct (length e2 =? ic_nd c + ic_nf c) eqn:Q; [apply Nat.eqb_eq in Q; exact Q|discriminate EX]. }
  destruct (expand_nth (ic_nd c) (ic_nf c) m e2 Lm L2) as (X1 & EX1 & LX & SX & PX). rewrite EX in EX1. inversion EX1; subst X1. clear EX1.
  destruct (GR w3 (em_t m) (em_x m) Lm) as (F0 & E0 & LF0). destruct (GR w3 (nadd (FNum rnd) (em_t m) (em_h m)) X2 LX) as (F1 & E1 & LF1).
  destruct (map_nthN (ic_nd c) (ic_nf c) (ic_rhs c w3) m e2 X2 F0 F1 Lm L2 eq_refl EX E0 E1 LF0 LF1) as (d & m' & ED & LD & VD).
  (* the guess *)
  assert (MP : machine rnd xp).
  { destruct (ic_pred c) as [pr|] eqn:EPR; [exact (PR pr eq_refl _ _ _ _ _ _ _ EP)|]. injection EP as <- _ _. exact MX. }
  assert (ME : machine rnd e0 /\ length e0 = ic_nd c + ic_nf c).
  { unfold em_eqn, lblk in EQ. destruct (ic_nd c + (ic_nd c + ic_nf c) <=? length xp) eqn:Q; [|discriminate EQ]. injection EQ as <-. apply Nat.leb_le in Q. split.
    - intros v I. apply MP. change (In v xp). rewrite <- (firstn_skipn (ic_nd c) xp). apply in_or_app. right. rewrite <- (firstn_skipn (ic_nd c + ic_nf c) (skipn (ic_nd c) xp)). apply in_or_app. left. exact I.
    - rewrite firstn_length, skipn_length. fl. }
  destruct ME as [ME LE0]. assert (LE1 : length e1 = ic_nd c + ic_nf c).
  { unfold i_order in EO. destruct (ic_ord c) as [o|] eqn:EOR; [|injection EO as <-; exact LE0]. destruct (PM o eq_refl) as [P1 _]. destruct (perm_bounds _ _ P1) as [LO1 [_ B1]].
    rewrite (order_ok (N:=FNum rnd) (n0 (FNum rnd)) (fst o) e0) in EO by (intros i I; apply B1 in I; fl). injection EO as <-. unfold pick. rewrite map_length. exact LO1. }
  pose proof (i_order_machine e0 e1 LE0 ME EO) as MO.
  (* Newton *)
  cbn [plain_newton nw_guess nw_run nw_sol] in EG, ER, EU. inversion EG; subst n2. clear EG.
  match type of ER with (r <- nrun ?cc ?ll ?pp ;; _) = _ => destruct (nrun cc ll pp) as [[[p' log] stt]| |] eqn:RUN; try discriminate ER end. cbn [obind] in ER. inversion ER; subst p' stt. clear ER.
  match type of RUN with nrun _ _ ?pp = _ => destruct (run_solutionF rnd R0 ID _ lit mt _ limit pp n3 log _ LE eq_refl eq_refl (steady_machine rnd R0 _ MO) RUN) as (KT & [SP SL] & SOL) end.
  destruct (SOL eq_refl) as (fv & EF & BF).
  assert (TOL : forall v, In v d -> (Rabs v <= toleranceF s)%R).
  { unfold i_vmapping, i_unorder in *. destruct (ic_ord c) as [o|] eqn:EOR.
    - cbn [mapf] in EF. unfold reord_map, unorderInput, orderOutput in EF. cbn [inOrd outOrd rmap] in EF. rewrite EU in EF. cbn [obind mapf em_vmapping] in EF.
      unfold em_vmapping in EF. cbn [mapf] in EF. rewrite ED in EF. cbn [obind fst] in EF. destruct (PM o eq_refl) as [_ P2].
      destruct (perm_bounds _ _ P2) as [LO2 [ND2 B2]].
      rewrite (order_ok (N:=FNum rnd) 0%R (snd o) d) in EF by (intros i I; apply B2 in I; fl). inversion EF; subst fv. intros v I.
      apply BF. destruct (In_nth d v 0%R I) as [i [Hi Ei]]. unfold pick. apply in_map_iff. exists i. split; [exact Ei|].
      apply (Permutation_in i (Permutation_sym P2)). apply in_seq. lia.
    - injection EU as EU1. unfold em_vmapping in EF. cbn [mapf] in EF. rewrite EU1 in EF. rewrite ED in EF. cbn [obind fst] in EF. inversion EF; subst fv. exact BF. }
  exists w3, X2, F0, F1. split; [exact E0|]. split; [exact E1|]. split; [exact LX|]. split.
  { intros v I. change (In v X2) in I. rewrite <- (firstn_skipn (ic_nd c) X2) in I. apply in_app_or in I. destruct I as [I|I].
    - destruct (In_nth _ _ (n0 (FNum rnd)) I) as (j & Hj & <-). rewrite firstn_length in Hj. rewrite nth_firstn' by fl. rewrite PX by fl. cbn [nadd FNum]. apply ID.
    - rewrite SX in I. refine (i_unorder_machine (p_x n3) e2 _ (steady_is_machine _ SP) EU v I).
      transitivity (length e1); [exact SL|]. exact LE1. }
  split; [exact PX|]. split.
  { intros i Hi. pose proof (VD i Hi) as Q. assert (IN : In (nth i d (n0 (FNum rnd))) d) by (apply nth_In; fl). pose proof (TOL _ IN) as B. rewrite Q in B. exact B. }
  split; [reflexivity|]. split; [reflexivity|]. split; [reflexivity|]. exact KT.
Qed.
End Step.
