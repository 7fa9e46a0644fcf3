(** ImpFacts4.v - what a step of the implicit alpha solver with Newton's method satisfies. *)
From Coq Require Import List Arith Bool ZArith QArith Qcanon Lia Qfield Permutation.
From Verif Require Import Base BaseFacts SMap SpModel VecModel VOps MapModel MapSpec MapFacts JacModel JacSpec LUModel NewtModel NewtSpec NewtFacts NewtFacts2 NewtFacts4 RkModel RkSpec RkFacts RkFacts3 ExtModel ExtFacts ExtFacts5 ImpModel ImpSpec ImpFacts ImpFacts2 ImpFacts3.
Import ListNotations.
Local Open Scope nat_scope.

Section Residual.
Context {W P D : Type} (ev : events QcNum W) (dd : vmapping QcNum -> ddir QcNum D) (lit : ls_lit QcNum) (mt limit : nat) (c : icfg QcNum W P).
Hypothesis LO : ls_order lit.
Hypothesis GR : forall w, good_rhs (N:=QcNum) (n_vars c) (ic_rhs c w).
Hypothesis PM : forall o, ic_ord c = Some o -> Permutation (fst o) (seq 0 (ic_nd c + ic_nf c)) /\ Permutation (snd o) (seq 0 (ic_nd c + ic_nf c)).
Notation nw := (plain_newton dd lit mt limit).
Lemma residual (s s' : ist QcNum W P (perf QcNum (S:=D))) a : length (em_x (i_map s) : list Qc) = n_vars c -> i_step ev nw c s = (s', IDone a) ->
  let X0 := em_x (i_map s) in let t := em_t (i_map s) in let h := ic_h c in let al := em_alpha (i_map s) in
  exists w (X1 F0 F1 : list Qc) w4 er,
    ic_rhs c w t X0 = Ret F0 /\ ic_rhs c w (t + h)%Qc X1 = Ret F1 /\ length X1 = n_vars c /\
    (forall i, i < ic_nd c -> cmp_ X1 i = (cmp_ X0 i + h * ((1 - al) * cmp_ X0 (ic_nd c + i)%nat + al * cmp_ X1 (ic_nd c + i)%nat))%Qc) /\
    (forall i, i < ic_nd c + ic_nf c ->
       (Qcabs (cmp_ X1 (ic_nd c + i)%nat - cmp_ X0 (ic_nd c + i)%nat - h * ((1 - al) * cmp_ F0 (ic_nd c + i)%nat + al * cmp_ F1 (ic_nd c + i)%nat)) <= e_absTol (p_est (i_nw s)))%Qc) /\
    ev_end ev X0 X1 (t + h)%Qc w = Ret (w4, er) /\ em_t (i_map s') = ev_t er /\ em_x (i_map s') = ev_x er.
Proof.
  intros L0 E X0 t h al. pose proof (step_inv ev nw c s s' _ E) as (xp & pr1 & w1 & e0 & e1 & n2 & w2 & w3 & n3 & e2 & X2 & w4 & er & _ & _ & _ & EG & _ & _ & ER & EU & EX & EE & -> & _).
  set (m := em_setStep (ic_h c) (i_map s)) in *. assert (Lm : length (em_x m : list Qc) = 2 * ic_nd c + ic_nf c) by exact L0.
  assert (L2 : length e2 = ic_nd c + ic_nf c). { unfold em_expand in EX. destruct (length e2 =? ic_nd c + ic_nf c) eqn:Q; [apply Nat.eqb_eq in Q; exact Q|discriminate EX]. }
  destruct (expand_ok (ic_nd c) (ic_nf c) m e2 Lm L2) as (X1 & EX1 & LX & SX & PX). change (nT QcNum) with Qc in *. rewrite EX in EX1. inversion EX1; subst X1. clear EX1.
  destruct (GR w3 (em_t m) (em_x m) Lm) as (F0 & E0 & LF0). destruct (GR w3 (em_t m + em_h m)%Qc X2 LX) as (F1 & E1 & LF1). change (nT QcNum) with Qc in *.
  destruct (map_ok (ic_nd c) (ic_nf c) (ic_rhs c w3) m e2 X2 F0 F1 Lm L2 eq_refl EX E0 E1 LF0 LF1) as (d & m' & ED & LD & VD).
  (* Newton *)
  cbn [plain_newton nw_guess nw_run nw_sol] in EG, ER, EU. inversion EG; subst n2. clear EG.
  match type of ER with (r <- nrun ?cc ?ll ?pp ;; _) = _ => destruct (nrun cc ll pp) as [[[p' log] stt]| |] eqn:RUN; try discriminate ER end. cbn [obind] in ER. inversion ER; subst p' stt. clear ER.
  match type of RUN with nrun _ _ ?pp = _ => destruct (run_solution _ lit mt _ limit pp n3 log LO eq_refl eq_refl RUN) as (fv & EF & BF) end.
  assert (TOL : forall v, In v d -> (Qcabs v <= e_absTol (p_est (i_nw s)))%Qc).
  { unfold i_vmapping, i_unorder in *. destruct (ic_ord c) as [o|] eqn:EO.
    - cbn [mapf] in EF. unfold reord_map, unorderInput, orderOutput in EF. cbn [inOrd outOrd rmap] in EF. change (nT QcNum) with Qc in *. rewrite EU in EF. cbn [obind mapf em_vmapping] in EF.
      unfold em_vmapping in EF. cbn [mapf] in EF. change (nT QcNum) with Qc in *. rewrite ED in EF. cbn [obind fst] in EF. destruct (PM o eq_refl) as [_ P2].
      destruct (perm_bounds _ _ P2) as [LO2 [ND2 B2]].
      rewrite (order_ok (N:=QcNum) 0%Qc (snd o) d) in EF by (intros i I; apply B2 in I; change (nT QcNum) with Qc; lia). inversion EF; subst fv. intros v I.
      apply BF. destruct (In_nth d v 0%Qc I) as [i [Hi Ei]]. unfold pick. apply in_map_iff. exists i. split; [exact Ei|].
      apply (Permutation_in i (Permutation_sym P2)). apply in_seq. lia.
    - injection EU as EU1. unfold em_vmapping in EF. cbn [mapf] in EF. change (nT QcNum) with Qc in *. rewrite EU1 in EF. rewrite ED in EF. cbn [obind fst] in EF. inversion EF; subst fv. exact BF. }
  exists w3, X2, F0, F1, w4, er. split; [exact E0|]. split; [exact E1|]. split; [exact LX|]. split; [exact PX|]. split.
  - intros i Hi. pose proof (VD i Hi) as Q. assert (IN : In (cmp_ d i) d) by (apply nth_In; lia). pose proof (TOL _ IN) as B. rewrite Q in B. exact B.
  - split; [exact EE|]. split; reflexivity.
Qed.
End Residual.

(** * Linear systems *)
Section Linear.
Context {W P : Type} (c : icfg QcNum W P) (A : nat -> nat -> Qc) (g : W -> Qc -> nat -> Qc) (dx : Qc) (lit : ls_lit QcNum) (mt limit : nat).
Notation nd := (ic_nd c).
Notation nf := (ic_nf c).
Notation S := (perf QcNum (S:=LUModel.lu)).
Notation nw := (plain_newton (simple_dd dx None) lit mt limit).
Hypothesis LR : forall w, linear_rhs (n_vars c) A (g w) (ic_rhs c w).
Hypothesis BS : forall t x w, ic_before c t x w = Ret w.
Hypothesis NO : ic_ord c = None.
Hypothesis NP : ic_pred c = None.
Hypothesis DX : dx <> 0%Qc.
Hypothesis LE : (l_eta lit <= 1)%Qc.
Hypothesis MT : 0 < mt.
Hypothesis LM : 2 <= limit.

(** The mapping of a step is affine, with matrix step_matrix. *)
Lemma map_affine w (m : emap QcNum) : length (em_x m : list Qc) = n_vars c -> em_valid m = false ->
  exists (F : list Qc -> list Qc) b, computes (em_vmapping nd nf (ic_rhs c w) m) F (nd + nf) (nd + nf) /\ affine (nd + nf) (step_matrix nd (em_h m) (em_alpha m) A) b F.
Proof.
  intros L0 V. set (gg := em_vmapping nd nf (ic_rhs c w) m).
  set (G := fun x : list Qc => match mapf gg x with Ret y => y | _ => [] end).
  set (b := fun r => let X0 := em_x m : list Qc in let h := em_h m : Qc in let al := em_alpha m : Qc in
     (- cmp_ X0 (nd + r)%nat - h * (1 - al) * (qsum (n_vars c) (fun k => A (nd + r)%nat k * cmp_ X0 k) + g w (em_t m) (nd + r)%nat)
      - h * al * (qsum nd (fun k => A (nd + r)%nat k * (cmp_ X0 k + h * (1 - al) * cmp_ X0 (nd + k)%nat)) + g w (em_t m + h) (nd + r)%nat))%Qc).
  assert (VAL : forall x, length x = nd + nf -> exists y, mapf gg x = Ret y /\ length y = nd + nf /\
     forall r, r < nd + nf -> cmp_ y r = (b r + qsum (nd + nf) (fun k => step_matrix nd (em_h m) (em_alpha m) A r k * cmp_ x k))%Qc).
  { intros x L. destruct (expand_ok nd nf m x L0 L) as (X1 & EX & LX & SX & PX). change (nT QcNum) with Qc in *.
    destruct (LR w (em_t m) (em_x m) L0) as (F0 & E0 & LF0 & V0). destruct (LR w (em_t m + em_h m)%Qc X1 LX) as (F1 & E1 & LF1 & V1). change (nT QcNum) with Qc in *.
    destruct (map_ok nd nf (ic_rhs c w) m x X1 F0 F1 L0 L V EX E0 E1 LF0 LF1) as (d & m' & ED & LD & VD).
    exists d. split; [unfold gg, em_vmapping; cbn [mapf]; change (nT QcNum) with Qc in *; rewrite ED; reflexivity|]. split; [exact LD|]. intros r Hr.
    rewrite (VD r Hr). rewrite V0, V1 by (unfold n_vars; lia).
    assert (XV : forall k, cmp_ X1 (nd + k)%nat = cmp_ x k) by (intros k; rewrite <- cmp_skip, SX; reflexivity). rewrite XV.
    assert (SPL : qsum (n_vars c) (fun k => A (nd + r)%nat k * cmp_ X1 k)%Qc =
      (qsum nd (fun k => A (nd + r)%nat k * (cmp_ (em_x m) k + em_h m * (1 - em_alpha m) * cmp_ (em_x m) (nd + k)%nat)) +
       qsum (nd + nf) (fun k => (A (nd + r)%nat (nd + k)%nat + (if (k <? nd)%nat then em_h m * em_alpha m * A (nd + r)%nat k else 0)) * cmp_ x k))%Qc).
    { rewrite (qsum_split (n_vars c) nd) by (unfold n_vars; lia). replace (n_vars c - nd)%nat with (nd + nf)%nat by (unfold n_vars; lia).
      transitivity ((qsum nd (fun k => A (nd + r)%nat k * (cmp_ (em_x m) k + em_h m * (1 - em_alpha m) * cmp_ (em_x m) (nd + k)%nat))
        + qsum nd (fun k => em_h m * em_alpha m * A (nd + r)%nat k * cmp_ x k)) + qsum (nd + nf) (fun k => A (nd + r)%nat (nd + k)%nat * cmp_ x k))%Qc.
      - f_equal; [|apply qsum_ext; intros k Hk; rewrite XV; reflexivity]. rewrite <- qsum_add. apply qsum_ext. intros k Hk. rewrite (PX k Hk), XV. ring.
      - assert (TR : qsum nd (fun k => em_h m * em_alpha m * A (nd + r)%nat k * cmp_ x k)%Qc = qsum (nd + nf) (fun k => (if (k <? nd)%nat then em_h m * em_alpha m * A (nd + r)%nat k else 0) * cmp_ x k)%Qc).
        { rewrite (qsum_trunc (nd + nf) nd); [|lia|intros k Hk; destruct (k <? nd)%nat eqn:Q; [apply Nat.ltb_lt in Q; lia|ring]].
          apply qsum_ext. intros k Hk. apply Nat.ltb_lt in Hk. rewrite Hk. reflexivity. }
        rewrite TR. rewrite <- Qcplus_assoc, <- qsum_add. f_equal. apply qsum_ext. intros k Hk. ring. }
    rewrite SPL. unfold b, step_matrix.
    assert (DG : qsum (nd + nf) (fun k => (if (r =? k)%nat then 1 else 0) * cmp_ x k)%Qc = cmp_ x r).
    { rewrite (qsum_single (nd + nf) r); [rewrite Nat.eqb_refl; ring|exact Hr|intros i Hi NE; destruct (r =? i)%nat eqn:Q; [apply Nat.eqb_eq in Q; congruence|ring]]. }
    rewrite (qsum_ext (nd + nf) (fun k => ((if (r =? k)%nat then 1 else 0) - em_h m * em_alpha m * (A (nd + r)%nat (nd + k)%nat + (if (k <? nd)%nat then em_h m * em_alpha m * A (nd + r)%nat k else 0))) * cmp_ x k)%Qc (fun k => (if (r =? k)%nat then 1 else 0) * cmp_ x k - em_h m * em_alpha m * ((A (nd + r)%nat (nd + k)%nat + (if (k <? nd)%nat then em_h m * em_alpha m * A (nd + r)%nat k else 0)) * cmp_ x k))%Qc)
      by (intros k Hk; ring).
    rewrite qsum_sub, qsum_scale, DG. cbv zeta. ring. }
  exists G, b. split.
  - split; [reflexivity|]. split; [reflexivity|]. intros x L. destruct (VAL x L) as (y & E & LY & _). unfold G. change (nT QcNum) with Qc in *. rewrite E. auto.
  - intros x L. destruct (VAL x L) as (y & E & LY & VY). unfold G. change (nT QcNum) with Qc in *. rewrite E. apply (list_ext 0%Qc); [rewrite map_length, seq_length; exact LY|].
    intros i Hi. rewrite nth_map_seq by lia. exact (VY i ltac:(lia)).
Qed.

(** One step *)
Definition lin_ok (s : ist QcNum W P S) : Prop := length (em_x (i_map s) : list Qc) = n_vars c /\ (i_hard s = true \/ dd_inv (nd + nf) (p_dd (i_nw s))) /\
  (0 <= e_absTol (p_est (i_nw s)))%Qc /\ (0 <= e_relTol (p_est (i_nw s)))%Qc /\ (e_relMax (p_est (i_nw s)) <= 0)%Qc.
Lemma linear_step (s : ist QcNum W P S) : lin_ok s -> solvable_pattern (nd + nf) (step_matrix nd (ic_h c) (em_alpha (i_map s)) A) ->
  exists s' a F0 F1, i_step no_events nw c s = (s', IDone a) /\ lin_ok s' /\
    em_t (i_map s') = (em_t (i_map s) + ic_h c)%Qc /\ em_alpha (i_map s') = em_alpha (i_map s) /\ i_w s' = i_w s /\
    ic_rhs c (i_w s) (em_t (i_map s)) (em_x (i_map s)) = Ret F0 /\ ic_rhs c (i_w s) (em_t (i_map s')) (em_x (i_map s')) = Ret F1 /\
    alpha_update nd nf (ic_h c) (em_alpha (i_map s)) (em_x (i_map s)) F0 (em_x (i_map s')) F1.
Proof.
  intros (L0 & DI & T1 & T2 & T3) SP. set (m := em_setStep (ic_h c) (i_map s)).
  assert (Lm : length (em_x m : list Qc) = n_vars c) by exact L0.
  destruct (map_affine (i_w s) m Lm eq_refl) as (F & b & CF & AF).
  assert (LX0 : length (firstn (nd + nf) (skipn nd (em_x m : list Qc))) = nd + nf) by (rewrite firstn_length, skipn_length; unfold n_vars in Lm; ql).
  set (e0 := firstn (nd + nf) (skipn nd (em_x m : list Qc))) in *.
  set (p := pf_guess (simple_dd dx None (mkMap (N:=QcNum) 0 0 (fun _ => Throw))) e0 (i_hard s) (i_nw s)).
  assert (OK : ap_ok (nd + nf) (em_vmapping nd nf (ic_rhs c (i_w s)) m) p).
  { split; [split; [discriminate|reflexivity]|]. split; [exact LX0|]. unfold p, pf_guess, pf_reset. cbn [p_dd simple_dd dd_reset]. destruct (i_hard s); [left; reflexivity|destruct DI as [DI|DI]; [discriminate DI|exact DI]]. }
  destruct (affine_run (nd + nf) _ b F (em_vmapping nd nf (ic_rhs c (i_w s)) m) dx lit mt CF AF DX SP (qc_ls_order lit LE) MT p limit OK LM T1 T2) as (q & log & ER & Z & LQ & _ & DQ & K1 & K2 & K3).
  { intros y d _ _ _. left. exact T3. }
  change (nT QcNum) with Qc in *.
  destruct (expand_ok nd nf m (p_x q) Lm LQ) as (X1 & EX & LX & SX & PX). change (nT QcNum) with Qc in *.
  destruct (LR (i_w s) (em_t m) (em_x m) Lm) as (F0 & E0 & LF0 & _). destruct (LR (i_w s) (em_t m + em_h m)%Qc X1 LX) as (F1 & E1 & LF1 & _). change (nT QcNum) with Qc in *.
  destruct (root nd nf (ic_rhs c (i_w s)) m (p_x q) X1 F0 F1 Lm LQ eq_refl EX E0 E1 LF0 LF1) as (d & m' & ED & AU).
  assert (AZ : all_zero d).
  { intros v I. apply Z. destruct CF as (_ & _ & CF). destruct (CF (p_x q) LQ) as [Q _]. unfold em_vmapping in Q. cbn [mapf] in Q. change (nT QcNum) with Qc in *. rewrite ED in Q. cbn [obind fst] in Q. inversion Q as [Q1]. rewrite Q1 in I. exact I. }
  exists (mkI (N:=QcNum) (em_setState (N:=QcNum) (em_t m + ic_h c)%Qc X1 m) false q (i_pr s) (i_w s)). eexists. exists F0, F1. split.
  - unfold i_step. rewrite NP. cbn [ifail]. fold m. unfold em_eqn. rewrite lblk_ok by (unfold n_vars in L0; change (nT QcNum) with Qc in *; fold m; change (em_x m) with (em_x (i_map s)); lia).
    cbn [ifail]. unfold i_order, i_unorder, i_vmapping. rewrite NO. cbn [ifail plain_newton nw_guess nw_run nw_sol nw_reset]. rewrite BS. cbn [ifail no_events ev_start].
    change (nT QcNum) with Qc in *. fold e0. fold p. match goal with |- context[nrun ?cc ?ll ?pp] => change (nrun cc ll pp) with (nrun (plain_comps (simple_dd dx None (em_vmapping nd nf (ic_rhs c (i_w s)) m)) lit mt (em_vmapping nd nf (ic_rhs c (i_w s)) m)) limit p) end.
    rewrite ER. cbn [obind ifail]. change (nT QcNum) with Qc in *. rewrite EX. cbn [ifail ev_end no_events ev_trunc ev_t ev_x]. reflexivity.
  - cbn [i_map i_nw i_w em_setState em_x em_t em_alpha]. split.
    { split; [exact LX|]. cbn [i_nw]. rewrite K1, K2, K3. split; [right; exact DQ|]. split; [exact T1|]. split; [exact T2|exact T3]. }
    split; [reflexivity|]. split; [reflexivity|]. split; [reflexivity|]. split; [exact E0|]. split; [exact E1|]. exact (proj1 AU AZ).
Qed.

Lemma linear_steps (count : nat) : forall (s : ist QcNum W P S), lin_ok s -> solvable_pattern (nd + nf) (step_matrix nd (ic_h c) (em_alpha (i_map s)) A) ->
  exists s', i_steps no_events nw c count s = Some s' /\ lin_ok s' /\ em_t (i_map s') = (em_t (i_map s) + qn count * ic_h c)%Qc /\ em_alpha (i_map s') = em_alpha (i_map s) /\ i_w s' = i_w s.
Proof.
  induction count as [|k I]; intros s OK SP.
  - exists s. split; [reflexivity|]. split; [exact OK|]. split; [|split; reflexivity]. assert (Q : forall a b : Qc, a = (a + 0 * b)%Qc) by (intros; ring). exact (Q _ _).
  - destruct (linear_step s OK SP) as (s1 & a & F0 & F1 & E & OK1 & T1 & A1 & W1 & _). cbn [i_steps]. rewrite E.
    destruct (I s1 OK1) as (s' & E' & OK' & T' & A' & W'); [rewrite A1; exact SP|]. exists s'. split; [exact E'|]. split; [exact OK'|].
    split; [|split; congruence].
    rewrite T', T1, qn_S. assert (Q : forall a b q : Qc, (a + b + q * b = a + (q + 1) * b)%Qc) by (intros; ring). exact (Q _ _ _).
Qed.
Lemma linear_stable (count : nat) : (forall w, second_order nd nf (ic_rhs c w)) -> (forall w t j, g w t j = 0%Qc) -> dissipative (n_vars c) A -> (0 <= ic_h c)%Qc ->
  forall (s s' : ist QcNum W P S), lin_ok s -> solvable_pattern (nd + nf) (step_matrix nd (ic_h c) (em_alpha (i_map s)) A) -> (1 <= em_alpha (i_map s) + em_alpha (i_map s))%Qc ->
  i_steps no_events nw c count s = Some s' -> (energy (n_vars c) (em_x (i_map s')) <= energy (n_vars c) (em_x (i_map s)))%Qc.
Proof.
  intros SO GZ DI H0. induction count as [|k I]; intros s s' OK SP HA E; cbn [i_steps] in E; [inversion E; apply Qcle_refl|].
  destruct (linear_step s OK SP) as (s1 & a & F0 & F1 & E1 & OK1 & T1 & A1 & W1 & EF0 & EF1 & AU). rewrite E1 in E.
  assert (SP1 : solvable_pattern (nd + nf) (step_matrix nd (ic_h c) (em_alpha (i_map s1)) A)) by (rewrite A1; exact SP).
  assert (HA1 : (1 <= em_alpha (i_map s1) + em_alpha (i_map s1))%Qc) by (rewrite A1; exact HA).
  pose proof (I s1 s' OK1 SP1 HA1 E) as B.
  eapply Qcle_trans; [exact B|]. apply (stable nd nf A (ic_rhs c (i_w s)) (ic_h c) (em_alpha (i_map s)) (em_t (i_map s)) (em_t (i_map s1)) _ _ F0 F1); auto.
  - intros t x L. destruct (LR (i_w s) t x L) as (y & Q1 & Q2 & Q3). exists y. split; [exact Q1|]. split; [exact Q2|]. intros j Hj. rewrite (Q3 j Hj), GZ. reflexivity.
  - apply OK.
Qed.

Lemma fresh_ok (s : ist QcNum W P S) : fresh_start c s -> lin_ok s.
Proof. intros (A1 & A2 & A3). split; [exact A1|]. split; [left; exact A2|exact A3]. Qed.
(** After any number of steps, the next one returns with the exact update. *)
Lemma linear_run (count : nat) (s : ist QcNum W P S) : fresh_start c s -> solvable_pattern (nd + nf) (step_matrix nd (ic_h c) (em_alpha (i_map s)) A) ->
  exists s1 s2 a F0 F1, i_steps no_events nw c count s = Some s1 /\ em_t (i_map s1) = (em_t (i_map s) + qn count * ic_h c)%Qc /\ i_w s1 = i_w s /\
    i_step no_events nw c s1 = (s2, IDone a) /\ em_t (i_map s2) = (em_t (i_map s1) + ic_h c)%Qc /\ i_w s2 = i_w s /\
    ic_rhs c (i_w s) (em_t (i_map s1)) (em_x (i_map s1)) = Ret F0 /\ ic_rhs c (i_w s) (em_t (i_map s2)) (em_x (i_map s2)) = Ret F1 /\
    alpha_update nd nf (ic_h c) (em_alpha (i_map s)) (em_x (i_map s1)) F0 (em_x (i_map s2)) F1.
Proof.
  intros FS SP. destruct (linear_steps count s (fresh_ok s FS) SP) as (s1 & E1 & OK1 & T1 & A1 & W1).
  assert (SP1 : solvable_pattern (nd + nf) (step_matrix nd (ic_h c) (em_alpha (i_map s1)) A)) by (rewrite A1; exact SP).
  destruct (linear_step s1 OK1 SP1) as (s2 & a & F0 & F1 & E2 & OK2 & T2 & A2 & W2 & G0 & G1 & AU). rewrite W1 in *. rewrite A1 in AU.
  exists s1, s2, a, F0, F1. repeat (split; [assumption|]). assumption.
Qed.
Lemma linear_run_stable (count : nat) : (forall w, second_order nd nf (ic_rhs c w)) -> (forall w t j, g w t j = 0%Qc) -> dissipative (n_vars c) A -> (0 <= ic_h c)%Qc ->
  forall (s : ist QcNum W P S), fresh_start c s -> solvable_pattern (nd + nf) (step_matrix nd (ic_h c) (em_alpha (i_map s)) A) -> (1 <= em_alpha (i_map s) + em_alpha (i_map s))%Qc ->
  exists s', i_steps no_events nw c count s = Some s' /\ (energy (n_vars c) (em_x (i_map s')) <= energy (n_vars c) (em_x (i_map s)))%Qc.
Proof.
  intros SO GZ DI H0 s FS SP HA. destruct (linear_steps count s (fresh_ok s FS) SP) as (s1 & E1 & _). exists s1. split; [exact E1|].
  apply (linear_stable count SO GZ DI H0 s s1 (fresh_ok s FS) SP HA E1).
Qed.
End Linear.
