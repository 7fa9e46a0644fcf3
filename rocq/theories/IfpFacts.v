(** IfpFacts.v - Newton's method in rounded arithmetic: what a converged run delivers. *)
From Coq Require Import List Arith Bool ZArith Lia Permutation Reals Lra.
From Verif Require Import Base BaseFacts SMap SpModel VecModel VOps MapModel MapSpec MapFacts JacModel NewtModel NewtSpec NewtFacts NewtFacts2 NewtFacts4 RkModel RkSpec StepSpec
  ExtModel ExtFacts ExtFacts5 ImpModel ImpSpec ImpFacts ImpFacts3 ConvSpec FpSpec IfpSpec.
Import ListNotations.
Local Open Scope nat_scope.

Section Steady.
Context {N : Num} {S : Type} (dd : ddir N S) (lit : ls_lit N) (mt : nat) (g : vmapping N).
Hypothesis O : ls_order lit.
Definition steady (a : nT N) : Prop := forall b, nadd N a (nmul N b (n0 N)) = a.
Hypothesis ZS : forall a b, steady (nadd N a b).
Lemma lzip_steady (x dir y : list (nT N)) : Forall steady x -> ladd x (lscale dir (n0 N)) = Ret y -> y = x.
Proof.
  unfold ladd, lscale. revert dir y. induction x as [|a x I]; intros dir y F; simpl; [intros E; inversion E; auto|].
  destruct dir as [|d dir]; simpl; [discriminate|]. intros E. binv E. inversion E. inversion F as [|? ? F1 F2]; subst. rewrite F1. f_equal. eauto.
Qed.
Lemma ladd_steady (x d y : list (nT N)) : ladd x d = Ret y -> Forall steady y.
Proof.
  unfold ladd. revert d y. induction x as [|a x I]; intros d y; simpl; [intros E; inversion E; constructor|].
  destruct d as [|b d]; simpl; [discriminate|]. intros E. binv E. inversion E. constructor; [apply ZS|eauto].
Qed.
Lemma ladd_len (x d y : list (nT N)) : ladd x d = Ret y -> length y = length x.
Proof.
  unfold ladd. revert d y. induction x as [|a x I]; intros d y; simpl; [intros E; inversion E; reflexivity|].
  destruct d as [|b d]; simpl; [discriminate|]. intros E. binv E. inversion E. simpl. f_equal. eauto.
Qed.
Lemma pf_iteration_steady n p q st : pf_ok g p -> Forall steady (p_x p) -> pf_iteration dd lit mt g n p = Ret (q, st) ->
  pf_ok g q /\ (Forall steady (p_x q) /\ length (p_x q) = length (p_x p)) /\ mapf g (p_x q) = Ret (p_f q) /\ est_set (p_x q) (p_f q) (p_est p) = Ret (p_est q) /\
    st = match est_status (p_est q) with EContinue => if neqb N (p_ratio q) (n0 N) then EDiverged else EContinue | s => s end.
Proof.
  intros OK SX E. unfold pf_iteration in E. binv E. destruct r as [f0 p1]. destruct (pf_residual_ok g _ _ _ OK E0) as [OK1 [M [X [F [V [D1 D2]]]]]].
  binv E. destruct r as [dir s]. binv E. destruct r as [[rt f] lg]. binv E. rename r into x. binv E. rename r into e.
  rewrite X in *. rewrite D1, D2 in *.
  destruct (lineSearch_ok lit g dir (p_x p) f0 O _ _ _ _ _ E2) as [fw [bw [nf [nb [Q1 [_ [_ [_ [_ [Q6 [_ [_ [_ [_ Q10]]]]]]]]]]]]]].
  inversion E; subst q st; clear E. simpl.
  assert (Es : e_cur e = x). { unfold est_set in E4. binv E4. inversion E4. reflexivity. }
  assert (MF : mapf g x = Ret f).
  { destruct Q10 as [[A [B _]]|[r [A [B [C _]]]]].
    - subst rt. apply lzip_steady in E3; [|exact SX]. subst x f. rewrite F. assumption.
    - destruct C as [x' [C1 C2]]. rewrite E3 in C1. inversion C1; subst. assumption. }
  split; [split; simpl; auto|]. split; [split; [exact (ladd_steady _ _ _ E3)|exact (ladd_len _ _ _ E3)]|]. split; [exact MF|]. split; [exact E4|]. destruct (est_status e); reflexivity.
Qed.
End Steady.

Section Inv.
Context {N : Num} {S : Type} (c : comps N S) (Inv Post : S -> Prop).
Hypothesis H1 : forall n s s' e, Inv s -> c_iter c n s = Ret (s', e) -> Inv s' /\ (e = EConverged -> Post s').
Hypothesis H2 : forall n s s' b, c_obs c n s = Ret (s', b) -> (Inv s -> Inv s') /\ (Post s -> Post s').
Hypothesis H3 : forall s s' b, c_adjust c s = Ret (s', b) -> (Inv s -> Inv s') /\ (Post s -> Post s').
Hypothesis H4 : forall b s, (Inv s -> Inv (c_report c b s)) /\ (Post s -> Post (c_report c b s)).
Hypothesis H5 : forall s0 s s', Inv s0 -> Inv s -> c_guess c (c_sol c s0) s = Ret s' -> Inv s'.
Hypothesis H6 : forall s s', Inv s -> c_reset c s = Ret s' -> Inv s'.
Lemma run_inv_guess limit s s' log st : nrun c limit s = Ret (s', log, st) -> Inv s -> Inv s' /\ (st = NConverged -> Post s').
Proof.
  unfold nrun. intros E IS. binv E. assert (I0 : Inv r) by eauto. binv E. destruct r0 as [[[s1 l1] i1] st1].
  destruct (attempt_inv c Inv Post H1 H2 H3 H4 _ _ _ _ _ _ _ _ _ _ E1 I0) as [I1 P1]. destruct st1 as [st1|].
  - inversion E; subst. split; [assumption|]. intros ->. auto.
  - destruct (c_help c s1).
    + binv E. assert (I2 : Inv r0) by eauto. binv E. destruct r1 as [[[s3 l3] i3] st3]. destruct (attempt_inv c Inv Post H1 H2 H3 H4 _ _ _ _ _ _ _ _ _ _ E3 I2) as [I3 P3].
      destruct st3; inversion E; subst; [split; [assumption|intros ->; auto]|]. split; [apply H4; assumption|discriminate].
    + inversion E; subst. split; [apply H4; assumption|discriminate].
Qed.
End Inv.

Section Rounded.
Context (rnd : R -> R).
Hypothesis R0 : rnd 0%R = 0%R.
Hypothesis ID : idempotent rnd.
Lemma steady_add (a b : R) : steady (N:=FNum rnd) (nadd (FNum rnd) a b).
Proof.
  intros c. cbn [nadd nmul n0 FNum]. rewrite Rmult_0_r, R0, Rplus_0_r. apply ID.
Qed.
Lemma steady_machine (x : list R) : machine rnd x -> Forall (steady (N:=FNum rnd)) x.
Proof. intros M. apply Forall_forall. intros v I c. cbn [nadd nmul n0 FNum]. rewrite Rmult_0_r, R0, Rplus_0_r. exact (M v I). Qed.
Lemma Rltb_lt a b : Rltb a b = true <-> (a < b)%R.
Proof. unfold Rltb. destruct (Rlt_dec a b); split; intros; try discriminate; auto; lra. Qed.
Lemma Rltb_ge a b : Rltb a b = false <-> (b <= a)%R.
Proof. unfold Rltb. destruct (Rlt_dec a b); split; intros; try discriminate; auto; lra. Qed.
Lemma fnum_ls_order (lit : ls_lit (FNum rnd)) : ((l_eta lit : R) <= 1)%R -> ls_order lit.
Proof.
  intros L. repeat split; cbn [nltb neqb n1 FNum]; intros.
  - apply Rltb_lt in H, H0. apply Rltb_lt. exact (Rlt_trans _ _ _ H H0).
  - apply Rltb_ge. apply Rle_refl.
  - apply Rltb_lt in H. unfold Reqb. destruct (Req_EM_T a 1%R) as [E|E]; [rewrite E in H; destruct (Rlt_irrefl _ H)|reflexivity].
  - unfold Reqb. destruct (Req_EM_T 1%R 1%R); [reflexivity|congruence].
  - apply Rltb_ge. exact L.
  - apply Rltb_lt in H. apply Rltb_ge in H1. apply Rltb_lt. exact (Rlt_le_trans _ _ _ H H1).
Qed.
Lemma fnum_linf_fold (f : list R) : forall s, (s <= fold_left (fun s x => nmax (FNum rnd) s (Rabs x)) f s)%R /\ (forall x, In x f -> (Rabs x <= fold_left (fun s x => nmax (FNum rnd) s (Rabs x)) f s)%R).
Proof.
  induction f as [|x f I]; intros s; cbn [fold_left]; [split; [apply Rle_refl|intros ? []]|].
  destruct (I (nmax (FNum rnd) s (Rabs x))) as [A B].
  assert (M : (s <= nmax (FNum rnd) s (Rabs x))%R /\ (Rabs x <= nmax (FNum rnd) s (Rabs x))%R).
  { unfold nmax. cbn [nltb nleb FNum]. unfold Rltb. destruct (Rlt_dec s (Rabs x)) as [Q|Q]; [split; [exact (Rlt_le _ _ Q)|exact (Rle_refl _)]|split; [exact (Rle_refl _)|exact (Rnot_lt_le _ _ Q)]]. }
  destruct M as [M1 M2]. split; [exact (Rle_trans _ _ _ M1 A)|]. intros y [E|E]; [subst y; exact (Rle_trans _ _ _ M2 A)|exact (B y E)].
Qed.
Lemma fnum_linf_ge (f : list R) x : In x f -> (Rabs x <= linf (N:=FNum rnd) f)%R.
Proof. intros I. exact (proj2 (fnum_linf_fold f 0%R) x I). Qed.
Lemma est_tol (x f : list R) (e e' : sest (FNum rnd)) : est_set (N:=FNum rnd) x f e = Ret e' -> est_status e' = EConverged ->
  forall v, In v f -> (Rabs v <= e_absTol e)%R.
Proof.
  unfold est_set. intros E S v I. binv E. inversion E; subst e'; clear E. unfold est_status in S. cbn [e_abs e_absTol e_rel e_relTol] in S.
  match type of S with (if ?b then _ else _) = _ => destruct b eqn:B end.
  2:{ repeat (match type of S with (if ?b then _ else _) = _ => destruct b end; try discriminate). }
  apply andb_true_iff in B. destruct B as [B _]. cbn [nleb FNum] in B. unfold Rleb in B.
  match type of B with context[Rle_dec ?a ?b] => destruct (Rle_dec a b) as [Q|]; [|discriminate] end. exact (Rle_trans _ _ _ (fnum_linf_ge f v I) Q).
Qed.
Lemma est_keepsF (x f : list R) (e e' : sest (FNum rnd)) : est_set (N:=FNum rnd) x f e = Ret e' -> e_absTol e' = e_absTol e.
Proof. intros E. unfold est_set in E. binv E. inversion E. reflexivity. Qed.

(** Newton's method: what it calls a solution has, evaluated in the same arithmetic, a residual within the tolerance. *)
Lemma run_solutionF {S} (dd : ddir (FNum rnd) S) (lit : ls_lit (FNum rnd)) mt (g : vmapping (FNum rnd)) limit p p' log st : ((l_eta lit : R) <= 1)%R -> p_valid p = false -> e_cur (p_est p) = p_x p -> Forall (steady (N:=FNum rnd)) (p_x p) ->
  nrun (plain_comps dd lit mt g) limit p = Ret (p', log, st) ->
  e_absTol (p_est p') = e_absTol (p_est p) /\ (Forall (steady (N:=FNum rnd)) (p_x p') /\ length (p_x p') = length (p_x p)) /\
  (st = NConverged -> exists f, mapf g (p_x p') = Ret f /\ forall v, In v f -> (Rabs v <= e_absTol (p_est p))%R).
Proof.
  intros LE V C SX E. set (tol := e_absTol (p_est p)). pose proof (fnum_ls_order lit LE) as LO.
  pose (Inv := fun q : perf (FNum rnd) (S:=S) => pf_ok g q /\ e_absTol (p_est q) = tol /\ (Forall (steady (N:=FNum rnd)) (p_x q) /\ length (p_x q) = length (p_x p))).
  pose (Post := fun q : perf (FNum rnd) (S:=S) => exists f, mapf g (p_x q) = Ret f /\ forall v, In v f -> (Rabs v <= tol)%R).
  assert (IP : Inv p) by (split; [split; [congruence|assumption]|split; [reflexivity|split; [exact SX|reflexivity]]]).
  destruct (run_inv_guess (plain_comps dd lit mt g) Inv Post) with (limit := limit) (s := p) (s' := p') (log := log) (st := st) as [(_ & H1 & H2) H3]; try exact E; try exact IP; [| | | | | |split; [exact H1|split; [exact H2|exact H3]]].
  - intros n s s' e (I1 & I2 & I3 & I4) X. cbn [plain_comps c_iter] in X.
    destruct (pf_iteration_steady dd lit mt g LO (fun a b => steady_add a b) n s s' e I1 I3 X) as (OK & [SQ SL] & G2 & G7 & G8).
    pose proof (est_keepsF _ _ _ _ G7) as K1. split; [split; [exact OK|split; [congruence|split; [exact SQ|exact (eq_trans SL I4)]]]|]. intros ->.
    exists (p_f s'). split; [assumption|]. intros v Iv. rewrite <- I2.
    assert (ES : est_status (p_est s') = EConverged). { destruct (est_status (p_est s')); try reflexivity; [|discriminate]. destruct (neqb (FNum rnd) (p_ratio s') (n0 (FNum rnd))); discriminate. }
    exact (est_tol _ _ _ _ G7 ES v Iv).
  - intros n s s' b X. inversion X; subst. tauto.
  - intros s s' b X. inversion X; subst. tauto.
  - intros b s. unfold Inv, Post, pf_ok. simpl. tauto.
  - intros s0 s s' (_ & _ & J) (I1 & I2 & _) X. inversion X; subst. split; [split; [discriminate|reflexivity]|]. split; [exact I2|exact J].
  - intros s s' ([I1 I3] & I2 & J) X. inversion X; subst. split; [split; [exact I1|reflexivity]|]. split; [exact I2|exact J].
Qed.
End Rounded.
