(** NewtFacts2.v - proofs about the iteration performer and the error estimator. *)
From Coq Require Import List Arith Bool QArith Qcanon Lia Lqa Qfield.
From Verif Require Import Base BaseFacts SMap SpModel MapModel JacModel JacSpec VecModel VOps LUModel NewtModel NewtSpec NewtFacts.
Import ListNotations.
Local Open Scope nat_scope.

(** * The comparison laws *)
Lemma qc_ls_order (lit : ls_lit QcNum) : (l_eta lit <= 1)%Qc -> ls_order lit.
Proof.
  intros L. repeat split; simpl; intros.
  - apply Qcltb_lt in H, H0. apply Qcltb_lt. qclra.
  - apply Qcltb_ge. qclra.
  - apply Qcltb_lt in H. apply Qceqb_neq. intros E. rewrite E in H. qclra.
  - apply Qcltb_ge. assumption.
  - apply Qcltb_lt in H. apply Qcltb_ge in H1. apply Qcltb_lt. qclra.
Qed.
Lemma nan_ls_order (lit : ls_lit NanNum) eta : l_eta lit = Some eta -> (eta <= 1)%Qc -> ls_order lit.
Proof.
  intros E L. unfold ls_order. simpl. rewrite E. repeat split.
  - intros [a|] [b|] [c|]; simpl; try discriminate. intros H H0. apply Qcltb_lt in H, H0. apply Qcltb_lt. qclra.
  - intros [a|]; simpl; [|reflexivity]. apply Qcltb_ge. qclra.
  - intros [a|]; simpl; [|reflexivity]. intros H. apply Qcltb_lt in H. apply Qceqb_neq. intros E'. subst a. qclra.
  - simpl. apply Qcltb_ge. assumption.
  - intros [a|] [b|]; simpl; try discriminate.
    + intros H _ H1. apply Qcltb_lt in H. apply Qcltb_ge in H1. apply Qcltb_lt. qclra.
    + intros _ [H|H]; discriminate.
Qed.

(** * Norms *)
Lemma lnorm2_fold (f : list Qc) : forall s, (s <= fold_left (fun s x => s + x * x) f s)%Qc.
Proof.
  induction f as [|x f I]; intros s; simpl; [qclra|]. specialize (I (s + x * x)%Qc).
  assert (0 <= x * x)%Qc by qcnra. generalize dependent (fold_left (fun s x => s + x * x)%Qc f (s + x * x)%Qc). intros. qclra.
Qed.
Lemma lnorm2_nonneg (f : list Qc) : (0 <= lnorm2 (N:=QcNum) f)%Qc.
Proof. exact (lnorm2_fold f 0%Qc). Qed.
Lemma div_lt1 a b : (0 <= b)%Qc -> b <> 0%Qc -> (a / b < 1)%Qc -> (a < b)%Qc.
Proof.
  intros P Z L. assert (a = a / b * b)%Qc by (field; assumption). rewrite H.
  assert (0 < b)%Qc. { destruct (Qcle_lt_or_eq _ _ P); [assumption|]. symmetry in H0. contradiction. }
  generalize dependent (a / b)%Qc. intros. qcnra.
Qed.
(** the squared norm with NaN *)
Lemma nan_lnorm2_fold (f : list (option Qc)) : forall s r, fold_left (fun s x => lift2 Qcplus s (lift2 Qcmult x x)) f s = Some r ->
  exists s', s = Some s' /\ (s' <= r)%Qc.
Proof.
  induction f as [|x f I]; intros s r; simpl.
  - intros E. exists r. split; [assumption|qclra].
  - intros E. destruct (I _ _ E) as [s' [A B]]. destruct s as [s|], x as [x|]; try discriminate. simpl in A. inversion A. exists s. split; [reflexivity|].
    assert (0 <= x * x)%Qc by qcnra. subst s'. qclra.
Qed.
Lemma nan_lnorm2_nonneg (f : list (option Qc)) r : lnorm2 (N:=NanNum) f = Some r -> (0 <= r)%Qc.
Proof. intros E. destruct (nan_lnorm2_fold f _ _ E) as [s' [A B]]. inversion A. subst s'. assumption. Qed.
Lemma nan_improves (f f0 : list (option Qc)) a : improves (N:=NanNum) (a, ratio (N:=NanNum) f f0) ->
  exists x y, lnorm2 (N:=NanNum) f = Some x /\ lnorm2 (N:=NanNum) f0 = Some y /\ (x < y)%Qc.
Proof.
  unfold improves, ratio. simpl. destruct (lnorm2 (N:=NanNum) f) as [x|] eqn:E1; [|discriminate]. destruct (lnorm2 (N:=NanNum) f0) as [y|] eqn:E2; [|discriminate].
  simpl. destruct (Qceqb y 0) eqn:E3; [discriminate|]. simpl. intros H. apply Qceqb_neq in E3. apply Qcltb_lt in H.
  exists x, y. repeat split; auto. apply (div_lt1 x y); auto. apply nan_lnorm2_nonneg in E2. assumption.
Qed.
Lemma qc_improves (f f0 : list Qc) a : lnorm2 (N:=QcNum) f0 <> 0%Qc -> improves (N:=QcNum) (a, ratio (N:=QcNum) f f0) -> (lnorm2 (N:=QcNum) f < lnorm2 (N:=QcNum) f0)%Qc.
Proof. unfold improves, ratio. simpl. intros Z H. apply Qcltb_lt in H. apply div_lt1; auto. apply lnorm2_nonneg. Qed.

Lemma linf_fold (f : list Qc) : forall s, (s <= fold_left (fun s x => Qcmaxb s (Qcabs x)) f s)%Qc /\
  (forall x, In x f -> (Qcabs x <= fold_left (fun s x => Qcmaxb s (Qcabs x)) f s)%Qc) /\
  (fold_left (fun s x => Qcmaxb s (Qcabs x)) f s = s \/ exists x, In x f /\ fold_left (fun s x => Qcmaxb s (Qcabs x)) f s = Qcabs x).
Proof.
  induction f as [|x f I]; intros s; cbn [fold_left]. { repeat split; [qclra|intros ? []|auto]. }
  destruct (I (Qcmaxb s (Qcabs x))) as [A [B C]]. generalize dependent (fold_left (fun s x => Qcmaxb s (Qcabs x)) f (Qcmaxb s (Qcabs x))). intros r A B C.
  pose proof (Qcmaxb_l s (Qcabs x)). pose proof (Qcmaxb_r s (Qcabs x)). split; [|split].
  - eapply Qcle_trans; eauto.
  - intros y [E|E]; [subst; eapply Qcle_trans; eauto|auto].
  - destruct C as [C|[y [C1 C2]]]; [|right; exists y; simpl; auto]. destruct (Qcmaxb_or s (Qcabs x)) as [Q|Q]; rewrite Q in C; [auto|right; exists x; simpl; auto].
Qed.
Lemma linf_eq (f : list Qc) : linf (N:=QcNum) f = fold_left (fun s x => Qcmaxb s (Qcabs x)) f 0%Qc.
Proof. unfold linf. simpl. apply f_equal with (f := fun g => fold_left g f 0%Qc). reflexivity. Qed.
Lemma linf_le (f : list Qc) t : (0 <= t)%Qc -> ((linf (N:=QcNum) f <= t)%Qc <-> forall x, In x f -> (Qcabs x <= t)%Qc).
Proof.
  intros P. rewrite linf_eq. destruct (linf_fold f 0%Qc) as [A [B C]]. split.
  - intros L x I. eapply Qcle_trans; [apply B; assumption|assumption].
  - intros H. destruct C as [C|[x [I C]]]; rewrite C; auto.
Qed.
Lemma linf_nonneg (f : list Qc) : (0 <= linf (N:=QcNum) f)%Qc.
Proof. rewrite linf_eq. apply linf_fold. Qed.
Lemma linf_ge (f : list Qc) x : In x f -> (Qcabs x <= linf (N:=QcNum) f)%Qc.
Proof. rewrite linf_eq. apply linf_fold. Qed.
Lemma linf_zero (f : list Qc) : linf (N:=QcNum) f = 0%Qc <-> forall x, In x f -> x = 0%Qc.
Proof.
  pose proof (linf_nonneg f). split.
  - intros E x I. apply linf_ge in I. rewrite E in I. apply Qcabs_zero_iff. pose proof (Qcabs_nonneg x). apply Qcle_antisym; assumption.
  - intros H0. apply Qcle_antisym; [|assumption]. apply linf_le; [apply Qcle_refl|]. intros x I. rewrite (H0 x I). rewrite Qcabs_pos; apply Qcle_refl.
Qed.

(** * The iteration performer *)
Section Perf.
Context {N : Num} {S : Type} (dd : ddir N S) (lit : ls_lit N) (mt : nat) (g : vmapping N).
Notation perf := (perf N (S:=S)).
Hypothesis O : ls_order lit.
Definition pf_ok (p : perf) : Prop := (p_valid p = true -> mapf g (p_x p) = Ret (p_f p)) /\ e_cur (p_est p) = p_x p.
Lemma pf_residual_ok p f q : pf_ok p -> pf_residual g p = Ret (f, q) ->
  pf_ok q /\ mapf g (p_x p) = Ret f /\ p_x q = p_x p /\ p_f q = f /\ p_valid q = true /\ p_dd q = p_dd p /\ p_est q = p_est p.
Proof.
  intros [V E] R. unfold pf_residual in R. destruct (p_valid p) eqn:X.
  - inversion R; subst. repeat split; auto.
  - binv R. inversion R; subst. repeat split; auto.
Qed.
Hypothesis Z : forall a b, nadd N a (nmul N b (n0 N)) = a.
Lemma lzip_zero (x dir y : list (nT N)) : ladd x (lscale dir (n0 N)) = Ret y -> y = x.
Proof.
  unfold ladd, lscale. revert dir y. induction x as [|a x I]; intros dir y; simpl; [intros E; inversion E; auto|].
  destruct dir as [|d dir]; simpl; [discriminate|]. intros E. binv E. inversion E. rewrite Z. f_equal. eauto.
Qed.
(** One iteration. *)
Lemma pf_iteration_ok n p q st : pf_ok p -> pf_iteration dd lit mt g n p = Ret (q, st) ->
  pf_ok q /\ p_valid q = true /\ exists f dir s, mapf g (p_x p) = Ret f /\ mapf g (p_x q) = Ret (p_f q) /\
    dd_dir dd (p_x p) f n (p_dd p) = Ret (dir, s) /\ p_dd q = s /\
    ladd (p_x p) (lscale dir (p_ratio q)) = Ret (p_x q) /\
    ((p_ratio q = n0 N /\ p_x q = p_x p /\ p_f q = f) \/ improves (p_ratio q, ratio (p_f q) f)) /\
    est_set (p_x q) (p_f q) (p_est p) = Ret (p_est q) /\
    st = match est_status (p_est q) with EContinue => if neqb N (p_ratio q) (n0 N) then EDiverged else EContinue | s => s end.
Proof.
  intros OK E. unfold pf_iteration in E. binv E. destruct r as [f0 p1]. destruct (pf_residual_ok _ _ _ OK E0) as [OK1 [M [X [F [V [D1 D2]]]]]].
  binv E. destruct r as [dir s]. binv E. destruct r as [[rt f] lg]. binv E. rename r into x. binv E. rename r into e.
  rewrite X in *. rewrite D1, D2 in *.
  destruct (lineSearch_ok lit g dir (p_x p) f0 O _ _ _ _ _ E2) as [fw [bw [nf [nb [Q1 [_ [_ [_ [_ [Q6 [_ [_ [_ [_ Q10]]]]]]]]]]]]]].
  inversion E; subst q st; clear E. simpl.
  assert (Es : e_cur e = x). { unfold est_set in E4. binv E4. inversion E4. reflexivity. }
  assert (MF : mapf g x = Ret f).
  { destruct Q10 as [[A [B _]]|[r [A [B [C _]]]]].
    - subst rt. apply lzip_zero in E3. subst x f. rewrite F. assumption.
    - destruct C as [x' [C1 C2]]. rewrite E3 in C1. inversion C1; subst. assumption. }
  split; [split; simpl; auto|]. split; [assumption|]. exists f0, dir, s. repeat split; auto. 2: destruct (est_status e); reflexivity.
  destruct Q10 as [[A [B _]]|[r [A [B [C _]]]]].
  - left. subst rt. pose proof (lzip_zero _ _ _ E3). subst x f. rewrite F in *. auto.
  - right. destruct (Q6 _ _ A) as [f' [C1 C2]]. destruct C as [x1 [C3 C4]]. destruct C1 as [x2 [C5 C6]]. rewrite C3 in C5. inversion C5; subst x2.
    rewrite C4 in C6. inversion C6; subst f'. subst r. assumption.
Qed.
Lemma pf_hist_ok h : forall p q, pf_ok p -> pf_hist dd lit mt g h p = Ret q -> pf_ok q.
Proof.
  induction h as [|c h I]; intros p q OK E; simpl in E; [inversion E; subst; assumption|]. binv E. apply (I r q); [|assumption].
  destruct c; simpl in E0.
  - inversion E0; subst. split; simpl; [discriminate|reflexivity].
  - inversion E0; subst. destruct OK. split; simpl; auto.
  - binv E0. destruct r0. inversion E0; subst. simpl. eapply pf_residual_ok; eauto.
  - binv E0. destruct r0. inversion E0; subst. simpl. eapply pf_iteration_ok; eauto.
Qed.
Lemma pf_residual_correct h p q f q' : p_valid p = false -> e_cur (p_est p) = p_x p -> pf_hist dd lit mt g h p = Ret q ->
  pf_residual g q = Ret (f, q') -> mapf g (p_x q) = Ret f /\ p_x q' = p_x q.
Proof.
  intros V C E R. assert (OK : pf_ok p) by (split; [congruence|assumption]). pose proof (pf_hist_ok _ _ _ OK E) as OK2.
  destruct (pf_residual_ok _ _ _ OK2 R) as [_ [A [B _]]]. auto.
Qed.
End Perf.

(** * Exact rationals *)
Lemma qc_zero_step (a b : Qc) : nadd QcNum a (nmul QcNum b (n0 QcNum)) = a.
Proof. simpl. ring. Qed.
Lemma Qcle_abs_bound a b c : Qcleb a b && Qcleb b c = true -> (a <= b)%Qc /\ (b <= c)%Qc.
Proof. intros H. apply andb_true_iff in H. rewrite !Qcleb_le in H. assumption. Qed.
Lemma lsub_components (x y d : list Qc) : lsub (N:=QcNum) x y = Ret d -> forall i, i < length x -> nth i d 0%Qc = (nth i x 0 - nth i y 0)%Qc.
Proof.
  intros E i I. pose proof (lzip_inv _ _ _ _ E). unfold lsub in E. rewrite lzip_ok in E by assumption. inversion E; subst d.
  exact (nth_map_seq (length x) (fun j => Qcminus (nth j x 0%Qc) (nth j y 0%Qc)) 0%Qc i I).
Qed.
Lemma div_le_mul a b t : (0 < b)%Qc -> (a / b <= t)%Qc -> (a <= t * b)%Qc.
Proof.
  intros P L. assert (Q : (a = a / b * b)%Qc) by (field; intros Z; rewrite Z in P; qclra).
  rewrite Q. apply Qcmult_le_compat_r; [assumption|]. apply Qclt_le_weak. assumption.
Qed.
Lemma est_converged (x f : list Qc) e e' : est_set (N:=QcNum) x f e = Ret e' -> est_status e' = EConverged ->
  (forall i, (i < length f) -> (Qcabs (nth i f 0) <= e_absTol e)%Qc) /\
  ((exists v, In v (e_cur e) /\ v <> 0%Qc) -> forall i, (i < length x) ->
     (Qcabs (nth i x 0 - nth i (e_cur e) 0) <= e_relTol e * linf (N:=QcNum) (e_cur e))%Qc).
Proof.
  unfold est_set. intros E S. binv E. inversion E; subst e'; clear E. unfold est_status in S. simpl in S.
  match type of S with (if ?b then _ else _) = _ => destruct b eqn:B end.
  2:{ repeat (match type of S with (if ?b then _ else _) = _ => destruct b end; try discriminate). }
  clear S. apply andb_true_iff in B. destruct B as [B1 B2]. apply Qcleb_le in B1, B2. split.
  - intros i I. eapply Qcle_trans; [|exact B1]. apply linf_ge. apply nth_In. assumption.
  - intros [v [I V]] i Ii. set (xn := linf (N:=QcNum) (e_cur e)) in *.
    assert (P : (0 < xn)%Qc). { pose proof (linf_nonneg (e_cur e)). fold xn in H. destruct (Qcle_lt_or_eq _ _ H) as [|Eq]; [assumption|].
      exfalso. apply V. symmetry in Eq. apply (proj1 (linf_zero (e_cur e)) Eq v I). }
    rewrite (proj2 (Qcltb_lt 0 xn) P) in B2.
    assert (Qcabs (nth i x 0 - nth i (e_cur e) 0) <= linf (N:=QcNum) r)%Qc.
    { refine (eq_ind _ (fun v => (Qcabs v <= linf (N:=QcNum) r)%Qc) _ _ (lsub_components _ _ _ E0 i Ii)). apply linf_ge. apply nth_In. pose proof (lzip_length _ _ _ _ E0) as LL. change (length r = length x) in LL. change (i < length r). lia. }
    eapply Qcle_trans; [exact H|]. exact (div_le_mul _ _ _ P B2).
Qed.
