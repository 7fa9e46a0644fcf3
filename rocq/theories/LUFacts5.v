(** LUFacts5.v - statements about whole operations of LUFactorizer, in the vocabulary of LUSpec.v *)
From Coq Require Import List Arith Lia ZArith QArith Qcanon Bool.
Require Import Verif.Base Verif.BaseFacts Verif.LUModel Verif.LUSpec Verif.LUFacts Verif.LUFacts2 Verif.LUFacts3 Verif.LUFacts4.
Import ListNotations.

Lemma setMatrix_accepts_iff e : distinct_keys e ->
  ((exists st, setMatrix e = Ret st) <-> exists n, acceptable e n).
Proof.
  intro ND. split.
  - intros (st & H). exists (mat_nr e). eapply setMatrix_ret_acceptable; eauto.
  - intros (n & H). destruct (setMatrix_ok e n ND H) as (st & E & _). eauto.
Qed.
Lemma setMatrix_throws_otherwise e : distinct_keys e -> ~ (exists n, acceptable e n) -> setMatrix e = Throw.
Proof.
  intros ND H. destruct (setMatrix_total e ND) as [HS|]; auto.
  apply setMatrix_accepts_iff in HS; tauto.
Qed.

Lemma setMatrix_inv e n st : distinct_keys e -> acceptable e n -> setMatrix e = Ret st ->
  ulay st = mk_layout n e /\ holds st n (mval e).
Proof.
  intros ND HA HS. destruct (setMatrix_ok e n ND HA) as (st0 & HS0 & HY & HH). rewrite HS in HS0. injection HS0 as <-. auto.
Qed.

Lemma skyline_L n e r c : acceptable e n -> (r < n)%nat -> (c < r)%nat -> (in_skyline e r c <-> inL (mk_layout n e) r c = true).
Proof.
  intros HA Hr Hc. destruct (scan_p_spec n e) as [_ Hp]. destruct (Hp r Hr) as (H1 & H2 & H3).
  rewrite inL_spec. simpl. split.
  - intros [[_ (c0 & Hc0 & Hs)]|[? _]]; [|lia]. apply H2 in Hs. lia.
  - intros [Hle _]. left. split; auto. destruct H3 as [H3|H3]; [|eauto].
    exfalso. destruct HA as [_ HI]. destruct (HI r Hr) as [(c1 & Hs & Hle1) _]. apply H2 in Hs. lia.
Qed.
Lemma skyline_U n e r c : acceptable e n -> (c < n)%nat -> (r <= c)%nat -> (in_skyline e r c <-> inU (mk_layout n e) r c = true).
Proof.
  intros HA Hc Hr. destruct (scan_q_spec n e) as [_ Hq]. destruct (Hq c Hc) as (H1 & H2 & H3).
  rewrite inU_spec. simpl. split.
  - intros [[? _]|[_ (r0 & Hr0 & Hs)]]; [lia|]. apply H2 in Hs. lia.
  - intros [Hle _]. right. split; auto. destruct H3 as [H3|H3]; [|eauto].
    exfalso. destruct HA as [_ HI]. destruct (HI c Hc) as [_ (r1 & Hs & Hle1)]. apply H2 in Hs. lia.
Qed.

Lemma factors_read st e n A : acceptable e n -> decomposed st n A -> ulay st = mk_layout n e ->
  has_factors st e n (Lof st) (Uof st).
Proof.
  intros HA ((V & HL & HU) & _ & _) HY. unfold has_factors, Lof, Uof. rewrite HY in *. repeat split.
  - intros r c Hrc Hs. rewrite (getL_ok _ _ V) by (auto; try lia; apply (skyline_L n); auto; lia).
    unfold withdiag. destruct (Nat.eqb_spec r c); [lia|auto].
  - intros r c Hrc Hs. apply (getU_ok _ _ V); auto; try lia. apply (skyline_U n); auto; lia.
  - intros Hlt. unfold withdiag. destruct (Nat.eqb_spec r c); [lia|]. unfold AL.
    destruct (inL (mk_layout n e) r c) eqn:E; auto. exfalso. apply H1. apply (skyline_L n); auto.
  - intros Hle. unfold AU. destruct (inU (mk_layout n e) r c) eqn:E; auto. exfalso. apply H1. apply (skyline_U n); auto.
Qed.

Lemma lu_reproduces e n st : distinct_keys e -> acceptable e n -> setMatrix e = Ret st ->
  (forall r c, (r < n)%nat -> (c < n)%nat -> elementAt st r c = Ret (mval e r c)) /\
  (leading_nonsingular n (mval e) -> exists st' L U,
     factorize st = Ret st' /\
     unit_lower n L /\ upper n U /\ is_product n L U (mval e) /\ has_factors st' e n L U /\
     (forall r c, (r < n)%nat -> (c < n)%nat -> elementAt st' r c = Ret (mval e r c))).
Proof.
  intros ND HA HS. destruct (setMatrix_inv e n st ND HA HS) as [HY HH].
  assert (HR : represents st n (mval e)) by (left; auto).
  split; [intros; eapply elementAt_ok; eauto|].
  intro NS. destruct (factorize_ok st n (mval e) HR NS) as (st' & EF & EY & HD & HPv).
  exists st', (Lof st'), (Uof st'). split; auto. split; [apply Lof_unit|]. split; [apply Uof_upper|].
  split; [apply HD|]. split; [eapply factors_read; eauto; congruence|].
  intros; eapply elementAt_ok; eauto. right; auto.
Qed.

Lemma elementAt_out st e n r c : distinct_keys e -> acceptable e n -> setMatrix e = Ret st ->
  (n <= r \/ n <= c)%nat -> elementAt st r c = UB.
Proof.
  intros ND HA HS Hrc. destruct (setMatrix_inv e n st ND HA HS) as [HY HH].
  destruct HH as (V & _). unfold elementAt.
  destruct (rd (yp (ulay st)) r) as [a| |] eqn:E1.
  - cbn [obind]. destruct (rd (yq (ulay st)) c) as [b| |] eqn:E2; auto.
    + exfalso. unfold rd in *.
      destruct (nth_error (yp (ulay st)) r) eqn:N1; [|discriminate].
      destruct (nth_error (yq (ulay st)) c) eqn:N2; [|discriminate].
      assert (r < length (yp (ulay st)))%nat by (apply nth_error_Some; congruence).
      assert (c < length (yq (ulay st)))%nat by (apply nth_error_Some; congruence).
      rewrite (v_p _ _ V) in *. rewrite (v_q _ _ V) in *. lia.
    + unfold rd in E2. destruct (nth_error (yq (ulay st)) c); discriminate.
  - unfold rd in E1. destruct (nth_error (yp (ulay st)) r); discriminate.
  - reflexivity.
Qed.

Lemma lu_to_matrix e n st : distinct_keys e -> acceptable e n -> setMatrix e = Ret st ->
  exists m, luToMatrix st = Ret m /\
    (forall r c, (r < n)%nat -> (c < n)%nat -> mval m r c = mval e r c) /\
    (forall r c v, In ((r, c), v) m -> (r < n)%nat /\ (c < n)%nat /\ v <> 0%Qc).
Proof.
  intros ND HA HS. destruct (setMatrix_inv e n st ND HA HS) as [HY HH].
  apply luToMatrix_ok; [left; auto|]. intros r c Hr Hc Hlt. apply mval_notin.
  rewrite HY in Hlt. simpl in Hlt. apply (lastcol_spec n e r c Hr Hlt c). lia.
Qed.

Lemma lu_solve_iff e n st : distinct_keys e -> acceptable e n -> setMatrix e = Ret st ->
  leading_nonsingular n (mval e) ->
  (fill_covered e (mval e) n <->
   forall b, length b = n -> exists st' x, solve st b = Ret (st', x) /\ length x = n /\
     solves n (mval e) (vfun x) (vfun b)).
Proof.
  intros ND HA HS NS. destruct (setMatrix_inv e n st ND HA HS) as [HY HH].
  apply solve_correct_iff; auto. left; auto. rewrite HY. auto.
Qed.

(** common stencils *)
Lemma banded_covers e n w : banded e n w -> stencil_covers e n.
Proof.
  intros HB r c Hrc (r' & Hr' & Hs). exists c. split; auto. apply HB; try lia. apply HB in Hs; lia.
Qed.
Lemma full_covers e n : (forall r c, (r < n)%nat -> (c < n)%nat -> stored e r c) -> stencil_covers e n.
Proof. intros H r c Hrc _. exists c. split; auto. apply H; lia. Qed.
Lemma lower_covers e n : (forall r c, stored e r c -> (c <= r)%nat) -> stencil_covers e n.
Proof. intros H r c Hrc (r' & Hr' & Hs). apply H in Hs. lia. Qed.

Lemma lu_solve_stencil e n st b : distinct_keys e -> acceptable e n -> setMatrix e = Ret st ->
  leading_nonsingular n (mval e) ->
  stencil_covers e n \/ (forall r c, stored e r c -> (r <= c)%nat) ->
  length b = n ->
  exists st' x, solve st b = Ret (st', x) /\ length x = n /\ solves n (mval e) (vfun x) (vfun b).
Proof.
  intros ND HA HS NS HC Hb. apply (proj1 (lu_solve_iff e n st ND HA HS NS)); auto.
  destruct HC as [HC|HC]; [apply stencil_covers_fill; auto|apply upper_stencil_fill; auto].
Qed.

(** ** refill histories *)
Lemma in_skyline_profile a n st r c : acceptable a n -> ulay st = mk_layout n a -> (r < n)%nat -> (c < n)%nat ->
  (in_skyline a r c <-> in_profile st r c = true).
Proof.
  intros HA HY Hr Hc. unfold in_profile. rewrite HY. destruct (Nat.leb_spec r c).
  - apply skyline_U; auto.
  - apply skyline_L; auto.
Qed.
Lemma skyline_bounds a n r c : acceptable a n -> in_skyline a r c -> (r < n)%nat /\ (c < n)%nat.
Proof.
  intros [HB _] [[Hlt (c0 & Hc0 & Hs)]|[Hle (r0 & Hr0 & Hs)]]; apply HB in Hs; lia.
Qed.

Lemma fast_ok a n st b : acceptable a n -> wf st n -> ulay st = mk_layout n a -> distinct_keys b ->
  (forall r c, stored b r c -> in_skyline a r c) ->
  exists st', setMatrixFast st b = Ret st' /\ ulay st' = mk_layout n a /\ holds st' n (mval b).
Proof.
  intros HA HW HY ND HB.
  destruct (setMatrixFast_inprofile st n b HW ND) as (st' & E & EY & HH).
  - intros r c Hs. apply HB in Hs. pose proof (skyline_bounds a n r c HA Hs) as [Hr Hc]. repeat split; auto.
    apply (in_skyline_profile a n); auto.
  - exists st'. split; auto. split; auto. congruence.
Qed.

Lemma refill_run_ok a n : acceptable a n -> forall h st, wf st n -> ulay st = mk_layout n a ->
  (forall b rhs, In (b, rhs) h -> distinct_keys b /\ (forall r c, stored b r c -> in_skyline a r c) /\
     leading_nonsingular n (mval b) /\ fill_covered a (mval b) n /\ length rhs = n) ->
  exists st' xs, refill_run st h = Ret (st', xs) /\
    Forall2 (fun brhs x => length x = n /\ solves n (mval (fst brhs)) (vfun x) (vfun (snd brhs))) h xs.
Proof.
  intros HA. induction h as [|(b, rhs) t IH]; intros st HW HY H; simpl; [eauto|].
  destruct (H b rhs) as (ND & HB & NS & HC & Hl); [left; auto|].
  destruct (fast_ok a n st b HA HW HY ND HB) as (st1 & E1 & HY1 & HH1).
  assert (HR1 : represents st1 n (mval b)) by (left; auto).
  destruct (proj1 (solve_correct_iff a (mval b) n st1 HR1 ltac:(rewrite HY1; auto) NS) HC rhs Hl) as (st2 & x & E2 & Lx & HX).
  destruct (solve_ok st1 n (mval b) rhs HR1 NS ltac:(lia)) as (st2' & x' & E2' & _ & EY & HD & _).
  rewrite E2 in E2'. injection E2' as <- <-.
  unfold refill_solve. cbn [fst snd]. rewrite E1. cbn [obind]. rewrite E2. cbn [obind fst snd].
  destruct (IH st2) as (st3 & xs & E3 & F); [apply HD|congruence|intros; apply H; right; auto|].
  rewrite E3. cbn [obind fst snd]. eexists. eexists. split; [reflexivity|]. constructor; auto.
Qed.

Lemma refill_history a n st0 h : distinct_keys a -> acceptable a n -> setMatrix a = Ret st0 ->
  (forall b rhs, In (b, rhs) h -> distinct_keys b /\ (forall r c, stored b r c -> in_skyline a r c) /\
     leading_nonsingular n (mval b) /\ fill_covered a (mval b) n /\ length rhs = n) ->
  exists st' xs, refill_run st0 h = Ret (st', xs) /\
    Forall2 (fun brhs x => length x = n /\ solves n (mval (fst brhs)) (vfun x) (vfun (snd brhs))) h xs.
Proof.
  intros ND HA HS H. destruct (setMatrix_inv a n st0 ND HA HS) as [HY HH].
  apply (refill_run_ok a n HA); auto. destruct HH as (V & HL & HU & _). repeat split; auto; apply V.
Qed.

(** factors are determined by the matrix: refilling = building afresh *)
Lemma fast_same a b n sa : distinct_keys a -> acceptable a n -> setMatrix a = Ret sa ->
  distinct_keys b -> (forall r c, stored b r c -> in_skyline a r c) ->
  forall st, (st = sa \/ (leading_nonsingular n (mval a) /\ factorize sa = Ret st)) ->
  exists st', setMatrixFast st b = Ret st' /\
    (forall r c, (r < n)%nat -> (c < n)%nat -> elementAt st' r c = Ret (mval b r c)) /\
    (leading_nonsingular n (mval b) ->
      exists st'' L U, factorize st' = Ret st'' /\ unit_lower n L /\ upper n U /\ is_product n L U (mval b) /\
        has_factors st'' a n L U /\
        (acceptable b n -> forall sb, setMatrix b = Ret sb -> exists sb', factorize sb = Ret sb' /\ has_factors sb' b n L U)).
Proof.
  intros NDa HAa HSa NDb HB st Hst.
  destruct (setMatrix_inv a n sa NDa HAa HSa) as [HYa HHa].
  assert (HRa : represents sa n (mval a)) by (left; auto).
  assert (HW : wf st n /\ ulay st = mk_layout n a).
  { destruct Hst as [->|[NS EF]].
    - split; auto. destruct HHa as (V & HL & HU & _). repeat split; auto; apply V.
    - destruct (factorize_ok sa n (mval a) HRa NS) as (st' & EF' & EY & HD & _). rewrite EF in EF'. injection EF' as <-.
      split; [apply HD|congruence]. }
  destruct HW as [HW HY].
  destruct (fast_ok a n st b HAa HW HY NDb HB) as (st1 & E1 & HY1 & HH1).
  assert (HR1 : represents st1 n (mval b)) by (left; auto).
  exists st1. split; auto. split; [intros; eapply elementAt_ok; eauto|].
  intro NS. destruct (factorize_ok st1 n (mval b) HR1 NS) as (st2 & EF & EY & HD & HPv).
  exists st2, (Lof st2), (Uof st2). split; auto. split; [apply Lof_unit|]. split; [apply Uof_upper|]. split; [apply HD|].
  split; [eapply factors_read; eauto; congruence|].
  intros HAb sb HSb. destruct (setMatrix_inv b n sb NDb HAb HSb) as [HYb HHb].
  assert (HRb : represents sb n (mval b)) by (left; auto).
  destruct (factorize_ok sb n (mval b) HRb NS) as (sb' & EFb & EYb & HDb & HPb).
  exists sb'. split; auto.
  destruct (factors_read sb' b n (mval b) HAb HDb ltac:(congruence)) as (F1 & F2 & F3).
  destruct (LU_unique n (Lof st2) (Uof st2) (Lof sb') (Uof sb') (mval b)) with (m := n) as [HU HL]; auto.
  { apply Lof_unit. } { apply Uof_upper. } { apply HD. } { apply Lof_unit. } { apply Uof_upper. } { apply HDb. }
  unfold has_factors. repeat split.
  - intros r c Hrc Hs. rewrite F1 by auto. rewrite HL by lia. auto.
  - intros r c Hrc Hs. rewrite F2 by auto. rewrite HU by lia. auto.
  - intros Hlt. rewrite HL by auto. apply F3; auto.
  - intros Hle. rewrite HU by auto. apply F3; auto.
Qed.

Lemma fast_fallback a b n sa : distinct_keys a -> acceptable a n -> setMatrix a = Ret sa ->
  (forall r c, stored b r c -> (r < n)%nat /\ (c < n)%nat) ->
  (exists r c, stored b r c /\ ~ in_skyline a r c) ->
  setMatrixFast sa b = setMatrix b.
Proof.
  intros ND HA HS HB (r & c & Hs & HN). destruct (setMatrix_inv a n sa ND HA HS) as [HY HH].
  apply (setMatrixFast_fallback sa n).
  - destruct HH as (V & HL & HU & _). repeat split; auto; apply V.
  - auto.
  - exists r, c. split; auto. destruct (HB r c Hs) as [Hr Hc].
    destruct (in_profile sa r c) eqn:E; auto. exfalso. apply HN. apply (in_skyline_profile a n sa); auto.
Qed.

(** ** Hart update histories *)
Lemma hart_step a n st A s y : acceptable a n -> decomposed st n A -> ulay st = mk_layout n a -> covered st n ->
  length s = n -> length y = n -> hart_visible a n s ->
  exists st' A', secantUpdateHart st s y = Ret st' /\ ulay st' = mk_layout n a /\ decomposed st' n A' /\ covered st' n /\
    solves n A' (vfun s) (vfun y).
Proof.
  intros HA HD HY HC Ls Ly HV.
  destruct (hart_ok st n A s y HD HC ltac:(lia) ltac:(lia)) as (st' & A' & E & EY & HD' & HC' & HS).
  - intros i Hi. destruct (HV i Hi) as (k & Hk & Hne & (k' & Hk' & Hs') & (r & Hr & Hs)).
    exists k. rewrite HY. simpl. destruct (scan_s_spec n a) as [_ HS]. destruct (HS i Hi) as [HS1 _].
    destruct HA as [HB _]. pose proof (HB _ _ Hs). destruct (scan_q_spec n a) as [_ HQ].
    destruct (HQ k ltac:(lia)) as (_ & HQ1 & _). apply HQ1 in Hs. apply HS1 in Hs'. repeat split; auto; lia.
  - exists st', A'. repeat split; auto; try apply HD'; try congruence; apply HC'.
Qed.

Lemma hart_run_ok a n : acceptable a n -> forall h st A, decomposed st n A -> ulay st = mk_layout n a -> covered st n ->
  (forall s y, In (s, y) h -> length s = n /\ length y = n /\ hart_visible a n s) ->
  exists st' A', hart_run st h = Ret st' /\
    (forall r c, (r < n)%nat -> (c < n)%nat -> elementAt st' r c = Ret (A' r c)) /\
    (forall r c, (r < n)%nat -> (c < n)%nat -> ~ in_skyline a r c -> A' r c = 0%Qc) /\
    (forall h0 s y, h = h0 ++ [(s, y)] -> solves n A' (vfun s) (vfun y)) /\ (h = [] -> A' = A).
Proof.
  intros HA. induction h as [|(s, y) t IH]; intros st A HD HY HC H.
  - exists st, A. simpl. repeat split; auto.
    + intros. apply (elementAt_ok st n A); auto. right; auto.
    + intros r c Hr Hc HN.
      assert (E : elementAt st r c = Ret (A r c)) by (apply (elementAt_ok st n A); auto; right; auto).
      assert (V : valid_layout (ulay st) n) by apply HD.
      unfold elementAt in E. rewrite (rd_p _ _ V), (rd_q _ _ V) in E by auto. cbn [obind] in E.
      destruct HD as (_ & HF & _). rewrite HF in E.
      assert (F1 : inL (ulay st) r c = false).
      { destruct (inL (ulay st) r c) eqn:EI; auto. exfalso. apply HN. pose proof EI as EI'. apply inL_spec in EI'.
        apply (skyline_L n); auto; try lia. congruence. }
      assert (F2 : inU (ulay st) r c = false).
      { destruct (inU (ulay st) r c) eqn:EI; auto. exfalso. apply HN. pose proof EI as EI'. apply inU_spec in EI'.
        apply (skyline_U n); auto; try lia. congruence. }
      unfold inL, inU in F1, F2. rewrite F1, F2 in E. simpl in E. injection E. auto.
    + intros h0 s y E. destruct h0; discriminate.
  - destruct (H s y) as (Ls & Ly & HV); [left; auto|].
    destruct (hart_step a n st A s y HA HD HY HC Ls Ly HV) as (st1 & A1 & E1 & HY1 & HD1 & HC1 & HS1).
    destruct (IH st1 A1 HD1 HY1 HC1) as (st2 & A2 & E2 & H2 & H3 & H4 & H5); [intros; apply H; right; auto|].
    exists st2, A2. simpl. rewrite E1. cbn [obind]. repeat split; auto; [|discriminate].
    intros h0 s' y' E. destruct h0 as [|p h0].
    + simpl in E. injection E as -> -> ->. rewrite H5; auto.
    + injection E as <- E. eapply H4; eauto.
Qed.

(** what the current matrix has outside the row extents is zero *)
Lemma hart_history a n st0 h : distinct_keys a -> acceptable a n -> setMatrix a = Ret st0 ->
  leading_nonsingular n (mval a) -> fill_covered a (mval a) n ->
  (forall i, (i < n)%nat -> exists c, (i <= c)%nat /\ stored a i c) ->
  h <> [] ->
  (forall s y, In (s, y) h -> length s = n /\ length y = n /\ hart_visible a n s) ->
  exists st' A', hart_run st0 h = Ret st' /\
    (forall r c, (r < n)%nat -> (c < n)%nat -> elementAt st' r c = Ret (A' r c)) /\
    (forall r c, (r < n)%nat -> (c < n)%nat -> ~ in_skyline a r c -> A' r c = 0%Qc) /\
    (forall h0 s y, h = h0 ++ [(s, y)] -> solves n A' (vfun s) (vfun y)).
Proof.
  intros ND HA HS NS HC HDg Hne H. destruct (setMatrix_inv a n st0 ND HA HS) as [HY HH].
  assert (HR : represents st0 n (mval a)) by (left; auto).
  destruct (factorize_ok st0 n (mval a) HR NS) as (st1 & EF & EY & HD & HPv).
  assert (HY1 : ulay st1 = mk_layout n a) by congruence.
  assert (HCv : covered st1 n).
  { assert (DG : forall i, (i < n)%nat -> (i <= nn i (ys (ulay st1)))%nat).
    { intros i Hi. rewrite HY1. simpl. destruct (scan_s_spec n a) as [_ HS']. destruct (HDg i Hi) as (c & Hc & Hs).
      apply (proj1 (HS' i Hi)) in Hs. lia. }
    split; auto. intros r c Hr Hc Hlt. pose proof (DG r Hr).
    apply (HC (Lof st1) (Uof st1)); try lia; [apply Lof_unit|apply Uof_upper|apply HD|].
    rewrite HY1 in Hlt. apply (lastcol_spec n a r c Hr Hlt). }
  assert (HRun : hart_run st0 h = hart_run st1 h).
  { destruct h as [|(s, y) t]; [congruence|]. simpl. unfold secantUpdateHart. rewrite EF. cbn [obind].
    unfold factorize. destruct HD as (_ & HF & _). rewrite HF. reflexivity. }
  destruct (hart_run_ok a n HA h st1 (mval a) HD HY1 HCv H) as (st2 & A2 & E2 & H2 & H3 & H4 & _).
  exists st2, A2. rewrite HRun. auto.
Qed.

(** ** Checking nonsingularity of concrete matrices *)
Lemma leading_nonsingular_LU n L U A : unit_lower n L -> upper n U -> is_product n L U A ->
  (forall c, (c < n)%nat -> U c c <> 0%Qc) -> leading_nonsingular n A.
Proof.
  intros HL HU HP Hpv k Hk x Hx.
  set (z := fun j => qsum k (fun c => U j c * x c)%Qc).
  assert (HZ : forall j, (j < k)%nat -> z j = 0%Qc).
  { apply (unit_lower_inj k L).
    - intros r c Hr Hc. apply HL; lia.
    - intros r Hr. rewrite <- (Hx r Hr). unfold z.
      transitivity (qsum k (fun j => qsum k (fun c => L r j * U j c * x c)%Qc)).
      { apply qsum_ext. intros j Hj. rewrite <- qsum_scale. apply qsum_ext. intros; ring. }
      rewrite qsum_swap. apply qsum_ext. intros c Hc. rewrite qsum_scale_r. f_equal.
      rewrite <- (HP r c) by lia. symmetry. apply qsum_trunc; [lia|]. intros j Hj.
      rewrite (proj2 (HL r j ltac:(lia) ltac:(lia))) by lia. ring. }
  assert (HB : forall m c, (c < k)%nat -> (k <= c + m)%nat -> x c = 0%Qc).
  { induction m; intros c Hc Hm; [lia|].
    pose proof (HZ c Hc) as E. unfold z in E.
    rewrite (qsum_single k c) in E; auto.
    - apply Qcmult_eq0 in E. destruct E as [E|E]; auto. exfalso. apply (Hpv c); auto. lia.
    - intros i Hi Hne. destruct (Nat.lt_ge_cases i c).
      + rewrite HU by lia. ring.
      + rewrite (IHm i) by lia. ring. }
  intros c Hc. apply (HB k); lia.
Qed.

Definition mget (m : list (list Qc)) (r c : nat) : Qc := nth c (nth r m []) 0%Qc.
Definition all2 (n : nat) (f : nat -> nat -> bool) : bool := forallb (fun r => forallb (f r) (seq 0 n)) (seq 0 n).
Definition nonsing_check (n : nat) (A : nat -> nat -> Qc) (L U : list (list Qc)) : bool :=
  all2 n (fun r c =>
    (if Nat.eqb r c then Qceqb (mget L r c) 1 && negb (Qceqb (mget U r c) 0)
     else if Nat.ltb r c then Qceqb (mget L r c) 0 else Qceqb (mget U r c) 0) &&
    Qceqb (qsum n (fun k => mget L r k * mget U k c)%Qc) (A r c)).
Lemma all2_spec n f : all2 n f = true -> forall r c, (r < n)%nat -> (c < n)%nat -> f r c = true.
Proof.
  unfold all2. intros H r c Hr Hc. rewrite forallb_forall in H. specialize (H r ltac:(apply in_seq; lia)).
  rewrite forallb_forall in H. apply H. apply in_seq; lia.
Qed.
Lemma nonsing_check_ok n A L U : nonsing_check n A L U = true -> leading_nonsingular n A.
Proof.
  intro H. pose proof (all2_spec _ _ H) as HA. clear H. cbv beta in HA.
  apply (leading_nonsingular_LU n (mget L) (mget U) A).
  - intros r c Hr Hc. specialize (HA r c Hr Hc). apply andb_true_iff in HA. destruct HA as [HA _]. split; intro E.
    + subst. rewrite Nat.eqb_refl in HA. apply andb_true_iff in HA. apply Qceqb_eq. tauto.
    + destruct (Nat.eqb_spec r c); [lia|]. apply Nat.ltb_lt in E. rewrite E in HA. apply Qceqb_eq; auto.
  - intros r c Hr Hc E. specialize (HA r c Hr Hc). apply andb_true_iff in HA. destruct HA as [HA _].
    destruct (Nat.eqb_spec r c); [lia|]. destruct (Nat.ltb_spec r c); [lia|]. apply Qceqb_eq; auto.
  - intros r c Hr Hc. specialize (HA r c Hr Hc). apply andb_true_iff in HA. apply Qceqb_eq. tauto.
  - intros c Hc. specialize (HA c c Hc Hc). apply andb_true_iff in HA. destruct HA as [HA _].
    rewrite Nat.eqb_refl in HA. apply andb_true_iff in HA. destruct HA as [_ HA]. apply Qceqb_neq. destruct (Qceqb _ _); auto; discriminate.
Qed.
