(** ConvFacts.v - over the reals, too, the stage loop computes the textbook formula (the proofs follow RkFacts.v). *)
From Coq Require Import List Arith Lia Bool ZArith QArith Qcanon Reals Lra.
From Verif Require Import Base BaseFacts VecModel VOps NewtFacts NewtFacts4 RkModel RkSpec RkFacts RkFacts2 RkFacts3 RkFacts4 RkFacts5 StepModel StepSpec ConvSpec.
Import ListNotations.
Local Open Scope nat_scope.

Lemma rsum_ext n f g : (forall i, i < n -> f i = g i) -> rsum n f = rsum n g.
Proof. induction n as [|n I]; intros H; [reflexivity|]. simpl. rewrite I by (intros; apply H; lia). rewrite H by lia. reflexivity. Qed.
Lemma Reqb_eq a b : Reqb a b = true -> a = b.
Proof. unfold Reqb. destruct (Req_EM_T a b); [auto|discriminate]. Qed.
Lemma ladd_scaled (x d : list R) (k : R) : length d = length x ->
  exists y, ladd (N:=RNum) x (lscale (N:=RNum) d k) = Ret y /\ length y = length x /\
  forall j, j < length x -> cmpR y j = (cmpR x j + k * cmpR d j)%R.
Proof.
  intros L. assert (LS : @length R (lscale (N:=RNum) d k) = @length R d) by apply (lscale_length (N:=RNum)).
  unfold ladd. exists (map (fun i => Rplus (nth i x 0%R) (nth i (lscale (N:=RNum) d k) 0%R)) (seq 0 (length x))).
  split; [apply (lzip_ok (N:=RNum)); change (@length R x <= @length R (lscale (N:=RNum) d k)); lia|].
  split; [rewrite map_length, seq_length; reflexivity|]. intros j J. unfold cmpR.
  rewrite (nth_map_seq (length x) (fun i => Rplus (nth i x 0%R) (nth i (lscale (N:=RNum) d k) 0%R)) 0%R j J).
  f_equal. unfold lscale. assert (E : nth j (map (fun x0 => Rmult x0 k) d) (Rmult 0%R k) = Rmult (nth j d 0%R) k) by apply (map_nth (fun x0 => Rmult x0 k)).
  rewrite (nth_indep _ _ (Rmult 0%R k)) by (rewrite map_length; change (j < @length R d); lia).
  transitivity (nth j d 0%R * k)%R; [exact E|apply Rmult_comm].
Qed.

Lemma accum_ok (cs : list R) p (h : R) (ks : list (list R)) count (v : list R) n :
  p + count <= length cs -> count <= length ks -> (forall u, In u ks -> length u = n) -> length v = n ->
  exists v', accum (N:=RNum) cs p h ks count v = Ret v' /\ length v' = n /\
    forall j, j < n -> cmpR v' j = (cmpR v j + h * rsum count (fun i => nth (p + i) cs 0 * cmpR (nth i ks []) j))%R.
Proof.
  intros Lc Lk Uk Lv. unfold accum.
  apply (ofor_inv (fun c (v' : list R) => length v' = n /\ forall j, j < n -> cmpR v' j = (cmpR v j + h * rsum c (fun i => nth (p + i) cs 0 * cmpR (nth i ks []) j))%R)).
  - lia.
  - split; [assumption|]. intros j J. simpl. ring.
  - intros k x K [Lx Hx]. change (nT RNum) with R in *. rewrite (rd_ok cs (p + k) 0%R) by (change (p + k < @length R cs); lia). simpl obind.
    assert (IK : In (nth k ks []) ks) by (apply nth_In; lia).
    change (neqb RNum (nth (p + k) cs 0%R) (n0 RNum)) with (Reqb (nth (p + k) cs 0%R) 0%R).
    destruct (Reqb (nth (p + k) cs 0%R) 0%R) eqn:Z.
    + apply Reqb_eq in Z. exists x. split; [reflexivity|]. split; [assumption|]. intros j J. rewrite (Hx j J). simpl. rewrite Z. ring.
    + rewrite (rd_ok ks k []) by lia. simpl obind.
      destruct (ladd_scaled x (nth k ks []) (nmul RNum h (nth (p + k) cs 0%R))) as [y [E [Ly Hy]]]; [rewrite (Uk _ IK); lia|].
      exists y. split; [exact E|]. split; [exact (eq_trans Ly Lx)|]. intros j J. rewrite Hy by (exact (eq_ind_r (fun m => j < m) J Lx)). rewrite (Hx j J). simpl. change (nmul RNum h (nth (p + k) cs 0%R)) with (h * nth (p + k) cs 0%R)%R. ring.
Qed.

Section Compute.
Context (co : coeffs RNum) (stages n nx : nat) (f : R -> list R -> Outcome (list R)) (x1 : list R) (t1 h : R).
Hypothesis WF : wf_table co stages nx.
Hypothesis GR : good_rhs (N:=RNum) n f.
Hypothesis LX : length x1 = n.
Lemma La : @length R (co_a co) = tri stages. Proof. apply WF. Qed.
Lemma Lb : @length R (co_b co) = stages * nx. Proof. apply WF. Qed.
Lemma Lc : @length R (co_c co) + 1 = stages. Proof. apply WF. Qed.

Definition st_ok (k : list (list R)) (evals : list (R * list R)) (s : nat) : Prop :=
  exists arg, nth_error evals s = Some ((t1 + h * CR_ co s)%R, arg) /\ f (t1 + h * CR_ co s)%R arg = Ret (nth s k []) /\ length arg = n /\
    forall j, j < n -> cmpR arg j = (cmpR x1 j + h * rsum s (fun i => AR_ co s i * cmpR (nth i k []) j))%R.
Definition stage_inv (s : nat) (st : list (list R) * list R * nat * list (R * list R)) : Prop :=
  let '(ks, buf, pa, log) := st in
  length ks = stages /\ (forall u, In u ks -> length u = n) /\ length buf = n /\ pa = tri s /\ length log = s /\
  (1 < s -> exists t, nth_error log (s - 1) = Some (t, buf)) /\
  forall r, r < s -> st_ok ks log r.

Lemma st_ok_upd ks log s k e : s < length ks -> (forall r, r < s -> st_ok ks log r) -> length log = s ->
  forall r, r < s -> st_ok (upd ks s k) (log ++ e) r.
Proof.
  intros Ls H LL r RR. destruct (H r RR) as [arg [E [F [La Hj]]]]. exists arg.
  split; [rewrite nth_error_app1 by lia; assumption|]. split; [rewrite nth_upd_neq by lia; assumption|]. split; [assumption|].
  intros j J. rewrite (Hj j J). f_equal. f_equal. apply rsum_ext. intros i Hi. rewrite nth_upd_neq by lia. reflexivity.
Qed.

Lemma stage_step s st : 1 <= s < stages -> stage_inv s st ->
  exists st', rk_stage (N:=RNum) co f x1 t1 h s st = Ret st' /\ stage_inv (S s) st'.
Proof.
  destruct st as [[[ks buf] pa] log]. intros Hs [Lk [Uk [Lbuf [Pa [Ll [Hbuf Hst]]]]]]. unfold rk_stage.
  rewrite (vcpy_ok (N:=RNum) buf x1) by (change (@length R buf = @length R x1); lia). cbn [obind].
  pose proof La as LA. assert (TS : tri (S s) <= tri stages) by (apply tri_mono; lia). rewrite tri_S in TS.
  destruct (accum_ok (co_a co) pa h ks s x1 n) as [b [E [Lb_ Hb]]]; [lia|lia|assumption|assumption|].
  change (nT RNum) with R in *. rewrite E. cbn [obind].
  assert (LC : s - 1 < @length R (co_c co)) by (pose proof Lc; lia).
  rewrite (rd_ok (A:=R) (co_c co) (s - 1) 0%R) by exact LC. cbn [obind].
  assert (CS : nth (s - 1) (co_c co) 0%R = CR_ co s) by (unfold CR_; destruct s; [lia|]; replace (S s - 1) with s by lia; reflexivity).
  change (nadd RNum t1 (nmul RNum h (nth (s - 1) (co_c co) 0%R))) with (t1 + h * nth (s - 1) (co_c co) 0)%R. rewrite CS.
  destruct (GR (t1 + h * CR_ co s)%R b) as [k [F Lk']]; [exact Lb_|]. change (nT RNum) with R in *. rewrite F. cbn [obind].
  rewrite (wr_ok ks s k) by lia. cbn [obind]. eexists; split; [reflexivity|].
  split; [rewrite upd_length; assumption|]. split; [intros u U; destruct (In_upd _ _ _ _ U) as [->|U']; auto|].
  split; [assumption|]. split; [rewrite tri_S; lia|]. split; [rewrite app_length; simpl; lia|].
  split; [intros _; exists (t1 + h * CR_ co s)%R; rewrite nth_error_app2 by lia; replace (S s - 1 - length log) with 0 by lia; reflexivity|].
  intros r RR. destruct (Nat.eq_dec r s) as [->|NE].
  - exists b. split; [rewrite nth_error_app2 by lia; replace (s - length log) with 0 by lia; reflexivity|].
    split; [rewrite nth_upd_eq by lia; assumption|]. split; [assumption|]. intros j J. rewrite (Hb j J). f_equal. f_equal.
    apply rsum_ext. intros i Hi. unfold AR_. rewrite Pa. rewrite nth_upd_neq by lia. reflexivity.
  - apply st_ok_upd; auto; lia.
Qed.

Lemma nonneg_stages : 0 < stages. Proof. apply WF. Qed.

Lemma stages_loop (o : output RNum) : shaped o stages n nx ->
  exists k0 r, f t1 x1 = Ret k0 /\ wr (o_k o) 0 k0 = Ret (upd (o_k o) 0 k0) /\
    ofor 1 stages (rk_stage (N:=RNum) co f x1 t1 h) (upd (o_k o) 0 k0, o_buf o, 0, [(t1, x1)]) = Ret r /\ stage_inv stages r.
Proof.
  intros [Sk [Sx [Sb [Uk Ux]]]]. assert (SkQ : @length (list R) (o_k o) = stages) by exact Sk. pose proof nonneg_stages as P0. destruct (GR t1 x1) as [k0 [F L0]]; [exact LX|]. change (nT RNum) with R in *.
  assert (T0 : (t1 + h * 0)%R = t1) by ring.
  destruct (ofor_inv stage_inv 1 stages (rk_stage (N:=RNum) co f x1 t1 h) (upd (o_k o) 0 k0, o_buf o, 0, [(t1, x1)])) as [r [E I]].
  - lia.
  - split; [rewrite upd_length; assumption|]. split; [intros u U; destruct (In_upd _ _ _ _ U) as [->|U']; auto; apply (Uk _ U')|].
    split; [assumption|]. split; [reflexivity|]. split; [reflexivity|]. split; [intros; lia|].
    intros r RR. assert (r = 0) by lia. subst r. exists x1. unfold CR_. rewrite T0. split; [reflexivity|].
    split; [rewrite (nth_upd_eq (A:=list R)) by (rewrite SkQ; exact P0); assumption|]. split; [assumption|].
    intros j J. simpl. ring.
  - intros k x K Ix. apply stage_step; [lia|assumption].
  - exists k0, r. split; [assumption|]. split; [exact (wr_ok (A:=list R) (o_k o) 0 k0 (eq_ind_r (fun m => 0 < m) P0 SkQ))|]. auto.
Qed.

Definition res_inv (ks : list (list R)) (buf0 : list R) (ix : nat) (st : list (list R) * list R * nat) : Prop :=
  let '(x2s, buf, pb) := st in
  length x2s = nx /\ (forall u, In u x2s -> length u = n) /\ length buf = n /\ pb = ix * stages /\
  ((Z.of_nat ix <= co_last co)%Z -> buf = buf0) /\ (co_last co < 0 -> buf = buf0)%Z /\
  forall i, i < ix -> (Z.of_nat i <> co_last co -> resultR co stages n i x1 h ks (nth i x2s [])) /\
                      (Z.of_nat i = co_last co -> nth i x2s [] = buf0).
Lemma res_step ks buf0 ix st : length ks = stages -> (forall u, In u ks -> length u = n) -> ix < nx -> length buf0 = n -> res_inv ks buf0 ix st ->
  exists st', rk_result (N:=RNum) co stages ks x1 h ix st = Ret st' /\ res_inv ks buf0 (S ix) st'.
Proof.
  destruct st as [[x2s buf] pb]. intros Lk Uk Hix Lb0 [Lx2 [Ux [Lbuf [Pb [B1 [B2 H]]]]]]. unfold rk_result. change (nT RNum) with R in *.
  rewrite (rd_ok x2s ix []) by lia. cbn [obind]. assert (IX : In (nth ix x2s []) x2s) by (apply nth_In; lia).
  pose proof (Ux _ IX) as LN. destruct (Z.eqb (Z.of_nat ix) (co_last co)) eqn:EZ.
  - apply Z.eqb_eq in EZ. rewrite (wr_ok x2s ix buf) by lia. cbn [obind]. eexists; split; [reflexivity|].
    split; [rewrite upd_length; assumption|]. split; [intros u U; destruct (In_upd _ _ _ _ U) as [->|U']; auto|]. split; [exact LN|].
    split; [simpl; lia|]. split; [intros; lia|]. split; [intros; lia|]. intros i Hi. destruct (Nat.eq_dec i ix) as [->|NE].
    + split; [intros; congruence|]. intros _. rewrite nth_upd_eq by lia. apply B1. lia.
    + rewrite nth_upd_neq by lia. apply H. lia.
  - apply Z.eqb_neq in EZ. rewrite (vcpy_ok (N:=RNum) (nth ix x2s []) x1) by (change (@length R (nth ix x2s []) = @length R x1); lia). cbn [obind].
    assert (IS : S ix * stages <= stages * nx) by (rewrite (Nat.mul_comm stages); apply Nat.mul_le_mono_r; lia).
    pose proof Lb as LB.
    destruct (accum_ok (co_b co) pb h ks stages x1 n) as [b [E [Lb_ Hb]]]; [simpl in IS; lia|lia|assumption|assumption|].
    change (nT RNum) with R in *. rewrite E. cbn [obind]. rewrite (wr_ok x2s ix b) by lia. cbn [obind]. eexists; split; [reflexivity|].
    split; [rewrite upd_length; assumption|]. split; [intros u U; destruct (In_upd _ _ _ _ U) as [->|U']; auto|]. split; [exact Lbuf|].
    split; [simpl; lia|]. split; [intros; apply B1; lia|]. split; [assumption|]. intros i Hi. destruct (Nat.eq_dec i ix) as [->|NE].
    + split; [|intros; congruence]. intros _. rewrite nth_upd_eq by lia. split; [exact Lb_|]. intros j J. rewrite (Hb j J). f_equal. f_equal.
      apply rsum_ext. intros r RR. unfold BR_. rewrite Pb. reflexivity.
    + rewrite nth_upd_neq by lia. apply H. lia.
Qed.

Lemma compute_ok (o : output RNum) : shaped o stages n nx ->
  exists o' evals, rk_compute (N:=RNum) o co f x1 t1 h = Ret (o', evals) /\ shaped o' stages n nx /\
    stagesR co stages n f x1 t1 h evals (o_k o') /\
    (forall ix, ix < nx -> Z.of_nat ix <> co_last co -> resultR co stages n ix x1 h (o_k o') (nth ix (o_x2 o') [])) /\
    (forall ix, ix < nx -> Z.of_nat ix = co_last co -> 1 < stages -> exists t, nth_error evals (stages - 1) = Some (t, nth ix (o_x2 o') [])).
Proof.
  intros SH. destruct (stages_loop o SH) as [k0 [r [F [W [E I]]]]]. destruct SH as [Sk [Sx [Sb [Uk Ux]]]].
  unfold rk_compute. change (nT RNum) with R in *. rewrite F. cbn [obind]. rewrite W. cbn [obind]. rewrite Sk, E. cbn [obind].
  destruct r as [[[ks buf] pa] log]. destruct I as [Lk [Uk' [Lbuf [Pa [Ll [Hbuf Hst]]]]]].
  destruct (ofor_inv (res_inv ks buf) 0 (length (o_x2 o)) (rk_result (N:=RNum) co stages ks x1 h) (o_x2 o, buf, 0)) as [q [E2 I2]].
  - lia.
  - split; [assumption|]. split; [assumption|]. split; [assumption|]. split; [lia|]. split; [auto|]. split; [auto|]. intros i Hi. lia.
  - intros k x K Ix. apply res_step; auto. rewrite <- Sx. apply K.
  - change (nT RNum) with R in *. rewrite E2. cbn [obind]. destruct q as [[x2s buf'] pb]. destruct I2 as [Lx2 [Ux2 [Lbuf' [Pb [B1 [B2 H]]]]]].
    eexists _, log; split; [reflexivity|]. cbn [o_k o_x2 o_buf]. split; [|split; [|split]].
    + split; [assumption|]. split; [assumption|]. split; [assumption|]. split; assumption.
    + split; [assumption|]. split; [assumption|]. intros s Hs. exact (Hst s Hs).
    + intros ix Hix NE. apply H; [rewrite <- Sx in Hix; exact Hix|assumption].
    + intros ix Hix EQ L1. destruct (H ix) as [_ H2]; [rewrite <- Sx in Hix; exact Hix|]. rewrite (H2 EQ). apply Hbuf. lia.
Qed.
End Compute.
