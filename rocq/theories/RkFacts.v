(** RkFacts.v - the stage loop computes the textbook formula. *)
From Coq Require Import List Arith Lia Bool ZArith QArith Qcanon.
From Verif Require Import Base BaseFacts VecModel VOps NewtFacts NewtFacts4 RkModel RkSpec.
Import ListNotations.
Local Open Scope nat_scope.

Lemma vcpy_ok {N : Num} (dst src : list (nT N)) : length dst = length src -> vcpy dst src = Ret src.
Proof. intros L. unfold vcpy. rewrite L, Nat.leb_refl, skipn_all2 by lia. rewrite app_nil_r. reflexivity. Qed.

Lemma ladd_scaled (x d : list Qc) (k : Qc) : length d = length x ->
  exists y, ladd (N:=QcNum) x (lscale (N:=QcNum) d k) = Ret y /\ length y = length x /\
  forall j, j < length x -> cmp_ y j = (cmp_ x j + k * cmp_ d j)%Qc.
Proof.
  intros L. assert (LS : @length Qc (lscale (N:=QcNum) d k) = @length Qc d) by apply (lscale_length (N:=QcNum)).
  unfold ladd. exists (map (fun i => Qcplus (nth i x 0%Qc) (nth i (lscale (N:=QcNum) d k) 0%Qc)) (seq 0 (length x))).
  split; [apply (lzip_ok (N:=QcNum)); change (@length Qc x <= @length Qc (lscale (N:=QcNum) d k)); lia|].
  split; [rewrite map_length, seq_length; reflexivity|]. intros j J. unfold cmp_.
  rewrite (nth_map_seq (length x) (fun i => Qcplus (nth i x 0%Qc) (nth i (lscale (N:=QcNum) d k) 0%Qc)) 0%Qc j J).
  f_equal. unfold lscale. assert (E : nth j (map (fun x0 => Qcmult x0 k) d) (Qcmult 0%Qc k) = Qcmult (nth j d 0%Qc) k) by apply (map_nth (fun x0 => Qcmult x0 k)).
  rewrite (nth_indep _ _ (Qcmult 0%Qc k)) by (rewrite map_length; change (j < @length Qc d); lia).
  transitivity (nth j d 0%Qc * k)%Qc; [exact E|apply Qcmult_comm].
Qed.

Lemma accum_ok (cs : list Qc) p (h : Qc) (ks : list (list Qc)) count (v : list Qc) n :
  p + count <= length cs -> count <= length ks -> (forall u, In u ks -> length u = n) -> length v = n ->
  exists v', accum (N:=QcNum) cs p h ks count v = Ret v' /\ length v' = n /\
    forall j, j < n -> cmp_ v' j = (cmp_ v j + h * qsum count (fun i => nth (p + i) cs 0 * cmp_ (nth i ks []) j))%Qc.
Proof.
  intros Lc Lk Uk Lv. unfold accum.
  apply (ofor_inv (fun c (v' : list Qc) => length v' = n /\ forall j, j < n -> cmp_ v' j = (cmp_ v j + h * qsum c (fun i => nth (p + i) cs 0 * cmp_ (nth i ks []) j))%Qc)).
  - lia.
  - split; [assumption|]. intros j J. simpl. ring.
  - intros k x K [Lx Hx]. change (nT QcNum) with Qc in *. rewrite (rd_ok cs (p + k) 0%Qc) by (change (p + k < @length Qc cs); lia). simpl obind.
    assert (IK : In (nth k ks []) ks) by (apply nth_In; lia).
    change (neqb QcNum (nth (p + k) cs 0%Qc) (n0 QcNum)) with (Qceqb (nth (p + k) cs 0%Qc) 0%Qc).
    destruct (Qceqb (nth (p + k) cs 0%Qc) 0%Qc) eqn:Z.
    + apply Qceqb_eq in Z. exists x. split; [reflexivity|]. split; [assumption|]. intros j J. rewrite (Hx j J). simpl. rewrite Z. ring.
    + rewrite (rd_ok ks k []) by lia. simpl obind.
      destruct (ladd_scaled x (nth k ks []) (nmul QcNum h (nth (p + k) cs 0%Qc))) as [y [E [Ly Hy]]]; [rewrite (Uk _ IK); lia|].
      exists y. split; [exact E|]. split; [exact (eq_trans Ly Lx)|]. intros j J. rewrite Hy by (exact (eq_ind_r (fun m => j < m) J Lx)). rewrite (Hx j J). simpl. change (nmul QcNum h (nth (p + k) cs 0%Qc)) with (h * nth (p + k) cs 0%Qc)%Qc. ring.
Qed.

Lemma tri_S s : tri (S s) = tri s + s.
Proof.
  unfold tri. replace (S s * (S s - 1)) with (s * (s - 1) + s * 2) by (destruct s; simpl; lia).
  rewrite Nat.div_add by lia. reflexivity.
Qed.
Lemma tri_mono a b : a <= b -> tri a <= tri b.
Proof. induction 1; [lia|]. rewrite tri_S. lia. Qed.

Section Compute.
Context (co : coeffs QcNum) (stages n nx : nat) (f : Qc -> list Qc -> Outcome (list Qc)) (x1 : list Qc) (t1 h : Qc).
Hypothesis WF : wf_table co stages nx.
Hypothesis GR : good_rhs (N:=QcNum) n f.
Hypothesis LX : length x1 = n.
Lemma La : @length Qc (co_a co) = tri stages. Proof. apply WF. Qed.
Lemma Lb : @length Qc (co_b co) = stages * nx. Proof. apply WF. Qed.
Lemma Lc : @length Qc (co_c co) + 1 = stages. Proof. apply WF. Qed.

Definition st_ok (k : list (list Qc)) (evals : list (Qc * list Qc)) (s : nat) : Prop :=
  exists arg, nth_error evals s = Some ((t1 + h * C_ co s)%Qc, arg) /\ f (t1 + h * C_ co s)%Qc arg = Ret (nth s k []) /\ length arg = n /\
    forall j, j < n -> cmp_ arg j = (cmp_ x1 j + h * qsum s (fun i => A_ co s i * cmp_ (nth i k []) j))%Qc.
Definition stage_inv (s : nat) (st : list (list Qc) * list Qc * nat * list (Qc * list Qc)) : Prop :=
  let '(ks, buf, pa, log) := st in
  length ks = stages /\ (forall u, In u ks -> length u = n) /\ length buf = n /\ pa = tri s /\ length log = s /\
  (1 < s -> exists t, nth_error log (s - 1) = Some (t, buf)) /\
  forall r, r < s -> st_ok ks log r.

Lemma st_ok_upd ks log s k e : s < length ks -> (forall r, r < s -> st_ok ks log r) -> length log = s ->
  forall r, r < s -> st_ok (upd ks s k) (log ++ e) r.
Proof.
  intros Ls H LL r R. destruct (H r R) as [arg [E [F [La Hj]]]]. exists arg.
  split; [rewrite nth_error_app1 by lia; assumption|]. split; [rewrite nth_upd_neq by lia; assumption|]. split; [assumption|].
  intros j J. rewrite (Hj j J). f_equal. f_equal. apply qsum_ext. intros i Hi. rewrite nth_upd_neq by lia. reflexivity.
Qed.

Lemma In_upd {A} (l : list A) i v u : In u (upd l i v) -> u = v \/ In u l.
Proof.
  revert i. induction l as [|a l I]; intros i; [destruct i; intros []|]. destruct i; simpl.
  - intros [<-|H]; auto.
  - intros [<-|H]; auto. destruct (I _ H); auto.
Qed.

Lemma stage_step s st : 1 <= s < stages -> stage_inv s st ->
  exists st', rk_stage (N:=QcNum) co f x1 t1 h s st = Ret st' /\ stage_inv (S s) st'.
Proof.
  destruct st as [[[ks buf] pa] log]. intros Hs [Lk [Uk [Lbuf [Pa [Ll [Hbuf Hst]]]]]]. unfold rk_stage.
  rewrite (vcpy_ok (N:=QcNum) buf x1) by (change (@length Qc buf = @length Qc x1); lia). cbn [obind].
  pose proof La as LA. assert (TS : tri (S s) <= tri stages) by (apply tri_mono; lia). rewrite tri_S in TS.
  destruct (accum_ok (co_a co) pa h ks s x1 n) as [b [E [Lb_ Hb]]]; [lia|lia|assumption|assumption|].
  change (nT QcNum) with Qc in *. rewrite E. cbn [obind].
  assert (LC : s - 1 < @length Qc (co_c co)) by (pose proof Lc; lia).
  rewrite (rd_ok (A:=Qc) (co_c co) (s - 1) 0%Qc) by exact LC. cbn [obind].
  assert (CS : nth (s - 1) (co_c co) 0%Qc = C_ co s) by (unfold C_; destruct s; [lia|]; replace (S s - 1) with s by lia; reflexivity).
  change (nadd QcNum t1 (nmul QcNum h (nth (s - 1) (co_c co) 0%Qc))) with (t1 + h * nth (s - 1) (co_c co) 0)%Qc. rewrite CS.
  destruct (GR (t1 + h * C_ co s)%Qc b) as [k [F Lk']]; [exact Lb_|]. change (nT QcNum) with Qc in *. rewrite F. cbn [obind].
  rewrite (wr_ok ks s k) by lia. cbn [obind]. eexists; split; [reflexivity|].
  split; [rewrite upd_length; assumption|]. split; [intros u U; destruct (In_upd _ _ _ _ U) as [->|U']; auto|].
  split; [assumption|]. split; [rewrite tri_S; lia|]. split; [rewrite app_length; simpl; lia|].
  split; [intros _; exists (t1 + h * C_ co s)%Qc; rewrite nth_error_app2 by lia; replace (S s - 1 - length log) with 0 by lia; reflexivity|].
  intros r R. destruct (Nat.eq_dec r s) as [->|NE].
  - exists b. split; [rewrite nth_error_app2 by lia; replace (s - length log) with 0 by lia; reflexivity|].
    split; [rewrite nth_upd_eq by lia; assumption|]. split; [assumption|]. intros j J. rewrite (Hb j J). f_equal. f_equal.
    apply qsum_ext. intros i Hi. unfold A_. rewrite Pa. rewrite nth_upd_neq by lia. reflexivity.
  - apply st_ok_upd; auto; lia.
Qed.

Lemma nonneg_stages : 0 < stages. Proof. apply WF. Qed.

Lemma stages_loop (o : output QcNum) : shaped o stages n nx ->
  exists k0 r, f t1 x1 = Ret k0 /\ wr (o_k o) 0 k0 = Ret (upd (o_k o) 0 k0) /\
    ofor 1 stages (rk_stage (N:=QcNum) co f x1 t1 h) (upd (o_k o) 0 k0, o_buf o, 0, [(t1, x1)]) = Ret r /\ stage_inv stages r.
Proof.
  intros [Sk [Sx [Sb [Uk Ux]]]]. assert (SkQ : @length (list Qc) (o_k o) = stages) by exact Sk. pose proof nonneg_stages as P0. destruct (GR t1 x1) as [k0 [F L0]]; [exact LX|]. change (nT QcNum) with Qc in *.
  assert (T0 : (t1 + h * 0)%Qc = t1) by ring.
  destruct (ofor_inv stage_inv 1 stages (rk_stage (N:=QcNum) co f x1 t1 h) (upd (o_k o) 0 k0, o_buf o, 0, [(t1, x1)])) as [r [E I]].
  - lia.
  - split; [rewrite upd_length; assumption|]. split; [intros u U; destruct (In_upd _ _ _ _ U) as [->|U']; auto; apply (Uk _ U')|].
    split; [assumption|]. split; [reflexivity|]. split; [reflexivity|]. split; [intros; lia|].
    intros r R. assert (r = 0) by lia. subst r. exists x1. unfold C_. rewrite T0. split; [reflexivity|].
    split; [rewrite (nth_upd_eq (A:=list Qc)) by (rewrite SkQ; exact P0); assumption|]. split; [assumption|].
    intros j J. simpl. ring.
  - intros k x K Ix. apply stage_step; [lia|assumption].
  - exists k0, r. split; [assumption|]. split; [exact (wr_ok (A:=list Qc) (o_k o) 0 k0 (eq_ind_r (fun m => 0 < m) P0 SkQ))|]. auto.
Qed.

Definition res_inv (ks : list (list Qc)) (buf0 : list Qc) (ix : nat) (st : list (list Qc) * list Qc * nat) : Prop :=
  let '(x2s, buf, pb) := st in
  length x2s = nx /\ (forall u, In u x2s -> length u = n) /\ length buf = n /\ pb = ix * stages /\
  ((Z.of_nat ix <= co_last co)%Z -> buf = buf0) /\ (co_last co < 0 -> buf = buf0)%Z /\
  forall i, i < ix -> (Z.of_nat i <> co_last co -> textbook_result co stages n i x1 h ks (nth i x2s [])) /\
                      (Z.of_nat i = co_last co -> nth i x2s [] = buf0).
Lemma res_step ks buf0 ix st : length ks = stages -> (forall u, In u ks -> length u = n) -> ix < nx -> length buf0 = n -> res_inv ks buf0 ix st ->
  exists st', rk_result (N:=QcNum) co stages ks x1 h ix st = Ret st' /\ res_inv ks buf0 (S ix) st'.
Proof.
  destruct st as [[x2s buf] pb]. intros Lk Uk Hix Lb0 [Lx2 [Ux [Lbuf [Pb [B1 [B2 H]]]]]]. unfold rk_result. change (nT QcNum) with Qc in *.
  rewrite (rd_ok x2s ix []) by lia. cbn [obind]. assert (IX : In (nth ix x2s []) x2s) by (apply nth_In; lia).
  pose proof (Ux _ IX) as LN. destruct (Z.eqb (Z.of_nat ix) (co_last co)) eqn:EZ.
  - apply Z.eqb_eq in EZ. rewrite (wr_ok x2s ix buf) by lia. cbn [obind]. eexists; split; [reflexivity|].
    split; [rewrite upd_length; assumption|]. split; [intros u U; destruct (In_upd _ _ _ _ U) as [->|U']; auto|]. split; [exact LN|].
    split; [simpl; lia|]. split; [intros; lia|]. split; [intros; lia|]. intros i Hi. destruct (Nat.eq_dec i ix) as [->|NE].
    + split; [intros; congruence|]. intros _. rewrite nth_upd_eq by lia. apply B1. lia.
    + rewrite nth_upd_neq by lia. apply H. lia.
  - apply Z.eqb_neq in EZ. rewrite (vcpy_ok (N:=QcNum) (nth ix x2s []) x1) by (change (@length Qc (nth ix x2s []) = @length Qc x1); lia). cbn [obind].
    assert (IS : S ix * stages <= stages * nx) by (rewrite (Nat.mul_comm stages); apply Nat.mul_le_mono_r; lia).
    pose proof Lb as LB.
    destruct (accum_ok (co_b co) pb h ks stages x1 n) as [b [E [Lb_ Hb]]]; [simpl in IS; lia|lia|assumption|assumption|].
    change (nT QcNum) with Qc in *. rewrite E. cbn [obind]. rewrite (wr_ok x2s ix b) by lia. cbn [obind]. eexists; split; [reflexivity|].
    split; [rewrite upd_length; assumption|]. split; [intros u U; destruct (In_upd _ _ _ _ U) as [->|U']; auto|]. split; [exact Lbuf|].
    split; [simpl; lia|]. split; [intros; apply B1; lia|]. split; [assumption|]. intros i Hi. destruct (Nat.eq_dec i ix) as [->|NE].
    + split; [|intros; congruence]. intros _. rewrite nth_upd_eq by lia. split; [exact Lb_|]. intros j J. rewrite (Hb j J). f_equal. f_equal.
      apply qsum_ext. intros r R. unfold B_. rewrite Pb. reflexivity.
    + rewrite nth_upd_neq by lia. apply H. lia.
Qed.

Lemma compute_ok (o : output QcNum) : shaped o stages n nx ->
  exists o' evals, rk_compute (N:=QcNum) o co f x1 t1 h = Ret (o', evals) /\ shaped o' stages n nx /\
    textbook_stages co stages n f x1 t1 h evals (o_k o') /\
    (forall ix, ix < nx -> Z.of_nat ix <> co_last co -> textbook_result co stages n ix x1 h (o_k o') (nth ix (o_x2 o') [])) /\
    (forall ix, ix < nx -> Z.of_nat ix = co_last co -> 1 < stages -> exists t, nth_error evals (stages - 1) = Some (t, nth ix (o_x2 o') [])).
Proof.
  intros SH. destruct (stages_loop o SH) as [k0 [r [F [W [E I]]]]]. destruct SH as [Sk [Sx [Sb [Uk Ux]]]].
  unfold rk_compute. change (nT QcNum) with Qc in *. rewrite F. cbn [obind]. rewrite W. cbn [obind]. rewrite Sk, E. cbn [obind].
  destruct r as [[[ks buf] pa] log]. destruct I as [Lk [Uk' [Lbuf [Pa [Ll [Hbuf Hst]]]]]].
  destruct (ofor_inv (res_inv ks buf) 0 (length (o_x2 o)) (rk_result (N:=QcNum) co stages ks x1 h) (o_x2 o, buf, 0)) as [q [E2 I2]].
  - lia.
  - split; [assumption|]. split; [assumption|]. split; [assumption|]. split; [lia|]. split; [auto|]. split; [auto|]. intros i Hi. lia.
  - intros k x K Ix. apply res_step; auto. rewrite <- Sx. apply K.
  - change (nT QcNum) with Qc in *. rewrite E2. cbn [obind]. destruct q as [[x2s buf'] pb]. destruct I2 as [Lx2 [Ux2 [Lbuf' [Pb [B1 [B2 H]]]]]].
    eexists _, log; split; [reflexivity|]. cbn [o_k o_x2 o_buf]. split; [|split; [|split]].
    + split; [assumption|]. split; [assumption|]. split; [assumption|]. split; assumption.
    + split; [assumption|]. split; [assumption|]. intros s Hs. exact (Hst s Hs).
    + intros ix Hix NE. apply H; [rewrite <- Sx in Hix; exact Hix|assumption].
    + intros ix Hix EQ L1. destruct (H ix) as [_ H2]; [rewrite <- Sx in Hix; exact Hix|]. rewrite (H2 EQ). apply Hbuf. lia.
Qed.
End Compute.
