(** RkFacts3.v - failures of the right-hand side, histories of fixed steps. *)
From Coq Require Import List Arith Lia Bool ZArith QArith Qcanon.
From Verif Require Import Base BaseFacts VecModel VOps NewtFacts NewtFacts4 RkModel RkSpec RkFacts RkFacts2.
Import ListNotations.
Local Open Scope nat_scope.

Lemma ofor_inv_gen {S} (P : nat -> S -> Prop) (F : Prop) a b (body : nat -> S -> Outcome S) s :
  a <= b -> P a s -> (forall k x, a <= k < b -> P k x -> (exists x', body k x = Ret x' /\ P (Datatypes.S k) x') \/ (body k x = Throw /\ F)) ->
  (exists r, ofor a b body s = Ret r /\ P b r) \/ (ofor a b body s = Throw /\ F).
Proof.
  intros H H0 HS. induction b as [|b I].
  - assert (a = 0) by lia. subst. rewrite ofor_nil by lia. left; eauto.
  - destruct (Nat.eq_dec a (Datatypes.S b)) as [->|NE]; [rewrite ofor_nil by lia; left; eauto|].
    rewrite ofor_snoc by lia. destruct I as [[r [E Pr]]|[E f]]; [lia|intros; apply HS; [lia|assumption]| |].
    + rewrite E. cbn [obind]. apply HS; [lia|assumption].
    + rewrite E. right. split; [reflexivity|assumption].
Qed.

Section Fail.
Context {N : Num}.
Notation T := (nT N).
Notation vec := (list T).
Lemma accum_total (cs : vec) p h ks count v n :
  p + count <= length cs -> count <= length ks -> (forall u, In u ks -> length u = n) -> length v = n ->
  exists v', accum cs p h ks count v = Ret v' /\ length v' = n.
Proof.
  intros Lc Lk Uk Lv. unfold accum.
  apply (ofor_inv (fun _ (v' : vec) => length v' = n)); [lia|assumption|].
  intros k x K Lx. rewrite (rd_ok cs (p + k) (n0 N)) by lia. cbn [obind].
  destruct (neqb N (nth (p + k) cs (n0 N)) (n0 N)); [eauto|]. rewrite (rd_ok ks k []) by lia. cbn [obind].
  assert (IK : In (nth k ks []) ks) by (apply nth_In; lia). unfold ladd.
  rewrite lzip_ok by (rewrite lscale_length, (Uk _ IK); lia). eexists; split; [reflexivity|]. rewrite map_length, seq_length. assumption.
Qed.
Context (co : coeffs N) (stages n nx : nat) (f : T -> vec -> Outcome vec) (x1 : vec) (t1 h : T).
Hypothesis WF : wf_table co stages nx.
Hypothesis GR : safe_rhs n f.
Hypothesis LX : length x1 = n.
Definition failed : Prop := exists t x, length x = n /\ f t x = Throw.
Definition finv (s : nat) (st : list vec * vec * nat * list (T * vec)) : Prop :=
  let '(ks, buf, pa, log) := st in length ks = stages /\ (forall u, In u ks -> length u = n) /\ length buf = n /\ pa = tri s /\ length log = s.
Lemma compute_safe o : shaped o stages n nx ->
  (exists o' log, rk_compute o co f x1 t1 h = Ret (o', log) /\ shaped o' stages n nx /\ length log = stages) \/ (rk_compute o co f x1 t1 h = Throw /\ failed).
Proof.
  intros [Sk [Sx [Sb [Uk Ux]]]]. destruct WF as [W1 [W2 [W3 W4]]]. unfold rk_compute.
  destruct (GR t1 x1 LX) as [F|[k0 [F L0]]]; rewrite F; cbn [obind]; [right; split; [reflexivity|exists t1, x1; auto]|].
  rewrite wr_ok by lia. cbn [obind]. rewrite Sk.
  destruct (ofor_inv_gen finv failed 1 stages (rk_stage co f x1 t1 h) (upd (o_k o) 0 k0, o_buf o, 0, [(t1, x1)])) as [[r [E I]]|[E Fl]].
  - lia.
  - split; [rewrite upd_length; assumption|]. split; [intros u U; destruct (In_upd _ _ _ _ U) as [->|U']; auto|]. split; [assumption|]. split; reflexivity.
  - intros s [[[ks buf] pa] log] Hs [Lk [Uk' [Lbuf [Pa Ll]]]]. unfold rk_stage. rewrite vcpy_ok by lia. cbn [obind].
    assert (TS : tri (S s) <= tri stages) by (apply tri_mono; lia). rewrite tri_S in TS.
    destruct (accum_total (co_a co) pa h ks s x1 n) as [b [E Lb]]; [lia|lia|assumption|assumption|]. rewrite E. cbn [obind].
    rewrite (rd_ok (co_c co) (s - 1) (n0 N)) by lia. cbn [obind].
    destruct (GR (nadd N t1 (nmul N h (nth (s - 1) (co_c co) (n0 N)))) b Lb) as [F'|[k [F' Lk']]]; rewrite F'; cbn [obind]; [right; split; [reflexivity|eexists _, _; split; [exact Lb|exact F']]|].
    rewrite wr_ok by lia. cbn [obind]. left. eexists; split; [reflexivity|].
    split; [rewrite upd_length; assumption|]. split; [intros u U; destruct (In_upd _ _ _ _ U) as [->|U']; auto|]. split; [assumption|].
    split; [rewrite tri_S; lia|]. rewrite app_length. simpl. lia.
  - rewrite E. cbn [obind]. destruct r as [[[ks buf] pa] log]. destruct I as [Lk [Uk' [Lbuf [Pa Ll]]]].
    destruct (ofor_inv (fun k (st : list vec * vec * nat) => let '(x2s, buf, pb) := st in length x2s = nx /\ (forall u, In u x2s -> length u = n) /\ length buf = n /\ pb = k * stages)
       0 (length (o_x2 o)) (rk_result co stages ks x1 h) (o_x2 o, buf, 0)) as [q [E2 I2]].
    + lia.
    + auto.
    + intros ix [[x2s buf'] pb] Hix [Lx2 [Ux2 [Lb' Pb]]]. unfold rk_result. rewrite (rd_ok x2s ix []) by lia. cbn [obind].
      assert (IX : In (nth ix x2s []) x2s) by (apply nth_In; lia). pose proof (Ux2 _ IX) as LN.
      destruct (Z.eqb (Z.of_nat ix) (co_last co)).
      * rewrite wr_ok by lia. cbn [obind]. eexists; split; [reflexivity|]. split; [rewrite upd_length; assumption|].
        split; [intros u U; destruct (In_upd _ _ _ _ U) as [->|U']; auto|]. split; [assumption|simpl; lia].
      * rewrite vcpy_ok by lia. cbn [obind]. assert (IS : S ix * stages <= stages * nx) by (rewrite (Nat.mul_comm stages); apply Nat.mul_le_mono_r; lia).
        destruct (accum_total (co_b co) pb h ks stages x1 n) as [b [EB Lb]]; [simpl in IS; lia|lia|assumption|assumption|]. rewrite EB. cbn [obind].
        rewrite wr_ok by lia. cbn [obind]. eexists; split; [reflexivity|]. split; [rewrite upd_length; assumption|].
        split; [intros u U; destruct (In_upd _ _ _ _ U) as [->|U']; auto|]. split; [assumption|simpl; lia].
    + rewrite E2. cbn [obind]. destruct q as [[x2s buf'] pb]. destruct I2 as [Lx2 [Ux2 [Lb' Pb]]]. left. eexists _, _. split; [reflexivity|].
      split; [|assumption]. split; [assumption|]. split; [assumption|]. split; [assumption|]. split; assumption.
  - rewrite E. right. split; [reflexivity|assumption].
Qed.
End Fail.

Lemma fsal_visible {N : Num} (co : coeffs N) stages n nx ix f x1 t1 h o :
  length x1 = n -> 2 <= stages -> co_last co = Z.of_nat ix -> row_repeats co stages ix -> shaped o stages n nx ->
  visible (rk_compute o co f x1 t1 h) = visible (rk_compute o (no_shortcut co) f x1 t1 h).
Proof.
  intros LX St Last [R Z] SH.
  assert (E : forall r : Outcome (output N * list (nT N * list (nT N))), visible r = obs_of r) by (intros [[o' l]| |]; reflexivity).
  rewrite !E. exact (fsal_same co stages n nx ix f x1 t1 h LX St Last R Z o SH).
Qed.

Lemma qn_S k : qn (S k) = (qn k + 1)%Qc.
Proof.
  unfold qn, Qcplus, Q2Qc. apply Qc_is_canon. cbn [this]. rewrite !Qred_correct. rewrite Nat2Z.inj_succ. unfold Qeq, inject_Z. cbn. lia.
Qed.
(** * Fixed steps *)
Lemma out_new_shaped {N : Num} stages n nx : shaped (N:=N) (out_new stages n nx) stages n nx.
Proof.
  unfold out_new, shaped. simpl. rewrite !repeat_length. split; [reflexivity|]. split; [reflexivity|]. split; [reflexivity|].
  split; intros v V; apply repeat_spec in V; subst; apply repeat_length.
Qed.

Section Hist.
Context {W : Type} (f : W -> Qc -> list Qc -> Outcome (list Qc)) (co : coeffs QcNum) (stages n : nat) (h : Qc).
Hypothesis WF : wf_table co stages 1.
Hypothesis Last : co_last co = (-1)%Z.
(** the solver is between steps: either not started since setInitialState, or with work space and step size in place *)
Definition ready (s : rkst QcNum W) : Prop :=
  length (rk_x s) = n /\ (rk_out s = out_empty \/ (rk_h s = Some h /\ shaped (rk_out s) stages n 1)).
Lemma stages_pos : 0 < stages. Proof. apply WF. Qed.
Lemma rk_step_ok s : good_rhs (N:=QcNum) n (f (rk_w s)) -> ready s ->
  exists s', rk_step (N:=QcNum) no_events f co n h s = Ret (s', rk_h s, mkPost (N:=QcNum) h true false false 0%Qc None 0%Z) /\ ready s' /\ rk_h s' = Some h /\ rk_w s' = rk_w s /\
    textbook_step co stages n (f (rk_w s)) h (rk_t s, rk_x s) (rk_t s', rk_x s').
Proof.
  intros GR [Lx RD]. unfold rk_step.
  assert (RI : rk_t (rk_init (N:=QcNum) co n h s) = rk_t s /\ rk_x (rk_init (N:=QcNum) co n h s) = rk_x s /\ rk_w (rk_init (N:=QcNum) co n h s) = rk_w s /\ rk_h (rk_init (N:=QcNum) co n h s) = Some h /\ shaped (rk_out (rk_init (N:=QcNum) co n h s)) stages n 1).
  { unfold rk_init. destruct RD as [RD|[RH RS]].
    - rewrite RD. simpl. repeat (split; [reflexivity|]). assert (LC : length (co_c co) + 1 = stages) by apply WF. rewrite <- LC. apply out_new_shaped.
    - assert (OE : out_is_empty (rk_out s) = false).
      { unfold out_is_empty. destruct RS as [L _]. pose proof stages_pos. destruct (o_k (rk_out s)); [simpl in L; lia|reflexivity]. }
      rewrite OE. auto. }
  destruct RI as [R1 [R2 [R3 [R4 R5]]]]. rewrite R4, R1, R2, R3. simpl ev_start. cbn [obind].
  destruct (compute_ok co stages n 1 (f (rk_w s)) (rk_x s) (rk_t s) h WF GR Lx _ R5) as [o' [evals [E [S' [TS [TR _]]]]]].
  change (nT QcNum) with Qc in *. rewrite E. cbn [obind fst snd]. destruct S' as [Sk [Sx [Sb [Uk Ux]]]].
  rewrite (rd_ok (A:=list Qc) (o_x2 o') 0 []) by (change (0 < @length (list (nT QcNum)) (o_x2 o')); rewrite Sx; lia). cbn [obind]. simpl ev_end. cbn [obind].
  rewrite (wr_ok (A:=list Qc) (o_x2 o') 0) by (change (0 < @length (list (nT QcNum)) (o_x2 o')); rewrite Sx; lia). cbn [obind].
  eexists. split; [reflexivity|]. cbn [rk_x rk_out rk_h rk_w rk_t ev_x ev_t].
  assert (TR0 : textbook_result co stages n 0 (rk_x s) h (o_k o') (nth 0 (o_x2 o') [])) by (apply TR; [lia|rewrite Last; lia]).
  split; [|split; [reflexivity|split; [reflexivity|split; [reflexivity|exists evals, (o_k o'); split; assumption]]]].
  split; [exact (proj1 TR0)|]. right. split; [reflexivity|]. split; [assumption|]. split; [exact (eq_trans (upd_length (A:=list Qc) (o_x2 o') 0 (rk_x s)) Sx)|]. split; [assumption|].
  split; [assumption|]. cbn [o_x2]. intros v V. destruct (In_upd _ _ _ _ V) as [->|V']; [exact Lx|exact (Ux _ V')].
Qed.
Lemma rk_steps_ok w : good_rhs (N:=QcNum) n (f w) -> forall count s, rk_w s = w -> ready s ->
  exists s' posts traj, rk_steps (N:=QcNum) no_events f co n h count s = Ret (s', posts) /\ ready s' /\
    posts = repeat (mkPost (N:=QcNum) h true false false 0%Qc None 0%Z) count /\
    traj 0 = (rk_t s, rk_x s) /\ traj count = (rk_t s', rk_x s') /\
    forall i, i < count -> textbook_step co stages n (f w) h (traj i) (traj (S i)).
Proof.
  intros GR. induction count as [|c I]; intros s EW RD.
  - exists s, [], (fun _ => (rk_t s, rk_x s)). repeat (split; [reflexivity || assumption|]). intros i Hi. lia.
  - subst w. destruct (rk_step_ok s GR RD) as [s1 [E [RD1 [_ [W1 TS]]]]].
    destruct (I s1 W1 RD1) as [s2 [posts [traj [E2 [RD2 [P2 [T0 [TC TT]]]]]]]].
    exists s2, (mkPost (N:=QcNum) h true false false 0%Qc None 0%Z :: posts), (fun i => match i with O => (rk_t s, rk_x s) | S i' => traj i' end).
    split; [simpl; rewrite E; cbn [obind]; rewrite E2; reflexivity|]. split; [assumption|]. split; [simpl; rewrite P2; reflexivity|].
    split; [reflexivity|]. split; [assumption|]. intros [|i] Hi; [rewrite T0; exact TS|apply TT; lia].
Qed.
Lemma traj_time (F : Qc -> list Qc -> Outcome (list Qc)) (traj : nat -> Qc * list Qc) count :
  (forall i, i < count -> textbook_step co stages n F h (traj i) (traj (S i))) -> forall k, k <= count -> fst (traj k) = (fst (traj 0%nat) + qn k * h)%Qc.
Proof.
  intros H. induction k as [|k I]; intros K; [assert (Q0 : qn 0 = 0%Qc) by (apply Qc_is_canon; reflexivity); rewrite Q0; ring|].
  destruct (H k) as [E _]; [lia|]. rewrite E, I by lia.
  rewrite qn_S. ring.
Qed.
End Hist.
