(** FpFacts.v - the stage loop in any arithmetic: the operations and their order; histories as paths of such steps. *)
From Coq Require Import List Arith Lia Bool ZArith QArith Qcanon.
From Verif Require Import Base BaseFacts VecModel VOps NewtFacts NewtFacts4 RkModel RkSpec RkFacts RkFacts2 RkFacts3 StepModel FpSpec.
Import ListNotations.
Local Open Scope nat_scope.

Section Gen.
Context {N : Num}.
Notation T := (nT N).
Notation vec := (list T).
Notation zero := (n0 N).

Lemma acc_ext (cs : vec) p h (ks ks' : list vec) j count v : (forall i, i < count -> nth i ks [] = nth i ks' []) -> acc_of cs p h ks j count v = acc_of cs p h ks' j count v.
Proof. induction count as [|m I]; intros H; [reflexivity|]. simpl. rewrite I by (intros; apply H; lia). rewrite (H m) by lia. reflexivity. Qed.
Lemma accum_gen (cs : vec) p (h : T) (ks : list vec) count (v : vec) n :
  p + count <= length cs -> count <= length ks -> (forall u, In u ks -> length u = n) -> length v = n ->
  exists v', accum cs p h ks count v = Ret v' /\ length v' = n /\ forall j, j < n -> nth j v' zero = acc_of cs p h ks j count (nth j v zero).
Proof.
  intros Lc Lk Uk Lv. unfold accum.
  apply (ofor_inv (fun c (v' : vec) => length v' = n /\ forall j, j < n -> nth j v' zero = acc_of cs p h ks j c (nth j v zero))).
  - lia.
  - split; [assumption|]. intros j J. reflexivity.
  - intros k x K [Lx Hx]. rewrite (rd_ok cs (p + k) zero) by lia. cbn [obind].
    assert (IK : In (nth k ks []) ks) by (apply nth_In; lia).
    destruct (neqb N (nth (p + k) cs zero) zero) eqn:Z.
    + exists x. split; [reflexivity|]. split; [assumption|]. intros j J. simpl. rewrite Z. apply Hx. assumption.
    + rewrite (rd_ok ks k []) by lia. cbn [obind]. unfold ladd.
      rewrite lzip_ok by (rewrite lscale_length, (Uk _ IK); lia). eexists; split; [reflexivity|].
      split; [rewrite map_length, seq_length; assumption|]. intros j J. simpl. rewrite Z.
      rewrite (nth_map_seq (length x) (fun i => nadd N (nth i x zero) (nth i (lscale (nth k ks []) (nmul N h (nth (p + k) cs zero))) zero)) zero j) by lia.
      rewrite <- (Hx j J). f_equal. unfold lscale.
      rewrite (nth_indep _ _ (nmul N zero (nmul N h (nth (p + k) cs zero)))) by (rewrite map_length, (Uk _ IK); assumption).
      apply (map_nth (fun x0 => nmul N x0 (nmul N h (nth (p + k) cs zero)))).
Qed.

Section Compute.
Context (co : coeffs N) (stages n nx : nat) (f : T -> vec -> Outcome vec) (x1 : vec) (t1 h : T).
Hypothesis WF : wf_table co stages nx.
Hypothesis GR : good_rhs n f.
Hypothesis LX : length x1 = n.
Definition st_okN (k : list vec) (evals : list (T * vec)) (s : nat) : Prop := exists t arg,
    nth_error evals s = Some (t, arg) /\ f t arg = Ret (nth s k []) /\ length arg = n /\ length (nth s k []) = n /\
    t = match s with O => t1 | S q => nadd N t1 (nmul N h (nth q (co_c co) zero)) end /\
    forall j, j < n -> nth j arg zero = acc_of (co_a co) (tri s) h k j s (nth j x1 zero).
Definition stage_invN (s : nat) (st : list vec * vec * nat * list (T * vec)) : Prop :=
  let '(ks, buf, pa, log) := st in
  length ks = stages /\ (forall u, In u ks -> length u = n) /\ length buf = n /\ pa = tri s /\ length log = s /\
  forall r, r < s -> st_okN ks log r.
Lemma stage_stepN s st : 1 <= s < stages -> stage_invN s st ->
  exists st', rk_stage co f x1 t1 h s st = Ret st' /\ stage_invN (S s) st'.
Proof.
  destruct WF as [W1 [LA [W3 LC]]].
  destruct st as [[[ks buf] pa] log]. intros Hs [Lk [Uk [Lbuf [Pa [Ll Hst]]]]]. unfold rk_stage.
  rewrite vcpy_ok by lia. cbn [obind].
  assert (TS : tri (S s) <= tri stages) by (apply tri_mono; lia). rewrite tri_S in TS.
  destruct (accum_gen (co_a co) pa h ks s x1 n) as [b [E [Lb_ Hb]]]; [lia|lia|assumption|assumption|].
  rewrite E. cbn [obind]. rewrite (rd_ok (co_c co) (s - 1) zero) by lia. cbn [obind].
  destruct (GR (nadd N t1 (nmul N h (nth (s - 1) (co_c co) zero))) b) as [k [F Lk']]; [exact Lb_|]. rewrite F. cbn [obind].
  rewrite (wr_ok ks s k) by lia. cbn [obind]. eexists; split; [reflexivity|].
  split; [rewrite upd_length; assumption|]. split; [intros u U; destruct (In_upd _ _ _ _ U) as [->|U']; auto|].
  split; [assumption|]. split; [rewrite tri_S; lia|]. split; [rewrite app_length; simpl; lia|].
  intros r RR. destruct (Nat.eq_dec r s) as [->|NE].
  - eexists _, b. split; [rewrite nth_error_app2 by lia; replace (s - length log) with 0 by lia; reflexivity|].
    split; [rewrite nth_upd_eq by lia; exact F|]. split; [assumption|]. split; [rewrite nth_upd_eq by lia; assumption|].
    split; [destruct s as [|s']; [lia|]; replace (S s' - 1) with s' by lia; reflexivity|].
    intros j J. rewrite (Hb j J), Pa. apply acc_ext. intros i Hi. rewrite nth_upd_neq by lia. reflexivity.
  - destruct (Hst r) as [t [arg [E1 [E2 [E3 [E4 [E5 E6]]]]]]]; [lia|]. exists t, arg.
    split; [rewrite nth_error_app1 by lia; assumption|]. split; [rewrite nth_upd_neq by lia; assumption|]. split; [assumption|].
    split; [rewrite nth_upd_neq by lia; assumption|]. split; [assumption|].
    intros j J. rewrite (E6 j J). apply acc_ext. intros i Hi. rewrite nth_upd_neq by lia. reflexivity.
Qed.
Lemma stages_loopN (o : output N) : shaped o stages n nx ->
  exists k0 r, f t1 x1 = Ret k0 /\ wr (o_k o) 0 k0 = Ret (upd (o_k o) 0 k0) /\
    ofor 1 stages (rk_stage co f x1 t1 h) (upd (o_k o) 0 k0, o_buf o, 0, [(t1, x1)]) = Ret r /\ stage_invN stages r.
Proof.
  intros [Sk [Sx [Sb [Uk Ux]]]]. assert (P0 : 0 < stages) by apply WF. destruct (GR t1 x1) as [k0 [F L0]]; [exact LX|].
  destruct (ofor_inv stage_invN 1 stages (rk_stage co f x1 t1 h) (upd (o_k o) 0 k0, o_buf o, 0, [(t1, x1)])) as [r [E I]].
  - lia.
  - split; [rewrite upd_length; assumption|]. split; [intros u U; destruct (In_upd _ _ _ _ U) as [->|U']; auto|].
    split; [assumption|]. split; [reflexivity|]. split; [reflexivity|].
    intros r RR. assert (r = 0) by lia. subst r. exists t1, x1. split; [reflexivity|].
    split; [rewrite nth_upd_eq by lia; assumption|]. split; [assumption|]. split; [rewrite nth_upd_eq by lia; assumption|]. split; [reflexivity|].
    intros j J. reflexivity.
  - intros k x K Ix. apply stage_stepN; [lia|assumption].
  - exists k0, r. split; [assumption|]. split; [apply wr_ok; lia|]. auto.
Qed.
Definition res_invN (ks : list vec) (ix : nat) (st : list vec * vec * nat) : Prop :=
  let '(x2s, buf, pb) := st in
  length x2s = nx /\ (forall u, In u x2s -> length u = n) /\ length buf = n /\ pb = ix * stages /\
  forall i, i < ix -> Z.of_nat i <> co_last co -> resultN co stages n i x1 h ks (nth i x2s []).
Lemma res_stepN ks ix st : length ks = stages -> (forall u, In u ks -> length u = n) -> ix < nx -> res_invN ks ix st ->
  exists st', rk_result co stages ks x1 h ix st = Ret st' /\ res_invN ks (S ix) st'.
Proof.
  destruct WF as [W1 [LA [LB LC]]].
  destruct st as [[x2s buf] pb]. intros Lk Uk Hix [Lx2 [Ux [Lbuf [Pb H]]]]. unfold rk_result.
  rewrite (rd_ok x2s ix []) by lia. cbn [obind]. assert (IX : In (nth ix x2s []) x2s) by (apply nth_In; lia).
  pose proof (Ux _ IX) as LN. destruct (Z.eqb (Z.of_nat ix) (co_last co)) eqn:EZ.
  - apply Z.eqb_eq in EZ. rewrite (wr_ok x2s ix buf) by lia. cbn [obind]. eexists; split; [reflexivity|].
    split; [rewrite upd_length; assumption|]. split; [intros u U; destruct (In_upd _ _ _ _ U) as [->|U']; auto|]. split; [exact LN|].
    split; [simpl; lia|]. intros i Hi NE. destruct (Nat.eq_dec i ix) as [->|NI]; [congruence|]. rewrite nth_upd_neq by lia. apply H; [lia|assumption].
  - apply Z.eqb_neq in EZ. rewrite vcpy_ok by lia. cbn [obind].
    assert (IS : S ix * stages <= stages * nx) by (rewrite (Nat.mul_comm stages); apply Nat.mul_le_mono_r; lia).
    destruct (accum_gen (co_b co) pb h ks stages x1 n) as [b [E [Lb_ Hb]]]; [simpl in IS; lia|lia|assumption|assumption|].
    rewrite E. cbn [obind]. rewrite (wr_ok x2s ix b) by lia. cbn [obind]. eexists; split; [reflexivity|].
    split; [rewrite upd_length; assumption|]. split; [intros u U; destruct (In_upd _ _ _ _ U) as [->|U']; auto|]. split; [exact Lbuf|].
    split; [simpl; lia|]. intros i Hi NE. destruct (Nat.eq_dec i ix) as [->|NI].
    + rewrite nth_upd_eq by lia. split; [exact Lb_|]. intros j J. rewrite (Hb j J), Pb. reflexivity.
    + rewrite nth_upd_neq by lia. apply H; [lia|assumption].
Qed.
Lemma compute_okN (o : output N) : shaped o stages n nx ->
  exists o' evals, rk_compute o co f x1 t1 h = Ret (o', evals) /\ shaped o' stages n nx /\
    stagesN co stages n f x1 t1 h evals (o_k o') /\
    (forall ix, ix < nx -> Z.of_nat ix <> co_last co -> resultN co stages n ix x1 h (o_k o') (nth ix (o_x2 o') [])).
Proof.
  intros SH. destruct (stages_loopN o SH) as [k0 [r [F [W [E I]]]]]. destruct SH as [Sk [Sx [Sb [Uk Ux]]]].
  unfold rk_compute. rewrite F. cbn [obind]. rewrite W. cbn [obind]. rewrite Sk, E. cbn [obind].
  destruct r as [[[ks buf] pa] log]. destruct I as [Lk [Uk' [Lbuf [Pa [Ll Hst]]]]].
  destruct (ofor_inv (res_invN ks) 0 (length (o_x2 o)) (rk_result co stages ks x1 h) (o_x2 o, buf, 0)) as [q [E2 I2]].
  - lia.
  - split; [assumption|]. split; [assumption|]. split; [assumption|]. split; [lia|]. intros i Hi. lia.
  - intros k x K Ix. apply res_stepN; auto. lia.
  - rewrite E2. cbn [obind]. destruct q as [[x2s buf'] pb]. destruct I2 as [Lx2 [Ux2 [Lbuf' [Pb H]]]].
    eexists _, log; split; [reflexivity|]. cbn [o_k o_x2 o_buf]. split; [|split].
    + split; [assumption|]. split; [assumption|]. split; [assumption|]. split; assumption.
    + split; [assumption|]. split; [assumption|]. exact Hst.
    + intros ix Hix NE. apply H; [lia|assumption].
Qed.
End Compute.

Lemma compute_allN co stages n nx f x1 t1 h (o : output N) :
  wf_table co stages nx -> shortcut_ok co stages -> good_rhs n f -> length x1 = n -> shaped o stages n nx ->
  exists o' evals, rk_compute o co f x1 t1 h = Ret (o', evals) /\ shaped o' stages n nx /\
    stagesN co stages n f x1 t1 h evals (o_k o') /\
    (forall ix, ix < nx -> resultN co stages n ix x1 h (o_k o') (nth ix (o_x2 o') [])).
Proof.
  intros WF SC GR LX SH. destruct (compute_okN co stages n nx f x1 t1 h WF GR LX o SH) as [o' [evals [E [S' [TS TR]]]]].
  exists o', evals. split; [assumption|]. split; [assumption|]. split; [assumption|].
  destruct SC as [NEG|[ix [EL [ST RR]]]].
  - intros ix Hix. apply TR; [assumption|lia].
  - pose proof (fsal_visible co stages n nx ix f x1 t1 h o LX ST EL RR SH) as FV.
    destruct (compute_okN (no_shortcut co) stages n nx f x1 t1 h) with (o := o) as [o2 [ev2 [E2 [S2 [TS2 TR2]]]]]; [exact WF|exact GR|exact LX|exact SH|].
    rewrite E, E2 in FV. simpl in FV. injection FV as F1 F2 F3. rewrite F1, F2. intros i Hi. apply (TR2 i Hi). simpl. lia.
Qed.

Definition tstepN (co : coeffs N) (stages n ix : nat) (F : T -> vec -> Outcome vec) (h : T) (s s' : T * vec) : Prop :=
  fst s' = nadd N (fst s) h /\ exists evals k, stagesN co stages n F (snd s) (fst s) h evals k /\ resultN co stages n ix (snd s) h k (snd s').
Inductive pathN (co : coeffs N) (stages n ix : nat) (F : T -> vec -> Outcome vec) : T * vec -> list T -> T * vec -> Prop :=
| pathN_nil s : pathN co stages n ix F s [] s
| pathN_cons s h s1 l s2 : tstepN co stages n ix F h s s1 -> pathN co stages n ix F s1 l s2 -> pathN co stages n ix F s (h :: l) s2.

Section Fixed.
Context {W : Type} (F : W -> T -> vec -> Outcome vec) (co : coeffs N) (stages n : nat) (h : T).
Hypothesis WF : wf_table co stages 1.
Hypothesis SC : shortcut_ok co stages.
Definition readyN (s : rkst N W) : Prop :=
  length (rk_x s) = n /\ (out_is_empty (rk_out s) = true \/ (rk_h s = Some h /\ shaped (rk_out s) stages n 1)).
Lemma rk_step_okN s : good_rhs n (F (rk_w s)) -> readyN s ->
  exists s', rk_step no_events F co n h s = Ret (s', rk_h s, mkPost h true false false (n0 N) None 0%Z) /\ readyN s' /\ rk_w s' = rk_w s /\
    tstepN co stages n 0 (F (rk_w s)) h (rk_t s, rk_x s) (rk_t s', rk_x s').
Proof.
  intros GR [Lx RD]. unfold rk_step. assert (POS : 0 < stages) by apply WF.
  assert (RI : rk_t (rk_init co n h s) = rk_t s /\ rk_x (rk_init co n h s) = rk_x s /\ rk_w (rk_init co n h s) = rk_w s /\ rk_h (rk_init co n h s) = Some h /\ shaped (rk_out (rk_init co n h s)) stages n 1).
  { unfold rk_init. destruct RD as [RD|[RH RS]].
    - rewrite RD. simpl. repeat (split; [reflexivity|]). assert (LC : (length (co_c co) + 1)%nat = stages) by apply WF. rewrite <- LC. apply out_new_shaped.
    - assert (OE : out_is_empty (rk_out s) = false).
      { unfold out_is_empty. destruct RS as [L _]. destruct (o_k (rk_out s)); [simpl in L; lia|reflexivity]. }
      rewrite OE. auto. }
  destruct RI as [R1 [R2 [R3 [R4 R5]]]]. rewrite R4, R1, R2, R3. simpl ev_start. cbn [obind].
  destruct (compute_allN co stages n 1 (F (rk_w s)) (rk_x s) (rk_t s) h _ WF SC GR Lx R5) as [o' [evals [E [S' [TS TR]]]]].
  rewrite E. cbn [obind fst snd]. destruct S' as [Sk [Sx [Sb [Uk Ux]]]].
  rewrite (rd_ok (o_x2 o') 0 []) by lia. cbn [obind]. simpl ev_end. cbn [obind].
  rewrite wr_ok by lia. cbn [obind].
  eexists. split; [reflexivity|]. cbn [rk_x rk_out rk_h rk_w rk_t ev_x ev_t].
  assert (TR0 : resultN co stages n 0 (rk_x s) h (o_k o') (nth 0 (o_x2 o') [])) by (apply TR; lia).
  split; [|split; [reflexivity|split; [reflexivity|exists evals, (o_k o'); split; assumption]]].
  split; [exact (proj1 TR0)|]. right. split; [reflexivity|]. split; [assumption|]. split; [exact (eq_trans (upd_length (o_x2 o') _ (rk_x s)) Sx)|]. split; [assumption|].
  split; [assumption|]. cbn [o_x2]. intros v V. destruct (In_upd _ _ _ _ V) as [->|V']; [exact Lx|exact (Ux _ V')].
Qed.
Lemma rk_steps_pathN w : good_rhs n (F w) -> forall count s, rk_w s = w -> readyN s ->
  exists s' posts, rk_steps no_events F co n h count s = Ret (s', posts) /\ readyN s' /\
    posts = repeat (mkPost h true false false (n0 N) None 0%Z) count /\
    pathN co stages n 0 (F w) (rk_t s, rk_x s) (repeat h count) (rk_t s', rk_x s').
Proof.
  intros GR. induction count as [|c I]; intros s EW RD.
  - exists s, []. split; [reflexivity|]. split; [assumption|]. split; [reflexivity|]. constructor.
  - subst w. destruct (rk_step_okN s GR RD) as [s1 [E [RD1 [W1 TS]]]].
    destruct (I s1 W1 RD1) as [s2 [posts [E2 [RD2 [EP P2]]]]].
    exists s2, (mkPost h true false false (n0 N) None 0%Z :: posts).
    split; [simpl; rewrite E; cbn [obind]; rewrite E2; reflexivity|]. split; [assumption|]. split; [rewrite EP; reflexivity|]. econstructor; eassumption.
Qed.
Lemma fixed_pathN w t0 x0 s0 count : good_rhs n (F w) -> rk_w s0 = w -> length x0 = n ->
  exists s' posts, rk_steps no_events F co n h count (rk_set no_events t0 x0 s0) = Ret (s', posts) /\
    posts = repeat (mkPost h true false false (n0 N) None 0%Z) count /\
    pathN co stages n 0 (F w) (t0, x0) (repeat h count) (rk_t s', rk_x s').
Proof.
  intros GR EW LX. destruct (rk_steps_pathN w GR count (rk_set no_events t0 x0 s0)) as [s' [posts [E [_ [EP P]]]]].
  - exact EW.
  - split; [exact LX|]. left. reflexivity.
  - exists s', posts. split; [|split]; assumption.
Qed.
End Fixed.

Section Adaptive.
Context {W : Type} (F : W -> T -> vec -> Outcome vec) (c : erkcfg N) (stages : nat) (w : W).
Hypothesis WF : wf_table (e_co c) stages 2.
Hypothesis SC : shortcut_ok (e_co c) stages.
Hypothesis MD : e_mode c < 2.
Hypothesis GR : good_rhs (e_n c) (F w).
Definition readyAN (s : rkst N W) : Prop :=
  length (rk_x s) = e_n c /\ rk_w s = w /\ (out_is_empty (rk_out s) = true \/ shaped (rk_out s) stages (e_n c) 2).
Lemma erk_init_okN s : readyAN s -> rk_t (erk_init c s) = rk_t s /\ rk_x (erk_init c s) = rk_x s /\ rk_w (erk_init c s) = w /\ shaped (rk_out (erk_init c s)) stages (e_n c) 2.
Proof.
  intros [Lx [EW RD]]. unfold erk_init. destruct RD as [RD|RS].
  - rewrite RD. simpl. repeat (split; [reflexivity || assumption|]). assert (LC : (length (co_c (e_co c)) + 1)%nat = stages) by apply WF. rewrite <- LC. apply out_new_shaped.
  - assert (OE : out_is_empty (rk_out s) = false).
    { unfold out_is_empty. destruct RS as [L _]. assert (0 < stages)%nat by apply WF. destruct (o_k (rk_out s)); [simpl in L; lia|reflexivity]. }
    rewrite OE. auto.
Qed.
Lemma erk_attempt_pathN s s' r : readyAN s -> erk_attempt no_events F c s = (s', r) ->
  match r with
  | ARejected a => readyAN s' /\ rk_t s' = rk_t s /\ rk_x s' = rk_x s
  | AAccepted a => readyAN s' /\ tstepN (e_co c) stages (e_n c) (e_mode c) (F w) (pa_h a) (rk_t s, rk_x s) (rk_t s', rk_x s')
  | _ => True
  end.
Proof.
  intros RD E. destruct (erk_init_okN s RD) as [R1 [R2 [R3 R5]]]. destruct RD as [Lx [EW _]]. unfold erk_attempt in E. rewrite R1, R2, R3 in E.
  destruct (rk_h (erk_init c s)) as [h|]; [|injection E as <- <-; exact I].
  simpl ev_start in E. unfold fail at 1 in E.
  destruct (compute_allN (e_co c) stages (e_n c) 2 (F w) (rk_x s) (rk_t s) h _ WF SC GR Lx R5) as [o' [evals [EC [S' [TS TR]]]]].
  rewrite EC in E. unfold fail at 1 in E. cbn [fst snd] in E. pose proof S' as SH. destruct S' as [Sk [Sx [Sb [Uk Ux]]]].
  rewrite (rd_ok (o_x2 o') (e_mode c) []) in E by lia. unfold fail at 1 in E.
  destruct (erk_error c o') as [err| |]; unfold fail at 1 in E; [|injection E as <- <-; exact I|injection E as <- <-; exact I].
  destruct (if e_nocheck c then (h, true, false) else e_sc c h err) as [[h' accept] change].
  assert (TR0 : resultN (e_co c) stages (e_n c) (e_mode c) (rk_x s) h (o_k o') (nth (e_mode c) (o_x2 o') [])) by (apply TR; lia).
  destruct accept.
  - simpl ev_end in E. unfold fail at 1 in E.
    rewrite wr_ok in E by lia. unfold fail in E.
    match type of E with (if ?b then _ else _) = _ => destruct b end; injection E as <- <-; [exact I|]. cbn [rk_x rk_out rk_h rk_w rk_t ev_x ev_t pa_h].
    split; [|split; [reflexivity|exists evals, (o_k o'); split; assumption]].
    split; [exact (proj1 TR0)|]. split; [reflexivity|]. right. split; [assumption|]. split; [exact (eq_trans (upd_length (o_x2 o') _ (rk_x s)) Sx)|]. split; [assumption|].
    split; [assumption|]. cbn [o_x2]. intros v V. destruct (In_upd _ _ _ _ V) as [->|V']; [exact Lx|exact (Ux _ V')].
  - match type of E with (if ?b then _ else _) = _ => destruct b end; injection E as <- <-; [exact I|]. cbn [rk_x rk_out rk_h rk_w rk_t].
    split; [|split; reflexivity]. split; [exact Lx|]. split; [reflexivity|]. right. exact SH.
Qed.
Lemma erk_step_pathN fuel : forall s s' posts a, readyAN s -> erk_step no_events F c fuel s = (s', posts, Some (AAccepted a)) ->
  readyAN s' /\ tstepN (e_co c) stages (e_n c) (e_mode c) (F w) (pa_h a) (rk_t s, rk_x s) (rk_t s', rk_x s').
Proof.
  induction fuel as [|k I]; intros s s' posts a RD E; [simpl in E; discriminate E|]. simpl in E.
  destruct (erk_attempt no_events F c s) as [s1 r] eqn:EA. pose proof (erk_attempt_pathN s s1 r RD EA) as H.
  destruct r as [| | |b|b]; try (injection E as _ _ E; discriminate E).
  - destruct H as [RD1 [T1 X1]]. destruct (erk_step no_events F c k s1) as [[s2 l] r] eqn:E2. injection E as <- _ ->.
    rewrite <- T1, <- X1. exact (I s1 s2 l a RD1 E2).
  - injection E as <- _ <-. exact H.
Qed.
Lemma adaptive_pathN s l s' : adaptive_runN F c s l s' -> readyAN s -> pathN (e_co c) stages (e_n c) (e_mode c) (F w) (rk_t s, rk_x s) l (rk_t s', rk_x s').
Proof.
  induction 1 as [s|s fuel s1 posts a l s2 E _ I]; intros RD; [constructor|].
  destruct (erk_step_pathN fuel s s1 posts a RD E) as [RD1 TS]. econstructor; [exact TS|]. apply I. exact RD1.
Qed.
End Adaptive.
End Gen.
