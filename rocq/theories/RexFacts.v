(** RexFacts.v - the matrices of a Rosenbrock solver stay well-formed whatever calls are made and however they fail. *)
From Coq Require Import List Arith Bool Lia ZArith QArith Qcanon.
From Verif Require Import Base BaseFacts VecModel VOps SMap SpModel SpSpec SpFacts SpFacts2 SpFacts4 SpFacts3 LUSpec LUModel RkModel RkSpec StepModel RosModel RosSpec RosFacts BroFacts6.
Import ListNotations.
Local Open Scope nat_scope.
Lemma at_upd_keeps (a a' : smat QcNum) p f : at_upd a p f = Ret a' -> row_major (sdat a) -> row_major (sdat a') /\ fast a' = fast a.
Proof.
  intros E RM. destruct (fast a) eqn:F.
  - destruct (sfind a p) as [v|] eqn:SF.
    + apply sfind_In in SF; [|exact RM]. destruct (at_upd_ok a p f RM (fun _ => ex_intro _ v SF)) as (b & EB & FB & _ & RB & _). rewrite E in EB. injection EB as <-. rewrite F in FB. auto.
    + rewrite (at_upd_fast_absent a p f F RM) in E; [discriminate|]. intros x I. apply (proj1 (sfind_None a p RM) SF x I).
  - destruct (at_upd_ok a p f RM) as (b & EB & FB & _ & RB & _); [intros Q; congruence|]. rewrite E in EB. injection EB as <-. rewrite F in FB. auto.
Qed.
(** what does not change the storage kinds *)
Definition kept (m m' : mems QcNum) : Prop := length m' = length m /\ mems_ok m' /\ forall j, fast (obj m' j) = fast (obj m j).
Lemma kept_trans a b c : kept a b -> kept b c -> kept a c.
Proof. intros (A & _ & B) (C & D & E). split; [congruence|]. split; [exact D|]. intros j. rewrite E. apply B. Qed.
Lemma kept_store m m' : store_ok m -> kept m m' -> store_ok m'.
Proof. intros (L & _ & F0 & F1 & F2) (A & B & C). split; [congruence|]. split; [exact B|]. rewrite !C. auto. Qed.
Lemma kept_upd m id a : mems_ok m -> row_major (sdat a) -> fast a = fast (obj m id) -> kept m (upd m id a).
Proof.
  intros OK RA FA. split; [apply upd_length|]. destruct (Nat.lt_ge_cases id (length m)) as [H|H].
  - split; intros j; rewrite (obj_upd m id j a H); destruct (Nat.eqb_spec j id) as [->|D]; auto; apply OK.
  - assert (U : upd m id a = m). { clear - H. revert id H. induction m as [|b m IH]; intros [|id] H; cbn in *; try reflexivity; try lia. f_equal. apply IH. lia. } rewrite U. auto.
Qed.
Lemma sat_keeps m id p f m' o : mems_ok m -> sat_upd m (SW (N:=QcNum) id) p f = (m', o) -> kept m m'.
Proof.
  intros OK. unfold sat_upd. cbn [sbase to_base]. destruct (at_upd (obj m id) p f) as [a| |] eqn:E; intros Q; injection Q as <- _; [|split; [reflexivity|split; [exact OK|reflexivity]]|split; [reflexivity|split; [exact OK|reflexivity]]].
  destruct (at_upd_keeps _ _ _ _ E (OK id)) as (A & B). apply kept_upd; assumption.
Qed.
Lemma rfor_keeps e id (g : key -> Qc -> Qc -> Qc) : forall fuel after m m' o, mems_ok m -> rfor fuel e (fun p x m => sat_upd m (SW (N:=QcNum) id) p (g p x)) after m = Some (m', o) -> kept m m'.
Proof.
  induction fuel as [|fuel IH]; intros after m m' o OK E; [discriminate|]. cbn [rfor] in E. destruct (next_elem e after (sdat (obj m (sbase e)))) as [[[b p] x]|] eqn:NE.
  - destruct (sat_upd m (SW id) p (g p x)) as [m1 o1] eqn:ES. pose proof (sat_keeps _ _ _ _ _ _ OK ES) as K1. destruct o1; [|injection E as <- _; exact K1|injection E as <- _; exact K1].
    apply (kept_trans m m1); [exact K1|]. apply (IH _ _ _ _ (proj1 (proj2 K1)) E).
  - injection E as <- _. split; [reflexivity|split; [exact OK|reflexivity]].
Qed.
Lemma mret_inv o m : mret o = Ret m -> exists u, o = Some (m, Ret u).
Proof. destruct o as [[m' [u| |]]|]; cbn; try discriminate. intros Q. injection Q as <-. exists u. reflexivity. Qed.
Lemma identity_keeps (a a' : smat QcNum) k : addScaledIdentity a k = Ret a' -> row_major (sdat a) -> row_major (sdat a') /\ fast a' = fast a.
Proof.
  intros E RM. unfold addScaledIdentity in E. revert E. generalize (fst (ssz a)) as b. intros b E.
  refine (ofor_pres (fun z : smat QcNum => row_major (sdat z) /\ fast z = fast a) _ _ 0 b a a' E (conj RM eq_refl)).
  intros i x x' EX (R1 & F1). destruct (at_upd_keeps _ _ _ _ EX R1) as (R2 & F2). split; [exact R2|congruence].
Qed.
Lemma makeJ_keeps n2 n1 f t x0 f0 a b J : ros_makeJ n2 n1 f t x0 f0 a b = Ret J -> row_major (sdat J).
Proof.
  unfold ros_makeJ. destruct (ofor a b _ _) as [q| |] eqn:E; try discriminate. intros Q. injection Q as <-.
  refine (ofor_pres (fun z : list Qc * smat QcNum => row_major (sdat (snd z))) _ _ a b _ q E I).
  intros i x x' EX RX. revert EX. destruct (rdat (fst x) i); try discriminate. cbn [obind]. destruct (wrat _ _ _); try discriminate. cbn [obind]. destruct (f _ _); try discriminate. cbn [obind]. destruct (rdat x0 i); try discriminate. cbn [obind]. destruct (wrat _ _ _); try discriminate. cbn [obind].
  destruct (ros_column _ _ _ _ _ _) as [J| |] eqn:EC; try discriminate. cbn [obind]. intros Q. injection Q as <-. cbn [snd]. unfold ros_column in EC.
  refine (ofor_pres (fun z : smat QcNum => row_major (sdat z)) _ _ _ _ _ J EC RX). clear. intros j y y' EY RY. revert EY. destruct (rdat _ _); try discriminate. cbn [obind]. destruct (rdat _ _); try discriminate. cbn [obind]. destruct (Qceqb _ _).
  - intros Q. injection Q as <-. exact RY.
  - intros Q. exact (proj1 (at_upd_keeps _ _ _ _ Q RY)).
Qed.
Lemma store_upd3 m J : store_ok m -> row_major (sdat J) -> store_ok (upd m 3 J).
Proof.
  intros (L & OK & F0 & F1 & F2) R. split; [rewrite upd_length; exact L|]. split.
  - intros j. rewrite obj_upd by lia. destruct (Nat.eqb j 3); [exact R|apply OK].
  - rewrite !obj_upd by lia. auto.
Qed.
Lemma stencil_store m n m' : store_ok m -> ros_stencil m n = Ret m' -> store_ok m'.
Proof.
  intros S E. unfold ros_stencil in E. destruct (addScaledIdentity _ _) as [i| |] eqn:EI; try discriminate. cbn [obind] in E. destruct (identity_keeps _ _ _ EI Logic.I) as (RI & FI).
  pose proof (store_upd3 m i S RI) as S1. destruct (mret (spluseq _ _ _ (SW 0))) as [m2| |] eqn:E2; try discriminate. cbn [obind] in E. apply mret_inv in E2. destruct E2 as (u2 & E2). unfold spluseq in E2.
  pose proof (kept_store _ _ S1 (rfor_keeps _ _ (fun _ x y => nadd QcNum y x) _ _ _ _ _ (proj1 (proj2 S1)) E2)) as S2.
  destruct (mret (spluseq _ _ _ (SW 1))) as [m3| |] eqn:E3; try discriminate. cbn [obind] in E. apply mret_inv in E3. destruct E3 as (u3 & E3). unfold spluseq in E3.
  pose proof (kept_store _ _ S2 (rfor_keeps _ _ (fun _ x y => nadd QcNum y x) _ _ _ _ _ (proj1 (proj2 S2)) E3)) as S3.
  apply mret_inv in E. destruct E as (u4 & E). destruct S3 as (L3 & OK3 & F0 & F1 & F2). unfold sassign in E. rewrite F2 in E. injection E as <- _. apply (kept_store m3); [split; auto|]. apply kept_upd; [exact OK3| |rewrite F2; reflexivity].
  cbn [sdat]. rewrite siter_SW. apply OK3.
Qed.
Lemma build_store f t x0 f0 r r' o : store_ok (ro_mats r) -> ros_build f t x0 f0 r = (r', o) -> store_ok (ro_mats r').
Proof.
  intros S E. unfold ros_build, rfail in E. destruct (ros_makeJ _ _ _ _ _ _ (ro_n2 r) _) as [J1| |] eqn:E1; [|injection E as <- _; exact S|injection E as <- _; exact S]. apply makeJ_keeps in E1.
  destruct (assign_mat (ro_mats r) J1 0 S E1 ltac:(lia)) as (m1 & EM1 & S1 & _). rewrite EM1 in E.
  destruct (ros_makeJ _ _ _ _ _ _ 0 _) as [J2| |] eqn:E2; [|injection E as <- _; exact S1|injection E as <- _; exact S1]. apply makeJ_keeps in E2.
  destruct (assign_mat m1 J2 1 S1 E2 ltac:(lia)) as (m2 & EM2 & S2 & _). rewrite EM2 in E.
  destruct (ros_stencil m2 _) as [m3| |] eqn:E3; [|injection E as <- _; exact S2|injection E as <- _; exact S2]. injection E as <- _. exact (stencil_store _ _ _ S2 E3).
Qed.
Lemma W_store hd m m' : store_ok m -> ros_W hd m = Ret m' -> store_ok m'.
Proof.
  intros S E. pose proof S as (L & OK & F0 & F1 & F2). unfold ros_W in E. destruct (addScaledIdentity _ _) as [i| |] eqn:EI; try discriminate. cbn [obind] in E.
  assert (RZ : row_major (sdat (makeZero (obj m 2)))) by (eapply row_major_keys; [symmetry; exact (proj1 (proj2 (makeZero_ok (obj m 2) (0, 0) (OK 2))))|apply OK]).
  destruct (identity_keeps _ _ _ EI RZ) as (RI & FI).
  assert (S1 : store_ok (upd m 2 i)) by (apply (kept_store m); [exact S|apply kept_upd; [exact OK|exact RI|rewrite FI; reflexivity]]).
  destruct (mret (sminuseq _ (upd m 2 i) _ _)) as [m2| |] eqn:E2; try discriminate. cbn [obind] in E. apply mret_inv in E2. destruct E2 as (u2 & E2). unfold sminuseq in E2.
  pose proof (kept_store _ _ S1 (rfor_keeps _ _ (fun _ x y => nsub QcNum y x) _ _ _ _ _ (proj1 (proj2 S1)) E2)) as S2.
  apply mret_inv in E. destruct E as (u3 & E). unfold sminuseq in E. exact (kept_store _ _ S2 (rfor_keeps _ _ (fun _ x y => nsub QcNum y x) _ _ _ _ _ (proj1 (proj2 S2)) E)).
Qed.
Lemma update_store hd r r' o : store_ok (ro_mats r) -> ros_update hd r = (r', o) -> store_ok (ro_mats r').
Proof.
  intros S E. unfold ros_update, rfail in E. destruct (Qceqb _ _); [injection E as <- _; exact S|]. destruct (lookup _ _); [injection E as <- _; exact S|].
  destruct (ros_W hd (ro_mats r)) as [m| |] eqn:EW; [|injection E as <- _; exact S|injection E as <- _; exact S]. pose proof (W_store _ _ _ S EW) as SW.
  destruct (setMatrix _); injection E as <- _; exact SW.
Qed.
Lemma init_store hard n2 n1 f t x0 f0 hd r r' o : store_ok (ro_mats r) -> ros_init hard n2 n1 f t x0 f0 hd r = (r', o) -> store_ok (ro_mats r').
Proof.
  intros S E. unfold ros_init in E. destruct hard.
  - destruct (ros_build _ _ _ _ _) as [r2 o2] eqn:EB. pose proof (build_store _ _ _ _ (mkRos n2 n1 (ro_mats r) (ro_cache r) (ro_lu r) (ro_hd r)) _ _ S EB) as S2.
    destruct o2; [exact (update_store _ _ _ _ S2 E)|injection E as <- _; exact S2|injection E as <- _; exact S2].
  - exact (update_store _ _ _ _ S E).
Qed.
Lemma linSolve_mats x hd r r' y : ros_linSolve x hd r = Ret (r', y) -> ro_mats r' = ro_mats r.
Proof.
  unfold ros_linSolve. destruct (ro_lu r); [|discriminate]. destruct (lookup _ _); [|discriminate].
  repeat (match goal with |- obind ?o _ = Ret _ -> _ => destruct o; cbn [obind]; try discriminate end). intros Q. injection Q as <- _. reflexivity.
Qed.
Section Use.
Context {W : Type} (ev : events QcNum W) (c : rcfg W).
Lemma solve_mats h x r r' y : q_solve c h x r = Ret (r', y) -> ro_mats r' = ro_mats r.
Proof. unfold q_solve. destruct (_ && _); [discriminate|]. apply linSolve_mats. Qed.
Lemma qinit_store always s s' o : store_ok (ro_mats (q_ros s)) -> q_init c always s = (s', o) -> store_ok (ro_mats (q_ros s')).
Proof.
  intros S E. unfold q_init, rfail in E. set (s1 := if q_k s =? 0 then _ else _) in E. assert (S1 : store_ok (ro_mats (q_ros s1))) by (unfold s1; destruct (q_k s =? 0); exact S).
  match type of E with match ?oo with _ => _ end = _ => destruct oo as [f0| |] end; [|injection E as <- _; exact S1|injection E as <- _; exact S1].
  destruct (ros_init _ _ _ _ _ _ _ _ _) as [r oo] eqn:EI. injection E as <- _. cbn [q_ros]. exact (init_store _ _ _ _ _ _ _ _ _ _ _ S EI).
Qed.
Ltac step_through E := repeat (match type of E with
  | (match ?o with _ => _ end) = (_, _) => destruct o; cbv beta iota in E
  | (_, _) = (_, _) => fail 1
  end).
Lemma w1_store s s' o : store_ok (ro_mats (q_ros s)) -> w1_step ev c s = (s', o) -> store_ok (ro_mats (q_ros s')).
Proof.
  intros S E. unfold w1_step, qfail in E. destruct (q_init c true s) as [s1 o1] eqn:EI. pose proof (qinit_store _ _ _ _ S EI) as S1.
  destruct o1; [|injection E as <- _; exact S1|injection E as <- _; exact S1].
  destruct (rc_before _ _ _ _ _); [|injection E as <- _; exact S1|injection E as <- _; exact S1].
  destruct (ev_start _ _ _ _); [|injection E as <- _; exact S1|injection E as <- _; exact S1].
  destruct (w1_next _ _ _ _ _ _) as [[r2 next]| |] eqn:EN; [|injection E as <- _; exact S1|injection E as <- _; exact S1].
  assert (S2 : ro_mats r2 = ro_mats (q_ros s1)).
  { unfold w1_next in EN. destruct (qcpy _ _); try discriminate. cbn [obind] in EN. destruct (q_solve _ _ _ _) as [[r3 k]| |] eqn:EQ; try discriminate. cbn [obind fst snd] in EN. destruct (qcpy _ _); try discriminate. cbn [obind] in EN. destruct (qadd _ _); try discriminate. injection EN as <- _. exact (solve_mats _ _ _ _ _ EQ). }
  cbn [fst snd] in E. destruct (ev_end _ _ _ _ _) as [[w3 er]| |]; injection E as <- _; cbn [q_ros]; rewrite S2; exact S1.
Qed.
Ltac mats := repeat (cbn [obind fst snd]; match goal with
  | |- obind (q_solve _ _ _ _) _ = Ret _ -> _ => let E := fresh "E" in destruct (q_solve _ _ _ _) as [[? ?]| |] eqn:E; [apply solve_mats in E|discriminate|discriminate]
  | |- obind ?o _ = Ret _ -> _ => destruct o; [|discriminate|discriminate]
  | |- Ret _ = Ret _ -> _ => let Q := fresh "Q" in intros Q; inversion Q; subst; congruence
  end).
Lemma stages_mats f n t x f0 h r r' k1 k2 next : sw_stages c f n t x f0 h r = Ret (r', k1, k2, next) -> ro_mats r' = ro_mats r.
Proof. unfold sw_stages. mats. Qed.
Lemma error_mats f n t h k1 k2 next f1 r r' e : sw_error c f n t h k1 k2 next f1 r = Ret (r', e) -> ro_mats r' = ro_mats r.
Proof. unfold sw_error. mats. Qed.
Lemma attempt_store b s s' o : store_ok (ro_mats (q_ros s)) -> sw_attempt ev c b s = (s', o) -> store_ok (ro_mats (q_ros s')).
Proof.
  intros S E. unfold sw_attempt, qfail in E. destruct (if b then q_init c false s else (s, Ret tt)) as [s1 o1] eqn:EI.
  assert (S1 : store_ok (ro_mats (q_ros s1))) by (destruct b; [exact (qinit_store _ _ _ _ S EI)|injection EI as <- _; exact S]).
  destruct o1; [|injection E as <- _; exact S1|injection E as <- _; exact S1].
  destruct (rc_before _ _ _ _ _); [|injection E as <- _; exact S1|injection E as <- _; exact S1].
  destruct (ev_start _ _ _ _) as [wz| |]; [|injection E as <- _; exact S1|injection E as <- _; exact S1].
  destruct (sw_stages _ _ _ _ _ _ _ _) as [[[[r1 k1] k2] next]| |] eqn:ES; [|injection E as <- _; exact S1|injection E as <- _; exact S1]. apply stages_mats in ES.
  destruct (rc_rhs _ _ _ _) as [f1| |]; [|injection E as <- _; exact S1|injection E as <- _; exact S1].
  assert (T : forall r2 (p : Qc * bool * bool) err, store_ok (ro_mats r2) -> (let '(h', accept, change) := p in
    let hnew := if change then h' else q_h s1 in
    if accept then
      match ev_end ev (q_x s1) next (q_t s1 + q_h s1)%Qc wz with
      | Ret e => let (w3, er) := e in
        match (if ev_trunc er then rc_rhs c w3 (ev_t er) (ev_x er) else Ret f1) with
        | Ret g => if change && Qcleb hnew (rc_hmin c) then (mkRst (ev_t er) (ev_x er) hnew g (q_k s1) r2 w3, ATooSmall)
                   else (mkRst (ev_t er) (ev_x er) hnew g (q_k s1) r2 w3, AAccepted (mkPost (N:=QcNum) (q_h s1) true change (ev_trunc er) err (ev_izf er) (ev_type er)))
        | Throw => (mkRst (ev_t er) (ev_x er) (q_h s1) (q_f0 s1) (q_k s1) r2 w3, AThrow) | UB => (mkRst (ev_t er) (ev_x er) (q_h s1) (q_f0 s1) (q_k s1) r2 w3, AUb) end
      | Throw => (mkRst (q_t s1) (q_x s1) (q_h s1) (q_f0 s1) (q_k s1) r2 wz, AThrow) | UB => (mkRst (q_t s1) (q_x s1) (q_h s1) (q_f0 s1) (q_k s1) r2 wz, AUb) end
    else if change && Qcleb hnew (rc_hmin c) then (mkRst (q_t s1) (q_x s1) hnew (q_f0 s1) (q_k s1) r2 wz, ATooSmall)
    else (mkRst (q_t s1) (q_x s1) hnew (q_f0 s1) (q_k s1) r2 wz, ARejected (mkPost (N:=QcNum) (q_h s1) false change false err None 0%Z))) = (s', o) -> store_ok (ro_mats (q_ros s'))).
  { clear E. intros r2 [[h' accept] change] err S2 E. cbv zeta in E. destruct accept.
    - destruct (ev_end _ _ _ _ _) as [[w3 er]| |]; [|injection E as <- _; exact S2|injection E as <- _; exact S2].
      destruct (if ev_trunc er then _ else _); [|injection E as <- _; exact S2|injection E as <- _; exact S2]. destruct (_ && _); injection E as <- _; exact S2.
    - destruct (_ && _); injection E as <- _; exact S2. }
  destruct (rc_nocheck c).
  - rewrite <- ES in S1. exact (T r1 (q_h s1, true, false) 0%Qc S1 E).
  - destruct (sw_error _ _ _ _ _ _ _ _ _ _) as [[r2 err]| |] eqn:EE; [|injection E as <- _; exact S1|injection E as <- _; exact S1]. apply error_mats in EE. rewrite <- ES, <- EE in S1. exact (T r2 (rc_sc c (q_h s1) err) err S1 E).
Qed.
Lemma loop_store : forall fuel b s s' l o, store_ok (ro_mats (q_ros s)) -> sw_loop ev c fuel b s = (s', l, o) -> store_ok (ro_mats (q_ros s')).
Proof.
  induction fuel as [|fuel IH]; intros b s s' l o S E; cbn [sw_loop] in E; [injection E as <- _ _; exact S|].
  destruct (sw_attempt ev c b s) as [s1 o1] eqn:EA. pose proof (attempt_store _ _ _ _ S EA) as S1. destruct o1; try (injection E as <- _ _; exact S1).
  destruct (sw_loop ev c fuel false s1) as [[s2 l2] o2] eqn:EL. injection E as <- _ _. exact (IH _ _ _ _ _ S1 EL).
Qed.
Lemma set_store t x soft s s' o : store_ok (ro_mats (q_ros s)) -> sw_set c t x soft s = (s', o) -> store_ok (ro_mats (q_ros s')).
Proof.
  intros S E. unfold sw_set, rfail in E. destruct soft; [|injection E as <- _; exact S]. destruct (rc_rhs _ _ _ _); [|injection E as <- _; exact S|injection E as <- _; exact S].
  destruct (_ <? _); injection E as <- _; exact S.
Qed.
End Use.
Lemma used_store {W} (s : rst W) : used s -> store_ok (ro_mats (q_ros s)).
Proof.
  induction 1 as [w|s h H IH|s t x soft H IH|s c t x soft s' o H IH E NU|s ev c s' o H IH E NU|s ev c fuel s' l o H IH E NU]; try exact IH.
  - apply store_ok_new.
  - exact (set_store c t x soft s s' o IH E).
  - exact (w1_store ev c s s' o IH E).
  - exact (loop_store ev c fuel true s s' l o IH E).
Qed.
