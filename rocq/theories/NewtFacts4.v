(** NewtFacts4.v - proofs about the descent direction with LU, affine systems and whole runs. *)
From Coq Require Import List Arith Bool QArith Qcanon Lia Lqa Qfield.
From Verif Require Import Base BaseFacts SMap SpModel SpSpec SpFacts MapModel JacModel JacSpec JacFacts VecModel VOps LUModel LUSpec LUFacts LUFacts2 LUFacts3 LUFacts4 LUFacts5
  NewtModel NewtSpec NewtFacts NewtFacts2 NewtFacts3.
Import ListNotations.
Local Open Scope nat_scope.

(** The factorizer between calls: empty, or with the skyline of an earlier usable Jacobian. *)
Definition dd_inv (n : nat) (s : lu) : Prop :=
  s = lu_empty \/ exists a, acceptable a n /\ stencil_covers a n /\ wf s n /\ ulay s = mk_layout n a.
Lemma skyline_fill a b n : stencil_covers a n -> (forall r c, LUSpec.stored b r c -> in_skyline a r c) -> fill_covered a (mval b) n.
Proof.
  intros SC HB L U HL HU HP r c Hrc HN. apply (U_zero_above n L U b c); auto; try lia.
  intros r' Hr' Hs. apply HB in Hs. destruct Hs as [[X _]|[X [r0 [Hr0 Hs]]]]; [lia|].
  destruct (SC r c Hrc) as [c' [Hc' Hs']]; [exists r0; split; [lia|assumption]|]. exact (HN _ Hc' Hs').
Qed.
Lemma set_and_solve n s b f0 : dd_inv n s -> distinct_keys b -> acceptable b n -> leading_nonsingular n (mval b) -> stencil_covers b n -> length f0 = n ->
  exists s1 s2 x, (if lu_is_empty s then setMatrix b else setMatrixFast s b) = Ret s1 /\ solve s1 f0 = Ret (s2, x) /\ length x = n /\
    solves n (mval b) (vfun x) (vfun f0) /\ dd_inv n s2.
Proof.
  intros I ND AC NS SC L.
  assert (FR : exists s1 s2 x, setMatrix b = Ret s1 /\ solve s1 f0 = Ret (s2, x) /\ length x = n /\ solves n (mval b) (vfun x) (vfun f0) /\ dd_inv n s2).
  { destruct (proj2 (setMatrix_accepts_iff b ND) (ex_intro _ n AC)) as [s1 E1]. destruct (setMatrix_inv b n s1 ND AC E1) as [HY HH].
    assert (HR1 : represents s1 n (mval b)) by (left; auto).
    destruct (lu_solve_stencil b n s1 f0 ND AC E1 NS (or_introl SC) L) as [s2 [x [E2 [Lx SX]]]].
    destruct (solve_ok s1 n (mval b) f0 HR1 NS ltac:(lia)) as (st2' & x' & E2' & _ & EY & HD & _). rewrite E2 in E2'. injection E2' as <- <-.
    exists s1, s2, x. repeat split; auto. right. exists b. split; [assumption|]. split; [assumption|]. split; [apply HD|congruence]. }
  destruct I as [->|[a [AA [SA [W LY]]]]]; [exact FR|].
  destruct (lu_is_empty s) eqn:EM; [exact FR|].
  destruct (forallb (fun e => in_profile s (fst (fst e)) (snd (fst e))) b) eqn:FB.
  - assert (HB : forall r c, LUSpec.stored b r c -> in_skyline a r c).
    { intros r c [v Hs]. rewrite forallb_forall in FB. specialize (FB _ Hs). simpl in FB. destruct (proj1 AC r c) as [Hr Hc]; [exists v; assumption|].
      apply (in_skyline_profile a n s r c AA LY Hr Hc). assumption. }
    destruct (fast_ok a n s b AA W LY ND HB) as (s1 & E1 & LY1 & HH).
    assert (HR1 : represents s1 n (mval b)) by (left; auto).
    destruct (proj1 (solve_correct_iff a (mval b) n s1 HR1 ltac:(rewrite LY1; auto) NS) (skyline_fill a b n SA HB) f0 L) as (s2 & x & E2 & Lx & SX).
    destruct (solve_ok s1 n (mval b) f0 HR1 NS ltac:(lia)) as (st2' & x' & E2' & _ & EY & HD & _). rewrite E2 in E2'. injection E2' as <- <-.
    exists s1, s2, x. repeat split; auto. right. exists a. split; [assumption|]. split; [assumption|]. split; [apply HD|congruence].
  - assert (EX : exists r c, LUSpec.stored b r c /\ in_profile s r c = false).
    { clear -FB. induction b as [|[[r c] v] b I]; simpl in FB; [discriminate|]. apply andb_false_iff in FB. destruct FB as [F|F].
      - exists r, c. split; [exists v; simpl; auto|assumption].
      - destruct (I F) as [r' [c' [[v' H1] H2]]]. exists r', c'. split; [exists v'; simpl; auto|assumption]. }
    rewrite (setMatrixFast_fallback s n b W (proj1 AC) EX). exact FR.
Qed.

Lemma vfun_scale x k i : vfun (lscale (N:=QcNum) x k) i = (vfun x i * k)%Qc.
Proof.
  unfold vfun, lscale. destruct (lt_dec i (length x)) as [L|L].
  - rewrite (nth_indep _ 0%Qc (0 * k)%Qc) by (rewrite map_length; assumption). exact (map_nth (fun x => (x * k)%Qc) x 0%Qc i).
  - rewrite (nth_overflow x) by lia. rewrite nth_overflow; [ring|]. rewrite map_length. exact (proj1 (Nat.nlt_ge _ _) L).
Qed.
Lemma solves_scale n A x b k : solves n A x b -> solves n A (fun i => x i * k)%Qc (fun i => b i * k)%Qc.
Proof. intros H r Hr. rewrite <- (H r Hr), <- qsum_scale_r. apply qsum_ext. intros. ring. Qed.
Lemma solves_ext n A x y b c : (forall i, x i = y i) -> (forall i, b i = c i) -> solves n A x b -> solves n A y c.
Proof. intros E1 E2 H r Hr. rewrite <- E2, <- (H r Hr). apply qsum_ext. intros. rewrite E1. reflexivity. Qed.

Lemma simple_dir_ok dx jt n hard g x0 f0 it s : dd_inv n s -> usable dx jt n (hard, g, x0, f0) ->
  exists d s', simple_dir dx jt g x0 f0 it s = Ret (d, s') /\ newton_direction dx jt n (hard, g, x0, f0) d /\ dd_inv n s'.
Proof.
  intros I [L [J [EJ [ND [AC [NS SC]]]]]]. unfold simple_dir. rewrite EJ. cbn [obind].
  destruct (set_and_solve n s (sdat J) f0 I ND AC NS SC L) as [s1 [s2 [x [E1 [E2 [Lx [SX I2]]]]]]].
  rewrite E1. cbn [obind]. unfold lu_direction. rewrite E2. cbn [obind fst snd].
  eexists. eexists. split; [reflexivity|]. split; [|assumption]. split; [exact (eq_trans (lscale_length (N:=QcNum) x _) Lx)|]. exists J. split; [assumption|].
  apply (solves_scale n _ _ _ (- (1))%Qc) in SX. eapply solves_ext; [| |exact SX].
  - intros i. symmetry. apply vfun_scale.
  - intros i. cbv beta; ring.
Qed.
Lemma simple_hist_ok dx jt n : forall h s, dd_inv n s -> Forall (usable dx jt n) h ->
  exists ds s', simple_hist dx jt h s = Ret (ds, s') /\ Forall2 (newton_direction dx jt n) h ds /\ dd_inv n s'.
Proof.
  induction h as [|[[[hard g] x0] f0] h IH]; intros s I U; simpl. { exists [], s. repeat split; auto. }
  inversion U as [|? ? U1 U2]; subst. 
  destruct (simple_dir_ok dx jt n hard g x0 f0 0 (if hard then lu_empty else s)) as [d [s1 [E1 [D1 I1]]]]; auto.
  { destruct hard; [left; reflexivity|assumption]. }
  rewrite E1. cbn [obind fst snd]. destruct (IH s1 I1 U2) as [ds [s2 [E2 [D2 I2]]]]. rewrite E2. cbn [obind fst snd].
  exists (d :: ds), s2. repeat split; auto.
Qed.

(** * Affine systems *)
Lemma ls_loop_total {N : Num} (lit : ls_lit N) g F n m dir x0 f0n2 : computes g F n m -> length x0 = n -> length dir = n ->
  forall k a st, exists r, ls_loop lit g dir x0 f0n2 k a st = Ret r.
Proof.
  intros [_ [_ C]] L1 L2. induction k as [|k I]; intros a st; simpl; [eauto|].
  unfold ls_next, ladd. rewrite lzip_ok by (rewrite lscale_length; lia). cbn [obind].
  match goal with |- context [mapf g ?y] => destruct (C y) as [E _]; [rewrite map_length, seq_length; assumption|rewrite E] end. cbn [obind].
  match goal with |- context [if nltb N (ls_best ?s) _ then _ else _] => destruct (nltb N (ls_best s) (l_eta lit)); [eauto|apply I] end.
Qed.
Lemma lineSearch_total {N : Num} (lit : ls_lit N) g F n m dir x0 f0 res max : computes g F n m -> length x0 = n -> length dir = n ->
  exists r, lineSearch lit max g dir x0 f0 res = Ret r.
Proof.
  intros C L1 L2. unfold lineSearch.
  match goal with |- context [ls_loop lit g dir x0 ?q max ?a ?s] => destruct (ls_loop_total lit g F n m dir x0 q C L1 L2 max a s) as [[st1 b1] E] end.
  rewrite E. cbn [obind]. destruct (negb b1 && neqb N (ls_best st1) (n1 N)); [|eauto].
  match goal with |- context [ls_loop lit g dir x0 ?q max ?a ?s] => destruct (ls_loop_total lit g F n m dir x0 q C L1 L2 max a s) as [[st2 b2] E2] end.
  rewrite E2. cbn [obind]. eauto.
Qed.
Lemma row_major_mval (d : list (key * Qc)) : row_major (N:=QcNum) d -> forall r c v, In ((r, c), v) d -> mval d r c = v.
Proof.
  induction d as [|[[r' c'] v'] d I]; intros R r c v H; [destruct H|]. destruct R as [R1 R2]. cbn [mval].
  destruct H as [H|H].
  - injection H as <- <- <-. rewrite !Nat.eqb_refl. reflexivity.
  - destruct (Nat.eqb r' r && Nat.eqb c' c) eqn:E; [|eauto]. apply andb_true_iff in E. destruct E as [E1 E2]. apply Nat.eqb_eq in E1, E2. subst.
    exfalso. exact (before_irrefl _ (R1 _ _ H)).
Qed.
Lemma jac_mval (J : smat QcNum) r c : row_major (sdat J) -> mval (sdat J) r c = get J (r, c).
Proof.
  intros R. unfold get. destruct (sfind J (r, c)) as [v|] eqn:E.
  - apply row_major_mval; [assumption|]. exact (proj1 (sfind_In J (r, c) v R) E).
  - apply mval_notin. intros [v H]. exact (proj1 (sfind_None J (r, c) R) E v H).
Qed.
Lemma row_major_distinct (d : list (key * Qc)) : row_major (N:=QcNum) d -> distinct_keys d.
Proof.
  unfold distinct_keys. induction d as [|[k v] d I]; intros R; simpl; [constructor|]. destruct R as [R1 R2]. constructor; [|auto].
  intros H. apply in_map_iff in H. destruct H as [[k' v'] [E H]]. simpl in E. subst k'. exact (before_irrefl _ (R1 _ _ H)).
Qed.
Lemma provider_affine n A b F (g : vmapping QcNum) (x0 : list Qc) (dx : Qc) : computes g F n n -> affine n A b F -> length x0 = n -> dx <> 0%Qc ->
  exists J, default_provider (N:=QcNum) dx None g x0 = Ret J /\ row_major (sdat J) /\ (forall r c, LUSpec.stored (sdat J) r c <-> r < n /\ c < n /\ A r c <> 0%Qc) /\
    (forall r c, r < n -> c < n -> mval (sdat J) r c = A r c).
Proof.
  intros CF AF L D. destruct (computeJacobian_ok (N:=QcNum) dx g F n x0 CF L) as [J [E [FJ [SZ [RM [V V2]]]]]].
  exists (to_fast J). unfold default_provider. rewrite E. cbn [obind trim_opt fst]. split; [reflexivity|]. cbn [to_fast sdat]. split; [assumption|].
  assert (G : forall r c, r < n -> c < n -> (get J (r, c) = A r c /\ (sfind J (r, c) <> None <-> A r c <> 0%Qc))).
  { destruct (computeJacobian_affine n A b F g x0 dx CF AF L D) as [J' [E' [_ H]]]. rewrite E in E'. injection E' as <-.
    intros r c Hr Hc. destruct (H r c Hr Hc) as [H1 H2]. split; [assumption|]. rewrite <- H2. unfold hasIndex. destruct (sfind J (r, c)); split; congruence. }
  split.
  - intros r c. split.
    + intros [v H]. assert (S : sfind J (r, c) = Some v) by (exact (proj2 (sfind_In J (r, c) v RM) H)).
      destruct (le_lt_dec n r) as [Q|Q]; [rewrite V2 in S by auto; discriminate|]. destruct (le_lt_dec n c) as [Q'|Q']; [rewrite V2 in S by auto; discriminate|].
      repeat split; auto. apply (G r c Q Q'). rewrite S. discriminate.
    + intros [Hr [Hc H]]. apply (G r c Hr Hc) in H. destruct (sfind J (r, c)) as [v|] eqn:S; [|congruence]. exists v. exact (proj1 (sfind_In J (r, c) v RM) S).
  - intros r c Hr Hc. rewrite jac_mval by assumption. apply G; assumption.
Qed.
Lemma usable_affine n A b F (g : vmapping QcNum) (x0 f0 : list Qc) (dx : Qc) hard : computes g F n n -> affine n A b F -> length x0 = n -> dx <> 0%Qc ->
  length f0 = n -> solvable_pattern n A -> usable dx None n (hard, g, x0, f0).
Proof.
  intros CF AF L D Lf [NS [P1 P2]]. destruct (provider_affine n A b F g x0 dx CF AF L D) as [J [E [RM [ST V]]]].
  split; [assumption|]. exists J. split; [assumption|]. split; [apply row_major_distinct; assumption|]. split; [|split].
  - split; [intros r c H; apply ST in H; tauto|]. intros i Hi. destruct (P1 i Hi) as [[c [H1 H2]] [r [H3 H4]]]. split.
    + exists c. split; [apply ST; repeat split; auto; lia|assumption].
    + exists r. split; [apply ST; repeat split; auto; lia|assumption].
  - intros k Hk x Hx c Hc. apply (NS k Hk x); [|assumption]. intros r Hr. rewrite <- (Hx r Hr). apply qsum_ext. intros j Hj. rewrite V by lia. reflexivity.
  - intros r c Hrc [r' [H1 H2]]. apply ST in H2. destruct (P2 r c Hrc) as [c' [H3 H4]]; [exists r'; tauto|]. exists c'. split; [lia|]. apply ST. repeat split; auto; lia.
Qed.

Lemma div_ge_mul a b t : (0 < b)%Qc -> (t <= a / b)%Qc -> (t * b <= a)%Qc.
Proof.
  intros P L. assert (Q : (a = a / b * b)%Qc) by (field; intros Z; rewrite Z in P; qclra).
  rewrite Q. apply Qcmult_le_compat_r; [assumption|]. apply Qclt_le_weak. assumption.
Qed.
Section Affine.
Context (n : nat) (A : nat -> nat -> Qc) (b : nat -> Qc) (F : list Qc -> list Qc) (g : vmapping QcNum) (dx : Qc) (lit : ls_lit QcNum) (mt : nat).
Hypothesis CF : computes g F n n.
Hypothesis AF : affine n A b F.
Hypothesis DX : dx <> 0%Qc.
Hypothesis SP : solvable_pattern n A.
Hypothesis LO : ls_order lit.
Hypothesis MT : 0 < mt.
Notation dd := (simple_dd dx None g).
Notation P := (perf QcNum (S:=LUModel.lu)).
Definition ap_ok (p : P) : Prop := pf_ok g p /\ length (p_x p) = n /\ dd_inv n (p_dd p).

Lemma nth_affine x r : length x = n -> r < n -> nth r (F x) 0%Qc = (b r + qsum n (fun c => A r c * nth c x 0))%Qc.
Proof. intros L H. rewrite (AF x L). exact (nth_map_seq n (fun r => (b r + qsum n (fun c => A r c * nth c x 0))%Qc) 0%Qc r H). Qed.
Lemma len_F x : length x = n -> length (F x) = n.
Proof. intros L. exact (proj2 (proj2 (proj2 CF) x L)). Qed.
Lemma lnorm2_zero (f : list Qc) : lnorm2 (N:=QcNum) f = 0%Qc <-> forall v, In v f -> v = 0%Qc.
Proof.
  unfold lnorm2. simpl. assert (G : forall s, (0 <= s)%Qc -> (fold_left (fun s x => s + x * x)%Qc f s = 0%Qc <-> s = 0%Qc /\ forall v, In v f -> v = 0%Qc)).
  { clear. induction f as [|x f I]; intros s P; simpl; [intuition|]. assert (0 <= x * x)%Qc by qcnra. rewrite I by qclra. split.
    - intros [E H']. assert (s = 0%Qc) by qclra. assert (X : (x * x = 0)%Qc) by qclra. apply Qcmult_eq0 in X. split; [assumption|]. intros v [<-|Hv]; [tauto|auto].
    - intros [E H']. split; [rewrite E, (H' x) by auto; ring|auto]. }
  rewrite G by (apply Qcle_refl). intuition.
Qed.
Lemma qlen (d : list Qc) k : @length Qc (lscale (N:=QcNum) d k) = length d.
Proof. exact (lscale_length (N:=QcNum) d k). Qed.
Lemma ladd_val (x d : list Qc) y : length d = length x -> ladd (N:=QcNum) x d = Ret y -> forall i, nth i y 0%Qc = (nth i x 0 + nth i d 0)%Qc.
Proof.
  intros L E i. unfold ladd in E. rewrite lzip_ok in E by (change (length x <= length d); lia). injection E as <-. destruct (lt_dec i (length x)) as [H|H].
  - exact (nth_map_seq (length x) (fun j => Qcplus (nth j x 0%Qc) (nth j d 0%Qc)) 0%Qc i H).
  - rewrite (nth_overflow x) by lia. rewrite (nth_overflow d) by lia. transitivity 0%Qc; [apply nth_overflow; rewrite map_length, seq_length; exact (proj1 (Nat.nlt_ge _ _) H)|change (0 = 0 + 0)%Qc; ring].
Qed.
Lemma ladd_zero_dir (x d y : list Qc) rt : length d = length x -> (forall i, vfun d i = 0%Qc) -> ladd (N:=QcNum) x (lscale (N:=QcNum) d rt) = Ret y -> y = x.
Proof.
  intros L Z E. apply (list_ext 0%Qc); [exact (lzip_length _ _ _ _ E)|]. intros i Hi. rewrite (ladd_val x _ y) with (2 := E) by (rewrite qlen; assumption).
  pose proof (vfun_scale d rt i) as V. rewrite Z in V. unfold vfun in V at 1. rewrite V. ring.
Qed.
Lemma newton_root x d y : length x = n -> length d = n -> solves n A (vfun d) (fun i => - vfun (F x) i)%Qc -> ladd (N:=QcNum) x (lscale (N:=QcNum) d 1%Qc) = Ret y ->
  forall v, In v (F y) -> v = 0%Qc.
Proof.
  intros L Ld SD E v I. assert (Ly : length y = n) by (rewrite <- L; exact (lzip_length _ _ _ _ E)).
  destruct (In_nth _ _ 0%Qc I) as [r [Hr Ev]]. rewrite (len_F y Ly) in Hr. rewrite (nth_affine y r Ly Hr) in Ev. subst v.
  pose proof (SD r Hr) as S. unfold vfun in S at 2. rewrite (nth_affine x r L Hr) in S.
  rewrite (qsum_ext n _ (fun c => A r c * nth c x 0 + A r c * vfun d c)%Qc).
  - rewrite qsum_add, S. ring.
  - intros c Hc. rewrite (ladd_val x _ y) with (2 := E) by (rewrite qlen; lia). pose proof (vfun_scale d 1%Qc c) as V. unfold vfun in V at 1. rewrite V. ring.
Qed.
Lemma direction_ok x s it : length x = n -> dd_inv n s ->
  exists d s', simple_dir dx None g x (F x) it s = Ret (d, s') /\ length d = n /\ solves n A (vfun d) (fun i => - vfun (F x) i)%Qc /\ dd_inv n s'.
Proof.
  intros L I. destruct (simple_dir_ok dx None n false g x (F x) it s I (usable_affine n A b F g x (F x) dx false CF AF L DX (len_F x L) SP)) as [d [s' [E [[Ld [J [EJ SD]]] I']]]].
  exists d, s'. repeat split; auto. destruct (provider_affine n A b F g x dx CF AF L DX) as [J' [EJ' [_ [_ V]]]]. rewrite EJ in EJ'. injection EJ' as <-.
  intros r Hr. rewrite <- (SD r Hr). apply qsum_ext. intros c Hc. rewrite V by assumption. reflexivity.
Qed.
Lemma affine_iteration p it : ap_ok p ->
  exists q st, pf_iteration dd lit mt g it p = Ret (q, st) /\ ap_ok q /\ (forall v, In v (F (p_x q)) -> v = 0%Qc) /\ (forall v, In v (p_f q) -> v = 0%Qc) /\
    ((forall v, In v (F (p_x p)) -> v = 0%Qc) -> p_x q = p_x p) /\ est_set (p_x q) (p_f q) (p_est p) = Ret (p_est q) /\
    st = match est_status (p_est q) with EContinue => if neqb QcNum (p_ratio q) (n0 QcNum) then EDiverged else EContinue | s => s end /\ ((exists v, In v (F (p_x p)) /\ v <> 0%Qc) -> p_ratio q <> 0%Qc).
Proof.
  intros [OK [L I]]. destruct (proj2 (proj2 CF) (p_x p) L) as [Mx Lx].
  assert (ER : exists p1, pf_residual g p = Ret (F (p_x p), p1)).
  { unfold pf_residual. destruct (p_valid p) eqn:V; [|rewrite Mx; eexists; reflexivity]. destruct OK as [OK _]. specialize (OK V). rewrite OK in Mx. injection Mx as ->. eauto. }
  destruct ER as [p1 ER]. destruct (pf_residual_ok g p (F (p_x p)) p1 OK ER) as [OK1 [_ [X1 [F1 [V1 [D1 E1]]]]]].
  destruct (direction_ok (p_x p) (p_dd p) it L I) as [d [s [ED [Ld [SD I']]]]].
  destruct (lineSearch_total lit g F n n d (p_x p) (F (p_x p)) (p_f p1) mt CF L Ld) as [[[rt f] lg] ELS].
  assert (EX : exists x, ladd (p_x p) (lscale (N:=QcNum) d rt) = Ret x).
  { unfold ladd. rewrite lzip_ok; [eauto|]. rewrite lscale_length. change (length (p_x p) <= @length Qc d). change (@length Qc (p_x p) = n) in L. change (@length Qc (p_x p) <= @length Qc d). lia. }
  destruct EX as [x EX].
  assert (Lx1 : @length Qc x = n) by (rewrite <- L; exact (lzip_length _ _ _ _ EX)).
  assert (ES : exists e, est_set x f (p_est p) = Ret e). { unfold est_set. destruct OK as [_ OK]. rewrite OK. unfold lsub. rewrite lzip_ok; [cbn [obind]; eauto|]. change (@length Qc x <= @length Qc (p_x p)). change (@length Qc (p_x p) = n) in L. lia. }
  destruct ES as [e ES].
  assert (IT : exists st, pf_iteration dd lit mt g it p = Ret (mkPerf x f (p_valid p1) rt e s, st)).
  { unfold pf_iteration. rewrite ER. cbn [obind]. cbn [dd_dir simple_dd]. rewrite X1, D1, ED. cbn [obind]. rewrite ELS. cbn [obind]. rewrite EX. cbn [obind]. rewrite E1, ES. cbn [obind]. eauto. }
  destruct IT as [st IT]. exists (mkPerf x f (p_valid p1) rt e s), st. split; [exact IT|].
  destruct (pf_iteration_ok dd lit mt g LO qc_zero_step it p _ st OK IT) as [OKq [Vq [f' [d' [s' [G1 [G2 [G3 [G4 [G5 [G6 [G7 G8]]]]]]]]]]]].
  cbn [p_x p_f p_dd p_ratio p_est] in *.
  assert (MF : F x = f). { destruct (proj2 (proj2 CF) x Lx1) as [H _]. rewrite H in G2. injection G2 as ->. reflexivity. }
  split; [split; [exact OKq|split; assumption]|].
  (* the trial alpha = 1 gives a zero residual; the chosen one is not worse *)
  destruct (lineSearch_ok lit g d (p_x p) (F (p_x p)) LO _ _ _ _ _ ELS) as [fw [bw [nf [nb [Q1 [Q2 [Q3 [Q4 [Q5 [Q6 [Q7 [Q8 [Q9 [Q10 Q11]]]]]]]]]]]]]].
  assert (NF : 0 < nf). { destruct nf; [|lia]. destruct (Q8 MT) as [pre [e0 [Z _]]]. rewrite Z in Q2. rewrite map_app in Q2. destruct pre; discriminate. }
  assert (T1 : exists r1, In (1%Qc, r1) lg). { rewrite Q1. destruct nf; [lia|]. destruct fw as [|[a1 r1] fw]; [discriminate|]. simpl in Q2. injection Q2 as Ea _. subst a1. exists r1. left. reflexivity. }
  destruct T1 as [r1 T1]. destruct (Q6 _ _ T1) as [ff [[x1 [R1 R2]] R3]].
  assert (Lx2 : length x1 = n) by (rewrite <- L; exact (lzip_length _ _ _ _ R1)).
  assert (FZ : forall v, In v ff -> v = 0%Qc). { destruct (proj2 (proj2 CF) x1 Lx2) as [H _]. rewrite H in R2. injection R2 as <-. exact (newton_root (p_x p) d x1 L Ld SD R1). }
  assert (RZ : r1 = 0%Qc). { rewrite R3. unfold ratio. rewrite (proj2 (lnorm2_zero ff) FZ). apply Qcmult_0_l. }
  assert (IM : nltb QcNum r1 (n1 QcNum) = true) by (rewrite RZ; reflexivity).
  destruct Q11 as [[_ [_ [_ [_ Q11]]]]|[r [S1 [S2 [S3 S4]]]]]; [exfalso; exact (Q11 _ T1 IM)|].
  assert (RR : r = ratio (N:=QcNum) (F x) (F (p_x p))). { destruct (Q6 _ _ S1) as [f2 [[x2 [W1 W2]] W3]]. rewrite EX in W1. injection W1 as <-. rewrite G2 in W2. injection W2 as <-. rewrite MF. exact W3. }
  pose proof (S4 _ T1) as S5. cbn [snd] in S5. rewrite RZ in S5. apply Qcltb_ge in S5.
  assert (FXZ : forall v, In v (F x) -> v = 0%Qc).
  { destruct (Qc_eq_dec' (lnorm2 (N:=QcNum) (F (p_x p))) 0%Qc) as [Y|Y].
    - assert (DZ : forall i, vfun d i = 0%Qc).
      { intros i. destruct (lt_dec i n) as [Hi|Hi]; [|unfold vfun; apply nth_overflow; lia]. apply (proj1 SP n (le_n n) (vfun d)); [|assumption].
        intros r0 Hr0. rewrite (SD r0 Hr0). unfold vfun. rewrite (proj1 (lnorm2_zero _) Y (nth r0 (F (p_x p)) 0%Qc)); [ring|]. apply nth_In. change (r0 < @length Qc (F (p_x p))). pose proof (len_F (p_x p) L) as LF. lia. }
      assert (x = p_x p) by (refine (ladd_zero_dir (p_x p) d x rt _ DZ EX); etransitivity; [exact Ld|symmetry; exact L]).
      subst x. apply lnorm2_zero. assumption.
    - apply lnorm2_zero. rewrite RR in S5. unfold ratio in S5. pose proof (lnorm2_nonneg (F (p_x p))) as N1. pose proof (lnorm2_nonneg (F x)) as N2.
      change (lnorm2 (N:=QcNum) (F x) / lnorm2 (N:=QcNum) (F (p_x p)) <= 0)%Qc in S5.
      assert (0 < lnorm2 (N:=QcNum) (F (p_x p)))%Qc. { destruct (Qcle_lt_or_eq _ _ N1) as [|Q]; [assumption|]. symmetry in Q. contradiction. }
      pose proof (div_le_mul _ _ _ H S5) as N3. rewrite Qcmult_0_l in N3. apply Qcle_antisym; assumption. }
  split; [exact FXZ|]. split; [rewrite <- MF; exact FXZ|]. split.
  { intros Z. assert (DZ : forall i, vfun d i = 0%Qc).
    { intros i. destruct (lt_dec i n) as [Hi|Hi]; [|unfold vfun; apply nth_overflow; lia]. apply (proj1 SP n (le_n n) (vfun d)); [|assumption].
      intros r0 Hr0. rewrite (SD r0 Hr0). unfold vfun. rewrite (Z (nth r0 (F (p_x p)) 0%Qc)); [ring|]. apply nth_In. change (r0 < @length Qc (F (p_x p))). pose proof (len_F (p_x p) L) as LF. lia. }
    refine (ladd_zero_dir (p_x p) d x rt _ DZ EX); etransitivity; [exact Ld|symmetry; exact L]. }
  split; [assumption|]. split; [assumption|]. intros [v [Iv Nv]] Z. cbn [p_ratio] in Z. rewrite Z in EX. apply (lzip_zero (N:=QcNum) qc_zero_step) in EX. subst x.
  apply Nv. apply FXZ. assumption.
Qed.
Lemma est_zero (x f : list Qc) e e' : est_set (N:=QcNum) x f e = Ret e' -> (forall v, In v f -> v = 0%Qc) -> x = e_cur e ->
  (0 <= e_absTol e)%Qc -> (0 <= e_relTol e)%Qc -> est_status e' = EConverged.
Proof.
  intros E Z X T1 T2. unfold est_set in E. binv E. inversion E; subst e'; clear E. unfold est_status. cbn [e_abs e_absTol e_rel e_relTol].
  rewrite (proj2 (linf_zero f) Z). assert (D : linf (N:=QcNum) r = 0%Qc).
  { apply linf_zero. intros v I. destruct (In_nth _ _ 0%Qc I) as [i [Hi Ev]]. change (i < @length Qc r) in Hi.
    assert (Li : i < @length Qc x) by (pose proof (lzip_length _ _ _ _ E0) as LL; change (@length Qc r = @length Qc x) in LL; lia).
    rewrite <- Ev. rewrite (lsub_components _ _ _ E0 i Li). rewrite X. ring. }
  rewrite D. assert (B1 : Qcleb 0 (e_absTol e) = true) by (apply Qcleb_le; assumption).
  change (nleb QcNum 0%Qc (e_absTol e)) with (Qcleb 0 (e_absTol e)). rewrite B1.
  assert (B2 : Qcleb (if Qcltb 0 (linf (N:=QcNum) (e_cur e)) then 0 / linf (N:=QcNum) (e_cur e) else 0)%Qc (e_relTol e) = true).
  { destruct (Qcltb 0 (linf (N:=QcNum) (e_cur e))); apply Qcleb_le; [|assumption]. unfold Qcdiv. rewrite Qcmult_0_l. assumption. }
  simpl. simpl in B2. rewrite B2. reflexivity.
Qed.
Lemma est_keeps (x f : list Qc) e e' : est_set (N:=QcNum) x f e = Ret e' -> e_absTol e' = e_absTol e /\ e_relTol e' = e_relTol e /\ e_cur e' = x /\ e_relMax e' = e_relMax e.
Proof. intros E. unfold est_set in E. binv E. inversion E. auto. Qed.
Lemma affine_run p limit : ap_ok p -> 2 <= limit -> (0 <= e_absTol (p_est p))%Qc -> (0 <= e_relTol (p_est p))%Qc ->
  (forall y d, length y = n -> (forall v, In v (F y) -> v = 0%Qc) -> lsub (N:=QcNum) y (p_x p) = Ret d ->
     (e_relMax (p_est p) <= 0)%Qc \/ linf (N:=QcNum) (p_x p) = 0%Qc \/ (linf (N:=QcNum) d < e_relMax (p_est p) * linf (N:=QcNum) (p_x p))%Qc) ->
  exists s' log, nrun (plain_comps dd lit mt g) limit p = Ret (s', log, NConverged) /\ (forall v, In v (F (p_x s')) -> v = 0%Qc) /\ length (p_x s') = n /\
    length (iter_numbers log) <= 2 /\ dd_inv n (p_dd s') /\
    e_absTol (p_est s') = e_absTol (p_est p) /\ e_relTol (p_est s') = e_relTol (p_est p) /\ e_relMax (p_est s') = e_relMax (p_est p).
Proof.
  intros OK LM T1 T2 TH. unfold nrun. cbn [c_reset plain_comps obind c_sol]. set (p0 := pf_reset dd false p).
  assert (OK0 : ap_ok p0). { destruct OK as [[O1 O2] [O3 O4]]. split; [|split; assumption]. split; [exact O1|reflexivity]. }
  destruct limit as [|[|k]]; [lia|lia|].
  destruct (affine_iteration p0 0 OK0) as [q [st [E [OKq [Z1 [Z2 [Z3 [Z4 [Z5 Z6]]]]]]]]].
  cbn [attempt]. change (c_iter (plain_comps dd lit mt g) 0 p0) with (pf_iteration dd lit mt g 0 p0). rewrite E. cbn [obind fst snd c_obs c_adjust plain_comps].
  destruct (est_keeps _ _ _ _ Z4) as [K1 [K2 [K3 K4]]].
  assert (ST : st = EConverged \/ st = EContinue).
  { destruct (Qc_eq_dec' (lnorm2 (N:=QcNum) (F (p_x p0))) 0%Qc) as [Y|Y].
    - assert (X : p_x q = p_x p0) by (apply Z3; apply lnorm2_zero; assumption). left. rewrite Z5. rewrite (est_zero _ _ _ _ Z4 Z2); auto.
    - assert (NZ : p_ratio q <> 0%Qc).
      { apply Z6. clear -Y. destruct (forallb (fun v => Qceqb v 0) (F (p_x p0))) eqn:FB.
        - exfalso. apply Y, lnorm2_zero. rewrite forallb_forall in FB. intros v I. apply Qceqb_eq. apply FB. assumption.
        - assert (FB' : exists v, In v (F (p_x p0)) /\ Qceqb v 0 = false).
          { clear Y. generalize dependent (F (p_x p0)). induction l as [|v l I]; simpl; intros FB; [discriminate|]. apply andb_false_iff in FB. destruct FB as [H|H]; [exists v; auto|].
            destruct (I H) as [w [H1 H2]]. exists w. auto. }
          destruct FB' as [v [I1 I2]]. exists v. split; [assumption|]. apply Qceqb_neq. assumption. }
      assert (NE : neqb QcNum (p_ratio q) (n0 QcNum) = false) by (apply Qceqb_neq; assumption). rewrite NE in Z5.
      destruct (est_status (p_est q)) eqn:ES; rewrite Z5; auto. exfalso. clear Z5.
      unfold est_set in Z4. binv Z4. rename r into d. assert (Lq : length (p_x q) = n) by apply OKq.
      destruct (TH (p_x q) d Lq Z1) as [TH1|TH1]; [exact E0| |].
      + inversion Z4 as [EQ]; clear Z4. rewrite <- EQ in ES. unfold est_status in ES. cbn [e_abs e_absTol e_rel e_relTol e_absMax e_relMax] in ES.
        rewrite (proj2 (linf_zero (p_f q)) Z2) in ES.
        match type of ES with (if ?c then _ else _) = _ => destruct c; [discriminate|] end.
        match type of ES with (if ?c then _ else _) = _ => destruct c eqn:C end.
        * apply andb_true_iff in C. destruct C as [C1 C2]. apply Qcltb_lt in C1. apply Qcleb_le in C2. exact (Qclt_not_le _ _ C1 C2).
        * clear C. match type of ES with (if ?c then _ else _) = _ => destruct c eqn:C; [|discriminate] end. apply andb_true_iff in C. destruct C as [C1 C2]. apply Qcltb_lt in C1.
          change (0 < e_relMax (p_est p))%Qc in C1. apply (Qclt_not_le _ _ C1 TH1).
      + inversion Z4 as [EQ]; clear Z4. rewrite <- EQ in ES. unfold est_status in ES. cbn [e_abs e_absTol e_rel e_relTol e_absMax e_relMax] in ES.
        rewrite (proj2 (linf_zero (p_f q)) Z2) in ES.
        match type of ES with (if ?c then _ else _) = _ => destruct c; [discriminate|] end.
        match type of ES with (if ?c then _ else _) = _ => destruct c eqn:C end.
        * apply andb_true_iff in C. destruct C as [C1 C2]. apply Qcltb_lt in C1. apply Qcleb_le in C2. exact (Qclt_not_le _ _ C1 C2).
        * clear C. match type of ES with (if ?c then _ else _) = _ => destruct c eqn:C; [|discriminate] end. apply andb_true_iff in C. destruct C as [C1 C2]. apply Qcltb_lt in C1. apply Qcleb_le in C2.
          change (0 < e_relMax (p_est p))%Qc in C1. change (e_cur (p_est p0)) with (p_x p) in C2. change (e_relMax (p_est p0)) with (e_relMax (p_est p)) in C2.
          change (nltb QcNum (n0 QcNum) (linf (p_x p))) with (Qcltb 0 (linf (N:=QcNum) (p_x p))) in C2.
          destruct (Qcltb 0 (linf (N:=QcNum) (p_x p))) eqn:P.
          -- apply Qcltb_lt in P. destruct TH1 as [TH1|TH1]; [rewrite TH1 in P; apply Qclt_not_eq in P; congruence|].
             apply (Qclt_not_le _ _ TH1). apply div_ge_mul; assumption.
          -- apply (Qclt_not_le _ _ C1 C2). }
  destruct ST as [-> | ->].
  - eexists. eexists. split; [reflexivity|]. split; [exact Z1|]. split; [apply OKq|]. split; [simpl; lia|]. split; [apply OKq|]. repeat split; assumption.
  - destruct (affine_iteration q 1 OKq) as [q2 [st2 [E2 [OKq2 [W1 [W2 [W3 [W4 [W5 W6]]]]]]]]].
    assert (X2 : p_x q2 = p_x q) by (apply W3; assumption).
    assert (S2 : st2 = EConverged). { rewrite W5. rewrite (est_zero _ _ _ _ W4 W2); auto. - rewrite K3. assumption. - rewrite K1. assumption. - rewrite K2. assumption. }
    change (c_iter (plain_comps dd lit mt g) 1 q) with (pf_iteration dd lit mt g 1 q). rewrite E2. cbn [obind fst snd]. rewrite S2. eexists. eexists. split; [reflexivity|]. split; [exact W1|]. split; [apply OKq2|]. split; [simpl; lia|]. split; [apply OKq2|].
    destruct (est_keeps _ _ _ _ W4) as [M1 [M2 [_ M4]]]. split; [exact (eq_trans M1 K1)|]. split; [exact (eq_trans M2 K2)|exact (eq_trans M4 K4)].
Qed.
End Affine.

(** * A converged run ends at a solution *)
Section Inv.
Context {N : Num} {S : Type} (c : comps N S) (Inv Post : S -> Prop).
Hypothesis H1 : forall n s s' e, Inv s -> c_iter c n s = Ret (s', e) -> Inv s' /\ (e = EConverged -> Post s').
Hypothesis H2 : forall n s s' b, c_obs c n s = Ret (s', b) -> (Inv s -> Inv s') /\ (Post s -> Post s').
Hypothesis H3 : forall s s' b, c_adjust c s = Ret (s', b) -> (Inv s -> Inv s') /\ (Post s -> Post s').
Hypothesis H4 : forall b s, (Inv s -> Inv (c_report c b s)) /\ (Post s -> Post (c_report c b s)).
Hypothesis H5 : forall x s s', Inv s -> c_guess c x s = Ret s' -> Inv s'.
Hypothesis H6 : forall s s', Inv s -> c_reset c s = Ret s' -> Inv s'.
Lemma attempt_inv : forall k it bias tried s log s' log' it' st, attempt c k it bias tried s log = Ret (s', log', it', st) -> Inv s ->
  Inv s' /\ (st = Some NConverged -> Post s').
Proof.
  induction k as [|k I]; intros it bias tried s log s' log' it' st E IS; simpl in E; [inversion E; subst; split; [assumption|discriminate]|].
  binv E. destruct r as [s1 e1]. destruct (H1 _ _ _ _ IS E0) as [I1 P1]. simpl in E. binv E. destruct r as [s2 b2]. destruct (H2 _ _ _ _ E1) as [I2 P2].
  simpl in E. destruct b2; [inversion E; subst; split; [auto|discriminate]|]. binv E. destruct r as [s3 b3]. destruct (H3 _ _ _ E2) as [I3 P3]. simpl in E.
  destruct e1.
  - destruct b3; [eapply I; eauto|]. inversion E; subst. destruct (H4 true s3). split; auto 6.
  - eapply I; eauto.
  - destruct b3; [eapply I; eauto|]. inversion E; subst. destruct (H4 false s3). split; [auto|]. destruct tried; discriminate.
Qed.
Lemma run_inv limit s s' log st : nrun c limit s = Ret (s', log, st) -> Inv s -> Inv s' /\ (st = NConverged -> Post s').
Proof.
  unfold nrun. intros E IS. binv E. assert (I0 : Inv r) by eauto. binv E. destruct r0 as [[[s1 l1] i1] st1].
  destruct (attempt_inv _ _ _ _ _ _ _ _ _ _ E1 I0) as [I1 P1]. destruct st1 as [st1|].
  - inversion E; subst. split; [assumption|]. intros ->. auto.
  - destruct (c_help c s1).
    + binv E. assert (I2 : Inv r0) by eauto. binv E. destruct r1 as [[[s3 l3] i3] st3]. destruct (attempt_inv _ _ _ _ _ _ _ _ _ _ E3 I2) as [I3 P3].
      destruct st3; inversion E; subst; [split; [assumption|intros ->; auto]|]. split; [apply H4; assumption|discriminate].
    + inversion E; subst. split; [apply H4; assumption|discriminate].
Qed.
End Inv.
Lemma run_solution {S} (dd : ddir QcNum S) lit mt g limit p p' log : ls_order lit -> p_valid p = false -> e_cur (p_est p) = p_x p ->
  nrun (plain_comps dd lit mt g) limit p = Ret (p', log, NConverged) ->
  exists f, mapf g (p_x p') = Ret f /\ forall v, In v f -> (Qcabs v <= e_absTol (p_est p))%Qc.
Proof.
  intros LO V C E. set (tol := e_absTol (p_est p)).
  pose (Inv := fun q : perf QcNum (S:=S) => pf_ok g q /\ e_absTol (p_est q) = tol).
  pose (Post := fun q : perf QcNum (S:=S) => exists f, mapf g (p_x q) = Ret f /\ forall v, In v f -> (Qcabs v <= tol)%Qc).
  destruct (run_inv (plain_comps dd lit mt g) Inv Post) with (limit := limit) (s := p) (s' := p') (log := log) (st := NConverged) as [_ H]; try exact E; [| | | | | | |exact (H eq_refl)].
  - intros n s s' e [I1 I2] X. cbn [plain_comps c_iter] in X.
    destruct (pf_iteration_ok dd lit mt g LO qc_zero_step n s s' e I1 X) as [OK [_ [f [d [t [G1 [G2 [G3 [G4 [G5 [G6 [G7 G8]]]]]]]]]]]].
    destruct (est_keeps _ _ _ _ G7) as [K1 _]. split; [split; [exact OK|congruence]|]. intros ->.
    exists (p_f s'). split; [assumption|]. intros v Iv. destruct (In_nth _ _ 0%Qc Iv) as [i [Hi Ev]]. rewrite <- Ev, <- I2.
    assert (ES : est_status (p_est s') = EConverged). { destruct (est_status (p_est s')); try reflexivity; [|discriminate]. destruct (neqb QcNum (p_ratio s') (n0 QcNum)); discriminate. }
    exact (proj1 (est_converged _ _ _ _ G7 ES) i Hi).
  - intros n s s' b X. inversion X; subst. tauto.
  - intros s s' b X. inversion X; subst. tauto.
  - intros b s. unfold Inv, Post, pf_ok. simpl. tauto.
  - intros x s s' [I1 I2] X. inversion X; subst. split; [split; [discriminate|reflexivity]|exact I2].
  - intros s s' [[I1 I3] I2] X. inversion X; subst. split; [split; [exact I1|reflexivity]|exact I2].
  - split; [split; [congruence|assumption]|reflexivity].
Qed.
