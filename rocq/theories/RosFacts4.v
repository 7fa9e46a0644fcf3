(** RosFacts4.v - what call histories of the Rosenbrock base class guarantee. *)
From Coq Require Import List Arith Bool Lia ZArith QArith Qcanon.
From Verif Require Import Base BaseFacts SMap SpModel SpSpec SpFacts SpFacts2 SpFacts3 LUSpec LUModel LUFacts5 RkModel RkSpec RkFacts2 ImpSpec StepModel RosModel RosSpec NewtFacts ImpFacts RosFacts RosFacts2 RosFacts3.
Import ListNotations.
Local Open Scope nat_scope.

Lemma ofor_len a b (body : nat -> list Qc -> Outcome (list Qc)) s r : (forall k x x', body k x = Ret x' -> length x' = length x) -> ofor a b body s = Ret r -> length r = length s.
Proof.
  intros H E. destruct (le_lt_dec a b) as [L|L].
  - apply (ofor_inv_ret (fun _ x => length x = length s) a b body s r); [exact L|reflexivity| |exact E]. intros k x x' _ Q B. rewrite (H _ _ _ B). exact Q.
  - rewrite ofor_nil in E by lia. congruence.
Qed.
Lemma wr_len (l : list Qc) i v l' : wr l i v = Ret l' -> length l' = length l.
Proof. unfold wr. destruct (i <? length l); [|discriminate]. intros E. injection E as <-. apply upd_length. Qed.
Lemma solve_length s b s' z : solve s b = Ret (s', z) -> length z = length b.
Proof.
  unfold solve. intros E. destruct (factorize s) as [st1| |]; cbn [obind] in E; try discriminate. cbv zeta in E.
  destruct (ofor 1 _ _ b) as [x1| |] eqn:E1; cbn [obind] in E; try discriminate.
  destruct (ofor_down _ _ x1) as [x2| |] eqn:E2; cbn [obind] in E; try discriminate. injection E as <- <-.
  transitivity (length x1).
  - unfold ofor_down in E2. apply (ofor_len _ _ _ _ _) in E2; [exact E2|]. intros k x x' H. unfold bwd_row in H.
    binv H. destruct (ofor (S (_ - 1 - k)) _ _ x) as [y| |] eqn:E3; cbn [obind] in H; try discriminate. binv H. binv H. apply wr_len in H. rewrite H.
    apply (ofor_len _ _ _ _ _) in E3; [exact E3|]. intros k' y0 y' H'. binv H'. destruct (_ <=? _); [|congruence]. binv H'. binv H'. binv H'. eapply wr_len; exact H'.
  - apply (ofor_len _ _ _ _ _) in E1; [exact E1|]. intros k x x' H. unfold fwd_row in H. binv H. apply (ofor_len _ _ _ _ _) in H; [exact H|].
    intros k' y0 y' H'. binv H'. binv H'. binv H'. eapply wr_len; exact H'.
Qed.

Lemma hist_solve l hd (b : list Qc) : proper l -> requested l = Some hd -> hd <> 0%Qc -> solvable (ros_hist l) hd ->
  length b = ro_n (ros_hist l) -> 0 < ro_m (ros_hist l) ->
  exists r' x, ros_linSolve b hd (ros_hist l) = Ret (r', x) /\ length x = ro_n (ros_hist l) /\
    solves (ro_n (ros_hist l)) (shifted hd (jac (ros_hist l))) (vfun x) (vfun b).
Proof.
  intros P R NZ S LB MP. destruct (hist_ok l P) as (I & RQ & _). destruct (RQ hd R) as [_ PT].
  destruct (linSolve_ok (ros_hist l) I b hd (PT NZ) S LB MP) as (s' & x & E & _ & LX & SO). eauto 10.
Qed.
Lemma hist_unique l hd (x y b : nat -> Qc) : proper l -> leading_nonsingular (ro_m (ros_hist l)) (wmat hd (J1_ (ros_hist l)) (J2_ (ros_hist l))) ->
  solves (ro_n (ros_hist l)) (shifted hd (jac (ros_hist l))) x b -> solves (ro_n (ros_hist l)) (shifted hd (jac (ros_hist l))) y b ->
  forall i, i < ro_n (ros_hist l) -> x i = y i.
Proof.
  intros P NS SX SY. destruct (hist_ok l P) as (I & _). set (r := ros_hist l) in *.
  pose proof (nm r) as NM. pose proof (m_ge r) as MG. set (d := fun i => (x i - y i)%Qc).
  assert (SD : forall i, i < ro_n r -> (d i - hd * qsum (ro_n r) (fun k => jac r i k * d k) = 0)%Qc).
  { intros i Hi. rewrite <- (sys_apply r hd d i Hi). rewrite (qsum_ext (ro_n r) _ (fun k => sysmat r hd i k * x k - sysmat r hd i k * y k)%Qc) by (intros; unfold d; ring).
    rewrite qsum_sub. pose proof (SX i Hi) as A. pose proof (SY i Hi) as B. unfold shifted in A, B. unfold sysmat. rewrite A, B. ring. }
  assert (D1 : forall i, i < ro_n2 r -> d i = (hd * d (ro_n2 r + i)%nat)%Qc).
  { intros i Hi. assert (Hn : i < ro_n r) by lia. pose proof (SD i Hn) as Q. rewrite (jac_apply r d i Hn) in Q. apply Nat.ltb_lt in Hi. rewrite Hi in Q.
    replace (d i) with (d i - hd * d (ro_n2 r + i)%nat + hd * d (ro_n2 r + i)%nat)%Qc by ring. rewrite Q. ring. }
  assert (D2 : forall i, i < ro_m r -> d (ro_n2 r + i) = 0%Qc).
  { apply (NS (ro_m r) (Nat.le_refl _) (fun i => d (ro_n2 r + i))). intros i Hi.
    assert (Hn : ro_n2 r + i < ro_n r) by lia. pose proof (SD _ Hn) as Q. rewrite (jac_apply r d _ Hn) in Q.
    destruct (Nat.ltb_spec (ro_n2 r + i) (ro_n2 r)); [lia|]. replace (ro_n2 r + i - ro_n2 r) with i in Q by lia.
    rewrite <- Q. unfold wmat.
    rewrite (qsum_ext (ro_m r) _ (fun c => delta i c * d (ro_n2 r + c)%nat - hd * (J1_ r i c * d (ro_n2 r + c)%nat) - hd * hd * (J2_ r i c * d (ro_n2 r + c)%nat))%Qc) by (intros; ring).
    rewrite !qsum_sub, !qsum_scale. rewrite (delta_sum (ro_m r) i (fun c => d (ro_n2 r + c))) by exact Hi.
    rewrite (qsum_trunc (ro_m r) (ro_n2 r) (fun c => J2_ r i c * d (ro_n2 r + c)%nat)%Qc); [|exact MG|intros k Hk; rewrite (J2_cols r I) by lia; ring].
    rewrite (qsum_ext (ro_n2 r) (fun k => J2_ r i k * d k)%Qc (fun k => hd * (J2_ r i k * d (ro_n2 r + k)%nat))%Qc) by (intros k Hk; rewrite D1 by exact Hk; ring).
    rewrite qsum_scale. ring. }
  intros i Hi. assert (Z : d i = 0%Qc).
  { destruct (le_lt_dec (ro_n2 r) i) as [Q|Q].
    - replace i with (ro_n2 r + (i - ro_n2 r)) by lia. apply D2. lia.
    - rewrite D1 by exact Q. rewrite D2 by lia. ring. }
  unfold d in Z. replace (x i) with ((x i - y i) + y i)%Qc by ring. rewrite Z. ring.
Qed.
Lemma hist_solve_iff l hd : proper l -> requested l = Some hd -> hd <> 0%Qc -> 0 < ro_m (ros_hist l) ->
  leading_nonsingular (ro_m (ros_hist l)) (wmat hd (J1_ (ros_hist l)) (J2_ (ros_hist l))) ->
  (fill_covered (w_stencil (ro_m (ros_hist l)) (J1_ (ros_hist l)) (J2_ (ros_hist l))) (wmat hd (J1_ (ros_hist l)) (J2_ (ros_hist l))) (ro_m (ros_hist l)) <->
   forall b : list Qc, length b = ro_n (ros_hist l) -> exists r' x, ros_linSolve b hd (ros_hist l) = Ret (r', x) /\ length x = ro_n (ros_hist l) /\
    solves (ro_n (ros_hist l)) (shifted hd (jac (ros_hist l))) (vfun x) (vfun b)).
Proof.
  intros P R NZ MP NS. split; [intros FC b LB; apply hist_solve; auto; split; assumption|]. intros H.
  destruct (hist_ok l P) as (I & RQ & _). destruct (RQ hd R) as [_ PT]. specialize (PT NZ). set (r := ros_hist l) in *.
  pose proof (nm r) as NM. pose proof (m_ge r) as MG. pose proof I as (MO & CO & LC & PT2).
  assert (LK : exists s, lookup hd (ro_cache r) = Some s).
  { destruct PT2 as [(A & B & C)|[A B]]; [congruence|]. assert (hd = ro_hd r) by congruence. subst hd. exact B. }
  destruct LK as [s LK]. destruct (CO _ (lookup_In _ _ _ LK)) as (s0 & E0 & H0). cbn [fst snd] in *.
  apply (w_fill _ _ _ hd MO). fold (ro_m r).
  apply (proj2 (lu_solve_iff _ (ro_m r) s0 (w_distinct _ _ _ hd MO) (w_acceptable _ _ _ hd MO) E0 (w_nonsing _ _ _ hd MO NS))).
  intros y LY. set (b := zeros (ro_n2 r) ++ y).
  assert (LZ : length (zeros (ro_n2 r)) = ro_n2 r) by apply repeat_length.
  assert (LB : length b = ro_n r) by (unfold b; rewrite app_length; lia).
  assert (B1 : forall i, i < ro_n2 r -> cmp_ b i = 0%Qc) by (intros i Hi; unfold b, cmp_; rewrite app_nth1 by lia; apply nth_repeat).
  assert (B2 : forall i, cmp_ b (ro_n2 r + i) = cmp_ y i) by (intros i; unfold b, cmp_; rewrite app_nth2 by lia; f_equal; lia).
  destruct (linSolve_red r I b hd hd s LB MP PT LK) as (y' & LY' & VY & RR).
  assert (EY : y' = y).
  { apply (list_ext 0%Qc); [lia|]. intros i Hi. fold (cmp_ y' i). fold (cmp_ y i). rewrite VY by lia. rewrite B2. rewrite qsum_zero; [ring|]. intros k Hk. rewrite B1 by exact Hk. ring. }
  subst y'. destruct (H b LB) as (r' & x & E & LX & SO).
  assert (SE : solve s y = solve s0 y) by (apply (solve_entry (ro_mats r) (hd, s) s0 y E0 H0)). rewrite SE in RR.
  destruct (solve s0 y) as [[s1 z]| |] eqn:SZ; [|congruence|congruence].
  assert (LZZ : length z = ro_m r).
  { rewrite (solve_length _ _ _ _ SZ). exact LY. }
  destruct (RR LZZ) as (x' & E' & LX' & V1 & V2).
  assert (XE : x' = x).
  { transitivity (value (solution (ros_linSolve b hd r))); [rewrite E'; reflexivity|rewrite E; reflexivity]. }
  subst x'. exists s1, z. split; [reflexivity|]. split; [exact LZZ|]. intros i Hi.
  assert (Hn : ro_n2 r + i < ro_n r) by lia. pose proof (SO _ Hn) as Q.
  change (qsum (ro_n r) (fun c => (sysmat r hd (ro_n2 r + i) c * vfun x c)%Qc) = vfun b (ro_n2 r + i)) in Q.
  rewrite (sys_apply r hd (vfun x) _ Hn), (jac_apply r (vfun x) _ Hn) in Q.
  destruct (Nat.ltb_spec (ro_n2 r + i) (ro_n2 r)); [lia|]. replace (ro_n2 r + i - ro_n2 r) with i in Q by lia.
  unfold vfun in Q. fold (cmp_ b (ro_n2 r + i)) in Q. rewrite B2 in Q. fold (cmp_ x (ro_n2 r + i)) in Q. rewrite V2 in Q by exact Hi.
  rewrite (qsum_ext (ro_n2 r) _ (fun k => hd * (J2_ r i k * cmp_ z k))%Qc) in Q.
  2:{ intros k Hk. fold (cmp_ x k). rewrite V1 by exact Hk. rewrite B1 by exact Hk. ring. }
  rewrite (qsum_ext (ro_m r) (fun k => J1_ r i k * nth (ro_n2 r + k)%nat x 0)%Qc (fun k => J1_ r i k * cmp_ z k)%Qc) in Q.
  2:{ intros k Hk. fold (cmp_ x (ro_n2 r + k)). rewrite V2 by exact Hk. reflexivity. }
  rewrite qsum_scale in Q. unfold vfun at 2. fold (cmp_ y i). rewrite <- Q.
  rewrite (qsum_ext (ro_m r) _ (fun c => delta i c * cmp_ z c - hd * (J1_ r i c * cmp_ z c) - hd * hd * (J2_ r i c * cmp_ z c))%Qc).
  2:{ intros c Hc. rewrite (w_mval _ _ _ hd MO) by assumption. unfold wmat, vfun, cmp_, J1_, J2_. ring. }
  rewrite !qsum_sub, !qsum_scale, delta_sum by exact Hi.
  rewrite (qsum_trunc (ro_m r) (ro_n2 r) (fun c => J2_ r i c * cmp_ z c)%Qc); [ring|exact MG|]. intros k Hk. rewrite (J2_cols r I) by lia. ring.
Qed.
Lemma hist_mult l (dst x : list Qc) : proper l -> length dst = ro_n (ros_hist l) -> length x = ro_n (ros_hist l) ->
  exists y, ros_mult dst x (ros_hist l) = Ret y /\ length y = ro_n (ros_hist l) /\ forall i, i < ro_n (ros_hist l) -> cmp_ y i = matvec (ro_n (ros_hist l)) (jac (ros_hist l)) x i.
Proof. intros P. destruct (hist_ok l P) as (I & _). apply mult_ok. exact I. Qed.

(** * the Jacobian *)
Lemma hist_jac l n2 n1 f t x0 f0 hd : proper l -> last_hard l = Some (RInit true n2 n1 f t x0 f0 hd) ->
  ro_n2 (ros_hist l) = n2 /\ ro_n1 (ros_hist l) = n1 /\
  forall i, i < n2 + n1 ->
    (forall j, j < n1 -> J1_ (ros_hist l) i j = difference f t x0 f0 (n2 + i) (n2 + j)) /\
    (forall j, n1 <= j -> J1_ (ros_hist l) i j = 0%Qc) /\
    (forall j, j < n2 -> J2_ (ros_hist l) i j = difference f t x0 f0 (n2 + i) j).
Proof.
  intros P LH. destruct (hist_ok l P) as (I & _ & J). destruct (J _ _ _ _ _ _ _ _ LH) as (A & B & C1 & C2). split; [exact A|]. split; [exact B|].
  intros i Hi. unfold J1_, J2_, get. apply Nat.ltb_lt in Hi. split; [|split]; intros j Hj.
  - rewrite C1, Hi. apply Nat.ltb_lt in Hj. rewrite Hj. cbn [andb]. unfold difference. apply cand_get.
  - rewrite C1, Hi. destruct (Nat.ltb_spec j n1); [lia|]. reflexivity.
  - rewrite C2, Hi. apply Nat.ltb_lt in Hj. rewrite Hj. cbn [andb]. unfold difference. apply cand_get.
Qed.
Lemma hist_jac_iff l n2 n1 f t x0 f0 hd : proper l -> last_hard l = Some (RInit true n2 n1 f t x0 f0 hd) ->
  ((forall i k, n2 <= i < 2 * n2 + n1 -> k < 2 * n2 + n1 -> jac (ros_hist l) i k = difference f t x0 f0 i k) <->
   (forall i k, n2 <= i < 2 * n2 + n1 -> n2 + n1 <= k < 2 * n2 + n1 -> difference f t x0 f0 i k = 0%Qc)).
Proof.
  intros P LH. destruct (hist_jac l _ _ _ _ _ _ _ P LH) as (A & B & C). unfold jac, companion. rewrite A. split; intros H i k Hi Hk.
  - rewrite <- H by lia. destruct (Nat.ltb_spec i n2); [lia|]. destruct (Nat.ltb_spec k n2); [lia|].
    apply (C (i - n2)); lia.
  - destruct (Nat.ltb_spec i n2); [lia|]. destruct (C (i - n2)) as (C1 & C0 & C2); [lia|].
    destruct (Nat.ltb_spec k n2).
    + rewrite C2 by assumption. f_equal. lia.
    + destruct (le_lt_dec n1 (k - n2)).
      * rewrite C0 by assumption. symmetry. apply H; lia.
      * rewrite C1 by assumption. f_equal; lia.
Qed.
Lemma difference_linear n A g f t (x0 f0 : list Qc) j k : ImpSpec.linear_rhs n A g f -> length x0 = n -> f t x0 = Ret f0 -> j < n -> k < n -> difference f t x0 f0 j k = A j k.
Proof.
  intros LR LX E Hj Hk. unfold difference. destruct (LR t x0 LX) as (y0 & E0 & L0 & V0).
  destruct (LR t (upd x0 k (cmp_ x0 k + jdx)%Qc)) as (y1 & E1 & L1 & V1); [rewrite upd_length; exact LX|].
  rewrite E1. cbn [value]. replace f0 with y0 by congruence. rewrite V0, V1 by exact Hj.
  rewrite (qsum_ext n (fun c => A j c * cmp_ (upd x0 k (cmp_ x0 k + jdx)%Qc) c)%Qc (fun c => A j c * cmp_ x0 c + (if Nat.eqb c k then A j k * jdx else 0))%Qc).
  - rewrite qsum_add. rewrite (qsum_single n k (fun c => if Nat.eqb c k then A j k * jdx else 0)%Qc); [rewrite Nat.eqb_refl; field; exact jdx_nz|exact Hk|].
    intros i _ D. apply Nat.eqb_neq in D. rewrite D. reflexivity.
  - intros c Hc. destruct (Nat.eqb_spec c k) as [->|D]; unfold cmp_ at 1.
    + rewrite nth_upd_eq by lia. ring.
    + rewrite nth_upd_neq by exact D. fold (cmp_ x0 c). ring.
Qed.
Lemma hist_jac_linear l n1 A g f t (x0 f0 : list Qc) hd : proper l -> last_hard l = Some (RInit true 0 n1 f t x0 f0 hd) -> ImpSpec.linear_rhs n1 A g f -> f t x0 = Ret f0 ->
  length x0 = n1 -> forall i k, i < n1 -> k < n1 -> jac (ros_hist l) i k = A i k.
Proof.
  intros P LH LR E LX i k Hi Hk. rewrite <- (difference_linear n1 A g f t x0 f0 i k LR LX E Hi Hk).
  apply (proj2 (hist_jac_iff l 0 n1 f t x0 f0 hd P LH)); lia.
Qed.

(** * the cache *)
Lemma hist_cache l : proper l -> length (ro_cache (ros_hist l)) <= 100.
Proof. intros P. destruct (hist_ok l P) as ((_ & _ & L & _) & _). exact L. Qed.
Lemma hist_init l c : proper l -> call_ok c -> match c with
  | RInit hard n2 n1 f t x0 f0 hd => snd (ros_init hard n2 n1 f t x0 f0 hd (ros_hist l)) = Ret tt
  | RSolve _ _ => True end.
Proof.
  intros P C. destruct (hist_ok l P) as (I & _). destruct c as [[|] n2 n1 f t x0 f0 hd|]; [| |exact Logic.I].
  - destruct (init_hard n2 n1 f t x0 f0 hd (ros_hist l) (proj1 (proj1 I)) C) as (r' & E & _). rewrite E. reflexivity.
  - destruct (init_soft n2 n1 f t x0 f0 hd (ros_hist l) I) as (r' & E & _). rewrite E. reflexivity.
Qed.
Lemma first_init n2 n1 f t x0 f0 hd : call_ok (RInit true n2 n1 f t x0 f0 hd) -> snd (ros_init true n2 n1 f t x0 f0 hd ros_new) = Ret tt.
Proof. intros C. destruct (init_hard n2 n1 f t x0 f0 hd ros_new store_ok_new C) as (r' & E & _). rewrite E. reflexivity. Qed.

Lemma same_data (a b : smat QcNum) : row_major (sdat a) -> row_major (sdat b) -> (forall p, sfind a p = sfind b p) -> sdat a = sdat b.
Proof.
  intros RA RB H. assert (K : map fst (sdat a) = map fst (sdat b)).
  { apply same_keys; [exact RA|exact RB|]. intros p. split; intros [x Hx]; exists x; [apply (proj1 (sfind_In b p x RB)); rewrite <- H|apply (proj1 (sfind_In a p x RA)); rewrite H]; apply sfind_In; assumption. }
  assert (DA : sdat a = map (fun k => (k, get b k)) (map fst (sdat a))).
  { apply (data_by_get (sdat a) (fun k => get b k) RA). intros k x Hx. apply (proj2 (sfind_In a k x RA)) in Hx. unfold get. rewrite <- H, Hx. reflexivity. }
  assert (DB : sdat b = map (fun k => (k, get b k)) (map fst (sdat b))).
  { apply (data_by_get (sdat b) (fun k => get b k) RB). intros k x Hx. apply (proj2 (sfind_In b k x RB)) in Hx. unfold get. rewrite Hx. reflexivity. }
  etransitivity; [exact DA|]. etransitivity; [|symmetry; exact DB]. rewrite K. reflexivity.
Qed.
Definition lin_sol (n2 m : nat) (els : list (key * Qc)) (s : lu) (x : list Qc) (hd : Qc) : Outcome (list Qc) :=
  b <- mulVectRight (N:=QcNum) m els x (zeros m) ;;
  x1 <- add_block n2 m (fun i _ => e <- rdat b i ;; Ret (e * hd)%Qc) x ;;
  _ <- rdat x1 n2 ;;
  q <- solve s (skipn n2 x1) ;;
  add_block 0 n2 (fun i x => e <- rdat x (n2 + i) ;; Ret (e * hd)%Qc) (firstn n2 x1 ++ snd q).
Lemma solution_lin r k s x hd : ro_lu r = Some k -> lookup k (ro_cache r) = Some s ->
  solution (ros_linSolve x hd r) = lin_sol (ro_n2 r) (ro_m r) (siter (ro_mats r) (ro_J2b r)) s x hd.
Proof.
  intros A B. unfold ros_linSolve, lin_sol. rewrite A, B.
  change (nT QcNum) with Qc. destruct (mulVectRight (N:=QcNum) _ _ _ _); cbn [obind]; try reflexivity.
  destruct (add_block (ro_n2 r) _ _ _); cbn [obind]; try reflexivity. destruct (rdat _ _); cbn [obind]; try reflexivity.
  destruct (solve _ _) as [[? ?]| |]; cbn [obind]; try reflexivity. destruct (add_block 0 _ _ _); reflexivity.
Qed.
Lemma same_J_sym_solution r r' hd : ros_inv r -> ros_inv r' -> ro_lu r = Some hd -> ro_lu r' = Some hd -> ro_n2 r' = ro_n2 r -> ro_n1 r' = ro_n1 r ->
  obj (ro_mats r') 1 = obj (ro_mats r) 1 -> w_data (ro_mats r') hd = w_data (ro_mats r) hd ->
  forall x h, solution (ros_linSolve x h r') = solution (ros_linSolve x h r).
Proof.
  intros (_ & C & _ & PT) (_ & C' & _ & PT') L L' A B O W x h.
  assert (LK : exists s, lookup hd (ro_cache r) = Some s).
  { destruct PT as [(Q & _)|[Q S]]; [congruence|]. assert (E : hd = ro_hd r) by congruence. rewrite E. exact S. }
  assert (LK' : exists s, lookup hd (ro_cache r') = Some s).
  { destruct PT' as [(Q & _)|[Q S]]; [congruence|]. assert (E : hd = ro_hd r') by congruence. rewrite E. exact S. }
  destruct LK as [s LK], LK' as [s' LK']. rewrite (solution_lin r hd s x h L LK), (solution_lin r' hd s' x h L' LK').
  destruct (C _ (lookup_In _ _ _ LK)) as (s0 & E0 & H0). destruct (C' _ (lookup_In _ _ _ LK')) as (s0' & E0' & H0'). cbn [fst snd] in *.
  assert (s0' = s0) by congruence. subst s0'.
  assert (SS : forall y, solve s' y = solve s y).
  { intros y. transitivity (solve s0 y); [apply (solve_entry (ro_mats r') (hd, s') s0 y E0' H0')|]. symmetry. apply (solve_entry (ro_mats r) (hd, s) s0 y E0 H0). }
  assert (EL : siter (ro_mats r') (ro_J2b r') = siter (ro_mats r) (ro_J2b r)).
  { unfold siter, ro_J2b, ro_m. rewrite A, B. cbn [sbase]. rewrite O. reflexivity. }
  unfold lin_sol. rewrite EL. unfold ro_m. rewrite A, B.
  change (nT QcNum) with Qc. destruct (mulVectRight (N:=QcNum) _ _ _ _); cbn [obind]; try reflexivity.
  destruct (add_block (ro_n2 r) _ _ _); cbn [obind]; try reflexivity. destruct (rdat _ _); cbn [obind]; try reflexivity. rewrite SS. reflexivity.
Qed.
Lemma hist_transparent l hd x h : proper l -> requested l = Some hd -> hd <> 0%Qc ->
  solution (ros_linSolve x h (ros_hist l)) = solution (ros_linSolve x h (fst (ros_update hd (uncached (ros_hist l))))).
Proof.
  intros P R NZ. destruct (hist_ok l P) as (I & RQ & _). destruct (RQ hd R) as [_ PT]. specialize (PT NZ). set (r := ros_hist l) in *.
  destruct (ros_update_ok hd (uncached r) (inv_uncached r I)) as (r' & E & I' & A & B & (O0 & O1 & K) & _ & PT'). rewrite E. cbn [fst].
  symmetry. apply (same_J_sym_solution r r' hd I I' PT (PT' NZ) A B O1). apply w_data_keys; assumption.
Qed.
Lemma hist_independent l l' n2 n1 f t x0 f0 h1 h2 hd x h : proper l -> proper l' ->
  last_hard l = Some (RInit true n2 n1 f t x0 f0 h1) -> last_hard l' = Some (RInit true n2 n1 f t x0 f0 h2) ->
  requested l = Some hd -> requested l' = Some hd -> hd <> 0%Qc ->
  solution (ros_linSolve x h (ros_hist l)) = solution (ros_linSolve x h (ros_hist l')).
Proof.
  intros P P' LH LH' R R' NZ. destruct (hist_ok l P) as (I & RQ & J). destruct (hist_ok l' P') as (I' & RQ' & J').
  destruct (RQ hd R) as [_ PT]. destruct (RQ' hd R') as [_ PT']. specialize (PT NZ). specialize (PT' NZ).
  destruct (J _ _ _ _ _ _ _ _ LH) as (A & B & C0 & C1). destruct (J' _ _ _ _ _ _ _ _ LH') as (A' & B' & C0' & C1').
  pose proof I as (((L & OK & F0 & F1 & F2) & Z0 & Z1 & Z2 & _ & _ & H2) & _). pose proof I' as (((L' & OK' & F0' & F1' & F2') & Z0' & Z1' & Z2' & _ & _ & H2') & _).
  set (r := ros_hist l) in *. set (r' := ros_hist l') in *.
  assert (Q0 : obj (ro_mats r) 0 = obj (ro_mats r') 0).
  { assert (D : sdat (obj (ro_mats r) 0) = sdat (obj (ro_mats r') 0)) by (apply same_data; [apply OK|apply OK'|intros [i j]; rewrite C0, C0'; reflexivity]).
    assert (S : ssz (obj (ro_mats r) 0) = ssz (obj (ro_mats r') 0)) by (rewrite Z0, Z0', A, B, A', B'; reflexivity).
    revert D S F0 F0'. clear. destruct (obj (ro_mats r) 0) as [a b c], (obj (ro_mats r') 0) as [a' b' c']. cbn. congruence. }
  assert (Q1 : obj (ro_mats r) 1 = obj (ro_mats r') 1).
  { assert (D : sdat (obj (ro_mats r) 1) = sdat (obj (ro_mats r') 1)) by (apply same_data; [apply OK|apply OK'|intros [i j]; rewrite C1, C1'; reflexivity]).
    assert (S : ssz (obj (ro_mats r) 1) = ssz (obj (ro_mats r') 1)) by (rewrite Z1, Z1', A, B, A', B'; reflexivity).
    revert D S F1 F1'. clear. destruct (obj (ro_mats r) 1) as [a b c], (obj (ro_mats r') 1) as [a' b' c']. cbn. congruence. }
  assert (K : map fst (sdat (obj (ro_mats r) 2)) = map fst (sdat (obj (ro_mats r') 2))).
  { apply same_keys; [apply OK|apply OK'|]. intros [i j]. rewrite <- !has_In by (apply OK || apply OK'). rewrite H2, H2', A, B, A', B', Q0, Q1. tauto. }
  apply (same_J_sym_solution r' r hd I' I PT' PT); [congruence|congruence|congruence|]. apply w_data_keys; assumption.
Qed.

(** * a sufficient condition on the pattern *)
Lemma wst_stored m J1 J2 i j : i < m -> j < m -> ~ stored (w_stencil m J1 J2) i j -> i <> j /\ J1 i j = 0%Qc /\ J2 i j = 0%Qc.
Proof.
  intros Hi Hj NS. assert (Q : ((i =? j) || negb (Qceqb (J1 i j) 0) || negb (Qceqb (J2 i j) 0)) = false).
  { apply not_true_is_false. intros E. apply NS. exists 0%Qc. unfold w_stencil. apply in_flat_map. exists i. split; [apply in_seq; lia|]. apply in_flat_map. exists j. split; [apply in_seq; lia|]. rewrite E. left; reflexivity. }
  apply orb_false_iff in Q as [Q C]. apply orb_false_iff in Q as [A B]. apply Nat.eqb_neq in A. apply negb_false_iff in B, C. apply Qceqb_eq in B, C. auto.
Qed.
Lemma pattern_fill m hd J1 J2 : stencil_covers (w_stencil m J1 J2) m -> fill_covered (w_stencil m J1 J2) (wmat hd J1 J2) m.
Proof.
  intros SC L U HL HU HP.
  assert (Z : forall c, c < m -> forall r, r < m -> (forall r', r' <= r -> ~ stored (w_stencil m J1 J2) r' c) -> U r c = 0%Qc).
  { intros c Hc r. induction r as [r IH] using lt_wf_ind. intros Hr HN. pose proof (HP r c Hr Hc) as E.
    rewrite (qsum_trunc m (S r)) in E by (try lia; intros k Hk; rewrite (proj2 (HL r k ltac:(lia) ltac:(lia))) by lia; ring).
    simpl in E. rewrite (proj1 (HL r r Hr Hr) eq_refl) in E. rewrite qsum_zero in E.
    - destruct (wst_stored m J1 J2 r c Hr Hc (HN r (le_n r))) as (A & B & C). unfold wmat, delta in E. apply Nat.eqb_neq in A. rewrite A, B, C in E.
      replace (U r c) with (0 + 1 * U r c)%Qc by ring. rewrite E. ring.
    - intros k Hk. rewrite (IH k) by (try lia; intros; apply HN; lia). ring. }
  intros r c Hrc HN. apply Z; [lia|lia|]. intros r' Hr' S. destruct (SC r c Hrc) as (c' & Hc' & Hs); [eauto|]. exact (HN c' Hc' Hs).
Qed.
