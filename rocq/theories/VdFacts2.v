(** VdFacts2.v - the product of a sparse matrix and a vector in doubles. *)
From Coq Require Import List Arith Bool ZArith Lia Reals Lra.
From Flocq Require Import Core IEEE754.BinarySingleNaN.
From Verif Require Import Base BaseFacts SMap SpModel SpSpec SpFacts SpFacts2 SpFacts3 SpFacts4 SpFacts6 VecModel VecSpec ConvSpec ConvFacts ConvFacts3 StepSpec FpSpec FpFacts4 LufSpec LufFacts3 RopSpec RopFacts RopFacts2 IeeeSpec IeeeFacts VdSpec VdFacts.
Import ListNotations.
Local Open Scope R_scope.
Implicit Types (m : mems DNum) (e : sexpr DNum).

Lemma sscaleD e (x : double) : B2R x = 0 -> is_finite (sscale e x : double) = true -> B2R (sscale e x : double) = 0.
Proof.
  revert x. induction e as [|e IH|e IH|e IH k]; intros x Z F; simpl in *; auto.
  change (nmul DNum (sscale e x) k) with (Bmult mode_NE (sscale e x : double) (k : double)) in *.
  assert (G : is_finite (sscale e x : double) = true) by (destruct (sscale e x : double), (k : double); try discriminate F; reflexivity).
  pose proof (IH x Z G) as H. destruct (sscale e x : double) as [s| | |s mm ee Hb]; [destruct (k : double); try discriminate F; reflexivity|discriminate G|discriminate G|].
  simpl in H. apply eq_0_F2R in H. destruct s; discriminate H.
Qed.
Lemma acc_loopD (els : list (key * double)) (vs : list double) : forall vd : list double,
  (forall el, In el els -> (fst (fst el) < length vd)%nat /\ (snd (fst el) < length vs)%nat) ->
  exists vd' : list double, ofold (fun (vd : list double) (el : key * double) => x <- rd (A:=double) vs (snd (fst el)) ;; y <- rd (A:=double) vd (fst (fst el)) ;; wr (A:=double) vd (fst (fst el)) (nadd DNum y (nmul DNum (snd el) x))) els vd = Ret vd' /\
    length vd' = length vd /\
    forall r, nth r vd' dzero = fold_left (fun s el => nadd DNum s (nmul DNum (snd el) (nth (snd (fst el)) vs dzero))) (filter (fun el => (fst (fst el) =? r)%nat) els) (nth r vd dzero).
Proof.
  induction els as [|el els IH]; intros vd H.
  - exists vd. simpl. repeat split.
  - destruct (H el (or_introl eq_refl)) as [H1 H2]. cbn [ofold]. change (nT DNum) with double in *.
    rewrite (rd_ok vs (snd (fst el)) dzero H2), (rd_ok vd (fst (fst el)) dzero H1). cbn [obind]. rewrite (wr_ok vd (fst (fst el)) _ H1). cbn [obind].
    destruct (IH (upd vd (fst (fst el)) (nadd DNum (nth (fst (fst el)) vd dzero) (nmul DNum (snd el) (nth (snd (fst el)) vs dzero))))) as [vd' [E [L V]]].
    { intros el' I. rewrite upd_length. apply H. right; assumption. }
    exists vd'. split; [exact E|]. split; [exact (eq_trans L (upd_length _ _ _))|]. intros r. rewrite V. rewrite nth_upd. cbn [filter].
    destruct (Nat.eq_dec (fst (fst el)) r) as [<-|D].
    + rewrite !Nat.eqb_refl. apply Nat.ltb_lt in H1. rewrite H1. reflexivity.
    + destruct (Nat.eqb_spec r (fst (fst el))); [congruence|]. assert (Q : ((fst (fst el) =? r) = false)%nat) by (apply Nat.eqb_neq; exact D). unfold key in *. rewrite Q. reflexivity.
Qed.
Section Line.
Context (m : mems DNum) (e : sexpr DNum).
Definition rowD (r : nat) : list (key * double) := filter (fun el : key * double => (fst (fst el) =? r)%nat) (siter m e).
Definition elD (r c : nat) : R := B2R (sget m e (r, c) : double).
Lemma line_sumD r (F : R -> nat -> R) : (forall i, F 0 i = 0) -> mems_ok m -> SpSpec.in_range m e -> (r < fst (ssize m e))%nat ->
  (forall c, (c < snd (ssize m e))%nat -> is_finite (sget m e (r, c) : double) = true) ->
  asum (fun el : key * double => F (B2R (snd el)) (snd (fst el))) (rowD r) = rsum (snd (ssize m e)) (fun c => F (elD r c) c) /\
  (length (rowD r) <= snd (ssize m e))%nat /\
  forall k x, In (k, x) (rowD r) -> (snd k < snd (ssize m e))%nat /\ (sget m e (r, snd k) : double) = x.
Proof.
  intros Z OK [IR1 IR2] Hr FN. set (els := rowD r).
  assert (FR : forall L : list (key * double), asum (fun el => F (B2R (snd el)) (snd (fst el))) L = asum (fun el => F (snd el) (fst el)) (map (fun el => (snd (fst el), B2R (snd el))) L)).
  { induction L as [|x L IH]; simpl; [reflexivity|]. rewrite IH. reflexivity. }
  assert (ND : NoDup (map fst (map (fun el : key * double => (snd (fst el), B2R (snd el))) els))).
  { rewrite map_map. simpl. assert (ND := siter_NoDup m e OK). unfold els, rowD. clear -ND.
    induction (siter m e) as [|[k x] t IH]; simpl; [constructor|]. simpl in ND. inversion_clear ND as [|? ? NI ND'].
    destruct (Nat.eqb_spec (fst k) r) as [E|]; [|auto]. simpl. constructor; [|auto].
    intros I. apply in_map_iff in I as [[k' x'] [E' I]]. simpl in E'. apply filter_In in I as [I K]. simpl in K.
    apply Nat.eqb_eq in K. apply NI. apply in_map_iff. exists (k', x'). split; [|assumption]. simpl. destruct k, k'. simpl in *. congruence. }
  assert (B0 : forall k x, In (k, x) els -> (snd k < snd (ssize m e))%nat /\ (sget m e (r, snd k) : double) = x).
  { intros k x I. apply filter_In in I as [I K]. simpl in K. apply Nat.eqb_eq in K. split; [apply (IR1 _ _ I)|]. rewrite <- K. rewrite <- (surjective_pairing k). apply (siter_get m e); assumption. }
  assert (BD : forall i x, In (i, x) (map (fun el : key * double => (snd (fst el), B2R (snd el))) els) -> (i < snd (ssize m e))%nat /\ elD r i = x).
  { intros c x I. apply in_map_iff in I as [[k y] [E I]]. simpl in E. injection E as <- <-. destruct (B0 _ _ I) as [B1 B2]. split; [exact B1|]. unfold elD. rewrite B2. reflexivity. }
  split; [|split; [|exact B0]].
  - rewrite FR. apply (list_sumR F Z _ _ (fun c => elD r c)); [exact ND|exact BD|].
    intros c Hc NI. destruct (siter_absent m e (r, c) OK) as [A _].
    + apply IR2; assumption.
    + intros x I. apply (NI (B2R (x : double))). apply in_map_iff. exists ((r, c), x : double). split; [reflexivity|].
      apply filter_In. split; [assumption|]. simpl. apply Nat.eqb_refl.
    + unfold elD. pose proof (FN c Hc) as FC. rewrite A in *. apply sscaleD; [reflexivity|exact FC].
  - assert (IN : incl (map fst (map (fun el : key * double => (snd (fst el), B2R (snd el))) els)) (seq 0 (snd (ssize m e)))).
    { intros i I. apply in_map_iff in I as [[i' x] [E I]]. simpl in E. subst i'. apply in_seq. destruct (BD i x I). lia. }
    apply NoDup_incl_length in IN; [|exact ND]. rewrite !map_length, seq_length in IN. exact IN.
Qed.
End Line.
Lemma smulv_double m e (v : list double) : mems_ok m -> SpSpec.in_range m e -> length v = snd (ssize m e) ->
  exists w : list double, smulv m e v = Ret w /\ length w = fst (ssize m e) /\
    forall r, (r < fst (ssize m e))%nat -> nth r w dzero = fold_left (fun s el => nadd DNum s (nmul DNum (snd el) (nth (snd (fst el)) v dzero))) (rowD m e r) dzero.
Proof.
  intros OK IR L. unfold smulv, mulVectRight, fill0. change (nT DNum) with double in *. rewrite repeat_length, Nat.leb_refl. cbn [obind]. rewrite skipn_all2 by (rewrite repeat_length; lia). rewrite app_nil_r.
  destruct (acc_loopD (siter m e) v (repeat dzero (fst (ssize m e)))) as [w [E [LW V]]].
  { intros [k x] I. destruct IR as [IR _]. destruct (IR k x I). simpl. rewrite repeat_length. change (nT DNum) with double in *. lia. }
  exists w. split; [exact E|]. split; [rewrite LW; apply repeat_length|]. intros r Hr. rewrite V. rewrite nth_repeat. reflexivity.
Qed.
Lemma mulv_double m e (v : list double) : mems_ok m -> SpSpec.in_range m e -> length v = snd (ssize m e) -> all_finite v ->
  INR (S (length v)) * / 2 ^ 53 <= / 4 ->
  exists w : list double, smulv m e v = Ret w /\ length w = fst (ssize m e) /\
    forall r, (r < fst (ssize m e))%nat -> (forall c, (c < length v)%nat -> is_finite (sget m e (r, c) : double) = true) ->
      rsum (length v) (fun c => Rabs (B2R (sget m e (r, c) : double) * val v c)) <= 2 ^ 1000 ->
      is_finite (nth r w dzero) = true /\
      Rabs (val w r - rsum (length v) (fun c => B2R (sget m e (r, c) : double) * val v c)) <=
        gam (S (length v)) (/ 2 ^ 53) * rsum (length v) (fun c => Rabs (B2R (sget m e (r, c) : double) * val v c)) + INR (length v) * / 2 ^ 1073.
Proof.
  intros OK IR L FV NB. destruct (smulv_double m e v OK IR L) as (w & E & LW & V). exists w. split; [exact E|]. split; [exact LW|]. intros r Hr FN SB. unfold val at 1. rewrite (V r Hr). clear V E LW w. fold U in NB |- *.
  rewrite L in *.
  destruct (line_sumD m e r (fun x c => x * val v c) (fun i => Rmult_0_l _) OK IR Hr FN) as (S1 & SL & SE).
  destruct (line_sumD m e r (fun x c => Rabs (x * val v c)) (fun i => eq_trans (f_equal Rabs (Rmult_0_l _)) Rabs_R0) OK IR Hr FN) as (S2 & _). unfold elD in S1, S2. rewrite <- S1, <- S2. rewrite <- S2 in SB.
  set (els := rowD m e r) in *. set (k := length els) in *.
  assert (T : term_ok (A:=key * double) (fun el => nmul DNum (snd el) (nth (snd (fst el)) v dzero)) (fun el => b64 (B2R (snd el) * val v (snd (fst el)))) (fun el => B2R (snd el) * val v (snd (fst el))) els).
  { intros [q x] Hi. destruct (SE q x Hi) as [Q1 Q2]. cbn [fst snd]. split; [|exact (proj2 binary64_rounds (B2R x * val v (snd q)))].
    apply d_mul; [split; [rewrite <- Q2; apply FN; exact Q1|reflexivity]|apply val_holds; [exact FV|lia]|].
    pose proof (asum_in (A:=key*double) (fun el => Rabs (B2R (snd el) * val v (snd (fst el)))) els (q, x) ltac:(intros; apply Rabs_pos) Hi) as H. cbv beta in H. cbn [fst snd] in H. pose proof (pow_lt 2 1000 ltac:(lra)). rewrite <- big4. lra. }
  assert (KK : INR k <= INR (snd (ssize m e))) by (apply le_INR; exact SL). pose proof u_small as [U0 U1].
  assert (NK : INR (S k) * U <= / 4). { eapply Rle_trans; [|exact NB]. apply Rmult_le_compat_r; [lra|]. rewrite !S_INR. lra. }
  destruct (sum_holds _ _ _ els T SB NK) as (z & [H1 H2] & ER). split; [exact H1|]. match goal with |- Rabs (B2R ?x - _) <= _ => replace (B2R x) with z by (symmetry; exact H2) end.
  assert (S0 : 0 <= asum (fun el : key * double => Rabs (B2R (snd el) * val v (snd (fst el)))) els) by (apply asum_nonneg; intros; apply Rabs_pos).
  apply sum_final; [exact NB|exact S0|]. eapply Rle_trans; [exact ER|]. fold k.
  assert (P1 : (1 + U) ^ S k <= (1 + U) ^ S (snd (ssize m e))) by (apply Rle_pow; [lra|lia]). assert (P2 : (1 + U) ^ k <= (1 + U) ^ (snd (ssize m e))) by (apply Rle_pow; [lra|lia]).
  pose proof eta_small as [E0 _]. pose proof (pos_INR k) as K0. assert (P0 : 0 <= (1 + U) ^ k) by (apply pow_le; lra).
  apply Rplus_le_compat; [apply Rmult_le_compat_r; lra|]. apply Rmult_le_compat; [apply Rmult_le_pos; lra|exact P0|apply Rmult_le_compat_r; lra|exact P2].
Qed.
(** A row of the matrix with a stored NaN, or with a stored element that meets NaN in the vector. *)
Lemma mulv_nan m e (v : list double) : mems_ok m -> SpSpec.in_range m e -> length v = snd (ssize m e) ->
  exists w : list double, smulv m e v = Ret w /\
    forall r c x, In ((r, c), x) (siter m e) -> x = (B754_nan : double) \/ nth c v dzero = B754_nan -> nth r w dzero = B754_nan.
Proof.
  intros OK IR L. destruct (smulv_double m e v OK IR L) as (w & E & LW & V). exists w. split; [exact E|]. intros r c x I H. destruct IR as [IR1 _]. destruct (IR1 _ _ I) as [Hr _]. rewrite (V r Hr).
  apply (nan_sum (A:=key * double) (fun el => nmul DNum (snd el) (nth (snd (fst el)) v dzero)) _ dzero ((r, c), x)); [apply filter_In; split; [exact I|simpl; apply Nat.eqb_refl]|].
  cbn [fst snd]. destruct H as [->|H]; [apply nan_mul_l|rewrite H; apply nan_mul_r].
Qed.
