(** VdFacts5.v - the product of sparse matrices in doubles. *)
From Coq Require Import List Arith Bool ZArith Lia Reals Lra.
From Flocq Require Import Core IEEE754.BinarySingleNaN.
From Verif Require Import Base BaseFacts SMap SpModel SpSpec SpFacts SpFacts2 SpFacts3 SpFacts4 SpFacts6 VecModel VecSpec ConvSpec ConvFacts ConvFacts3 StepSpec FpSpec FpFacts4 LufSpec LufFacts3 RopSpec RopFacts LufFacts4 RopFacts2 IeeeSpec IeeeFacts VdSpec VdFacts VdFacts2.
Import ListNotations.
Local Open Scope R_scope.

Definition pvalD (m : mems DNum) (a b : sexpr DNum) (r c : nat) : double := fold_left (fun s el => let g := scheckedGet m b (snd (fst el), c) in
  if snd g then nadd (DNum) s (nmul (DNum) (snd el) (fst g)) else s) (filter (fun el => (fst (fst el) =? r)%nat) (siter m a)) (n0 (DNum)).
Definition prod_doneD (m : mems DNum) (a b : sexpr DNum) (res : smat (DNum)) (done : nat -> nat -> Prop) : Prop :=
  fast res = false /\ ssz res = (fst (ssize m a), snd (ssize m b)) /\ row_major (sdat res) /\
  (forall r c, done r c -> sfind res (r, c) = if Beqb (pvalD m a b r c) dzero then None else Some (pvalD m a b r c)) /\
  (forall r c, ~ done r c -> sfind res (r, c) = None).
Lemma sprodD_ok (m : mems DNum) (a b : sexpr DNum) : row_capable m a = true ->
  exists res, sprod m a b = Ret res /\ prod_doneD m a b res (fun r c => (r < fst (ssize m a))%nat /\ (c < snd (ssize m b))%nat).
Proof.
  intros RC. unfold sprod.
  destruct (ofor_inv (fun c res => prod_doneD m a b res (fun r c' => (r < fst (ssize m a))%nat /\ (c' < c)%nat)) 0 (snd (ssize m b))
    (fun c res =>
    ofor 0 (fst (ssize m a)) (fun r res =>
      row <- srow m a r ;;
      let product := fold_left (fun s el => let g := scheckedGet m b (snd (fst el), c) in
                                            if snd g then nadd (DNum) s (nmul (DNum) (snd el) (fst g)) else s) row (n0 (DNum)) in
      if neqb (DNum) product (n0 (DNum)) then Ret res else at_upd res (r, c) (fun _ => product)) res)
    (new_map (fst (ssize m a), snd (ssize m b)))) as [res [E P]].
  - lia.
  - split; [reflexivity|]. split; [reflexivity|]. split; [exact I|]. split; [intros r c [_ H]; lia|intros; reflexivity].
  - intros c res Hc PD.
    destruct (ofor_inv (fun r res => prod_doneD m a b res (fun r' c' => ((r' < fst (ssize m a))%nat /\ (c' < c)%nat) \/ (c' = c /\ (r' < r)%nat)))
       0 (fst (ssize m a)) (fun r res =>
      row <- srow m a r ;;
      let product := fold_left (fun s el => let g := scheckedGet m b (snd (fst el), c) in
                                            if snd g then nadd (DNum) s (nmul (DNum) (snd el) (fst g)) else s) row (n0 (DNum)) in
      if neqb (DNum) product (n0 (DNum)) then Ret res else at_upd res (r, c) (fun _ => product)) res) as [res' [E' P']].
    + lia.
    + destruct PD as [A [B [C [D E]]]]. repeat split; auto.
      * intros r' c' [H|[_ H]]; [auto|lia].
    + intros r x Hr [A [B [C [D E]]]]. rewrite srow_ok by assumption. cbn [obind]. cbv zeta. fold (pvalD m a b r c).
      change (neqb (DNum) (pvalD m a b r c) (n0 (DNum))) with (Beqb (pvalD m a b r c) dzero). destruct (Beqb (pvalD m a b r c) dzero) eqn:Z.
      * exists x. split; [reflexivity|]. repeat split; auto.
        -- intros r' c' H. destruct (keqb2_spec (r', c') (r, c)) as [K|K].
           ++ injection K as -> ->. rewrite Z. apply E. lia.
           ++ apply D. destruct H as [H|[H1 H2]]; [auto|]. right. split; [assumption|].
              assert (r' <> r) by congruence. lia.
        -- intros r' c' H. apply E. lia.
      * destruct (at_upd_map x (r, c) (fun _ => pvalD m a b r c) A C) as [x' [X1 [X2 [X3 [X4 [X5 X6]]]]]].
        exists x'. split; [exact X1|]. split; [exact X2|]. split; [congruence|]. split; [exact X4|]. split.
        -- intros r' c' H. destruct (keqb2_spec (r', c') (r, c)) as [K|K].
           ++ injection K as -> ->. rewrite Z. exact X5.
           ++ rewrite X6 by assumption. apply D. destruct H as [H|[H1 H2]]; [auto|]. right. split; [assumption|].
              assert (r' <> r) by congruence. lia.
        -- intros r' c' H. rewrite X6; [apply E; lia|]. intros K. injection K as -> ->. apply H. right. lia.
    + exists res'. split; [exact E'|]. destruct P' as [A [B [C [D E]]]]. repeat split; auto.
      * intros r' c' [H1 H2]. apply D. destruct (Nat.eq_dec c' c); [right; lia|left; lia].
      * intros r' c' H. apply E. lia.
  - exists res. split; [exact E|exact P].
Qed.
Lemma fold_ifD {A} (t : A -> bool) (f : double -> A -> double) (l : list A) : forall s, fold_left (fun s el => if t el then f s el else s) l s = fold_left f (filter t l) s.
Proof. induction l as [|x l I]; intros s; simpl; [reflexivity|]. destruct (t x); simpl; apply I. Qed.
Lemma asum_filter_in {A} (t : A -> bool) (f : A -> R) (l : list A) : (forall x, In x l -> t x = false -> f x = 0) -> asum f (filter t l) = asum f l.
Proof. induction l as [|x l I]; intros H; simpl; [reflexivity|]. pose proof (I (fun y Hy => H y (or_intror Hy))) as Q. destruct (t x) eqn:E; simpl; [|rewrite (H x (or_introl eq_refl) E)]; rewrite Q; [reflexivity|ring]. Qed.
Lemma scg_absentD (m : mems DNum) (b : sexpr DNum) p : snd (scheckedGet m b p) = false -> is_finite (sget m b p : double) = true -> B2R (sget m b p : double) = 0.
Proof.
  unfold scheckedGet, hasIndex, sget, get. cbn [snd]. destruct (sfind (obj m (sbase b)) (to_base b p)); [discriminate|]. intros _ F. apply sscaleD; [reflexivity|exact F].
Qed.
Lemma pval_double (m : mems DNum) (a b : sexpr DNum) r c : mems_ok m -> SpSpec.in_range m a -> (r < fst (ssize m a))%nat -> INR (S (snd (ssize m a))) * / 2 ^ 53 <= / 4 ->
  (forall k, (k < snd (ssize m a))%nat -> is_finite (sget m a (r, k) : double) = true /\ is_finite (sget m b (k, c) : double) = true) ->
  rsum (snd (ssize m a)) (fun k => Rabs (B2R (sget m a (r, k) : double) * B2R (sget m b (k, c) : double))) <= 2 ^ 1000 ->
  is_finite (pvalD m a b r c) = true /\
  Rabs (B2R (pvalD m a b r c) - rsum (snd (ssize m a)) (fun k => B2R (sget m a (r, k) : double) * B2R (sget m b (k, c) : double))) <=
    gam (S (snd (ssize m a))) (/ 2 ^ 53) * rsum (snd (ssize m a)) (fun k => Rabs (B2R (sget m a (r, k) : double) * B2R (sget m b (k, c) : double))) + INR (snd (ssize m a)) * / 2 ^ 1073.
Proof.
  intros OK IR Hr NB FN SB. fold U in NB |- *. set (bv := fun k : nat => B2R (sget m b (k, c) : double)).
  destruct (line_sumD m a r (fun x k => x * bv k) (fun i => Rmult_0_l _) OK IR Hr (fun k Hk => proj1 (FN k Hk))) as (S1 & SL & SE).
  destruct (line_sumD m a r (fun x k => Rabs (x * bv k)) (fun i => eq_trans (f_equal Rabs (Rmult_0_l _)) Rabs_R0) OK IR Hr (fun k Hk => proj1 (FN k Hk))) as (S2 & _). unfold elD in S1, S2.
  unfold bv in S1, S2. rewrite <- S1, <- S2. rewrite <- S2 in SB. clear S1 S2. fold (rowD m a r) in *.
  set (els := rowD m a r) in *. set (t := fun el : key * double => snd (scheckedGet m b (snd (fst el), c))). set (els' := filter t els).
  assert (AB : forall el, In el els -> t el = false -> bv (snd (fst el)) = 0).
  { intros [q x] Hi E. apply scg_absentD; [exact E|]. apply FN. apply (SE q x Hi). }
  assert (Q1 : asum (fun el : key * double => B2R (snd el) * bv (snd (fst el))) els' = asum (fun el : key * double => B2R (snd el) * bv (snd (fst el))) els) by (apply asum_filter_in; intros el Hi E; rewrite (AB el Hi E); apply Rmult_0_r).
  assert (Q2 : asum (fun el : key * double => Rabs (B2R (snd el) * bv (snd (fst el)))) els' = asum (fun el : key * double => Rabs (B2R (snd el) * bv (snd (fst el)))) els) by (apply asum_filter_in; intros el Hi E; rewrite (AB el Hi E), Rmult_0_r; apply Rabs_R0).
  unfold bv in Q1, Q2. rewrite <- Q1, <- Q2. rewrite <- Q2 in SB.
  assert (PV : pvalD m a b r c = fold_left (fun s (el : key * double) => nadd DNum s (nmul DNum (snd el) (sget m b (snd (fst el), c)))) els' dzero).
  { exact (fold_ifD t (fun s (el : key * double) => nadd DNum s (nmul DNum (snd el) (sget m b (snd (fst el), c)))) els dzero). }
  rewrite PV. set (k := length els').
  assert (T : term_ok (A:=key * double) (fun el => nmul DNum (snd el) (sget m b (snd (fst el), c))) (fun el => b64 (B2R (snd el) * B2R (sget m b (snd (fst el), c) : double))) (fun el => B2R (snd el) * B2R (sget m b (snd (fst el), c) : double)) els').
  { intros [q x] Hi. pose proof Hi as Hi'. apply filter_In in Hi' as [Hi' _]. destruct (SE q x Hi') as [R1 R2]. cbn [fst snd]. split; [|exact (proj2 binary64_rounds (B2R x * B2R (sget m b (snd q, c) : double)))].
    apply d_mul; [split; [rewrite <- R2; apply FN; exact R1|reflexivity]|split; [apply FN; exact R1|reflexivity]|].
    pose proof (asum_in (A:=key*double) (fun el => Rabs (B2R (snd el) * B2R (sget m b (snd (fst el), c) : double))) els' (q, x) ltac:(intros; apply Rabs_pos) Hi) as H. cbv beta in H. cbn [fst snd] in H. pose proof (pow_lt 2 1000 ltac:(lra)). rewrite <- big4. lra. }
  assert (KL : (k <= snd (ssize m a))%nat) by (pose proof (filter_length_le t els); unfold k, els'; lia).
  assert (KK : INR k <= INR (snd (ssize m a))) by (apply le_INR; exact KL). pose proof u_small as [U0 U1].
  assert (NK : INR (S k) * U <= / 4). { eapply Rle_trans; [|exact NB]. apply Rmult_le_compat_r; [lra|]. rewrite !S_INR. lra. }
  destruct (sum_holds _ _ _ els' T SB NK) as (z & [H1 H2] & ER). split; [exact H1|]. match goal with |- Rabs (B2R ?x - _) <= _ => replace (B2R x) with z by (symmetry; exact H2) end.
  assert (S0 : 0 <= asum (fun el : key * double => Rabs (B2R (snd el) * B2R (sget m b (snd (fst el), c) : double))) els') by (apply asum_nonneg; intros; apply Rabs_pos).
  apply sum_final; [exact NB|exact S0|]. eapply Rle_trans; [exact ER|]. fold k.
  assert (P1 : (1 + U) ^ S k <= (1 + U) ^ S (snd (ssize m a))) by (apply Rle_pow; [lra|lia]). assert (P2 : (1 + U) ^ k <= (1 + U) ^ (snd (ssize m a))) by (apply Rle_pow; [lra|lia]).
  pose proof eta_small as [E0 _]. pose proof (pos_INR k) as K0. assert (P0 : 0 <= (1 + U) ^ k) by (apply pow_le; lra).
  apply Rplus_le_compat; [apply Rmult_le_compat_r; lra|]. apply Rmult_le_compat; [apply Rmult_le_pos; lra|exact P0|apply Rmult_le_compat_r; lra|exact P2].
Qed.
Lemma product_double (m : mems DNum) (a b : sexpr DNum) : mems_ok m -> row_capable m a = true -> SpSpec.in_range m a -> INR (S (snd (ssize m a))) * / 2 ^ 53 <= / 4 ->
  exists res, sprod m a b = Ret res /\ fast res = false /\ ssz res = (fst (ssize m a), snd (ssize m b)) /\ row_major (sdat res) /\
    (forall r c, (r < fst (ssize m a))%nat -> (c < snd (ssize m b))%nat ->
       (forall k, (k < snd (ssize m a))%nat -> is_finite (sget m a (r, k) : double) = true /\ is_finite (sget m b (k, c) : double) = true) ->
       rsum (snd (ssize m a)) (fun k => Rabs (B2R (sget m a (r, k) : double) * B2R (sget m b (k, c) : double))) <= 2 ^ 1000 ->
       is_finite (get res (r, c) : double) = true /\
       Rabs (B2R (get res (r, c) : double) - rsum (snd (ssize m a)) (fun k => B2R (sget m a (r, k) : double) * B2R (sget m b (k, c) : double))) <=
         gam (S (snd (ssize m a))) (/ 2 ^ 53) * rsum (snd (ssize m a)) (fun k => Rabs (B2R (sget m a (r, k) : double) * B2R (sget m b (k, c) : double))) + INR (snd (ssize m a)) * / 2 ^ 1073) /\
    (forall r c k x, (c < snd (ssize m b))%nat -> In ((r, k), x) (siter m a) -> snd (scheckedGet m b (k, c)) = true -> x = (B754_nan : double) \/ (sget m b (k, c) : double) = B754_nan -> (get res (r, c) : double) = B754_nan).
Proof.
  intros OK RC IR NB. destruct (sprodD_ok m a b RC) as [res [E [A [B [C [D F]]]]]].
  exists res. split; [exact E|]. split; [exact A|]. split; [exact B|]. split; [exact C|].
  split.
  - intros r c Hr Hc FN SB. destruct (pval_double m a b r c OK IR Hr NB FN SB) as [P1 P2].
    assert (G : is_finite (get res (r, c) : double) = true /\ B2R (get res (r, c) : double) = B2R (pvalD m a b r c)).
    { unfold get. rewrite D by auto. destruct (Beqb (pvalD m a b r c) dzero) eqn:Z; [|split; [exact P1|reflexivity]]. split; [reflexivity|]. rewrite (Beqb_correct 53 1024 _ dzero P1 eq_refl) in Z. destruct (Req_bool_spec (B2R (pvalD m a b r c)) (B2R dzero)); [symmetry; assumption|discriminate]. }
    destruct G as [G1 G2]. split; [exact G1|]. rewrite G2. exact P2.
  - intros r c k x Hc I T H. assert (Hr : (r < fst (ssize m a))%nat) by (destruct IR as [IR1 _]; apply (IR1 _ _ I)).
    assert (P : pvalD m a b r c = B754_nan).
    { transitivity (fold_left (fun s (el : key * double) => nadd DNum s (nmul DNum (snd el) (sget m b (snd (fst el), c)))) (filter (fun el : key * double => snd (scheckedGet m b (snd (fst el), c))) (rowD m a r)) dzero).
      - exact (fold_ifD (fun el : key * double => snd (scheckedGet m b (snd (fst el), c))) (fun s (el : key * double) => nadd DNum s (nmul DNum (snd el) (sget m b (snd (fst el), c)))) (rowD m a r) dzero).
      - apply (nan_sum (A:=key * double) (fun el => nmul DNum (snd el) (sget m b (snd (fst el), c))) _ dzero ((r, k), x)).
        + apply filter_In. split; [apply filter_In; split; [exact I|simpl; apply Nat.eqb_refl]|exact T].
        + cbn [fst snd]. destruct H as [->|H]; [apply nan_mul_l|rewrite H; apply nan_mul_r]. }
    unfold get. rewrite D by auto. rewrite P. reflexivity.
Qed.
