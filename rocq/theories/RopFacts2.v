(** RopFacts2.v - rounding errors of matrix-vector and matrix-matrix products. *)
From Coq Require Import List Arith Bool Lia QArith Qcanon Reals Lra.
From Verif Require Import Base BaseFacts SMap SpModel SpSpec SpFacts SpFacts2 SpFacts3 SpFacts4 SpFacts6 VecModel VecSpec VecFacts ConvSpec ConvFacts ConvFacts3 StepSpec FpSpec LufSpec LufFacts3 LufFacts4 RopSpec RopFacts.
Import ListNotations.
Local Open Scope R_scope.

Lemma rsum_remove n k f : (k < n)%nat -> rsum n f = f k + rsum n (fun i => if Nat.eqb i k then 0 else f i).
Proof.
  intros H. induction n as [|n I]; [lia|]. simpl. destruct (Nat.eq_dec k n) as [->|D].
  - rewrite Nat.eqb_refl. rewrite (rsum_ext n (fun i => if (i =? n)%nat then 0 else f i) f); [ring|]. intros i Hi. destruct (Nat.eqb_spec i n); [lia|reflexivity].
  - rewrite I by lia. destruct (Nat.eqb_spec n k); [lia|]. ring.
Qed.
Lemma list_sumR (F : R -> nat -> R) (Z : forall i, F 0 i = 0) (l : list (nat * R)) (n : nat) : forall (v : nat -> R), NoDup (map fst l) -> (forall i x, In (i, x) l -> (i < n)%nat /\ v i = x) ->
  (forall i, (i < n)%nat -> (forall x, ~ In (i, x) l) -> v i = 0) -> asum (fun el => F (snd el) (fst el)) l = rsum n (fun i => F (v i) i).
Proof.
  induction l as [|[i x] l IH]; intros v ND H A.
  - simpl. symmetry. apply rsum_zero. intros i Hi. rewrite A; [apply Z|assumption|]. intros y [].
  - simpl in ND. inversion_clear ND as [|? ? NI ND']. destruct (H i x (or_introl eq_refl)) as [Hi Vi].
    simpl. rewrite (IH (fun j => if Nat.eqb j i then 0 else v j)).
    + rewrite (rsum_remove n i (fun j => F (v j) j) Hi). rewrite Vi. f_equal. apply rsum_ext. intros j _. destruct (Nat.eqb_spec j i); [apply Z|reflexivity].
    + assumption.
    + intros j y I. destruct (H j y (or_intror I)) as [A1 B]. split; [assumption|].
      destruct (Nat.eqb_spec j i) as [->|]; [|assumption]. destruct NI. apply in_map_iff. exists (i, y); auto.
    + intros j Hj Q. destruct (Nat.eqb_spec j i); [reflexivity|]. apply A; [assumption|]. intros y [E|I]; [congruence|apply (Q y I)].
Qed.

Section Mat.
Context (rnd : R -> R) (u : R).
Hypothesis RE : relative rnd u.
Hypothesis U0 : 0 <= u.
Implicit Types (m : mems (FNum rnd)) (e a b : sexpr (FNum rnd)) (els : list (key * R)) (vs vd : list R).

Lemma sscale0 e : sscale e 0 = 0.
Proof. induction e as [|e IH|e IH|e IH k]; simpl; auto. rewrite IH. change (nmul (FNum rnd) 0 k) with (rnd (0 * (k : R))). rewrite Rmult_0_l. apply (rnd0 rnd u RE). Qed.

Lemma acc_loopF (ri ci : key * R -> nat) els vs : forall vd,
  (forall el, In el els -> (ri el < length vd)%nat /\ (ci el < length vs)%nat) ->
  exists vd', ofold (fun vd el => x <- rd vs (ci el) ;; y <- rd vd (ri el) ;; wr vd (ri el) (rnd (y + rnd (snd el * x)))) els vd = Ret vd' /\
    length vd' = length vd /\
    forall r, cmpR vd' r = fold_left (fun s el => rnd (s + rnd (snd el * cmpR vs (ci el)))) (filter (fun el => (ri el =? r)%nat) els) (cmpR vd r).
Proof.
  induction els as [|el els IH]; intros vd H.
  - exists vd. simpl. repeat split.
  - destruct (H el (or_introl eq_refl)) as [H1 H2]. simpl.
    rewrite (rd_ok vs (ci el) 0 H2), (rd_ok vd (ri el) 0 H1). simpl. rewrite (wr_ok vd (ri el) _ H1). simpl.
    destruct (IH (upd vd (ri el) (rnd (nth (ri el) vd 0 + rnd (snd el * nth (ci el) vs 0))))) as [vd' [E [L V]]].
    { intros el' I. rewrite upd_length. apply H. right; assumption. }
    exists vd'. split; [exact E|]. split; [rewrite L, upd_length; reflexivity|]. intros r. rewrite V. unfold cmpR at 2. rewrite nth_upd.
    destruct (Nat.eqb_spec (ri el) r) as [<-|D].
    + rewrite Nat.eqb_refl. apply Nat.ltb_lt in H1. rewrite H1. reflexivity.
    + destruct (Nat.eqb_spec r (ri el)); [congruence|]. reflexivity.
Qed.
Lemma nth_fillR n vd r : (r < n)%nat -> cmpR (repeat 0 n ++ skipn n vd) r = 0.
Proof. intros H. unfold cmpR. rewrite app_nth1 by (rewrite repeat_length; assumption). apply nth_repeat. Qed.
Lemma nth_fill_restR n vd r : (n <= r)%nat -> cmpR (repeat 0 n ++ skipn n vd) r = cmpR vd r.
Proof.
  intros H. unfold cmpR. rewrite app_nth2 by (rewrite repeat_length; assumption). rewrite repeat_length.
  destruct (le_lt_dec (length vd) n) as [L|L].
  - rewrite skipn_all2 by assumption. rewrite (nth_overflow vd) by lia. destruct (r - n)%nat; reflexivity.
  - rewrite <- (firstn_skipn n vd) at 2. rewrite app_nth2 by (rewrite firstn_length; lia). rewrite firstn_length, Nat.min_l by lia. reflexivity.
Qed.
Lemma fill_lengthR n vd : (n <= length vd)%nat -> length (repeat 0 n ++ skipn n vd) = length vd.
Proof. intros H. rewrite app_length, repeat_length, skipn_length. lia. Qed.

(** rows (tr = false) or columns (tr = true) *)
Section Line.
Context (tr : bool).
Definition ri (k : key) : nat := if tr then snd k else fst k.
Definition ci (k : key) : nat := if tr then fst k else snd k.
Definition pos (r c : nat) : key := if tr then (c, r) else (r, c).
Lemma pos_ri_ci k : pos (ri k) (ci k) = k. Proof. destruct k as [x y]. unfold pos, ri, ci. destruct tr; reflexivity. Qed.
Lemma ri_pos r c : ri (pos r c) = r. Proof. unfold pos, ri. destruct tr; reflexivity. Qed.
Lemma ci_pos r c : ci (pos r c) = c. Proof. unfold pos, ci. destruct tr; reflexivity. Qed.
Lemma line_sum m e r (F : R -> nat -> R) : (forall i, F 0 i = 0) -> mems_ok m -> in_range m e -> (r < ri (ssize m e))%nat ->
  asum (fun el => F (snd el) (ci (fst el))) (filter (fun el : key * R => (ri (fst el) =? r)%nat) (siter m e)) =
  rsum (ci (ssize m e)) (fun c => F (sget m e (pos r c)) c) /\
  (length (filter (fun el : key * R => (ri (fst el) =? r)%nat) (siter m e)) <= ci (ssize m e))%nat.
Proof.
  intros Z OK [IR1 IR2] Hr. set (els := filter (fun el : key * R => (ri (fst el) =? r)%nat) (siter m e)).
  assert (FR : forall L : list (key * R), asum (fun el => F (snd el) (ci (fst el))) L = asum (fun el => F (snd el) (fst el)) (map (fun el => (ci (fst el), snd el)) L)).
  { induction L as [|x L IH]; simpl; [reflexivity|]. rewrite IH. reflexivity. }
  assert (ND : NoDup (map fst (map (fun el : key * R => (ci (fst el), snd el)) els))).
  { rewrite map_map. simpl. assert (ND := siter_NoDup m e OK). unfold els. clear -ND.
    induction (siter m e) as [|[k x] t IH]; simpl; [constructor|]. simpl in ND. inversion_clear ND as [|? ? NI ND'].
    destruct (Nat.eqb_spec (ri k) r) as [E|]; [|auto]. simpl. constructor; [|auto].
    intros I. apply in_map_iff in I as [[k' x'] [E' I]]. simpl in E'. apply filter_In in I as [I K]. simpl in K.
    apply Nat.eqb_eq in K. apply NI. apply in_map_iff. exists (k', x'). split; [|assumption]. simpl.
    rewrite <- (pos_ri_ci k), <- (pos_ri_ci k'). congruence. }
  assert (BD : forall i x, In (i, x) (map (fun el : key * R => (ci (fst el), snd el)) els) -> (i < ci (ssize m e))%nat /\ sget m e (pos r i) = x).
  { intros c x I. apply in_map_iff in I as [[k y] [E I]]. simpl in E. injection E as <- <-.
    apply filter_In in I as [I K]. simpl in K. apply Nat.eqb_eq in K. split; [destruct (IR1 _ _ I); unfold ci; destruct tr; assumption|].
    rewrite <- K, pos_ri_ci. apply (siter_get m e); assumption. }
  split.
  - rewrite FR. apply (list_sumR F Z _ _ (fun c => sget m e (pos r c))); [exact ND|exact BD|].
    intros c Hc NI. destruct (siter_absent m e (pos r c) OK) as [A _].
    + apply IR2; unfold pos, ri, ci in *; destruct tr; assumption.
    + intros x I. apply (NI x). apply in_map_iff. exists (pos r c, x). simpl. rewrite ci_pos. split; [reflexivity|].
      apply filter_In. split; [assumption|]. simpl. rewrite ri_pos. apply Nat.eqb_refl.
    + transitivity (sscale e 0); [exact A|apply sscale0].
  - assert (IN : incl (map fst (map (fun el : key * R => (ci (fst el), snd el)) els)) (seq 0 (ci (ssize m e)))).
    { intros i I. apply in_map_iff in I as [[i' x] [E I]]. simpl in E. subst i'. apply in_seq. destruct (BD i x I). lia. }
    apply NoDup_incl_length in IN; [|exact ND]. rewrite !map_length, seq_length in IN. exact IN.
Qed.
Lemma mul_line m e vs vd : mems_ok m -> in_range m e -> (ci (ssize m e) <= length vs)%nat -> (ri (ssize m e) <= length vd)%nat -> INR (S (ci (ssize m e))) * u < 1 ->
  exists vd', (vd0 <- fill0 (N:=FNum rnd) (ri (ssize m e)) vd ;; ofold (fun vd el => x <- rd vs (ci (fst el)) ;; y <- rd vd (ri (fst el)) ;; wr vd (ri (fst el)) (rnd (y + rnd (snd el * x)))) (siter m e) vd0) = Ret vd' /\ length vd' = length vd /\
    (forall r, (r < ri (ssize m e))%nat -> Rabs (cmpR vd' r - rsum (ci (ssize m e)) (fun c => sget m e (pos r c) * cmpR vs c)) <=
       gam (S (ci (ssize m e))) u * rsum (ci (ssize m e)) (fun c => Rabs (sget m e (pos r c) * cmpR vs c))) /\
    (forall r, (ri (ssize m e) <= r)%nat -> cmpR vd' r = cmpR vd r).
Proof.
  intros OK IR LS LD NU. unfold fill0. change (@length (nT (FNum rnd)) vd) with (@length R vd). rewrite (proj2 (Nat.leb_le _ _) LD). cbn [obind].
  set (v0 := repeat (n0 (FNum rnd)) (ri (ssize m e)) ++ skipn (ri (ssize m e)) vd).
  assert (L0 : @length R v0 = length vd) by (apply fill_lengthR; assumption).
  destruct (acc_loopF (fun el => ri (fst el)) (fun el => ci (fst el)) (siter m e) vs v0) as [vd' [E [L V]]].
  { intros [k x] I. destruct IR as [IR _]. destruct (IR k x I). simpl. rewrite L0. unfold ri, ci in *. destruct tr; lia. }
  exists vd'. split; [exact E|]. split; [congruence|]. destruct (gam_arg u U0 _ _ NU (le_n _) ltac:(lia)) as [U1 _]. split.
  - intros r Hr. rewrite V. unfold v0. change (n0 (FNum rnd)) with 0. rewrite nth_fillR by assumption.
    destruct (line_sum m e r (fun x c => x * cmpR vs c) (fun i => Rmult_0_l _) OK IR Hr) as [S1 SL]. destruct (line_sum m e r (fun x c => Rabs (x * cmpR vs c)) (fun i => eq_trans (f_equal Rabs (Rmult_0_l _)) Rabs_R0) OK IR Hr) as [S2 _].
    rewrite <- S1, <- S2. set (els := filter _ _) in *.
    eapply Rle_trans; [apply (dot_err rnd u RE U0 (fun el : key * R => snd el) (fun el => cmpR vs (ci (fst el))) els)|]. apply Rmult_le_compat_r; [apply asum_nonneg; intros; apply Rabs_pos|].
    eapply Rle_trans; [apply hh_mono with (b := S (ci (ssize m e))); [assumption|lia]|]. apply hh_gam; assumption.
  - intros r Hr. rewrite V. unfold v0. change (n0 (FNum rnd)) with 0. rewrite nth_fill_restR by assumption.
    assert (FN : filter (fun el : key * R => (ri (fst el) =? r)%nat) (siter m e) = []).
    { apply filter_none. intros [k x] I. simpl. apply Nat.eqb_neq. destruct IR as [IR _]. destruct (IR k x I). unfold ri in *. destruct tr; lia. }
    rewrite FN. reflexivity.
Qed.
End Line.

Lemma mulr_rounded m e vs vd : mems_ok m -> in_range m e -> (snd (ssize m e) <= length vs)%nat -> (fst (ssize m e) <= length vd)%nat -> INR (S (snd (ssize m e))) * u < 1 ->
  exists vd', mulVectRight (N:=FNum rnd) (fst (ssize m e)) (siter m e) vs vd = Ret vd' /\ length vd' = length vd /\
    (forall r, (r < fst (ssize m e))%nat -> Rabs (cmpR vd' r - rsum (snd (ssize m e)) (fun c => sget m e (r, c) * cmpR vs c)) <=
       gam (S (snd (ssize m e))) u * rsum (snd (ssize m e)) (fun c => Rabs (sget m e (r, c) * cmpR vs c))) /\
    (forall r, (fst (ssize m e) <= r)%nat -> cmpR vd' r = cmpR vd r).
Proof. exact (mul_line false m e vs vd). Qed.
Lemma mull_rounded m e vs vd : mems_ok m -> in_range m e -> (fst (ssize m e) <= length vs)%nat -> (snd (ssize m e) <= length vd)%nat -> INR (S (fst (ssize m e))) * u < 1 ->
  exists vd', mulVectLeft (N:=FNum rnd) (snd (ssize m e)) (siter m e) vs vd = Ret vd' /\ length vd' = length vd /\
    (forall c, (c < snd (ssize m e))%nat -> Rabs (cmpR vd' c - rsum (fst (ssize m e)) (fun r => sget m e (r, c) * cmpR vs r)) <=
       gam (S (fst (ssize m e))) u * rsum (fst (ssize m e)) (fun r => Rabs (sget m e (r, c) * cmpR vs r))) /\
    (forall c, (snd (ssize m e) <= c)%nat -> cmpR vd' c = cmpR vd c).
Proof. exact (mul_line true m e vs vd). Qed.
Lemma smulv_rounded m e v : mems_ok m -> in_range m e -> length v = snd (ssize m e) -> INR (S (length v)) * u < 1 ->
  exists w, smulv m e v = Ret w /\ length w = fst (ssize m e) /\
    forall r, (r < fst (ssize m e))%nat -> Rabs (cmpR w r - rsum (length v) (fun c => sget m e (r, c) * cmpR v c)) <= gam (S (length v)) u * rsum (length v) (fun c => Rabs (sget m e (r, c) * cmpR v c)).
Proof.
  intros OK IR L NU. rewrite L in NU |- *. destruct (mulr_rounded m e v (repeat 0 (fst (ssize m e))) OK IR) as [w [E [LW [V _]]]].
  { apply Nat.eq_le_incl; symmetry; exact L. } { rewrite repeat_length. apply le_n. } { assumption. }
  exists w. split; [exact E|]. split; [exact (eq_trans LW (repeat_length _ _))|exact V].
Qed.

(** ** matrix product *)
Definition pval m a b (r c : nat) : R := fold_left (fun s el => let g := scheckedGet m b (snd (fst el), c) in
  if snd g then nadd (FNum rnd) s (nmul (FNum rnd) (snd el) (fst g)) else s) (filter (fun el => (fst (fst el) =? r)%nat) (siter m a)) (n0 (FNum rnd)).
Definition prod_doneF m a b (res : smat (FNum rnd)) (done : nat -> nat -> Prop) : Prop :=
  fast res = false /\ ssz res = (fst (ssize m a), snd (ssize m b)) /\ row_major (sdat res) /\
  (forall r c, done r c -> sfind res (r, c) = if Reqb (pval m a b r c) 0 then None else Some (pval m a b r c)) /\
  (forall r c, ~ done r c -> sfind res (r, c) = None).
Lemma sprodF_ok m a b : row_capable m a = true ->
  exists res, sprod m a b = Ret res /\ prod_doneF m a b res (fun r c => (r < fst (ssize m a))%nat /\ (c < snd (ssize m b))%nat).
Proof.
  intros RC. unfold sprod.
  destruct (ofor_inv (fun c res => prod_doneF m a b res (fun r c' => (r < fst (ssize m a))%nat /\ (c' < c)%nat)) 0 (snd (ssize m b))
    (fun c res =>
    ofor 0 (fst (ssize m a)) (fun r res =>
      row <- srow m a r ;;
      let product := fold_left (fun s el => let g := scheckedGet m b (snd (fst el), c) in
                                            if snd g then nadd (FNum rnd) s (nmul (FNum rnd) (snd el) (fst g)) else s) row (n0 (FNum rnd)) in
      if neqb (FNum rnd) product (n0 (FNum rnd)) then Ret res else at_upd res (r, c) (fun _ => product)) res)
    (new_map (fst (ssize m a), snd (ssize m b)))) as [res [E P]].
  - lia.
  - split; [reflexivity|]. split; [reflexivity|]. split; [exact I|]. split; [intros r c [_ H]; lia|intros; reflexivity].
  - intros c res Hc PD.
    destruct (ofor_inv (fun r res => prod_doneF m a b res (fun r' c' => ((r' < fst (ssize m a))%nat /\ (c' < c)%nat) \/ (c' = c /\ (r' < r)%nat)))
       0 (fst (ssize m a)) (fun r res =>
      row <- srow m a r ;;
      let product := fold_left (fun s el => let g := scheckedGet m b (snd (fst el), c) in
                                            if snd g then nadd (FNum rnd) s (nmul (FNum rnd) (snd el) (fst g)) else s) row (n0 (FNum rnd)) in
      if neqb (FNum rnd) product (n0 (FNum rnd)) then Ret res else at_upd res (r, c) (fun _ => product)) res) as [res' [E' P']].
    + lia.
    + destruct PD as [A [B [C [D E]]]]. repeat split; auto.
      * intros r' c' [H|[_ H]]; [auto|lia].
    + intros r x Hr [A [B [C [D E]]]]. rewrite srow_ok by assumption. cbn [obind]. cbv zeta. fold (pval m a b r c).
      change (neqb (FNum rnd) (pval m a b r c) (n0 (FNum rnd))) with (Reqb (pval m a b r c) 0). destruct (Reqb (pval m a b r c) 0) eqn:Z.
      * exists x. split; [reflexivity|]. repeat split; auto.
        -- intros r' c' H. destruct (keqb2_spec (r', c') (r, c)) as [K|K].
           ++ injection K as -> ->. rewrite Z. apply E. lia.
           ++ apply D. destruct H as [H|[H1 H2]]; [auto|]. right. split; [assumption|].
              assert (r' <> r) by congruence. lia.
        -- intros r' c' H. apply E. lia.
      * destruct (at_upd_map x (r, c) (fun _ => pval m a b r c) A C) as [x' [X1 [X2 [X3 [X4 [X5 X6]]]]]].
        exists x'. split; [exact X1|]. split; [exact X2|]. split; [congruence|]. split; [exact X4|]. split.
        -- intros r' c' H. destruct (keqb2_spec (r', c') (r, c)) as [K|K].
           ++ injection K as -> ->. rewrite Z. exact X5.
           ++ rewrite X6 by assumption. apply D. destruct H as [H|[H1 H2]]; [auto|]. right. split; [assumption|].
              assert (r' <> r) by congruence. lia.
        -- intros r' c' H. rewrite X6; [apply E; lia|]. intros K. injection K as -> ->. apply H. right. lia.
    + exists res'. split; [exact E'|]. destruct P' as [A [B [C [D E]]]]. repeat split; auto.
      * intros r' c' [H1 H2]. apply D. destruct (Nat.eq_dec c' c); [right; lia|left; lia].
      * intros r' c' H. apply E. lia.
  - exists res. split; [exact E|exact P].
Qed.
Lemma fold_if {A} (t : A -> bool) (f : R -> A -> R) (l : list A) : forall s, fold_left (fun s el => if t el then f s el else s) l s = fold_left f (filter t l) s.
Proof. induction l as [|x l I]; intros s; simpl; [reflexivity|]. destruct (t x); simpl; apply I. Qed.
Lemma asum_filter {A} (t : A -> bool) (f : A -> R) (l : list A) : (forall x, t x = false -> f x = 0) -> asum f (filter t l) = asum f l.
Proof. intros H. induction l as [|x l I]; simpl; [reflexivity|]. destruct (t x) eqn:E; simpl; [|rewrite (H x E)]; rewrite I; [reflexivity|ring]. Qed.
Lemma scg_absent m b p : snd (scheckedGet m b p) = false -> sget m b p = 0.
Proof.
  unfold scheckedGet, hasIndex, sget, get. cbn [snd]. destruct (sfind (obj m (sbase b)) (to_base b p)); [discriminate|]. intros _. exact (sscale0 b).
Qed.
Lemma pval_err m a b r c : mems_ok m -> in_range m a -> (r < fst (ssize m a))%nat -> INR (S (snd (ssize m a))) * u < 1 ->
  Rabs (pval m a b r c - rsum (snd (ssize m a)) (fun k => sget m a (r, k) * sget m b (k, c))) <=
    gam (S (snd (ssize m a))) u * rsum (snd (ssize m a)) (fun k => Rabs (sget m a (r, k) * sget m b (k, c))).
Proof.
  intros OK IR Hr NU. destruct (gam_arg u U0 _ _ NU (le_n _) ltac:(lia)) as [U1 _].
  destruct (line_sum false m a r (fun x k => x * sget m b (k, c)) (fun i => Rmult_0_l _) OK IR Hr) as [S1 SL].
  destruct (line_sum false m a r (fun x k => Rabs (x * sget m b (k, c))) (fun i => eq_trans (f_equal Rabs (Rmult_0_l _)) Rabs_R0) OK IR Hr) as [S2 _].
  unfold ri, ci, pos in S1, S2, SL. rewrite <- S1, <- S2. clear S1 S2. unfold pval. set (els := filter _ _) in *.
  set (t := fun el : key * R => snd (scheckedGet m b (snd (fst el), c))).
  apply Rle_trans with (Rabs (fold_left (fun s (el : key * R) => rnd (s + rnd (snd el * sget m b (snd (fst el), c)))) (filter t els) 0 - asum (fun el : key * R => snd el * sget m b (snd (fst el), c)) (filter t els))).
  { right. f_equal. f_equal; [|symmetry; apply asum_filter; intros el E; change (snd el * sget m b (snd (fst el), c) = 0); rewrite (scg_absent m b _ E); apply Rmult_0_r].
    exact (fold_if t (fun s (el : key * R) => rnd (s + rnd (snd el * sget m b (snd (fst el), c)))) els 0). }
  eapply Rle_trans; [apply (dot_err rnd u RE U0 (fun el : key * R => snd el) (fun el => sget m b (snd (fst el), c)) (filter t els))|].
  rewrite (asum_filter t (fun el : key * R => Rabs (snd el * sget m b (snd (fst el), c))) els) by (intros el E; rewrite (scg_absent m b _ E); rewrite Rmult_0_r; apply Rabs_R0).
  apply Rmult_le_compat_r; [apply asum_nonneg; intros; apply Rabs_pos|].
  eapply Rle_trans; [apply hh_mono with (b := S (snd (ssize m a))); [assumption|]|apply hh_gam; assumption]. pose proof (filter_length_le t els). lia.
Qed.
Lemma sprod_rounded m a b : mems_ok m -> row_capable m a = true -> in_range m a -> INR (S (snd (ssize m a))) * u < 1 ->
  exists res, sprod m a b = Ret res /\ fast res = false /\ ssz res = (fst (ssize m a), snd (ssize m b)) /\ row_major (sdat res) /\
    (forall r c, (r < fst (ssize m a))%nat -> (c < snd (ssize m b))%nat ->
       Rabs (get res (r, c) - rsum (snd (ssize m a)) (fun k => sget m a (r, k) * sget m b (k, c))) <=
         gam (S (snd (ssize m a))) u * rsum (snd (ssize m a)) (fun k => Rabs (sget m a (r, k) * sget m b (k, c)))) /\
    (forall r c x, In ((r, c), x) (sdat res) -> (r < fst (ssize m a))%nat /\ (c < snd (ssize m b))%nat /\ x <> 0).
Proof.
  intros OK RC IR NU. destruct (sprodF_ok m a b RC) as [res [E [A [B [C [D F]]]]]].
  exists res. split; [exact E|]. split; [exact A|]. split; [exact B|]. split; [exact C|]. split.
  - intros r c Hr Hc. assert (G : get res (r, c) = pval m a b r c).
    { unfold get. rewrite D by auto. unfold Reqb. destruct (Req_EM_T (pval m a b r c) 0) as [Z|Z]; [symmetry; exact Z|reflexivity]. }
    rewrite G. apply pval_err; assumption.
  - intros r c x H. apply sfind_In in H; [|assumption].
    destruct (le_lt_dec (fst (ssize m a)) r) as [L|L]; [rewrite F in H; [discriminate|lia]|].
    destruct (le_lt_dec (snd (ssize m b)) c) as [L'|L']; [rewrite F in H; [discriminate|lia]|].
    rewrite D in H by auto. split; [assumption|]. split; [assumption|]. unfold Reqb in H. destruct (Req_EM_T (pval m a b r c) 0) as [Z|Z]; [discriminate|]. injection H as <-. exact Z.
Qed.

(** ** norms *)
Lemma snorms_rounded m e : mems_ok m -> INR (S (length (siter m e))) * u < 1 ->
  ((forall p x, In (p, x) (siter m e) -> Rabs x <= sinfnorm m e) /\ ((siter m e = [] /\ sinfnorm m e = 0) \/ exists p x, In (p, x) (siter m e) /\ sinfnorm m e = Rabs x)) /\
  Rabs (sonenorm m e - asum (fun el => Rabs (snd el)) (siter m e)) <= gam (length (siter m e)) u * asum (fun el => Rabs (snd el)) (siter m e) /\
  Rabs (seuclsq m e - asum (fun el => snd el * snd el) (siter m e)) <= gam (S (length (siter m e))) u * asum (fun el => snd el * snd el) (siter m e).
Proof.
  intros OK NU. destruct (gam_arg u U0 _ (length (siter m e)) NU ltac:(lia) ltac:(lia)) as [U1 NU'].
  assert (INF : forall (l : list (key * R)) (s : R), 0 <= s -> let t := fold_left (fun s el => if Rltb s (Rabs (snd el)) then Rabs (snd el) else s) l s in
    s <= t /\ (forall p x, In (p, x) l -> Rabs x <= t) /\ (t = s \/ exists p x, In (p, x) l /\ t = Rabs x)).
  { induction l as [|[q y] l I]; intros s Hs; simpl. { split; [lra|]. split; [intros ? ? []|left; reflexivity]. }
    set (s1 := if Rltb s (Rabs y) then Rabs y else s). assert (S1 : s <= s1 /\ Rabs y <= s1 /\ (s1 = s \/ s1 = Rabs y)). { unfold s1, Rltb. destruct (Rlt_dec s (Rabs y)); repeat split; try lra; auto. }
    destruct S1 as [A [B C]]. destruct (I s1 ltac:(lra)) as [D [E F]]. cbv zeta in *. split; [lra|]. split.
    - intros p x [Q|Q]; [injection Q as <- <-; lra|apply (E p x Q)].
    - destruct F as [F|[p [x [F1 F2]]]]; [|right; exists p, x; auto]. destruct C as [C|C]; [left; congruence|right; exists q, y; split; [auto|congruence]]. }
  destruct (INF (siter m e) 0 (Rle_refl 0)) as [A [B C]]. cbv zeta in *. split; [split|split].
  - exact B.
  - destruct (siter m e) as [|[q y] l] eqn:E; [left; split; [reflexivity|unfold sinfnorm; rewrite E; reflexivity]|]. right. unfold sinfnorm. rewrite E.
    destruct C as [C|C]; [|exact C]. exists q, y. split; [left; reflexivity|]. eapply eq_trans; [exact C|]. pose proof (B q y (or_introl eq_refl)) as H. rewrite C in H. pose proof (Rabs_pos y). lra.
  - eapply Rle_trans; [apply (sum_err' rnd u RE U0 (fun el : key * R => Rabs (snd el)) (fun el => Rabs (snd el)) (siter m e)); reflexivity|].
    replace (asum (fun a : key * R => Rabs (Rabs (snd a))) (siter m e)) with (asum (fun a : key * R => Rabs (snd a)) (siter m e)).
    + apply Rmult_le_compat_r; [apply asum_nonneg; intros; apply Rabs_pos|]. apply hh_gam; assumption.
    + generalize (siter m e). intros l. induction l as [|x l I]; simpl; [reflexivity|]. rewrite Rabs_Rabsolu. f_equal. exact I.
  - eapply Rle_trans; [apply (dot_err rnd u RE U0 (fun el : key * R => snd el) (fun el => snd el) (siter m e))|].
    replace (asum (fun a : key * R => Rabs (snd a * snd a)) (siter m e)) with (asum (fun a : key * R => snd a * snd a) (siter m e)).
    + apply Rmult_le_compat_r; [apply asum_nonneg; intros el; apply (Rle_0_sqr (snd el))|]. apply hh_gam; assumption.
    + generalize (siter m e). intros l. induction l as [|x l I]; [reflexivity|]. apply (f_equal2 Rplus (eq_sym (Rabs_pos_eq (snd x * snd x) (Rle_0_sqr (snd x)))) I).
Qed.
Lemma svmul_rounded m e v : mems_ok m -> in_range m e -> length v = fst (ssize m e) -> fst (ssize m e) = snd (ssize m e) -> INR (S (length v)) * u < 1 ->
  exists w, svmul m v e = Ret w /\ length w = snd (ssize m e) /\
    forall c, (c < snd (ssize m e))%nat -> Rabs (cmpR w c - rsum (length v) (fun r => sget m e (r, c) * cmpR v r)) <= gam (S (length v)) u * rsum (length v) (fun r => Rabs (sget m e (r, c) * cmpR v r)).
Proof.
  intros OK IR L SQ NU. destruct (mull_rounded m e v (repeat 0 (fst (ssize m e))) OK IR) as [w [E [LW [V _]]]].
  { apply Nat.eq_le_incl; symmetry; exact L. } { rewrite repeat_length. rewrite SQ. apply le_n. } { rewrite <- L. assumption. }
  exists w. split; [exact E|]. split; [exact (eq_trans LW (eq_trans (repeat_length _ _) SQ))|]. rewrite L. exact V.
Qed.
End Mat.
