(** SpFacts4.v - products in exact arithmetic, identity, zeroing. *)
From Coq Require Import List Arith Bool Lia QArith Qcanon.
From Verif Require Import Base BaseFacts SMap SpModel SpSpec SpFacts SpFacts2 SpFacts3.
Import ListNotations.
Local Open Scope nat_scope.

(** ** Sums over lists of pairwise different indices *)
Section Sums.
Local Open Scope Qc_scope.
Lemma qsum_remove n k f : (k < n)%nat -> qsum n f = f k + qsum n (fun i => if Nat.eqb i k then 0 else f i).
Proof.
  intros H. assert (E : qsum n f = qsum n (fun i => (if Nat.eqb i k then f i else 0) + (if Nat.eqb i k then 0 else f i))).
  { apply qsum_ext. intros i _. destruct (Nat.eqb i k); ring. }
  rewrite E, qsum_add. f_equal. rewrite (qsum_single n k); [rewrite Nat.eqb_refl; reflexivity|assumption|].
  intros i _ D. apply Nat.eqb_neq in D. rewrite D. reflexivity.
Qed.
(** Σ over a list of (index, value) pairs = Σ over all indices of the value at the index. *)
Lemma list_sum (l : list (nat * Qc)) (n : nat) (v g : nat -> Qc) : NoDup (map fst l) -> (forall i x, In (i, x) l -> (i < n)%nat /\ v i = x) ->
  (forall i, (i < n)%nat -> (forall x, ~ In (i, x) l) -> v i = 0) ->
  fold_right (fun el s => snd el * g (fst el) + s) 0 l = qsum n (fun i => v i * g i).
Proof.
  revert v; induction l as [|[i x] l IH]; intros v ND H Z.
  - simpl. symmetry. apply qsum_zero. intros i Hi. rewrite Z; [ring|assumption|]. intros y [].
  - simpl in ND. inversion_clear ND as [|? ? NI ND']. destruct (H i x (or_introl eq_refl)) as [Hi Vi].
    simpl. rewrite (IH (fun j => if Nat.eqb j i then 0 else v j)).
    + rewrite (qsum_remove n i (fun j => v j * g j) Hi). rewrite Vi. f_equal. apply qsum_ext. intros j _. destruct (Nat.eqb j i); ring.
    + assumption.
    + intros j y I. destruct (H j y (or_intror I)) as [A B]. split; [assumption|].
      destruct (Nat.eqb_spec j i) as [->|]; [|assumption]. destruct NI. apply in_map_iff. exists (i, y); auto.
    + intros j Hj Q. destruct (Nat.eqb_spec j i); [reflexivity|]. apply Z; [assumption|].
      intros y [E|I]; [congruence|apply (Q y I)].
Qed.
End Sums.

Section Exact.
Implicit Types (p q : key) (e a b : sexpr QcNum) (m : mems QcNum) (l els : list (key * Qc)) (v vs vd : list Qc).
Local Open Scope Qc_scope.

Lemma sscale_zero e : sscale e 0%Qc = 0%Qc.
Proof. induction e as [|e IH|e IH|e IH k]; simpl; auto. rewrite IH. change (0 * (k : Qc) = 0). ring. Qed.

(** ** mulVectRight / mulVectLeft: the accumulating loop *)
Lemma acc_loop (ri ci : key * Qc -> nat) els vs : forall vd,
  (forall el, In el els -> (ri el < length vd)%nat /\ (ci el < length vs)%nat) ->
  exists vd', ofold (fun vd el => x <- rd vs (ci el) ;; y <- rd vd (ri el) ;; wr vd (ri el) (y + snd el * x)) els vd = Ret vd' /\
    length vd' = length vd /\
    forall r, nth r vd' 0 = nth r vd 0 + fold_right (fun el s => (if Nat.eqb (ri el) r then snd el * nth (ci el) vs 0 else 0) + s) 0 els.
Proof.
  induction els as [|el els IH]; intros vd H.
  - exists vd. simpl. repeat split. intros r. ring.
  - destruct (H el (or_introl eq_refl)) as [H1 H2]. simpl.
    rewrite (rd_ok vs (ci el) 0 H2), (rd_ok vd (ri el) 0 H1). simpl. rewrite (wr_ok vd (ri el) _ H1). simpl.
    destruct (IH (upd vd (ri el) (nth (ri el) vd 0 + snd el * nth (ci el) vs 0))) as [vd' [R [L V]]].
    { intros el' I. rewrite upd_length. apply H. right; assumption. }
    exists vd'. split; [exact R|]. split; [rewrite L, upd_length; reflexivity|]. intros r. rewrite V, nth_upd.
    destruct (Nat.eqb_spec (ri el) r) as [<-|D].
    + rewrite Nat.eqb_refl. apply Nat.ltb_lt in H1. rewrite H1. simpl. ring.
    + destruct (Nat.eqb_spec r (ri el)); [congruence|]. simpl. ring.
Qed.

Lemma filtered_sum (ri : key * Qc -> nat) (h : key * Qc -> Qc) r els :
  fold_right (fun el s => (if Nat.eqb (ri el) r then h el else 0) + s) 0 els =
  fold_right (fun el s => h el + s) 0 (filter (fun el => Nat.eqb (ri el) r) els).
Proof. induction els as [|el els IH]; simpl; [reflexivity|]. rewrite IH. destruct (Nat.eqb (ri el) r); simpl; ring. Qed.

(** sum over the elements of row r of a matrix *)
Lemma row_sum m e r (g : nat -> Qc) : mems_ok m -> in_range m e -> (r < fst (ssize m e))%nat ->
  fold_right (fun el s => snd el * g (snd (fst el)) + s) 0 (filter (fun el : key * Qc => Nat.eqb (fst (fst el)) r) (siter m e)) =
  qsum (snd (ssize m e)) (fun c => sget m e (r, c) * g c).
Proof.
  intros OK [IR1 IR2] Hr. set (els := filter (fun el : key * Qc => Nat.eqb (fst (fst el)) r) (siter m e)).
  assert (FR : forall L : list (key * Qc), fold_right (fun el s => snd el * g (snd (fst el)) + s) 0 L =
     fold_right (fun el s => snd el * g (fst el) + s) 0 (map (fun el => (snd (fst el), snd el)) L)).
  { induction L as [|x L IH]; simpl; [reflexivity|]. rewrite IH. reflexivity. }
  rewrite FR. apply list_sum.
  - rewrite map_map. simpl. assert (ND := siter_NoDup m e OK). unfold els. clear -ND.
    induction (siter m e) as [|[k x] t IH]; simpl; [constructor|]. simpl in ND. inversion_clear ND as [|? ? NI ND'].
    destruct (Nat.eqb_spec (fst k) r) as [E|]; [|auto]. simpl. constructor; [|auto].
    intros I. apply in_map_iff in I as [[k' x'] [E' I]]. simpl in E'. apply filter_In in I as [I K]. simpl in K.
    apply Nat.eqb_eq in K. apply NI. apply in_map_iff. exists (k', x'). split; [|assumption]. simpl.
    destruct k, k'; simpl in *; congruence.
  - intros c x I. apply in_map_iff in I as [[k y] [E I]]. simpl in E. injection E as <- <-.
    apply filter_In in I as [I K]. simpl in K. apply Nat.eqb_eq in K. split; [apply (IR1 _ _ I)|].
    rewrite <- K. destruct k; simpl. apply (siter_get m e); assumption.
  - intros c Hc NI. destruct (siter_absent m e (r, c) OK) as [A _].
    + apply IR2; assumption.
    + intros x I. apply (NI x). apply in_map_iff. exists ((r, c), x). split; [reflexivity|].
      apply filter_In. split; [assumption|]. simpl. apply Nat.eqb_refl.
    + rewrite A. apply sscale_zero.
Qed.
Lemma col_sum m e c (g : nat -> Qc) : mems_ok m -> in_range m e -> (c < snd (ssize m e))%nat ->
  fold_right (fun el s => snd el * g (fst (fst el)) + s) 0 (filter (fun el : key * Qc => Nat.eqb (snd (fst el)) c) (siter m e)) =
  qsum (fst (ssize m e)) (fun r => sget m e (r, c) * g r).
Proof.
  intros OK [IR1 IR2] Hc. set (els := filter (fun el : key * Qc => Nat.eqb (snd (fst el)) c) (siter m e)).
  assert (FR : forall L : list (key * Qc), fold_right (fun el s => snd el * g (fst (fst el)) + s) 0 L =
     fold_right (fun el s => snd el * g (fst el) + s) 0 (map (fun el => (fst (fst el), snd el)) L)).
  { induction L as [|x L IH]; simpl; [reflexivity|]. rewrite IH. reflexivity. }
  rewrite FR. apply list_sum.
  - rewrite map_map. simpl. assert (ND := siter_NoDup m e OK). unfold els. clear -ND.
    induction (siter m e) as [|[k x] t IH]; simpl; [constructor|]. simpl in ND. inversion_clear ND as [|? ? NI ND'].
    destruct (Nat.eqb_spec (snd k) c) as [E|]; [|auto]. simpl. constructor; [|auto].
    intros I. apply in_map_iff in I as [[k' x'] [E' I]]. simpl in E'. apply filter_In in I as [I K]. simpl in K.
    apply Nat.eqb_eq in K. apply NI. apply in_map_iff. exists (k', x'). split; [|assumption]. simpl.
    destruct k, k'; simpl in *; congruence.
  - intros r x I. apply in_map_iff in I as [[k y] [E I]]. simpl in E. injection E as <- <-.
    apply filter_In in I as [I K]. simpl in K. apply Nat.eqb_eq in K. split; [apply (IR1 _ _ I)|].
    rewrite <- K. destruct k; simpl. apply (siter_get m e); assumption.
  - intros r Hr NI. destruct (siter_absent m e (r, c) OK) as [A _].
    + apply IR2; assumption.
    + intros x I. apply (NI x). apply in_map_iff. exists ((r, c), x). split; [reflexivity|].
      apply filter_In. split; [assumption|]. simpl. apply Nat.eqb_refl.
    + rewrite A. apply sscale_zero.
Qed.

Lemma filter_none {A} (f : A -> bool) (l : list A) : (forall x, In x l -> f x = false) -> filter f l = [].
Proof. induction l as [|x l IH]; intros H; simpl; [reflexivity|]. rewrite (H x (or_introl eq_refl)). apply IH. intros; apply H; right; assumption. Qed.
Lemma nth_fill n (vd : list Qc) r : (r < n)%nat -> nth r (repeat 0 n ++ skipn n vd) 0 = 0.
Proof. intros H. rewrite app_nth1 by (rewrite repeat_length; assumption). apply nth_repeat. Qed.
Lemma nth_fill_rest n (vd : list Qc) r : (n <= r)%nat -> nth r (repeat 0 n ++ skipn n vd) 0 = nth r vd 0.
Proof.
  intros H. rewrite app_nth2 by (rewrite repeat_length; assumption). rewrite repeat_length.
  destruct (le_lt_dec (length vd) n) as [L|L].
  - rewrite skipn_all2 by assumption. rewrite (nth_overflow vd) by lia. destruct (r - n)%nat; reflexivity.
  - rewrite <- (firstn_skipn n vd) at 2. rewrite app_nth2 by (rewrite firstn_length; lia). rewrite firstn_length, Nat.min_l by lia. reflexivity.
Qed.
Lemma fill_length n (vd : list Qc) : (n <= length vd)%nat -> length (repeat 0 n ++ skipn n vd) = length vd.
Proof. intros H. rewrite app_length, repeat_length, skipn_length. lia. Qed.

Lemma mulVectRight_ok m e vs vd : mems_ok m -> in_range m e -> (snd (ssize m e) <= length vs)%nat -> (fst (ssize m e) <= length vd)%nat ->
  exists vd' : list Qc, mulVectRight (N:=QcNum) (fst (ssize m e)) (siter m e) vs vd = Ret vd' /\ length vd' = length vd /\
    (forall r, (r < fst (ssize m e))%nat -> nth r vd' 0 = qsum (snd (ssize m e)) (fun c => sget m e (r, c) * nth c vs 0)) /\
    (forall r, (fst (ssize m e) <= r)%nat -> nth r vd' 0 = nth r vd 0).
Proof.
  intros OK IR LS LD. unfold mulVectRight, fill0. change (@length (nT QcNum) vd) with (@length Qc vd). rewrite (proj2 (Nat.leb_le _ _) LD). cbn [obind].
  set (v0 := repeat (n0 QcNum) (fst (ssize m e)) ++ skipn (fst (ssize m e)) vd).
  assert (L0 : @length Qc v0 = length vd) by (apply fill_length; assumption).
  destruct (acc_loop (fun el => fst (fst el)) (fun el => snd (fst el)) (siter m e) vs v0) as [vd' [R [L V]]].
  { intros [k x] I. destruct IR as [IR _]. destruct (IR k x I). simpl. rewrite L0. lia. }
  exists vd'. split; [exact R|]. split; [congruence|]. split.
  - intros r Hr. rewrite V. unfold v0. change (n0 QcNum) with (0%Qc). rewrite nth_fill by assumption.
    rewrite (filtered_sum (fun el => fst (fst el)) (fun el => snd el * nth (snd (fst el)) vs 0)).
    rewrite <- (row_sum m e r (fun c => nth c vs 0) OK IR Hr). apply Qcplus_0_l.
  - intros r Hr. rewrite V. unfold v0. change (n0 QcNum) with (0%Qc). rewrite nth_fill_rest by assumption.
    rewrite (filtered_sum (fun el => fst (fst el)) (fun el => snd el * nth (snd (fst el)) vs 0)).
    rewrite filter_none; [simpl; ring|]. intros [k x] I. simpl. apply Nat.eqb_neq.
    destruct IR as [IR _]. destruct (IR k x I). lia.
Qed.
Lemma mulVectLeft_ok m e vs vd : mems_ok m -> in_range m e -> (fst (ssize m e) <= length vs)%nat -> (snd (ssize m e) <= length vd)%nat ->
  exists vd' : list Qc, mulVectLeft (N:=QcNum) (snd (ssize m e)) (siter m e) vs vd = Ret vd' /\ length vd' = length vd /\
    (forall c, (c < snd (ssize m e))%nat -> nth c vd' 0 = qsum (fst (ssize m e)) (fun r => sget m e (r, c) * nth r vs 0)) /\
    (forall c, (snd (ssize m e) <= c)%nat -> nth c vd' 0 = nth c vd 0).
Proof.
  intros OK IR LS LD. unfold mulVectLeft, fill0. change (@length (nT QcNum) vd) with (@length Qc vd). rewrite (proj2 (Nat.leb_le _ _) LD). cbn [obind].
  set (v0 := repeat (n0 QcNum) (snd (ssize m e)) ++ skipn (snd (ssize m e)) vd).
  assert (L0 : @length Qc v0 = length vd) by (apply fill_length; assumption).
  destruct (acc_loop (fun el => snd (fst el)) (fun el => fst (fst el)) (siter m e) vs v0) as [vd' [R [L V]]].
  { intros [k x] I. destruct IR as [IR _]. destruct (IR k x I). simpl. rewrite L0. lia. }
  exists vd'. split; [exact R|]. split; [congruence|]. split.
  - intros r Hr. rewrite V. unfold v0. change (n0 QcNum) with (0%Qc). rewrite nth_fill by assumption.
    rewrite (filtered_sum (fun el => snd (fst el)) (fun el => snd el * nth (fst (fst el)) vs 0)).
    rewrite <- (col_sum m e r (fun c => nth c vs 0) OK IR Hr). apply Qcplus_0_l.
  - intros r Hr. rewrite V. unfold v0. change (n0 QcNum) with (0%Qc). rewrite nth_fill_rest by assumption.
    rewrite (filtered_sum (fun el => snd (fst el)) (fun el => snd el * nth (fst (fst el)) vs 0)).
    rewrite filter_none; [simpl; ring|]. intros [k x] I. simpl. apply Nat.eqb_neq.
    destruct IR as [IR _]. destruct (IR k x I). lia.
Qed.

Lemma smulv_ok m e v : mems_ok m -> in_range m e -> length v = snd (ssize m e) ->
  exists w : list Qc, smulv m e v = Ret w /\ length w = fst (ssize m e) /\
    forall r, (r < fst (ssize m e))%nat -> nth r w 0 = qsum (snd (ssize m e)) (fun c => sget m e (r, c) * nth c v 0).
Proof.
  intros OK IR L. destruct (mulVectRight_ok m e v (repeat 0 (fst (ssize m e))) OK IR) as [w [R [LW [V _]]]].
  { lia. } { rewrite repeat_length. lia. }
  exists w. split; [exact R|]. split; [rewrite LW; apply repeat_length|exact V].
Qed.
Lemma svmul_ok m e v : mems_ok m -> in_range m e -> length v = fst (ssize m e) -> fst (ssize m e) = snd (ssize m e) ->
  exists w : list Qc, svmul m v e = Ret w /\ length w = snd (ssize m e) /\
    forall c, (c < snd (ssize m e))%nat -> nth c w 0 = qsum (fst (ssize m e)) (fun r => sget m e (r, c) * nth r v 0).
Proof.
  intros OK IR L SQ. destruct (mulVectLeft_ok m e v (repeat 0 (fst (ssize m e))) OK IR) as [w [R [LW [V _]]]].
  { lia. } { rewrite repeat_length. lia. }
  exists w. split; [exact R|]. split; [rewrite LW, <- SQ; apply repeat_length|exact V].
Qed.

(** ** matrix product *)
Definition prodval m a b (r c : nat) : Qc := qsum (snd (ssize m a)) (fun k => sget m a (r, k) * sget m b (k, c)).

Lemma product_fold m b c (row : list (key * Qc)) : mems_ok m -> forall s : Qc,
  fold_left (fun s el => let g := scheckedGet m b (snd (fst el), c) in
                         if snd g then nadd QcNum s (nmul QcNum (snd el) (fst g)) else s) row s =
  s + fold_right (fun el s => snd el * sget m b (snd (fst el), c) + s) 0 row.
Proof.
  intros OK. induction row as [|el row IH]; intros s; cbn [fold_left fold_right]. { symmetry. apply Qcplus_0_r. }
  rewrite IH. unfold scheckedGet. cbn [fst snd].
  change (nadd QcNum) with Qcplus. change (nmul QcNum) with Qcmult. change (nT QcNum) with Qc.
  unfold hasIndex. cbv zeta. cbn [fst snd].
  match goal with |- context [match ?t with Some _ => true | None => false end] => destruct t as [y|] eqn:F end.
  - cbv zeta. cbn [fst snd]. symmetry; apply Qcplus_assoc.
  - assert (Z : sget m b (snd (fst el), c) = 0) by (unfold sget, get; change (snd (fst el), c) with ((snd (fst el), c) : key) in *;
      match goal with |- context [match ?t with Some _ => _ | None => _ end] => change t with (sfind (obj m (sbase b)) (to_base b (snd (fst el), c))) in *; replace t with (@None (nT QcNum)) by (symmetry; exact F) end; apply sscale_zero).
    cbv zeta. cbn [fst snd]. set (fr := fold_right _ _ _). transitivity (s + (snd el * 0 + fr)).
    + f_equal. ring.
    + f_equal. f_equal. f_equal. symmetry. exact Z.
Qed.

Definition prod_done m a b (res : smat QcNum) (done : nat -> nat -> Prop) : Prop :=
  fast res = false /\ ssz res = (fst (ssize m a), snd (ssize m b)) /\ row_major (sdat res) /\
  (forall r c, done r c -> sfind res (r, c) = if Qceqb (prodval m a b r c) 0 then None else Some (prodval m a b r c)) /\
  (forall r c, ~ done r c -> sfind res (r, c) = None).

Lemma sprod_ok m a b : mems_ok m -> row_capable m a = true -> in_range m a ->
  exists res, sprod m a b = Ret res /\ prod_done m a b res (fun r c => (r < fst (ssize m a))%nat /\ (c < snd (ssize m b))%nat).
Proof.
  intros OK RC IR. unfold sprod.
  destruct (ofor_inv (fun c res => prod_done m a b res (fun r c' => (r < fst (ssize m a))%nat /\ (c' < c)%nat)) 0 (snd (ssize m b))
    (fun c res =>
    ofor 0 (fst (ssize m a)) (fun r res =>
      row <- srow m a r ;;
      let product := fold_left (fun s el => let g := scheckedGet m b (snd (fst el), c) in
                                            if snd g then nadd QcNum s (nmul QcNum (snd el) (fst g)) else s) row (n0 QcNum) in
      if neqb QcNum product (n0 QcNum) then Ret res else at_upd res (r, c) (fun _ => product)) res)
    (new_map (fst (ssize m a), snd (ssize m b)))) as [res [R P]].
  - lia.
  - split; [reflexivity|]. split; [reflexivity|]. split; [exact I|]. split; [intros r c [_ H]; lia|intros; reflexivity].
  - intros c res Hc PD.
    destruct (ofor_inv (fun r res => prod_done m a b res (fun r' c' => ((r' < fst (ssize m a))%nat /\ (c' < c)%nat) \/ (c' = c /\ (r' < r)%nat)))
       0 (fst (ssize m a)) (fun r res =>
      row <- srow m a r ;;
      let product := fold_left (fun s el => let g := scheckedGet m b (snd (fst el), c) in
                                            if snd g then nadd QcNum s (nmul QcNum (snd el) (fst g)) else s) row (n0 QcNum) in
      if neqb QcNum product (n0 QcNum) then Ret res else at_upd res (r, c) (fun _ => product)) res) as [res' [R' P']].
    + lia.
    + destruct PD as [A [B [C [D E]]]]. repeat split; auto.
      * intros r' c' [H|[_ H]]; [auto|lia].
    + intros r x Hr [A [B [C [D E]]]]. rewrite srow_ok by assumption. cbn [obind].
      rewrite product_fold by assumption. rewrite row_sum with (g := fun k => sget m b (k, c)); [|assumption|assumption|lia].
      change (n0 QcNum) with (0%Qc).
      assert (Q : 0 + qsum (snd (ssize m a)) (fun k => sget m a (r, k) * sget m b (k, c)) = prodval m a b r c) by (unfold prodval; ring).
      cbv zeta. rewrite Q. cbn [neqb QcNum]. destruct (Qceqb (prodval m a b r c) 0) eqn:Z.
      * exists x. split; [reflexivity|]. repeat split; auto.
        -- intros r' c' H. destruct (keqb2_spec (r', c') (r, c)) as [K|K].
           ++ injection K as -> ->. rewrite Z. apply E. lia.
           ++ apply D. destruct H as [H|[H1 H2]]; [auto|]. right. split; [assumption|].
              assert (r' <> r) by congruence. lia.
        -- intros r' c' H. apply E. lia.
      * destruct (at_upd_map x (r, c) (fun _ => prodval m a b r c) A C) as [x' [X1 [X2 [X3 [X4 [X5 X6]]]]]].
        exists x'. split; [exact X1|]. split; [exact X2|]. split; [congruence|]. split; [exact X4|]. split.
        -- intros r' c' H. destruct (keqb2_spec (r', c') (r, c)) as [K|K].
           ++ injection K as -> ->. rewrite Z. exact X5.
           ++ rewrite X6 by assumption. apply D. destruct H as [H|[H1 H2]]; [auto|]. right. split; [assumption|].
              assert (r' <> r) by congruence. lia.
        -- intros r' c' H. rewrite X6; [apply E; lia|]. intros K. injection K as -> ->. apply H. right. lia.
    + exists res'. split; [exact R'|]. destruct P' as [A [B [C [D E]]]]. repeat split; auto.
      * intros r' c' [H1 H2]. apply D. destruct (Nat.eq_dec c' c); [right; lia|left; lia].
      * intros r' c' H. apply E. lia.
  - exists res. split; [exact R|exact P].
Qed.
Lemma sprod_get m a b : mems_ok m -> row_capable m a = true -> in_range m a ->
  exists res, sprod m a b = Ret res /\ fast res = false /\ ssz res = (fst (ssize m a), snd (ssize m b)) /\ row_major (sdat res) /\
    (forall r c, (r < fst (ssize m a))%nat -> (c < snd (ssize m b))%nat ->
       get res (r, c) = qsum (snd (ssize m a)) (fun k => sget m a (r, k) * sget m b (k, c))) /\
    (forall r c x, In ((r, c), x) (sdat res) -> (r < fst (ssize m a))%nat /\ (c < snd (ssize m b))%nat /\ x <> 0).
Proof.
  intros OK RC IR. destruct (sprod_ok m a b OK RC IR) as [res [R [A [B [C [D E]]]]]].
  exists res. repeat split; auto.
  - intros r c Hr Hc. unfold get. rewrite D by auto. destruct (Qceqb (prodval m a b r c) 0) eqn:Z; [|reflexivity].
    apply Qceqb_eq in Z. symmetry. exact Z.
  - apply sfind_In in H; [|assumption]. destruct (le_lt_dec (fst (ssize m a)) r) as [L|L]; [|assumption].
    rewrite E in H; [discriminate|lia].
  - apply sfind_In in H; [|assumption]. destruct (le_lt_dec (snd (ssize m b)) c) as [L|L]; [|assumption].
    rewrite E in H; [discriminate|lia].
  - apply sfind_In in H; [|assumption]. destruct (le_lt_dec (fst (ssize m a)) r) as [L|L]; [rewrite E in H; [discriminate|lia]|].
    destruct (le_lt_dec (snd (ssize m b)) c) as [L'|L']; [rewrite E in H; [discriminate|lia]|].
    rewrite D in H by auto. destruct (Qceqb (prodval m a b r c) 0) eqn:Z; [discriminate|]. injection H as <-.
    apply Qceqb_neq in Z. exact Z.
Qed.
End Exact.

Section AnyNum.
Context {N : Num}.
Notation T := (nT N).

Lemma addScaledIdentity_ok (a : smat N) (k : T) : row_major (sdat a) ->
  (fast a = true -> forall i, i < fst (ssz a) -> exists x, In ((i, i), x) (sdat a)) ->
  exists a', addScaledIdentity a k = Ret a' /\ fast a' = fast a /\ ssz a' = ssz a /\ row_major (sdat a') /\
    (forall i, i < fst (ssz a) -> get a' (i, i) = nadd N (get a (i, i)) k) /\
    (forall r c, r <> c \/ fst (ssz a) <= r -> sfind a' (r, c) = sfind a (r, c)).
Proof.
  intros S PT. unfold addScaledIdentity.
  destruct (ofor_inv (fun n x => fast x = fast a /\ ssz x = ssz a /\ row_major (sdat x) /\
     (forall i, i < n -> get x (i, i) = nadd N (get a (i, i)) k) /\
     (forall i, i < n -> exists y, sfind x (i, i) = Some y) /\
     (forall r c, r <> c \/ n <= r -> sfind x (r, c) = sfind a (r, c))) 0 (fst (ssz a))
     (fun i a => at_upd a (i, i) (fun x => nadd N x k)) a) as [a' [R [A [B [C [D [_ E]]]]]]].
  - lia.
  - repeat split; auto; intros; lia.
  - intros n x Hn [A [B [C [D [DE E]]]]].
    destruct (at_upd_ok x (n, n) (fun y => nadd N y k) C) as [x' [X1 [X2 [X3 [X4 [X5 X6]]]]]].
    { intros F. rewrite A in F. destruct (PT F n ltac:(lia)) as [y Hy]. exists y. apply sfind_In; [assumption|].
      rewrite E by lia. apply sfind_In; assumption. }
    exists x'. split; [exact X1|]. split; [congruence|]. split; [congruence|]. split; [exact X4|]. split; [|split].
    + intros i Hi. destruct (Nat.eq_dec i n) as [->|Dn].
      * unfold get at 1. rewrite X5. unfold get. rewrite E by lia. reflexivity.
      * unfold get at 1. rewrite X6 by congruence. apply D. lia.
    + intros i Hi. destruct (Nat.eq_dec i n) as [->|Dn]; [eauto|]. rewrite X6 by congruence. apply DE. lia.
    + intros r c H. rewrite X6; [apply E; lia|]. intros K. injection K as -> ->. lia.
  - exists a'. split; [exact R|]. repeat split; auto.
Qed.
Lemma makeZero_ok (a : smat N) p : row_major (sdat a) ->
  ssz (makeZero a) = ssz a /\ map fst (sdat (makeZero a)) = map fst (sdat a) /\ hasIndex (makeZero a) p = hasIndex a p /\ get (makeZero a) p = n0 N.
Proof.
  intros S. assert (K : map fst (sdat (makeZero a)) = map fst (sdat a)) by (simpl; rewrite map_map; reflexivity).
  assert (S' : row_major (sdat (makeZero a))) by (eapply row_major_keys; [symmetry; exact K|exact S]).
  split; [reflexivity|]. split; [exact K|]. unfold hasIndex, get.
  destruct (sfind (makeZero a) p) as [x|] eqn:F.
  - apply sfind_In in F; [|assumption]. simpl in F. apply in_map_iff in F as [[k y] [E I]]. injection E as <- <-.
    apply sfind_In in I; [|assumption]. rewrite I. auto.
  - destruct (sfind a p) as [y|] eqn:G; [|auto]. apply sfind_In in G; [|assumption].
    destruct (proj1 (sfind_None (makeZero a) p S') F (n0 N)). simpl. apply in_map_iff. exists (p, y); auto.
Qed.
End AnyNum.
