(** LufFacts.v - the LU factorizer over any arithmetic: storage and factorization. *)
From Coq Require Import List Arith Lia ZArith QArith Qcanon Bool.
Require Import Verif.Base Verif.BaseFacts Verif.LUModel Verif.LUSpec Verif.LUFacts Verif.LUFacts2 Verif.LufModel Verif.LufSpec.
Import ListNotations.
Local Open Scope nat_scope.

Section Gen.
Context {N : Num}.
Local Notation T := (nT N).
Local Notation O := (n0 N).

Lemma minus_ext ks (g g' : nat -> T) v : (forall k, In k ks -> g k = g' k) -> minus_all ks g v = minus_all ks g' v.
Proof. revert v. induction ks as [|k ks I]; intros v H; [reflexivity|]. simpl. rewrite (H k) by (left; reflexivity). apply I. intros; apply H; right; assumption. Qed.
Lemma minus_snoc ks k (g : nat -> T) v : minus_all (ks ++ [k]) g v = nsub N (minus_all ks g v) (g k).
Proof. unfold minus_all. rewrite fold_left_app. reflexivity. Qed.
Lemma filter_none {X} (P : X -> bool) l : (forall x, In x l -> P x = false) -> filter P l = [].
Proof. induction l as [|a l I]; intros H; [reflexivity|]. simpl. rewrite (H a) by (left; reflexivity). apply I. intros; apply H; right; assumption. Qed.
Lemma filter_S (P : nat -> bool) a k : filter P (seq a (S k)) = filter P (seq a k) ++ (if P (a + k) then [a + k] else []).
Proof. rewrite seq_S, filter_app. reflexivity. Qed.
Lemma in_below (P : nat -> bool) m k : In k (filter P (seq 0 m)) -> k < m /\ P k = true.
Proof. intros H. apply filter_In in H as [H1 H2]. apply in_seq in H1. split; [lia|assumption]. Qed.

Section Layout.
Variables (y : layout) (n : nat).
Hypothesis V : valid_layout y n.

Definition lnL (l : list T) := length l = nn n (yal y).
Definition lnU (u : list T) := length u = nn n (yau y).
Definition NL (l : list T) r c : T := if inL y r c then nth (nn r (yal y) + (c - nn r (yp y))) l O else O.
Definition NU (u : list T) r c : T := if inU y r c then nth (nn c (yau y) + (r - nn c (yq y))) u O else O.

Lemma getL_okN l r c : lnL l -> r < n -> inL y r c = true -> getLN y l r c = Ret (NL l r c).
Proof.
  intros HL Hr I. unfold getLN. rewrite (rd_p y n V), (rd_al y n V) by auto. simpl.
  change (Nat.ltb c r && Nat.leb (nn r (yp y)) c)%bool with (inL y r c). rewrite I.
  unfold NL. rewrite I. apply rd_ok. rewrite HL. eapply Nat.lt_le_trans; [apply (adrL_lt y n V); eauto|]. apply (al_mono y n V); lia.
Qed.
Lemma getU_okN u r c : lnU u -> c < n -> inU y r c = true -> getUN y u r c = Ret (NU u r c).
Proof.
  intros HL Hr I. unfold getUN. rewrite (rd_q y n V), (rd_au y n V) by auto. simpl.
  change (Nat.leb r c && Nat.leb (nn c (yq y)) r)%bool with (inU y r c). rewrite I.
  unfold NU. rewrite I. apply rd_ok. rewrite HL. eapply Nat.lt_le_trans; [apply (adrU_lt y n V); eauto|]. apply (au_mono y n V); lia.
Qed.
Definition upd2 (f : nat -> nat -> T) r c v : nat -> nat -> T := fun r' c' => if (Nat.eqb r' r && Nat.eqb c' c)%bool then v else f r' c'.
Lemma upd2_eq f r c v : upd2 f r c v r c = v.
Proof. unfold upd2. rewrite !Nat.eqb_refl. auto. Qed.
Lemma upd2_neq f r c v r' c' : (r' <> r \/ c' <> c) -> upd2 f r c v r' c' = f r' c'.
Proof. intro H. unfold upd2. destruct (Nat.eqb_spec r' r); destruct (Nat.eqb_spec c' c); simpl; auto. lia. Qed.
Lemma putL_okN l r c v : lnL l -> r < n -> inL y r c = true ->
  exists l', putLN y l r c v = Ret l' /\ lnL l' /\ (forall r' c', r' < n -> NL l' r' c' = upd2 (NL l) r c v r' c').
Proof.
  intros HL Hr I. unfold putLN. rewrite (rd_p y n V), (rd_al y n V) by auto. simpl.
  change (Nat.ltb c r && Nat.leb (nn r (yp y)) c)%bool with (inL y r c). rewrite I.
  assert (B : (nn r (yal y) + (c - nn r (yp y)) < length l)). { rewrite HL. eapply Nat.lt_le_trans; [apply (adrL_lt y n V); eauto|]. apply (al_mono y n V); lia. }
  rewrite wr_ok by auto. eexists. split; [reflexivity|]. split.
  - unfold lnL. rewrite upd_length. auto.
  - intros r' c' Hr'. unfold upd2. unfold NL at 1. destruct (inL y r' c') eqn:I'.
    + rewrite nth_upd. destruct (Nat.eqb_spec (nn r' (yal y) + (c' - nn r' (yp y))) (nn r (yal y) + (c - nn r (yp y)))) as [E|E].
      * destruct (adrL_inj y n V _ _ _ _ Hr' Hr I' I E). subst. rewrite !Nat.eqb_refl. simpl. apply Nat.ltb_lt in B. rewrite B. auto.
      * destruct (Nat.eqb_spec r' r); destruct (Nat.eqb_spec c' c); simpl; try (unfold NL; rewrite I'; reflexivity). subst. congruence.
    + destruct (Nat.eqb_spec r' r); destruct (Nat.eqb_spec c' c); simpl; try (unfold NL; rewrite I'; reflexivity). subst. congruence.
Qed.
Lemma putU_okN u r c v : lnU u -> c < n -> inU y r c = true ->
  exists u', putUN y u r c v = Ret u' /\ lnU u' /\ (forall r' c', c' < n -> NU u' r' c' = upd2 (NU u) r c v r' c').
Proof.
  intros HL Hr I. unfold putUN. rewrite (rd_q y n V), (rd_au y n V) by auto. simpl.
  change (Nat.leb r c && Nat.leb (nn c (yq y)) r)%bool with (inU y r c). rewrite I.
  assert (B : (nn c (yau y) + (r - nn c (yq y)) < length u)). { rewrite HL. eapply Nat.lt_le_trans; [apply (adrU_lt y n V); eauto|]. apply (au_mono y n V); lia. }
  rewrite wr_ok by auto. eexists. split; [reflexivity|]. split.
  - unfold lnU. rewrite upd_length. auto.
  - intros r' c' Hr'. unfold upd2. unfold NU at 1. destruct (inU y r' c') eqn:I'.
    + rewrite nth_upd. destruct (Nat.eqb_spec (nn c' (yau y) + (r' - nn c' (yq y))) (nn c (yau y) + (r - nn c (yq y)))) as [E|E].
      * destruct (adrU_inj y n V _ _ _ _ Hr' Hr I' I E). subst. rewrite !Nat.eqb_refl. simpl. apply Nat.ltb_lt in B. rewrite B. auto.
      * destruct (Nat.eqb_spec r' r); destruct (Nat.eqb_spec c' c); simpl; try (unfold NU; rewrite I'; reflexivity). subst. congruence.
    + destruct (Nat.eqb_spec r' r); destruct (Nat.eqb_spec c' c); simpl; try (unfold NU; rewrite I'; reflexivity). subst. congruence.
Qed.
Lemma NL_out l r c : ~ (nn r (yp y) <= c < r) -> NL l r c = O.
Proof. intro H. unfold NL. destruct (inL y r c) eqn:E; auto. apply inL_spec in E. lia. Qed.
Lemma NU_out u r c : ~ (nn c (yq y) <= r <= c) -> NU u r c = O.
Proof. intro H. unfold NU. destruct (inU y r c) eqn:E; auto. apply inU_spec in E. lia. Qed.

(** the k that take part in element (r,c) *)
Definition both (r c k : nat) : bool := inL y r k && inU y k c.
Lemma both_below r c m : m <= Nat.max (nn r (yp y)) (nn c (yq y)) -> filter (both r c) (seq 0 m) = [].
Proof.
  intros H. apply filter_none. intros k K. apply in_seq in K. unfold both. destruct (inL y r k) eqn:E1; [|reflexivity]. destruct (inU y k c) eqn:E2; [|reflexivity].
  apply inL_spec in E1. apply inU_spec in E2. lia.
Qed.
Definition GL (L U : nat -> nat -> T) r c m := minus_all (filter (both r c) (seq 0 m)) (fun k => nmul N (L r k) (U k c)).

Lemma fact_L_elem_okN u i c l : lnL l -> lnU u -> i < n -> nn i (yp y) <= c < i ->
  exists l', fact_L_elemN y u i c l = Ret l' /\ lnL l' /\
    (forall r' c', r' < n -> NL l' r' c' = upd2 (NL l) i c (ndiv N (GL (NL l) (NU u) i c c (NL l i c)) (NU u c c)) r' c').
Proof.
  intros HL HU Hi Hc. unfold fact_L_elemN. rewrite (rd_p y n V), (rd_q y n V) by lia. simpl.
  set (k0 := Nat.max (nn i (yp y)) (nn c (yq y))).
  assert (Hqc : nn c (yq y) <= c) by (apply (v_qi _ _ V); lia).
  assert (Ic : inL y i c = true) by (apply inL_spec; lia).
  destruct (ofor_inv (fun k l' => lnL l' /\ forall r' c', r' < n -> NL l' r' c' = upd2 (NL l) i c (GL (NL l) (NU u) i c k (NL l i c)) r' c')
      k0 c (fun k l' => v <- getLN y l' i c ;; a <- getLN y l' i k ;; b <- getUN y u k c ;; putLN y l' i c (nsub N v (nmul N a b))) l) as (l1 & E1 & HL1 & H1).
  - unfold k0. lia.
  - split; auto. intros r' c' Hr'. unfold GL. rewrite both_below by (unfold k0; lia). simpl.
    unfold upd2. destruct (Nat.eqb_spec r' i); destruct (Nat.eqb_spec c' c); simpl; subst; auto.
  - intros k l' Hk (HL' & H').
    assert (Ik : inL y i k = true) by (apply inL_spec; lia). assert (Jk : inU y k c = true) by (apply inU_spec; lia).
    rewrite (getL_okN l' i c), (getL_okN l' i k), (getU_okN u k c) by (auto; lia). simpl.
    destruct (putL_okN l' i c (nsub N (NL l' i c) (nmul N (NL l' i k) (NU u k c))) HL' Hi Ic) as (l2 & E2 & HL2 & H2).
    exists l2. split; auto. split; auto. intros r' c' Hr'. rewrite H2 by auto.
    rewrite (H' i c), (H' i k) by auto. rewrite upd2_eq, (upd2_neq _ _ _ _ i k) by lia.
    unfold GL. rewrite filter_S. simpl plus. assert (BK : both i c k = true) by (unfold both; rewrite Ik, Jk; reflexivity). rewrite BK, minus_snoc.
    destruct (Nat.eq_dec r' i) as [->|NE1]; [destruct (Nat.eq_dec c' c) as [->|NE2]|]; [rewrite !upd2_eq; reflexivity| |]; (rewrite upd2_neq by lia; rewrite H' by auto; rewrite !upd2_neq by lia; reflexivity).
  - rewrite E1. simpl. assert (Jc : inU y c c = true) by (apply inU_spec; lia).
    rewrite (getL_okN l1 i c), (getU_okN u c c) by (auto; lia). simpl.
    destruct (putL_okN l1 i c (ndiv N (NL l1 i c) (NU u c c)) HL1 Hi Ic) as (l2 & E2 & HL2 & H2).
    exists l2. split; auto. split; auto. intros r' c' Hr'. rewrite H2 by auto.
    rewrite (H1 i c) by auto. rewrite upd2_eq. unfold upd2 at 1 2.
    destruct (Nat.eqb_spec r' i); destruct (Nat.eqb_spec c' c); simpl; auto; rewrite H1 by auto; rewrite upd2_neq by lia; auto.
Qed.
Lemma fact_U_elem_okN l i r u : lnL l -> lnU u -> i < n -> nn i (yq y) <= r <= i ->
  exists u', fact_U_elemN y l i r u = Ret u' /\ lnU u' /\
    (forall r' c', c' < n -> NU u' r' c' = upd2 (NU u) r i (GL (NL l) (NU u) r i r (NU u r i)) r' c').
Proof.
  intros HL HU Hi Hr. unfold fact_U_elemN. rewrite (rd_p y n V), (rd_q y n V) by lia. simpl.
  set (k0 := Nat.max (nn r (yp y)) (nn i (yq y))).
  assert (Hpr : nn r (yp y) <= r) by (apply (v_pi _ _ V); lia).
  assert (Ic : inU y r i = true) by (apply inU_spec; lia).
  apply (ofor_inv (fun k u' => lnU u' /\ forall r' c', c' < n -> NU u' r' c' = upd2 (NU u) r i (GL (NL l) (NU u) r i k (NU u r i)) r' c')
      k0 r (fun k u' => v <- getUN y u' r i ;; a <- getLN y l r k ;; b <- getUN y u' k i ;; putUN y u' r i (nsub N v (nmul N a b))) u).
  - unfold k0. lia.
  - split; auto. intros r' c' Hr'. unfold GL. rewrite both_below by (unfold k0; lia). simpl.
    unfold upd2. destruct (Nat.eqb_spec r' r); destruct (Nat.eqb_spec c' i); simpl; subst; auto.
  - intros k u' Hk (HU' & H').
    assert (Ik : inL y r k = true) by (apply inL_spec; lia). assert (Jk : inU y k i = true) by (apply inU_spec; lia).
    rewrite (getU_okN u' r i), (getL_okN l r k), (getU_okN u' k i) by (auto; lia). simpl.
    destruct (putU_okN u' r i (nsub N (NU u' r i) (nmul N (NL l r k) (NU u' k i))) HU' Hi Ic) as (u2 & E2 & HU2 & H2).
    exists u2. split; auto. split; auto. intros r' c' Hr'. rewrite H2 by auto.
    rewrite (H' r i), (H' k i) by auto. rewrite upd2_eq, (upd2_neq _ _ _ _ k i) by lia.
    unfold GL. rewrite filter_S. simpl plus. assert (BK : both r i k = true) by (unfold both; rewrite Ik, Jk; reflexivity). rewrite BK, minus_snoc.
    destruct (Nat.eq_dec r' r) as [->|NE1]; [destruct (Nat.eq_dec c' i) as [->|NE2]|]; [rewrite !upd2_eq; reflexivity| |]; (rewrite upd2_neq by lia; rewrite H' by auto; rewrite !upd2_neq by lia; reflexivity).
Qed.

(** the equations for indices below m, at the positions of the profile *)
Definition LUeqsN (A L U : nat -> nat -> T) (m : nat) : Prop :=
  (forall r c, nn r (yp y) <= c < r -> r < m -> L r c = ndiv N (GL L U r c c (A r c)) (U c c)) /\
  (forall r c, nn c (yq y) <= r <= c -> c < m -> U r c = GL L U r c r (A r c)).
Definition N0 (l u : list T) r c : T := if Nat.leb r c then NU u r c else NL l r c.
Lemma GL_ext (L U L' U' : nat -> nat -> T) r c m v : (forall k, k < m -> L r k = L' r k) -> (forall k, k < m -> U k c = U' k c) -> GL L U r c m v = GL L' U' r c m v.
Proof. intros HL HU. unfold GL. apply minus_ext. intros k Hk. apply in_below in Hk as [Hk _]. rewrite HL, HU by assumption. reflexivity. Qed.

Lemma fact_L_row_okN u i l : lnL l -> lnU u -> i < n ->
  exists l', fact_L_rowN y u i l = Ret l' /\ lnL l' /\ (forall r' c', r' < n -> r' <> i -> NL l' r' c' = NL l r' c') /\
    (forall c, nn i (yp y) <= c < i -> NL l' i c = ndiv N (GL (NL l') (NU u) i c c (NL l i c)) (NU u c c)).
Proof.
  intros HL HU Hi. unfold fact_L_rowN. rewrite (rd_p y n V) by auto. simpl.
  assert (Hp : nn i (yp y) <= i) by (apply (v_pi _ _ V); auto).
  destruct (ofor_inv (fun m l' => lnL l' /\ (forall r' c', r' < n -> r' <> i \/ m <= c' -> NL l' r' c' = NL l r' c') /\
    (forall c, nn i (yp y) <= c < m -> NL l' i c = ndiv N (GL (NL l') (NU u) i c c (NL l i c)) (NU u c c)))
    (nn i (yp y)) i (fact_L_elemN y u i) l) as (l' & E & HL' & H1 & H2); auto.
  - split; auto. split; auto. intros c Hc. lia.
  - intros c l0 Hc (HL0 & H1 & H2).
    destruct (fact_L_elem_okN u i c l0 HL0 HU Hi Hc) as (l1 & E & HL1 & H3).
    exists l1. split; auto. split; auto. split.
    + intros r' c' Hr' Hd. rewrite H3 by auto. rewrite upd2_neq by lia. apply H1; auto. lia.
    + intros c' Hc'. destruct (Nat.eq_dec c' c) as [->|Hne].
      * rewrite H3, upd2_eq by auto. rewrite (H1 i c) by (auto; lia). f_equal. apply GL_ext; [|reflexivity]. intros k Hk. rewrite H3, upd2_neq by (auto; lia). auto.
      * rewrite H3, upd2_neq by (auto; lia). rewrite H2 by lia. f_equal. apply GL_ext; [|reflexivity]. intros k Hk. rewrite H3, upd2_neq by (auto; lia). auto.
  - exists l'. split; auto.
Qed.
Lemma fact_U_col_okN l i u : lnL l -> lnU u -> i < n ->
  exists u', fact_U_colN y l i u = Ret u' /\ lnU u' /\ (forall r' c', c' < n -> c' <> i -> NU u' r' c' = NU u r' c') /\
    (forall r, nn i (yq y) <= r <= i -> NU u' r i = GL (NL l) (NU u') r i r (NU u r i)).
Proof.
  intros HL HU Hi. unfold fact_U_colN. rewrite (rd_q y n V) by auto. simpl.
  assert (Hp : nn i (yq y) <= i) by (apply (v_qi _ _ V); auto).
  set (Inv := fun m u' => lnU u' /\ (forall r' c', c' < n -> c' <> i \/ m <= r' -> NU u' r' c' = NU u r' c') /\
    (forall r, nn i (yq y) <= r < m -> NU u' r i = GL (NL l) (NU u') r i r (NU u r i))).
  assert (STEP : forall r u0, nn i (yq y) <= r <= i -> Inv r u0 -> exists u1, fact_U_elemN y l i r u0 = Ret u1 /\ Inv (S r) u1).
  { intros r u0 Hr (HU0 & H1 & H2).
    destruct (fact_U_elem_okN l i r u0 HL HU0 Hi Hr) as (u1 & E & HU1 & H3).
    exists u1. split; auto. split; auto. split.
    + intros r' c' Hr' Hd. rewrite H3 by auto. rewrite upd2_neq by lia. apply H1; auto. lia.
    + intros r' Hr'. destruct (Nat.eq_dec r' r) as [->|Hne].
      * rewrite H3, upd2_eq by auto. rewrite (H1 r i) by (auto; lia). apply GL_ext; [reflexivity|]. intros k Hk. rewrite H3, upd2_neq by (auto; lia). auto.
      * rewrite H3, upd2_neq by (auto; lia). rewrite H2 by lia. apply GL_ext; [reflexivity|]. intros k Hk. rewrite H3, upd2_neq by (auto; lia). auto. }
  destruct (ofor_inv Inv (nn i (yq y)) i (fact_U_elemN y l i) u) as (u1 & E1 & I1); auto.
  - split; auto. split; auto. intros r Hr. lia.
  - intros k x Hk. apply STEP. lia.
  - rewrite E1. simpl. destruct (STEP i u1 ltac:(lia) I1) as (u2 & E2 & HU2 & H1 & H2).
    exists u2. split; auto. split; auto. split; [intros; apply H1; auto|intros; apply H2; lia].
Qed.
Definition factoredN (A : nat -> nat -> T) (m : nat) (lu : list T * list T) : Prop :=
  lnL (fst lu) /\ lnU (snd lu) /\ LUeqsN A (NL (fst lu)) (NU (snd lu)) m /\
  (forall r c, r < n -> m <= r -> c < r -> NL (fst lu) r c = A r c) /\
  (forall r c, c < n -> m <= c -> r <= c -> NU (snd lu) r c = A r c).
Lemma fact_step_okN A i lu : i < n -> factoredN A i lu -> exists lu', fact_stepN y i lu = Ret lu' /\ factoredN A (S i) lu'.
Proof.
  intros Hi (HL & HU & (E1 & E2) & FL & FU). destruct lu as [l u]; simpl in *. unfold fact_stepN; simpl.
  destruct (fact_L_row_okN u i l HL HU Hi) as (l' & El & HL' & L1 & L2). rewrite El. simpl.
  destruct (fact_U_col_okN l' i u HL' HU Hi) as (u' & Eu & HU' & U1 & U2). rewrite Eu. simpl.
  eexists. split; [reflexivity|]. repeat split; simpl; auto.
  - intros r c Hc Hr. destruct (Nat.eq_dec r i) as [->|Hne].
    + rewrite L2 by lia. rewrite FL by lia. rewrite (U1 c c) by lia. f_equal. apply GL_ext; [reflexivity|]. intros k Hk. rewrite (U1 k c) by lia. auto.
    + rewrite L1 by lia. rewrite E1 by lia. rewrite (U1 c c) by lia. f_equal. apply GL_ext; [intros k Hk; rewrite L1 by lia; auto|]. intros k Hk. rewrite (U1 k c) by lia. auto.
  - intros r c Hc Hr. destruct (Nat.eq_dec c i) as [->|Hne].
    + rewrite U2 by lia. rewrite FU by lia. reflexivity.
    + rewrite U1 by lia. rewrite E2 by lia. apply GL_ext; [intros k Hk; rewrite L1 by lia; auto|]. intros k Hk. rewrite (U1 k c) by lia. auto.
  - intros r c Hr Hm Hc. rewrite L1 by lia. apply FL; lia.
  - intros r c Hr Hm Hc. rewrite U1 by lia. apply FU; lia.
Qed.
Lemma factorize_loop_okN A l u : lnL l -> lnU u -> (forall r c, r < n -> c < n -> N0 l u r c = A r c) ->
  exists lu', ofor 0 n (fact_stepN y) (l, u) = Ret lu' /\ factoredN A n lu'.
Proof.
  intros HL HU HA. apply (ofor_inv (factoredN A)).
  - lia.
  - repeat split; simpl; auto; try (intros; lia).
    + intros r c Hr _ Hc. rewrite <- HA by lia. unfold N0. destruct (Nat.leb_spec r c); auto; lia.
    + intros r c Hr _ Hc. rewrite <- HA by lia. unfold N0. destruct (Nat.leb_spec r c); auto; lia.
  - intros i x Hi Hx. apply fact_step_okN; auto. lia.
Qed.

Definition vf (v : list T) (i : nat) : T := nth i v O.
Lemma fwd_row_okN l i x : lnL l -> i < n -> n <= length x ->
  exists x', fwd_rowN y l i x = Ret x' /\ length x' = length x /\ (forall j, j <> i -> vf x' j = vf x j) /\
    vf x' i = minus_all (filter (inL y i) (seq 0 i)) (fun k => nmul N (NL l i k) (vf x k)) (vf x i).
Proof.
  intros HL Hi Hx. unfold fwd_rowN. rewrite (rd_p y n V) by auto. simpl.
  destruct (ofor_inv (fun m x' => length x' = length x /\ (forall j, j <> i -> vf x' j = vf x j) /\
    vf x' i = minus_all (filter (inL y i) (seq 0 m)) (fun k => nmul N (NL l i k) (vf x k)) (vf x i))
    (nn i (yp y)) i (fun k x' => xi <- rd x' i ;; a <- getLN y l i k ;; xk <- rd x' k ;; wr x' i (nsub N xi (nmul N a xk))) x) as (x' & E & H1 & H2 & H3).
  - apply (v_pi _ _ V); auto.
  - repeat split; auto. rewrite filter_none; [reflexivity|]. intros k K. apply in_seq in K. destruct (inL y i k) eqn:E; [|reflexivity]. apply inL_spec in E. lia.
  - intros k x0 Hk (H1 & H2 & H3). rewrite (rd_ok x0 i O), (rd_ok x0 k O) by lia. cbn [obind].
    assert (Ik : inL y i k = true) by (apply inL_spec; lia). rewrite getL_okN by auto. cbn [obind].
    rewrite wr_ok by lia. eexists. split; [reflexivity|]. rewrite upd_length. split; auto. split.
    + intros j Hj. unfold vf. rewrite nth_upd_neq by auto. apply H2; auto.
    + unfold vf at 1. rewrite nth_upd_eq by lia. fold (vf x0 i) (vf x0 k). rewrite H3, H2 by lia. rewrite filter_S. simpl plus. rewrite Ik, minus_snoc. reflexivity.
  - eauto.
Qed.
Definition rowU (i k : nat) : bool := inU y i k && Nat.leb k (nn i (ys y)).
Lemma bwd_row_okN u i x : lnU u -> i < n -> n <= length x ->
  exists x', bwd_rowN y u i x = Ret x' /\ length x' = length x /\ (forall j, j <> i -> vf x' j = vf x j) /\
    vf x' i = ndiv N (minus_all (filter (rowU i) (seq (S i) (n - S i))) (fun k => nmul N (NU u i k) (vf x k)) (vf x i)) (NU u i i).
Proof.
  intros HU Hi Hx. unfold bwd_rowN. rewrite (rd_s y n V) by auto. simpl. pose proof (v_si _ _ V i Hi) as Hsi.
  set (F := fun m => minus_all (filter (rowU i) (seq (S i) (m - S i))) (fun k => nmul N (NU u i k) (vf x k)) (vf x i)).
  assert (TAIL : forall m, nn i (ys y) < m -> F (m + 1) = F m).
  { intros m Hm. unfold F. destruct (Nat.le_gt_cases (S i) m) as [LE|GT]; [|replace (m + 1 - S i) with 0 by lia; replace (m - S i) with 0 by lia; reflexivity].
    replace (m + 1 - S i) with (S (m - S i)) by lia. rewrite filter_S. replace (S i + (m - S i)) with m by lia.
    assert (E : rowU i m = false) by (unfold rowU; destruct (Nat.leb_spec m (nn i (ys y))); [lia|apply andb_false_r]). rewrite E, app_nil_r. reflexivity. }
  assert (TAILS : forall d m, nn i (ys y) < m -> F (m + d) = F m).
  { induction d as [|d I]; intros m Hm; [rewrite Nat.add_0_r; reflexivity|]. replace (m + S d) with ((m + d) + 1) by lia. rewrite TAIL by lia. apply I. assumption. }
  assert (LOOP : exists x1, ofor (S i) (S (nn i (ys y))) (fun k x' => qk <- rd (yq y) k ;;
          if Nat.leb qk i then xi <- rd x' i ;; a <- getUN y u i k ;; xk <- rd x' k ;; wr x' i (nsub N xi (nmul N a xk)) else Ret x') x = Ret x1 /\
          length x1 = length x /\ (forall j, j <> i -> vf x1 j = vf x j) /\ vf x1 i = F n).
  { destruct (Nat.le_gt_cases i (nn i (ys y))) as [Hle|Hgt].
    - destruct (ofor_inv (fun m x' => length x' = length x /\ (forall j, j <> i -> vf x' j = vf x j) /\ vf x' i = F m)
        (S i) (S (nn i (ys y))) (fun k x' => qk <- rd (yq y) k ;;
          if Nat.leb qk i then xi <- rd x' i ;; a <- getUN y u i k ;; xk <- rd x' k ;; wr x' i (nsub N xi (nmul N a xk)) else Ret x') x) as (x' & E & H1 & H2 & H3).
      + lia.
      + repeat split; auto. unfold F. rewrite Nat.sub_diag. reflexivity.
      + intros k x0 Hk (H1 & H2 & H3). rewrite (rd_q y n V) by lia. cbn [obind].
        assert (FK : F (S k) = if Nat.leb (nn k (yq y)) i then nsub N (F k) (nmul N (NU u i k) (vf x k)) else F k).
        { unfold F. replace (S k - S i) with (S (k - S i)) by lia. rewrite filter_S. replace (S i + (k - S i)) with k by lia.
          unfold rowU at 2. unfold inU. destruct (Nat.leb_spec i k); [|lia]. destruct (Nat.leb_spec k (nn i (ys y))); [|lia]. cbn [andb].
          destruct (Nat.leb (nn k (yq y)) i); cbn [andb]; [apply minus_snoc|rewrite app_nil_r; reflexivity]. }
        destruct (Nat.leb_spec (nn k (yq y)) i).
        * rewrite (rd_ok x0 i O), (rd_ok x0 k O) by lia. cbn [obind].
          rewrite getU_okN by (auto; try apply inU_spec; lia). cbn [obind].
          rewrite wr_ok by lia. eexists. split; [reflexivity|]. rewrite upd_length. split; auto. split.
          -- intros j Hj. unfold vf. rewrite nth_upd_neq by auto. apply H2; auto.
          -- unfold vf at 1. rewrite nth_upd_eq by lia. fold (vf x0 i) (vf x0 k). rewrite H3, H2, FK by lia. reflexivity.
        * exists x0. split; auto. split; auto. split; auto. rewrite H3, FK. reflexivity.
      + exists x'. split; auto. split; auto. split; auto. rewrite H3. replace n with (S (nn i (ys y)) + (n - S (nn i (ys y)))) by lia. symmetry. apply TAILS. lia.
    - exists x. unfold ofor. replace (S (nn i (ys y)) - S i) with 0 by lia. simpl. repeat split; auto.
      replace n with (S i + (n - S i)) by lia. rewrite TAILS by lia. unfold F. rewrite Nat.sub_diag. reflexivity. }
  destruct LOOP as (x1 & E & H1 & H2 & H3). rewrite E. cbn [obind]. rewrite (rd_ok x1 i O) by lia. cbn [obind].
  rewrite getU_okN by (auto; apply inU_spec; pose proof (v_qi _ _ V i Hi); lia). cbn [obind].
  rewrite wr_ok by lia. eexists. split; [reflexivity|]. rewrite upd_length. split; auto. split.
  - intros j Hj. unfold vf. rewrite nth_upd_neq by auto. apply H2; auto.
  - unfold vf at 1. rewrite nth_upd_eq by lia. fold (vf x1 i). rewrite H3. reflexivity.
Qed.
End Layout.
End Gen.
