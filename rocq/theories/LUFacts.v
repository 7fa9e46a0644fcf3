(** LUFacts.v - proofs about LUModel. *)
From Coq Require Import List Arith Lia ZArith QArith Qcanon Bool.
Require Import Verif.Base Verif.BaseFacts Verif.LUModel Verif.LUSpec.
Import ListNotations.

Notation nn i l := (nth i l 0%nat) (only parsing).
Notation nq i l := (nth i l 0%Qc) (only parsing).

Record valid_layout (y : layout) (n : nat) : Prop := {
  v_p : length (yp y) = n; v_q : length (yq y) = n; v_s : length (ys y) = n;
  v_al : length (yal y) = S n; v_au : length (yau y) = S n;
  v_pi : forall i, (i < n)%nat -> (nn i (yp y) <= i)%nat;
  v_qi : forall i, (i < n)%nat -> (nn i (yq y) <= i)%nat;
  v_si : forall i, (i < n)%nat -> (nn i (ys y) < n)%nat;
  v_alS : forall i, (i < n)%nat -> nn (S i) (yal y) = (nn i (yal y) + (i - nn i (yp y)))%nat;
  v_auS : forall i, (i < n)%nat -> nn (S i) (yau y) = (nn i (yau y) + (i - nn i (yq y)) + 1)%nat
}.

Section Layout.
Variables (y : layout) (n : nat).
Hypothesis V : valid_layout y n.

Definition lenL (l : list Qc) := length l = nn n (yal y).
Definition lenU (u : list Qc) := length u = nn n (yau y).

Definition inL r c := (Nat.ltb c r && Nat.leb (nn r (yp y)) c)%bool.
Definition inU r c := (Nat.leb r c && Nat.leb (nn c (yq y)) r)%bool.
Lemma inL_spec r c : inL r c = true <-> (nn r (yp y) <= c < r)%nat.
Proof. unfold inL. rewrite andb_true_iff, Nat.ltb_lt, Nat.leb_le. lia. Qed.
Lemma inU_spec r c : inU r c = true <-> (nn c (yq y) <= r <= c)%nat.
Proof. unfold inU. rewrite andb_true_iff, !Nat.leb_le. lia. Qed.

Definition AL (l : list Qc) r c : Qc := if inL r c then nq (nn r (yal y) + (c - nn r (yp y)))%nat l else 0%Qc.
Definition AU (u : list Qc) r c : Qc := if inU r c then nq (nn c (yau y) + (r - nn c (yq y)))%nat u else 0%Qc.

Lemma al_mono i j : (i <= j <= n)%nat -> (nn i (yal y) <= nn j (yal y))%nat.
Proof.
  intros [Hij Hj]. induction j.
  - assert (i = 0)%nat by lia. subst. lia.
  - destruct (Nat.eq_dec i (S j)); [subst; lia|].
    rewrite (v_alS _ _ V j) by lia. specialize (IHj ltac:(lia) ltac:(lia)). lia.
Qed.
Lemma au_mono i j : (i <= j <= n)%nat -> (nn i (yau y) <= nn j (yau y))%nat.
Proof.
  intros [Hij Hj]. induction j.
  - assert (i = 0)%nat by lia. subst. lia.
  - destruct (Nat.eq_dec i (S j)); [subst; lia|].
    rewrite (v_auS _ _ V j) by lia. specialize (IHj ltac:(lia) ltac:(lia)). lia.
Qed.

Lemma adrL_lt r c : (r < n)%nat -> inL r c = true ->
  (nn r (yal y) + (c - nn r (yp y)) < nn (S r) (yal y))%nat.
Proof. intros Hr H. apply inL_spec in H. rewrite (v_alS _ _ V r Hr). lia. Qed.
Lemma adrU_lt r c : (c < n)%nat -> inU r c = true ->
  (nn c (yau y) + (r - nn c (yq y)) < nn (S c) (yau y))%nat.
Proof. intros Hr H. apply inU_spec in H. rewrite (v_auS _ _ V c Hr). lia. Qed.

Lemma adrL_inj r c r' c' : (r < n)%nat -> (r' < n)%nat -> inL r c = true -> inL r' c' = true ->
  (nn r (yal y) + (c - nn r (yp y)) = nn r' (yal y) + (c' - nn r' (yp y)))%nat -> r = r' /\ c = c'.
Proof.
  intros Hr Hr' I I' E.
  pose proof (adrL_lt r c Hr I). pose proof (adrL_lt r' c' Hr' I').
  assert (r = r').
  { destruct (Nat.lt_trichotomy r r') as [Hl|[He|Hl]]; auto.
    - pose proof (al_mono (S r) r' ltac:(lia)). lia.
    - pose proof (al_mono (S r') r ltac:(lia)). lia. }
  subst. split; auto. apply inL_spec in I. apply inL_spec in I'. lia.
Qed.
Lemma adrU_inj r c r' c' : (c < n)%nat -> (c' < n)%nat -> inU r c = true -> inU r' c' = true ->
  (nn c (yau y) + (r - nn c (yq y)) = nn c' (yau y) + (r' - nn c' (yq y)))%nat -> r = r' /\ c = c'.
Proof.
  intros Hr Hr' I I' E.
  pose proof (adrU_lt r c Hr I). pose proof (adrU_lt r' c' Hr' I').
  assert (c = c').
  { destruct (Nat.lt_trichotomy c c') as [Hl|[He|Hl]]; auto.
    - pose proof (au_mono (S c) c' ltac:(lia)). lia.
    - pose proof (au_mono (S c') c ltac:(lia)). lia. }
  subst. split; auto. apply inU_spec in I. apply inU_spec in I'. lia.
Qed.

Lemma rd_p i : (i < n)%nat -> rd (yp y) i = Ret (nn i (yp y)).
Proof. intro. apply rd_ok. rewrite (v_p _ _ V). auto. Qed.
Lemma rd_q i : (i < n)%nat -> rd (yq y) i = Ret (nn i (yq y)).
Proof. intro. apply rd_ok. rewrite (v_q _ _ V). auto. Qed.
Lemma rd_s i : (i < n)%nat -> rd (ys y) i = Ret (nn i (ys y)).
Proof. intro. apply rd_ok. rewrite (v_s _ _ V). auto. Qed.
Lemma rd_al i : (i < n)%nat -> rd (yal y) i = Ret (nn i (yal y)).
Proof. intro. apply rd_ok. rewrite (v_al _ _ V). lia. Qed.
Lemma rd_au i : (i < n)%nat -> rd (yau y) i = Ret (nn i (yau y)).
Proof. intro. apply rd_ok. rewrite (v_au _ _ V). lia. Qed.

Lemma getL_ok l r c : lenL l -> (r < n)%nat -> inL r c = true -> getL y l r c = Ret (AL l r c).
Proof.
  intros HL Hr I. unfold getL. rewrite rd_p, rd_al by auto. simpl.
  change (Nat.ltb c r && Nat.leb (nn r (yp y)) c)%bool with (inL r c). rewrite I.
  unfold AL. rewrite I. apply rd_ok. rewrite HL.
  eapply Nat.lt_le_trans; [apply adrL_lt; eauto|]. apply al_mono; lia.
Qed.
Lemma getU_ok u r c : lenU u -> (c < n)%nat -> inU r c = true -> getU y u r c = Ret (AU u r c).
Proof.
  intros HL Hr I. unfold getU. rewrite rd_q, rd_au by auto. simpl.
  change (Nat.leb r c && Nat.leb (nn c (yq y)) r)%bool with (inU r c). rewrite I.
  unfold AU. rewrite I. apply rd_ok. rewrite HL.
  eapply Nat.lt_le_trans; [apply adrU_lt; eauto|]. apply au_mono; lia.
Qed.

Definition updf (f : nat -> nat -> Qc) r c v : nat -> nat -> Qc :=
  fun r' c' => if (Nat.eqb r' r && Nat.eqb c' c)%bool then v else f r' c'.
Lemma updf_eq f r c v : updf f r c v r c = v.
Proof. unfold updf. rewrite !Nat.eqb_refl. auto. Qed.
Lemma updf_neq f r c v r' c' : (r' <> r \/ c' <> c) -> updf f r c v r' c' = f r' c'.
Proof.
  intro H. unfold updf. destruct (Nat.eqb_spec r' r); destruct (Nat.eqb_spec c' c); simpl; auto. lia.
Qed.

Lemma putL_ok l r c v : lenL l -> (r < n)%nat -> inL r c = true ->
  exists l', putL y l r c v = Ret l' /\ lenL l' /\
    (forall r' c', (r' < n)%nat -> AL l' r' c' = updf (AL l) r c v r' c').
Proof.
  intros HL Hr I. unfold putL. rewrite rd_p, rd_al by auto. simpl.
  change (Nat.ltb c r && Nat.leb (nn r (yp y)) c)%bool with (inL r c). rewrite I.
  assert (B : (nn r (yal y) + (c - nn r (yp y)) < length l)%nat).
  { rewrite HL. eapply Nat.lt_le_trans; [apply adrL_lt; eauto|]. apply al_mono; lia. }
  rewrite wr_ok by auto. eexists. split; [reflexivity|]. split.
  - unfold lenL. rewrite upd_length. auto.
  - intros r' c' Hr'. unfold updf. unfold AL at 1.
    destruct (inL r' c') eqn:I'.
    + rewrite nth_upd.
      destruct (Nat.eqb_spec (nn r' (yal y) + (c' - nn r' (yp y))) (nn r (yal y) + (c - nn r (yp y)))) as [E|E].
      * destruct (adrL_inj _ _ _ _ Hr' Hr I' I E). subst. rewrite !Nat.eqb_refl. simpl.
        apply Nat.ltb_lt in B. rewrite B. auto.
      * destruct (Nat.eqb_spec r' r); destruct (Nat.eqb_spec c' c); simpl;
          try (unfold AL; rewrite I'; reflexivity).
        subst. congruence.
    + destruct (Nat.eqb_spec r' r); destruct (Nat.eqb_spec c' c); simpl;
          try (unfold AL; rewrite I'; reflexivity).
      subst. congruence.
Qed.
Lemma putU_ok u r c v : lenU u -> (c < n)%nat -> inU r c = true ->
  exists u', putU y u r c v = Ret u' /\ lenU u' /\
    (forall r' c', (c' < n)%nat -> AU u' r' c' = updf (AU u) r c v r' c').
Proof.
  intros HL Hr I. unfold putU. rewrite rd_q, rd_au by auto. simpl.
  change (Nat.leb r c && Nat.leb (nn c (yq y)) r)%bool with (inU r c). rewrite I.
  assert (B : (nn c (yau y) + (r - nn c (yq y)) < length u)%nat).
  { rewrite HL. eapply Nat.lt_le_trans; [apply adrU_lt; eauto|]. apply au_mono; lia. }
  rewrite wr_ok by auto. eexists. split; [reflexivity|]. split.
  - unfold lenU. rewrite upd_length. auto.
  - intros r' c' Hr'. unfold updf. unfold AU at 1.
    destruct (inU r' c') eqn:I'.
    + rewrite nth_upd.
      destruct (Nat.eqb_spec (nn c' (yau y) + (r' - nn c' (yq y))) (nn c (yau y) + (r - nn c (yq y)))) as [E|E].
      * destruct (adrU_inj _ _ _ _ Hr' Hr I' I E). subst. rewrite !Nat.eqb_refl. simpl.
        apply Nat.ltb_lt in B. rewrite B. auto.
      * destruct (Nat.eqb_spec r' r); destruct (Nat.eqb_spec c' c); simpl;
          try (unfold AU; rewrite I'; reflexivity).
        subst. congruence.
    + destruct (Nat.eqb_spec r' r); destruct (Nat.eqb_spec c' c); simpl;
          try (unfold AU; rewrite I'; reflexivity).
      subst. congruence.
Qed.

Lemma AL_out l r c : ~ (nn r (yp y) <= c < r)%nat -> AL l r c = 0%Qc.
Proof.
  intro H. unfold AL. destruct (inL r c) eqn:E; auto. apply inL_spec in E. lia.
Qed.
Lemma AU_out u r c : ~ (nn c (yq y) <= r <= c)%nat -> AU u r c = 0%Qc.
Proof.
  intro H. unfold AU. destruct (inU r c) eqn:E; auto. apply inU_spec in E. lia.
Qed.

(** *** factorize: element loops *)
Lemma dot_zero_prefix (f g : nat -> Qc) m :
  (forall k, (k < m)%nat -> f k = 0%Qc \/ g k = 0%Qc) -> qsum m (fun k => f k * g k)%Qc = 0%Qc.
Proof. intro H. apply qsum_zero. intros i Hi. destruct (H i Hi) as [E|E]; rewrite E; ring. Qed.

Lemma fact_L_elem_ok u i c l : lenL l -> lenU u -> (i < n)%nat -> (nn i (yp y) <= c < i)%nat ->
  exists l', fact_L_elem y u i c l = Ret l' /\ lenL l' /\
    (forall r' c', (r' < n)%nat -> AL l' r' c' =
       updf (AL l) i c ((AL l i c - qsum c (fun k => AL l i k * AU u k c)%Qc) / AU u c c)%Qc r' c').
Proof.
  intros HL HU Hi Hc. unfold fact_L_elem. rewrite rd_p, rd_q by lia. simpl.
  set (k0 := Nat.max (nn i (yp y)) (nn c (yq y))).
  assert (Hqc : (nn c (yq y) <= c)%nat) by (apply (v_qi _ _ V); lia).
  assert (Ic : inL i c = true) by (apply inL_spec; lia).
  destruct (ofor_inv (fun k l' => lenL l' /\ forall r' c', (r' < n)%nat -> AL l' r' c' =
        updf (AL l) i c (AL l i c - qsum k (fun k => AL l i k * AU u k c))%Qc r' c')
      k0 c (fun k l' =>
          v <- getL y l' i c ;; a <- getL y l' i k ;; b <- getU y u k c ;;
          putL y l' i c (v - a * b)%Qc) l) as (l1 & E1 & HL1 & H1).
  - unfold k0. lia.
  - split; auto. intros r' c' Hr'. rewrite dot_zero_prefix.
    + unfold updf. destruct (Nat.eqb_spec r' i); destruct (Nat.eqb_spec c' c); simpl; subst; auto. ring.
    + intros k Hk. destruct (Nat.lt_ge_cases k (nn i (yp y))) as [Hlt|Hge].
      * left. apply AL_out. lia.
      * right. apply AU_out. lia.
  - intros k l' Hk (HL' & H').
    assert (Ik : inL i k = true) by (apply inL_spec; lia).
    assert (Jk : inU k c = true) by (apply inU_spec; lia).
    rewrite (getL_ok l' i c), (getL_ok l' i k), (getU_ok u k c) by (auto; lia). simpl.
    destruct (putL_ok l' i c (AL l' i c - AL l' i k * AU u k c)%Qc HL' Hi Ic) as (l2 & E2 & HL2 & H2).
    exists l2. split; auto. split; auto. intros r' c' Hr'. rewrite H2 by auto.
    rewrite (H' i c), (H' i k) by auto. rewrite updf_eq, (updf_neq _ _ _ _ i k) by lia.
    simpl qsum. unfold updf at 1. destruct (Nat.eqb_spec r' i); destruct (Nat.eqb_spec c' c); simpl.
    + subst. rewrite updf_eq. ring.
    + rewrite H' by auto. rewrite !updf_neq by lia. auto.
    + rewrite H' by auto. rewrite !updf_neq by lia. auto.
    + rewrite H' by auto. rewrite !updf_neq by lia. auto.
  - rewrite E1. simpl.
    assert (Jc : inU c c = true) by (apply inU_spec; lia).
    rewrite (getL_ok l1 i c), (getU_ok u c c) by (auto; lia). simpl.
    destruct (putL_ok l1 i c (AL l1 i c / AU u c c)%Qc HL1 Hi Ic) as (l2 & E2 & HL2 & H2).
    exists l2. split; auto. split; auto. intros r' c' Hr'. rewrite H2 by auto.
    rewrite (H1 i c) by auto. rewrite updf_eq. unfold updf at 1 2.
    destruct (Nat.eqb_spec r' i); destruct (Nat.eqb_spec c' c); simpl; auto;
      rewrite H1 by auto; rewrite updf_neq by lia; auto.
Qed.

Lemma fact_U_elem_ok l i r u : lenL l -> lenU u -> (i < n)%nat -> (nn i (yq y) <= r <= i)%nat ->
  exists u', fact_U_elem y l i r u = Ret u' /\ lenU u' /\
    (forall r' c', (c' < n)%nat -> AU u' r' c' =
       updf (AU u) r i (AU u r i - qsum r (fun k => AL l r k * AU u k i))%Qc r' c').
Proof.
  intros HL HU Hi Hr. unfold fact_U_elem. rewrite rd_p, rd_q by lia. simpl.
  set (k0 := Nat.max (nn r (yp y)) (nn i (yq y))).
  assert (Hpr : (nn r (yp y) <= r)%nat) by (apply (v_pi _ _ V); lia).
  assert (Ic : inU r i = true) by (apply inU_spec; lia).
  apply (ofor_inv (fun k u' => lenU u' /\ forall r' c', (c' < n)%nat -> AU u' r' c' =
        updf (AU u) r i (AU u r i - qsum k (fun k => AL l r k * AU u k i))%Qc r' c')
      k0 r (fun k u' =>
          v <- getU y u' r i ;; a <- getL y l r k ;; b <- getU y u' k i ;;
          putU y u' r i (v - a * b)%Qc) u).
  - unfold k0. lia.
  - split; auto. intros r' c' Hr'. rewrite dot_zero_prefix.
    + unfold updf. destruct (Nat.eqb_spec r' r); destruct (Nat.eqb_spec c' i); simpl; subst; auto. ring.
    + intros k Hk. destruct (Nat.lt_ge_cases k (nn r (yp y))) as [Hlt|Hge].
      * left. apply AL_out. lia.
      * right. apply AU_out. lia.
  - intros k u' Hk (HU' & H').
    assert (Ik : inL r k = true) by (apply inL_spec; lia).
    assert (Jk : inU k i = true) by (apply inU_spec; lia).
    rewrite (getU_ok u' r i), (getL_ok l r k), (getU_ok u' k i) by (auto; lia). simpl.
    destruct (putU_ok u' r i (AU u' r i - AL l r k * AU u' k i)%Qc HU' Hi Ic) as (u2 & E2 & HU2 & H2).
    exists u2. split; auto. split; auto. intros r' c' Hr'. rewrite H2 by auto.
    rewrite (H' r i), (H' k i) by auto. rewrite updf_eq, (updf_neq _ _ _ _ k i) by lia.
    simpl qsum. unfold updf at 1. destruct (Nat.eqb_spec r' r); destruct (Nat.eqb_spec c' i); simpl.
    + subst. rewrite updf_eq. ring.
    + rewrite H' by auto. rewrite !updf_neq by lia. auto.
    + rewrite H' by auto. rewrite !updf_neq by lia. auto.
    + rewrite H' by auto. rewrite !updf_neq by lia. auto.
Qed.

(** The defining equations of the decomposition for row/column indices below [m]. *)
Definition LUeqs (A : nat -> nat -> Qc) (L U : nat -> nat -> Qc) (m : nat) : Prop :=
  (forall r c, (c < r < m)%nat -> L r c = ((A r c - qsum c (fun k => L r k * U k c)) / U c c)%Qc) /\
  (forall r c, (r <= c < m)%nat -> U r c = (A r c - qsum r (fun k => L r k * U k c))%Qc).

Definition A0 (l u : list Qc) r c : Qc := if Nat.leb r c then AU u r c else AL l r c.

Lemma fact_L_row_ok u i l : lenL l -> lenU u -> (i < n)%nat ->
  exists l', fact_L_row y u i l = Ret l' /\ lenL l' /\
    (forall r' c', (r' < n)%nat -> r' <> i -> AL l' r' c' = AL l r' c') /\
    (forall c, (c < i)%nat -> AL l' i c = ((AL l i c - qsum c (fun k => AL l' i k * AU u k c)) / AU u c c)%Qc).
Proof.
  intros HL HU Hi. unfold fact_L_row. rewrite rd_p by auto. simpl.
  assert (Hp : (nn i (yp y) <= i)%nat) by (apply (v_pi _ _ V); auto).
  destruct (ofor_inv (fun m l' => lenL l' /\
    (forall r' c', (r' < n)%nat -> r' <> i \/ (m <= c')%nat -> AL l' r' c' = AL l r' c') /\
    (forall c, (c < m)%nat -> AL l' i c = ((AL l i c - qsum c (fun k => AL l' i k * AU u k c)) / AU u c c)%Qc))
    (nn i (yp y)) i (fact_L_elem y u i) l) as (l' & E & HL' & H1 & H2); auto.
  - split; auto. split; auto. intros c Hc. rewrite AL_out by lia.
    rewrite qsum_zero. unfold Qcdiv; ring. intros k Hk. rewrite AL_out by lia. ring.
  - intros c l0 Hc (HL0 & H1 & H2).
    destruct (fact_L_elem_ok u i c l0 HL0 HU Hi Hc) as (l1 & E & HL1 & H3).
    exists l1. split; auto. split; auto. split.
    + intros r' c' Hr' Hd. rewrite H3 by auto. rewrite updf_neq by lia. apply H1; auto. lia.
    + intros c' Hc'. destruct (Nat.eq_dec c' c) as [->|Hne].
      * rewrite H3, updf_eq by auto. rewrite (H1 i c) by (auto; lia). erewrite qsum_ext; [reflexivity|]. intros k Hk. cbv beta. rewrite H3, updf_neq by (auto; lia). auto.
      * rewrite H3, updf_neq by (auto; lia). rewrite H2 by lia. erewrite qsum_ext; [reflexivity|]. intros k Hk. cbv beta. rewrite H3, updf_neq by (auto; lia). auto.
  - exists l'. split; auto.
Qed.

Lemma fact_U_col_ok l i u : lenL l -> lenU u -> (i < n)%nat ->
  exists u', fact_U_col y l i u = Ret u' /\ lenU u' /\
    (forall r' c', (c' < n)%nat -> c' <> i -> AU u' r' c' = AU u r' c') /\
    (forall r, (r <= i)%nat -> AU u' r i = (AU u r i - qsum r (fun k => AL l r k * AU u' k i))%Qc).
Proof.
  intros HL HU Hi. unfold fact_U_col. rewrite rd_q by auto. simpl.
  assert (Hp : (nn i (yq y) <= i)%nat) by (apply (v_qi _ _ V); auto).
  set (Inv := fun m u' => lenU u' /\
    (forall r' c', (c' < n)%nat -> c' <> i \/ (m <= r')%nat -> AU u' r' c' = AU u r' c') /\
    (forall r, (r < m)%nat -> AU u' r i = (AU u r i - qsum r (fun k => AL l r k * AU u' k i))%Qc)).
  assert (STEP : forall r u0, (nn i (yq y) <= r <= i)%nat -> Inv r u0 ->
     exists u1, fact_U_elem y l i r u0 = Ret u1 /\ Inv (S r) u1).
  { intros r u0 Hr (HU0 & H1 & H2).
    destruct (fact_U_elem_ok l i r u0 HL HU0 Hi Hr) as (u1 & E & HU1 & H3).
    exists u1. split; auto. split; auto. split.
    + intros r' c' Hr' Hd. rewrite H3 by auto. rewrite updf_neq by lia. apply H1; auto. lia.
    + intros r' Hr'. destruct (Nat.eq_dec r' r) as [->|Hne].
      * rewrite H3, updf_eq by auto. rewrite (H1 r i) by (auto; lia). erewrite qsum_ext; [reflexivity|]. intros k Hk. cbv beta. rewrite H3, updf_neq by (auto; lia). auto.
      * rewrite H3, updf_neq by (auto; lia). rewrite H2 by lia. erewrite qsum_ext; [reflexivity|]. intros k Hk. cbv beta. rewrite H3, updf_neq by (auto; lia). auto. }
  destruct (ofor_inv Inv (nn i (yq y)) i (fact_U_elem y l i) u) as (u1 & E1 & I1); auto.
  - split; auto. split; auto. intros r Hr. rewrite AU_out by lia.
    rewrite qsum_zero. ring. intros k Hk. rewrite (AU_out u k i) by lia. ring.
  - intros k x Hk. apply STEP. lia.
  - rewrite E1. simpl. destruct (STEP i u1 ltac:(lia) I1) as (u2 & E2 & HU2 & H1 & H2).
    exists u2. split; auto. split; auto. split.
    + intros; apply H1; auto.
    + intros; apply H2; lia.
Qed.

Definition factored (A : nat -> nat -> Qc) (m : nat) (lu : list Qc * list Qc) : Prop :=
  lenL (fst lu) /\ lenU (snd lu) /\
  LUeqs A (AL (fst lu)) (AU (snd lu)) m /\
  (forall r c, (r < n)%nat -> (m <= r)%nat -> (c < r)%nat -> AL (fst lu) r c = A r c) /\
  (forall r c, (c < n)%nat -> (m <= c)%nat -> (r <= c)%nat -> AU (snd lu) r c = A r c).

Lemma fact_step_ok A i lu : (i < n)%nat -> factored A i lu ->
  exists lu', fact_step y i lu = Ret lu' /\ factored A (S i) lu'.
Proof.
  intros Hi (HL & HU & (E1 & E2) & FL & FU). destruct lu as [l u]; simpl in *.
  unfold fact_step; simpl.
  destruct (fact_L_row_ok u i l HL HU Hi) as (l' & El & HL' & L1 & L2). rewrite El. simpl.
  destruct (fact_U_col_ok l' i u HL' HU Hi) as (u' & Eu & HU' & U1 & U2). rewrite Eu. simpl.
  eexists. split; [reflexivity|]. repeat split; simpl; auto.
  - intros r c Hc. destruct (Nat.eq_dec r i) as [->|Hne].
    + rewrite L2 by lia. rewrite FL by lia. rewrite (U1 c c) by lia. erewrite qsum_ext; [reflexivity|]. intros k Hk. cbv beta. rewrite (U1 k c) by lia. auto.
    + rewrite L1 by lia. rewrite E1 by lia. rewrite (U1 c c) by lia. erewrite qsum_ext; [reflexivity|]. intros k Hk. cbv beta. rewrite (U1 k c) by lia. rewrite L1 by lia. auto.
  - intros r c Hc. destruct (Nat.eq_dec c i) as [->|Hne].
    + rewrite U2 by lia. rewrite FU by lia. reflexivity.
    + rewrite U1 by lia. rewrite E2 by lia. erewrite qsum_ext; [reflexivity|]. intros k Hk. cbv beta. rewrite (U1 k c) by lia. rewrite L1 by lia. auto.
  - intros r c Hr Hm Hc. rewrite L1 by lia. apply FL; lia.
  - intros r c Hr Hm Hc. rewrite U1 by lia. apply FU; lia.
Qed.

Lemma factorize_loop_ok A l u : lenL l -> lenU u ->
  (forall r c, (r < n)%nat -> (c < n)%nat -> A0 l u r c = A r c) ->
  exists lu', ofor 0 n (fact_step y) (l, u) = Ret lu' /\ factored A n lu'.
Proof.
  intros HL HU HA. apply (ofor_inv (factored A)).
  - lia.
  - repeat split; simpl; auto; try (intros; lia).
    + intros r c Hr _ Hc. rewrite <- HA by lia. unfold A0.
      destruct (Nat.leb_spec r c); auto; lia.
    + intros r c Hr _ Hc. rewrite <- HA by lia. unfold A0.
      destruct (Nat.leb_spec r c); auto; lia.
  - intros i x Hi Hx. apply fact_step_ok; auto. lia.
Qed.

End Layout.
