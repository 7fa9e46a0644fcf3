(** EvFacts.v - lemmas about the linear event controller. *)
From Coq Require Import List Arith Bool ZArith QArith Qcanon Lia.
From Verif Require Import Base BaseFacts VecModel VOps RkModel NewtFacts RkFacts2 RkFacts4 EvModel EvSpec.
Import ListNotations.
Local Open Scope nat_scope.

Ltac qb := repeat match goal with
  | H : Qcltb _ _ = true |- _ => apply Qcltb_lt in H
  | H : Qcltb _ _ = false |- _ => apply Qcltb_ge in H
  | H : Qcleb _ _ = true |- _ => apply Qcleb_le in H
  | H : Qcleb _ _ = false |- _ => apply Qcleb_gt in H
  end.

Lemma sgn_ok (x : Qc) : qsign x (sgn (N:=QcNum) x).
Proof.
  unfold sgn, qsign. change (nltb QcNum) with Qcltb. change (n0 QcNum) with 0%Qc.
  destruct (Qcltb x 0) eqn:E; [qb; left; auto|]. destruct (Qcltb 0 x) eqn:E2; qb; [right; left; auto|].
  right; right. split; [qclra|reflexivity].
Qed.
Lemma xz_iff fl st z1 z2 : agrees fl st z1 -> ~ touches st z2 -> xz (N:=QcNum) fl st z2 = true <-> crosses fl st z2.
Proof.
  unfold agrees, touches, crosses, xz, watches_down, watches_up, watches_both. intros A NT.
  change (nltb QcNum) with Qcltb. change (nleb QcNum) with Qcleb. change (n0 QcNum) with 0%Qc.
  destruct A as [(E & A & S)|[(E & A & S)|(E & S)]]; rewrite E.
  - destruct S as [-> | ->]; cbn -[Qcltb Qcleb]; rewrite ?orb_false_r.
    + rewrite Qcltb_lt. split; [intros; left; auto|]. intros [(_ & H)|[(H & _)|(H & _)]]; [auto|discriminate|discriminate].
    + rewrite Qcleb_le. split.
      * intros H. left. split; [reflexivity|]. destruct (Qc_eq_dec' z2 0) as [E0|E0]; [exfalso; apply NT; split; [auto|discriminate]|].
        destruct (Qcle_lt_or_eq _ _ H); [auto|contradiction].
      * intros [(_ & H)|[(H & _)|(H & _)]]; [apply Qclt_le_weak; auto|discriminate|discriminate].
  - destruct S as [-> | ->]; cbn -[Qcltb Qcleb]; rewrite ?orb_false_r.
    + rewrite Qcltb_lt. split; [intros; right; left; auto|]. intros [(H & _)|[(_ & H)|(H & _)]]; [discriminate|auto|discriminate].
    + rewrite Qcleb_le. split.
      * intros H. right; left. split; [reflexivity|]. destruct (Qc_eq_dec' z2 0) as [E0|E0]; [exfalso; apply NT; split; [auto|discriminate]|].
        destruct (Qcle_lt_or_eq _ _ H) as [|E1]; [auto|]. symmetry in E1. contradiction.
      * intros [(H & _)|[(_ & H)|(H & _)]]; [discriminate|apply Qclt_le_weak; auto|discriminate].
  - rewrite negb_true_iff, Z.eqb_neq. pose proof (sgn_ok z2) as Sg. split.
    + intros H. right; right. split; [reflexivity|].
      destruct S as [(-> & A)|[(-> & A)|(-> & A)]].
      * left. split; [reflexivity|]. destruct Sg as [(? & _)|[(? & Q)|(Q & _)]]; [auto|rewrite Q in H; lia|exfalso; apply NT; split; [auto|discriminate]].
      * right; left. split; [reflexivity|]. destruct Sg as [(? & Q)|[(? & Q)|(Q & _)]]; [rewrite Q in H; lia|auto|exfalso; apply NT; split; [auto|discriminate]].
      * right; right. split; [reflexivity|]. intros E0. destruct Sg as [(Q & _)|[(Q & _)|(_ & Q)]]; [rewrite E0 in Q; apply (Qclt_not_eq _ _ Q); reflexivity|rewrite E0 in Q; apply (Qclt_not_eq _ _ Q); reflexivity|rewrite Q in H; lia].
    + intros [(H & _)|[(H & _)|(_ & H)]]; [discriminate|discriminate|].
      destruct H as [(-> & H)|[(-> & H)|(-> & H)]]; destruct Sg as [(Q & ->)|[(Q & ->)|(Q & ->)]]; try lia; exfalso; try contradiction; try (subst z2; apply (Qclt_not_eq _ _ H); reflexivity); apply (Qclt_not_eq _ _ (Qclt_trans _ _ _ Q H)); reflexivity.
Qed.
Lemma xz_flagged fl st z1 z2 : agrees fl st z1 -> xz (N:=QcNum) fl st z2 = true -> touches st z2 \/ crosses fl st z2.
Proof.
  intros A X. destruct (Qc_eq_dec' z2 0) as [E|E].
  - destruct (Z.eq_dec st 0) as [E2|E2]; [|left; split; auto].
    right. apply (xz_iff fl st z1 z2 A); [intros (_ & Q); contradiction|exact X].
  - right. apply (xz_iff fl st z1 z2 A); [intros (Q & _); contradiction|exact X].
Qed.
Lemma xz_not fl st z1 z2 : agrees fl st z1 -> xz (N:=QcNum) fl st z2 = false -> agrees fl st z2.
Proof.
  unfold agrees, xz, watches_down, watches_up, watches_both. intros A.
  change (nltb QcNum) with Qcltb. change (nleb QcNum) with Qcleb. change (n0 QcNum) with 0%Qc.
  destruct A as [(E & A & S)|[(E & A & S)|(E & S)]]; rewrite E.
  - intros H. left. split; [reflexivity|]. split; [|exact S].
    destruct S as [-> | ->]; cbn -[Qcltb Qcleb] in H; rewrite ?orb_false_r in H; qb; [exact H|apply Qclt_le_weak; exact H].
  - intros H. right; left. split; [reflexivity|]. split; [|exact S].
    destruct S as [-> | ->]; cbn -[Qcltb Qcleb] in H; rewrite ?orb_false_r in H; qb; [exact H|apply Qclt_le_weak; exact H].
  - intros H. right; right. split; [reflexivity|].
    rewrite negb_false_iff, Z.eqb_eq in H. pose proof (sgn_ok z2) as Sg. rewrite H in Sg.
    destruct Sg as [(Q & ->)|[(Q & ->)|(Q & ->)]]; [right; left|left|right; right]; (split; [reflexivity|]); try (apply Qclt_le_weak; exact Q). exact Q.
Qed.

Lemma div_nonneg a b : (0 <= a)%Qc -> (0 < b)%Qc -> (0 <= a / b)%Qc.
Proof.
  intros A B. assert (Nb : b <> 0%Qc) by (intros ->; apply (Qclt_not_eq _ _ B); reflexivity).
  apply (cancel b); [exact B|]. replace (b * 0)%Qc with 0%Qc by ring. replace (b * (a / b))%Qc with a by (field; exact Nb). exact A.
Qed.
Lemma div_lt_one a b : (a < b)%Qc -> (0 < b)%Qc -> (a / b < 1)%Qc.
Proof.
  intros A B. assert (Nb : b <> 0%Qc) by (intros ->; apply (Qclt_not_eq _ _ B); reflexivity).
  destruct (Qclt_le_dec (a / b) 1) as [|G]; [assumption|exfalso].
  apply (mul_le b) in G; [|exact B]. replace (b * (a / b))%Qc with a in G by (field; exact Nb). qclra.
Qed.
Lemma cross_alt z1 z2 : cross_time z1 z2 = cross_time (- z1)%Qc (- z2)%Qc.
Proof.
  unfold cross_time. destruct (Qc_eq_dec' (z1 - z2) 0) as [E|E].
  - assert (z1 = z2) as -> by qclra. replace (z2 - z2)%Qc with 0%Qc by ring. replace (- z2 - - z2)%Qc with 0%Qc by ring. unfold Qcdiv. change (/ 0)%Qc with 0%Qc. ring.
  - field. split; intros Q; apply E; qclra.
Qed.
Lemma cross_pos z1 z2 : (0 <= z1)%Qc -> (z2 < 0)%Qc -> (0 <= cross_time z1 z2)%Qc /\ (cross_time z1 z2 < 1)%Qc.
Proof.
  intros A B. unfold cross_time. split; [apply div_nonneg|apply div_lt_one]; try exact A; clear -A B; qclra.
Qed.
Lemma cross_range fl st z1 z2 : agrees fl st z1 -> crosses fl st z2 -> (0 <= cross_time z1 z2)%Qc /\ (cross_time z1 z2 < 1)%Qc.
Proof.
  unfold agrees, crosses, watches_down, watches_up, watches_both.
  assert (NEG : forall a b, (a <= 0)%Qc -> (0 < b)%Qc -> (0 <= cross_time a b)%Qc /\ (cross_time a b < 1)%Qc)
    by (intros a b A B; rewrite cross_alt; apply cross_pos; [clear -A; qclra|clear -B; qclra]).
  intros [(E & A & S)|[(E & A & S)|(E & S)]] [(F & C)|[(F & C)|(F & C)]]; rewrite E in F; try discriminate F.
  - apply cross_pos; assumption.
  - apply NEG; assumption.
  - destruct S as [(-> & A)|[(-> & A)|(-> & A)]]; destruct C as [(F1 & C)|[(F1 & C)|(F1 & C)]]; try discriminate F1.
    + apply cross_pos; assumption.
    + apply NEG; assumption.
    + subst z1. destruct (Qclt_le_dec z2 0); [apply cross_pos; [apply Qcle_refl|assumption]|]. apply NEG; [apply Qcle_refl|]. destruct (Qcle_lt_or_eq _ _ q) as [|E0]; [assumption|]. symmetry in E0; contradiction.
Qed.
Lemma crosses_neq fl st z1 z2 : agrees fl st z1 -> crosses fl st z2 -> z1 <> z2.
Proof.
  unfold agrees, crosses, watches_down, watches_up, watches_both.
  intros [(E & A & S)|[(E & A & S)|(E & S)]] [(F & C)|[(F & C)|(F & C)]]; rewrite E in F; try discriminate F; intros ->.
  - apply (Qclt_not_le _ _ C A).
  - apply (Qclt_not_le _ _ C A).
  - destruct S as [(-> & A)|[(-> & A)|(-> & A)]]; destruct C as [(F1 & C)|[(F1 & C)|(F1 & C)]]; try discriminate F1; try (apply (Qclt_not_le _ _ C A)). contradiction.
Qed.
Lemma between_zero z1 z2 : z1 <> z2 -> between z1 z2 (cross_time z1 z2) = 0%Qc.
Proof. intros H. unfold between, cross_time. field. intros Q. apply H. qclra. Qed.
(** before its crossing time a function keeps its side *)
Lemma between_side z1 z2 th : (0 <= th)%Qc -> (th <= cross_time z1 z2)%Qc -> (z2 < z1)%Qc -> (0 <= between z1 z2 th)%Qc.
Proof.
  intros T0 T1 D. unfold cross_time, between in *. assert (P : (0 < z1 - z2)%Qc) by (clear -D; qclra).
  apply (mul_le (z1 - z2)) in T1; [|exact P].
  replace ((z1 - z2) * (z1 / (z1 - z2)))%Qc with z1 in T1 by (field; intros Q; rewrite Q in P; apply (Qclt_not_eq _ _ P); reflexivity).
  replace (z1 * (1 - th) + z2 * th)%Qc with (z1 - (z1 - z2) * th)%Qc by ring. clear -T1. qclra.
Qed.
Lemma between_convex z1 z2 th : (0 <= th)%Qc -> (th < 1)%Qc -> (0 <= z1)%Qc -> (0 <= z2)%Qc -> (0 <= between z1 z2 th)%Qc.
Proof. intros. unfold between. qcnra. Qed.
Lemma between_opp z1 z2 th : between (- z1) (- z2) th = (- between z1 z2 th)%Qc. Proof. unfold between. ring. Qed.
Lemma between_agrees fl st z1 z2 th : (0 <= th)%Qc -> (th < 1)%Qc -> agrees fl st z1 -> ~ touches st z2 ->
  (crosses fl st z2 -> (th <= cross_time z1 z2)%Qc) -> agrees fl st (between z1 z2 th).
Proof.
  unfold agrees, crosses, touches, watches_down, watches_up, watches_both. intros T0 T1 A NT C.
  assert (POS : (0 <= z1)%Qc -> ((z2 < 0)%Qc -> (th <= cross_time z1 z2)%Qc) -> (0 <= between z1 z2 th)%Qc).
  { intros P1 H. destruct (Qclt_le_dec z2 0) as [L|G]; [|apply between_convex; assumption].
    apply between_side; [assumption|apply H; exact L|clear -P1 L; qclra]. }
  assert (NEG : (z1 <= 0)%Qc -> ((0 < z2)%Qc -> (th <= cross_time z1 z2)%Qc) -> (between z1 z2 th <= 0)%Qc).
  { intros P1 H. enough (0 <= between (- z1) (- z2) th)%Qc by (rewrite between_opp in H0; clear -H0; qclra).
    destruct (Qclt_le_dec 0 z2) as [L|G]; [|apply between_convex; [assumption|assumption|clear -P1; qclra|clear -G; qclra]].
    apply between_side; [assumption|rewrite <- cross_alt; apply H; exact L|clear -P1 L; qclra]. }
  destruct A as [(E & A & S)|[(E & A & S)|(E & S)]].
  - left. split; [exact E|]. split; [|exact S]. apply POS; [exact A|]. intros L. apply C. left. auto.
  - right; left. split; [exact E|]. split; [|exact S]. apply NEG; [exact A|]. intros L. apply C. right; left. auto.
  - right; right. split; [exact E|].
    destruct S as [(-> & A)|[(-> & A)|(-> & A)]]; [left|right; left|right; right]; (split; [reflexivity|]).
    + apply POS; [exact A|]. intros L. apply C. right; right. auto.
    + apply NEG; [exact A|]. intros L. apply C. right; right. split; [exact E|]. right; left. auto.
    + subst z1. destruct (Qc_eq_dec' z2 0) as [E0|E0]; [subst z2; unfold between; ring|].
      assert (th <= cross_time 0 z2)%Qc as L by (apply C; right; right; split; [exact E|right; right; auto]).
      assert (cross_time 0 z2 = 0%Qc) as Z0 by (unfold cross_time, Qcdiv; ring). rewrite Z0 in L.
      assert (th = 0%Qc) as -> by (clear -T0 L; qclra). unfold between. ring.
Qed.
Lemma agrees_not_crosses fl st z1 z2 th : (0 <= th)%Qc -> (th < 1)%Qc -> agrees fl st z1 -> ~ touches st z2 ->
  (crosses fl st z2 -> (th <= cross_time z1 z2)%Qc) -> ~ crosses fl st (between z1 z2 th).
Proof.
  intros T0 T1 A NT C X. pose proof (between_agrees fl st z1 z2 th T0 T1 A NT C) as B.
  revert B X. generalize (between z1 z2 th). intros z. unfold agrees, crosses, watches_down, watches_up, watches_both.
  intros [(E & A' & S)|[(E & A' & S)|(E & S)]] [(F & X)|[(F & X)|(F & X)]]; rewrite E in F; try discriminate F.
  - apply (Qclt_not_le _ _ X A').
  - apply (Qclt_not_le _ _ X A').
  - destruct S as [(-> & A')|[(-> & A')|(-> & A')]]; destruct X as [(F1 & X)|[(F1 & X)|(F1 & X)]]; try discriminate F1; try (apply (Qclt_not_le _ _ X A')). contradiction.
Qed.
