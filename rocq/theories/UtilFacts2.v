(** UtilFacts2.v - proofs for C53 (cubic polynomials). *)
From Coq Require Import Reals Lra.
From Verif Require Import UtilModel UtilSpec.
Local Open Scope R_scope.

Lemma dlim (f : R -> R) t d g : (forall h, f (t + h) - f t = h * d + h * h * g h) -> (forall h, Rabs h < 1 -> Rabs (g h) <= g 1 \/ True) -> forall B, 0 <= B -> (forall h, Rabs h <= 1 -> Rabs (g h) <= B) -> derivable_pt_lim f t d.
Proof.
  intros E _ B BP G eps EP. assert (DP : 0 < Rmin 1 (eps / (B + 1))) by (apply Rmin_pos; [lra|apply Rdiv_lt_0_compat; lra]).
  exists (mkposreal _ DP). intros h HN HB. cbn in HB. rewrite E. replace ((h * d + h * h * g h) / h - d) with (h * g h) by (field; exact HN). rewrite Rabs_mult.
  assert (A1 : Rabs h < 1) by (eapply Rlt_le_trans; [exact HB|apply Rmin_l]). assert (A2 : Rabs h < eps / (B + 1)) by (eapply Rlt_le_trans; [exact HB|apply Rmin_r]).
  assert (C := G h ltac:(lra)). assert (P := Rabs_pos_lt h HN). assert (P2 := Rabs_pos (g h)).
  apply Rle_lt_trans with (Rabs h * (B + 1)); [apply Rmult_le_compat_l; lra|]. apply (Rmult_lt_compat_r (B + 1)) in A2; [|lra]. replace (eps / (B + 1) * (B + 1)) with eps in A2 by (field; lra). exact A2.
Qed.
(** Cubic polynomials: f (t + h) - f t = h * d + h^2 * (a + b * h) *)
Lemma cubic_lim (f : R -> R) t d a b : (forall h, f (t + h) - f t = h * d + h * h * (a + b * h)) -> derivable_pt_lim f t d.
Proof.
  intros E. apply (dlim f t d (fun h => a + b * h) E (fun _ _ => or_intror I) (Rabs a + Rabs b)). { pose proof (Rabs_pos a). pose proof (Rabs_pos b). lra. }
  intros h H. eapply Rle_trans; [apply Rabs_triang|]. rewrite Rabs_mult. pose proof (Rabs_pos b). pose proof (Rabs_pos h). nra.
Qed.
Ltac poly t a b := apply (cubic_lim _ t _ a b); intros h; cbv beta; unfold f00, f01, f10, f11, df00, df01, df10, df11, d2f00, d2f01, d2f10, d2f11, CalcCubicPolynom, CalcCubicPolynomD, CalcCubicPolynomD2, CalcCubicPolynomD3; ring.
Lemma basis_derivatives t : derivable_pt_lim f00 t (df00 t) /\ derivable_pt_lim f01 t (df01 t) /\ derivable_pt_lim f10 t (df10 t) /\ derivable_pt_lim f11 t (df11 t) /\
  derivable_pt_lim df00 t (d2f00 t) /\ derivable_pt_lim df01 t (d2f01 t) /\ derivable_pt_lim df10 t (d2f10 t) /\ derivable_pt_lim df11 t (d2f11 t).
Proof.
  split; [poly t (6*t - 3) 2|]. split; [poly t (3 - 6*t) (-2)|]. split; [poly t (3*t - 2) 1|]. split; [poly t (3*t - 1) 1|].
  split; [poly t 6 0|]. split; [poly t (-6) 0|]. split; [poly t 3 0|poly t 3 0].
Qed.
Lemma basis_ends : (f00 0 = 1 /\ f00 1 = 0 /\ df00 0 = 0 /\ df00 1 = 0) /\ (f01 0 = 0 /\ f01 1 = 1 /\ df01 0 = 0 /\ df01 1 = 0) /\
  (f10 0 = 0 /\ f10 1 = 0 /\ df10 0 = 1 /\ df10 1 = 0) /\ (f11 0 = 0 /\ f11 1 = 0 /\ df11 0 = 0 /\ df11 1 = 1).
Proof. unfold f00, f01, f10, f11, df00, df01, df10, df11. repeat split; ring. Qed.
Lemma calc_basis a b c d t : CalcCubicPolynom a b c d t = a * f00 t + b * f10 t + c * f01 t + d * f11 t /\ CalcCubicPolynomD a b c d t = a * df00 t + b * df10 t + c * df01 t + d * df11 t /\
  CalcCubicPolynomD2 a b c d t = a * d2f00 t + b * d2f10 t + c * d2f01 t + d * d2f11 t.
Proof. unfold CalcCubicPolynom, CalcCubicPolynomD, CalcCubicPolynomD2, f00, f01, f10, f11, df00, df01, df10, df11, d2f00, d2f01, d2f10, d2f11. repeat split; ring. Qed.
Lemma calc_ends a b c d : CalcCubicPolynom a b c d 0 = a /\ CalcCubicPolynomD a b c d 0 = b /\ CalcCubicPolynom a b c d 1 = c /\ CalcCubicPolynomD a b c d 1 = d.
Proof. unfold CalcCubicPolynom, CalcCubicPolynomD. repeat split; ring. Qed.
Lemma calc_derivatives a b c d t : derivable_pt_lim (CalcCubicPolynom a b c d) t (CalcCubicPolynomD a b c d t) /\ derivable_pt_lim (CalcCubicPolynomD a b c d) t (CalcCubicPolynomD2 a b c d t) /\
  derivable_pt_lim (CalcCubicPolynomD2 a b c d) t (CalcCubicPolynomD3 a b c d t).
Proof.
  split; [poly t (3*(c-a)-2*b-d + 3*t*(d+b+2*(a-c))) (d+b+2*(a-c))|]. split; [poly t (3*(d+b)+6*(a-c)) 0|poly t 0 0].
Qed.
Lemma calc_unique p0 p1 p2 p3 t : CalcCubicPolynom (cubic_poly p0 p1 p2 p3 0) (cubic_slope p1 p2 p3 0) (cubic_poly p0 p1 p2 p3 1) (cubic_slope p1 p2 p3 1) t = cubic_poly p0 p1 p2 p3 t.
Proof. unfold CalcCubicPolynom, cubic_poly, cubic_slope. ring. Qed.
(** segments of length L *)
Lemma scale_lim f t d L : L <> 0 -> derivable_pt_lim f (t / L) d -> derivable_pt_lim (fun x => f (x / L)) t (d / L).
Proof.
  intros NL H. replace (d / L) with (d * (1 / L)) by (field; exact NL). apply (derivable_pt_lim_comp (fun x => x / L) f); [|exact H].
  intros eps EP. exists (mkposreal 1 Rlt_0_1). intros h HN _. replace (((t + h) / L - t / L) / h - 1 / L) with 0 by (field; split; assumption). rewrite Rabs_R0. exact EP.
Qed.
Lemma scale_lim_mult f t d L : L <> 0 -> derivable_pt_lim f (t / L) d -> derivable_pt_lim (fun x => f (x / L) * L) t d.
Proof.
  intros NL H eps EP. assert (LP : 0 < Rabs L) by (apply Rabs_pos_lt; exact NL). destruct (scale_lim f t d L NL H (eps / Rabs L)) as (del & D); [apply Rdiv_lt_0_compat; assumption|].
  exists del. intros h HN HB. specialize (D h HN HB). replace ((f ((t + h) / L) * L - f (t / L) * L) / h - d) with (L * ((f ((t + h) / L) - f (t / L)) / h - d / L)) by (field; split; assumption).
  rewrite Rabs_mult. apply (Rmult_lt_compat_l (Rabs L)) in D; [|exact LP]. replace (Rabs L * (eps / Rabs L)) with eps in D by (field; lra). exact D.
Qed.
Lemma scale_lim_div f t d L : L <> 0 -> derivable_pt_lim f (t / L) d -> derivable_pt_lim (fun x => f (x / L) / L) t (d / (L * L)).
Proof.
  intros NL H eps EP. assert (LP : 0 < Rabs L) by (apply Rabs_pos_lt; exact NL). destruct (scale_lim f t d L NL H (eps * Rabs L)) as (del & D); [apply Rmult_lt_0_compat; assumption|].
  exists del. intros h HN HB. specialize (D h HN HB). replace ((f ((t + h) / L) / L - f (t / L) / L) / h - d / (L * L)) with (((f ((t + h) / L) - f (t / L)) / h - d / L) * / L) by (field; split; assumption).
  rewrite Rabs_mult, Rabs_inv. apply (Rmult_lt_compat_r (/ Rabs L)) in D; [|apply Rinv_0_lt_compat; exact LP]. replace (eps * Rabs L * / Rabs L) with eps in D by (field; lra). exact D.
Qed.
Lemma segment_derivatives x L : L <> 0 ->
  (derivable_pt_lim (fun x => f00L x L) x (df00L x L) /\ derivable_pt_lim (fun x => f01L x L) x (df01L x L) /\ derivable_pt_lim (fun x => f10L x L) x (df10L x L) /\ derivable_pt_lim (fun x => f11L x L) x (df11L x L)) /\
  (derivable_pt_lim (fun x => df00L x L) x (d2f00L x L) /\ derivable_pt_lim (fun x => df01L x L) x (d2f01L x L) /\ derivable_pt_lim (fun x => df10L x L) x (d2f10L x L) /\ derivable_pt_lim (fun x => df11L x L) x (d2f11L x L)).
Proof.
  intros NL. destruct (basis_derivatives (x / L)) as (A & B & C & D & E & F & G & H). split.
  - split; [exact (scale_lim _ _ _ _ NL A)|]. split; [exact (scale_lim _ _ _ _ NL B)|]. split; [exact (scale_lim_mult _ _ _ _ NL C)|exact (scale_lim_mult _ _ _ _ NL D)].
  - split; [exact (scale_lim_div _ _ _ _ NL E)|]. split; [exact (scale_lim_div _ _ _ _ NL F)|]. split; [exact (scale_lim _ _ _ _ NL G)|exact (scale_lim _ _ _ _ NL H)].
Qed.
Lemma segment_ends L : L <> 0 -> (f00L 0 L = 1 /\ f00L L L = 0 /\ df00L 0 L = 0 /\ df00L L L = 0) /\ (f01L 0 L = 0 /\ f01L L L = 1 /\ df01L 0 L = 0 /\ df01L L L = 0) /\
  (f10L 0 L = 0 /\ f10L L L = 0 /\ df10L 0 L = 1 /\ df10L L L = 0) /\ (f11L 0 L = 0 /\ f11L L L = 0 /\ df11L 0 L = 0 /\ df11L L L = 1).
Proof.
  intros NL. assert (Z : 0 / L = 0) by (field; exact NL). assert (O : L / L = 1) by (field; exact NL).
  unfold f00L, f01L, f10L, f11L, df00L, df01L, df10L, df11L. rewrite Z, O. destruct basis_ends as ((a & b & c & d) & (e & f & g & h) & (i & j & k & l) & (m & n & o & p)).
  rewrite a, b, c, d, e, f, g, h, i, j, k, l, m, n, o, p. repeat split; try reflexivity; try (field; exact NL); ring.
Qed.
