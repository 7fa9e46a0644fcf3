(** XrkFacts6.v - the Runge-Kutta solvers and the Gragg solver as reference solvers of the extrapolation solver: the table and its order. *)
From Coq Require Import List Arith Bool ZArith QArith Qcanon Lia Field.
From Verif Require Import Base BaseFacts VecModel VOps RkModel RkSpec RkFacts StepModel StepSpec ExtModel ExtSpec ExtFacts ExtFacts2 ExtFacts3 ExtFacts4 ExtFacts5 XrkSpec XrkFacts XrkFacts2 XrkFacts3 XrkFacts4 XrkFacts5.
Import ListNotations.
Local Open Scope Qc_scope.

Lemma ref_fun {N : Num} {S} (rs : refsolver N S) t x h k s s1 v s2 v' : ref_result rs t x h k s s1 v -> ref_result rs t x h k s s2 v' -> v = v'.
Proof. intros (a & A1 & A2 & A3) (b & B1 & B2 & B3). rewrite A1 in B1. injection B1 as <-. rewrite A2 in B2. injection B2 as <-. rewrite A3 in B3. injection B3 as <-. reflexivity. Qed.
Lemma no_events_fine {W : Type} n : (forall x t (w : W), ev_start (N:=QcNum) no_events x t w <> UB) /\
  (forall x y t (w : W), length x = n -> length y = n -> ev_end (N:=QcNum) no_events x y t w = Throw \/ exists w' er, ev_end (N:=QcNum) no_events x y t w = Ret (w', er) /\ length (ev_x er) = n).
Proof. split; [intros; discriminate|]. intros x y t w _ LY. right. eexists. eexists. split; [reflexivity|exact LY]. Qed.

(** * Runge-Kutta *)
Section Rk.
Context (W : Type) (f : Qc -> list Qc -> Outcome (list Qc)) (co : coeffs QcNum) (stages n : nat).
Hypothesis WF : wf_table co stages 1.
Hypothesis LAST : co_last co = (-1)%Z.
Hypothesis ONE : order_conditions co stages 0 1.
Hypothesis ROWS : row_sums co stages.
Hypothesis GR : good_rhs (N:=QcNum) n f.
Notation T := (of_co co stages).
Notation rs := (rk_ref (N:=QcNum) no_events (fun _ : W => f) co n).
Definition rkF (k : nat) : ft := resize (qn k) (subs k T).
Lemma cons_T : qsum (f_n T) (f_b T) = 1.
Proof. pose proof (ONE (Node []) (le_n _)) as H. unfold weight in H. cbn [f_n f_b of_co]. transitivity (qsum stages (fun i => B_ co stages 0 i * stage_weight co (Node []) i)); [apply qsum_ext; intros; cbn [stage_weight]; ring|]. rewrite H. change (density (Node [])) with 1%nat. rewrite qn_1. field. discriminate. Qed.
Lemma rk_safe : ref_safe rs n.
Proof. apply (rk_ref_safe (N:=QcNum) no_events (fun _ : W => f) co stages n WF); [|apply no_events_fine]. intros w t x LX. right. apply GR. exact LX. Qed.
Lemma rk_blocks t x h k s s' v : length x = n -> (0 < k)%nat -> ref_result (N:=QcNum) rs t x h k s s' v -> exists ks, stages_of n f (rkF k) t h x ks /\ result_of n (rkF k) h x ks v.
Proof.
  intros LX Hk R. destruct (rk_reference (W:=W) (fun _ => f) co stages n WF LAST (rk_w (snd s)) t x h k s GR eq_refl LX) as (s2 & v2 & traj & R2 & _ & T0 & TK & ST).
  rewrite (ref_fun rs t x h k s s' v s2 v2 R R2). rewrite <- TK. destruct (subs_step co stages n f (h / qn k) t x LX k traj T0 ST) as (_ & ks & A & B). exists ks. apply resize_step; [apply qn_pos; exact Hk|exact A|exact B].
Qed.
Lemma subs_c0 k : (0 < k)%nat -> f_c (subs k T) 0%nat = 0.
Proof.
  destruct k as [|k]; [lia|]. intros _. induction k as [|k I]; cbn [subs comp f_c].
  - cbn [none f_n Nat.ltb Nat.leb]. rewrite qn_0. cbn. ring.
  - cbn [subs comp f_c] in I. rewrite ltb_t; [exact I|]. assert (0 < stages)%nat by apply WF. cbn [comp f_n of_co]. lia.
Qed.
Lemma rkF_n k : (0 < k)%nat -> (0 < f_n (rkF k))%nat /\ f_c (rkF k) 0%nat = 0 /\ rows_ok (rkF k).
Proof.
  intros Hk. pose proof (qn_pos k Hk) as NZ. split; [cbn [rkF resize f_n]; rewrite subs_n; cbn [of_co f_n]; assert (0 < stages)%nat by apply WF; nia|]. split.
  - cbn [rkF resize f_c]. rewrite subs_c0 by exact Hk. field. exact NZ.
  - apply rows_resize; [exact NZ|]. apply (subs_rows T cons_T). intros s Hs. cbn [of_co f_n f_a f_c] in *. apply ROWS. exact Hs.
Qed.
End Rk.
Theorem rk_extrapolated : forall (co : coeffs QcNum) (stages : nat) (ns : list nat) (m : nat),
  wf_table co stages 1 -> co_last co = (-1)%Z -> order_conditions co stages 0 1 -> row_sums co stages -> (1 <= m)%nat -> increasing ns m ->
  exists big bigstages, wf_table big bigstages 1 /\ order_conditions big bigstages 0 m /\ row_sums big bigstages /\
    forall (W Q : Type) (f : Qc -> list Qc -> Outcome (list Qc)) (n : nat) (sq : stepseq Q) (c : xcfg QcNum),
    good_rhs (N:=QcNum) n f -> delivers sq ns -> xc_stages c = m -> xc_sym c = false -> (xc_nocheck c = false -> (2 <= m)%nat) ->
    steps_by (rk_ref (N:=QcNum) no_events (fun _ : W => f) co n) sq c n f big bigstages.
Proof.
  intros co stages ns m WF LAST ONE ROWS M1 INC. exists (co_of (big ns m false (rkF co stages))), (f_n (big ns m false (rkF co stages))).
  destruct (solver_table ns m false (rkF co stages) INC M1 (rkF_n co stages WF ONE ROWS) m) as (A & B & C).
  { intros t Ht. destruct (sub_weight (of_co co stages) (cons_T co stages ONE) t) as (r & L & R0 & R). exists r. split; [lia|]. split; [exact R0|]. intros i Hi. cbn [node]. apply R. apply (ns_pos ns m INC M1). exact Hi. }
  split; [exact A|]. split; [exact B|]. split; [exact C|]. intros W Q f n sq c GR DEL SM SYM M2. subst m. rewrite <- SYM.
  apply (solver_steps (rk_ref (N:=QcNum) no_events (fun _ : W => f) co n) sq c n f ns (rkF co stages)); try assumption.
  - apply (rk_safe W f co stages n WF GR).
  - intros. eapply (rk_blocks W f co stages n WF LAST GR); eassumption.
  - apply (rkF_n co stages WF ONE ROWS).
Qed.

(** * Gragg *)
Definition gb (smooth : bool) (k q : nat) : Qc :=
  if smooth then ((if (q <? 2 * k - 1)%nat then ga (2 * k - 1) q else 0) + qn 2 * (if (q <? 2 * k)%nat then ga (2 * k) q else 0) + ga (2 * k + 1) q) / qn 4 else ga (2 * k) q.
Definition gt (smooth : bool) (k : nat) : ft := mkFt (if smooth then 2 * k + 1 else 2 * k)%nat ga (gb smooth k) qn.
Definition gF (smooth : bool) (k : nat) : ft := resize (qn (2 * k)) (gt smooth k).
Lemma cut_sum m j (a g : nat -> Qc) : qsum (m + j) (fun q => (if (q <? m)%nat then a q else 0) * g q) = qsum m (fun q => a q * g q).
Proof. rewrite qsum_split. rewrite (qsum_zero j) by (intros i _; rewrite ltb_f by lia; ring). rewrite Qcplus_0_r. apply qsum_ext. intros i Hi. rewrite ltb_t by exact Hi. reflexivity. Qed.
Lemma qn4 : qn 4 <> 0. Proof. apply qn_pos. lia. Qed.
Lemma gb_sum smooth k g : (0 < k)%nat -> qsum (f_n (gt smooth k)) (fun q => gb smooth k q * g q) = if smooth then (gU g (2 * k - 1) + qn 2 * gU g (2 * k) + gU g (2 * k + 1)) / qn 4 else gU g (2 * k).
Proof.
  intros Hk. destruct smooth; [|reflexivity]. cbn [gt f_n]. pose proof qn4 as N4.
  rewrite (qsum_ext (2 * k + 1) (fun q => gb true k q * g q) (fun q => 1 / qn 4 * ((if (q <? 2 * k - 1)%nat then ga (2 * k - 1) q else 0) * g q + qn 2 * ((if (q <? 2 * k)%nat then ga (2 * k) q else 0) * g q) + ga (2 * k + 1) q * g q))).
  - rewrite qsum_scale, !qsum_add, qsum_scale. rewrite (cut_sum (2 * k) 1 (ga (2 * k)) g). replace (qsum (2 * k + 1) (fun q => (if (q <? 2 * k - 1)%nat then ga (2 * k - 1) q else 0) * g q)) with (gU g (2 * k - 1)).
    + unfold gU. field. exact N4.
    + unfold gU. rewrite <- (cut_sum (2 * k - 1) 2 (ga (2 * k - 1)) g). f_equal. lia.
  - intros q _. unfold gb. field. exact N4.
Qed.
Lemma gU_one i : gU (fun _ => 1) i = qn i.
Proof.
  assert (H : gU (fun _ => 1) i = qn i /\ gU (fun _ => 1) (S i) = qn (S i)); [|apply H]. assert (Q2 : qn 2 = 1 + 1) by (apply Qc_is_canon; reflexivity).
  induction i as [|i [I1 I2]]; [split; [rewrite gU_0, qn_0; reflexivity|rewrite gU_1, qn_1; reflexivity]|]. split; [exact I2|]. rewrite gU_SS, I1, Q2, !qn_S. ring.
Qed.
Lemma gF_n smooth k : (0 < k)%nat -> (0 < f_n (gF smooth k))%nat /\ f_c (gF smooth k) 0%nat = 0 /\ rows_ok (gF smooth k).
Proof.
  intros Hk. pose proof (qn_pos (2 * k) ltac:(lia)) as NZ. split; [destruct smooth; cbn [gF resize gt f_n]; lia|]. split; [cbn [gF resize gt f_c]; rewrite qn_0; field; exact NZ|]. apply rows_resize; [exact NZ|].
  intros s _. cbn [gt f_a f_c]. rewrite <- gU_one. unfold gU. apply qsum_ext. intros; ring.
Qed.
(** the weights as polynomials in 1/k^2 *)
Lemma peval_rescale a : forall r, exists r', length r' = length r /\ peval r' 0 = peval r 0 /\ forall y, peval r' y = peval r (a * y).
Proof.
  assert (PM : forall r y, peval (map (Qcmult a) r) y = a * peval r y). { induction r as [|c r I]; intros y; cbn [map peval]; [ring|]. rewrite I. ring. }
  induction r as [|c r (r' & L & R0 & R)]; [exists []; split; [reflexivity|]; split; reflexivity|]. exists (c :: map (Qcmult a) r'). split; [cbn [length]; rewrite map_length, L; reflexivity|]. split; [cbn [peval]; ring|]. intros y. cbn [peval]. rewrite PM, R. ring.
Qed.
Lemma peval_square : forall r, exists r', (length r' <= 2 * length r - 1)%nat /\ peval r' 0 = peval r 0 /\ forall y, peval r' y = peval r (y * y).
Proof.
  induction r as [|c r (r' & L & R0 & R)]; [exists []; split; [cbn; lia|]; split; reflexivity|]. destruct r as [|c1 r].
  - exists [c]. split; [cbn; lia|]. split; [reflexivity|]. intros y. cbn [peval]. ring.
  - exists (c :: 0 :: r'). split; [cbn [length] in *; lia|]. split; [cbn [peval]; ring|]. intros y. cbn [peval] in *. rewrite R. ring.
Qed.
Lemma mid_poly smooth t : exists r, length r = ((order t + 1) / 2)%nat /\ peval r 0 = 1 / qn (density t) /\ forall k, (0 < k)%nat -> wt (gF smooth k) t = peval r (1 / (qn k * qn k)).
Proof.
  assert (Q2 : qn 2 = 1 + 1) by (apply Qc_is_canon; reflexivity). assert (Q4 : qn 4 = 1 + 1 + 1 + 1) by (apply Qc_is_canon; reflexivity). pose proof qn4 as N4. assert (N2 : qn 2 <> 0) by (apply qn_pos; lia).
  destruct (mid_weight t) as (P & Q & (PP & EP & PQ & EQ & V) & P0 & Q1). assert (OT : (0 < order t)%nat) by (destruct t as [l]; rewrite order_Node; lia).
  set (R := if smooth then (fun x => 1 / qn 4 * (Q (x + 1) + Q (x - 1) + qn 2 * P x)) else P).
  assert (PR : pl (order t) (1 / qn (density t)) R).
  { unfold R. destruct smooth; [|exact PP]. eapply pl_ext; [reflexivity| |exact (pl_scale _ (1 / qn 4) _ _ (pl_add _ _ _ _ _ (pl_cs _ _ _ PQ) (pl_scale _ (qn 2) _ _ PP)))]. rewrite Q2, Q4. field. repeat split; first [apply qden_nz|discriminate]. }
  assert (ER : parity (order t) R).
  { unfold R. destruct smooth; [|exact EP]. intros x. replace (- x + 1) with (- (x - 1)) by ring. replace (- x - 1) with (- (x + 1)) by ring. rewrite !EQ, EP. ring. }
  assert (R0 : R 0 = 0).
  { unfold R. destruct smooth; [|exact P0]. replace (0 + 1) with 1 by ring. replace (0 - 1) with (- (1)) by ring. rewrite Q1, P0. ring. }
  destruct (parity_div (order t) (order t) _ R (le_n _) OT PR ER R0) as (r & L & RZ & RV). destruct (peval_rescale (1 / qn 4) r) as (r' & L' & R0' & RV'). exists r'. split; [congruence|]. split; [congruence|].
  intros k Hk. pose proof (qn_pos k Hk) as NK. pose proof (qn_pos (2 * k) ltac:(lia)) as N2K. assert (E2K : qn (2 * k) = qn 2 * qn k) by apply ExtFacts.qn_mul.
  unfold gF. rewrite wt_resize by exact N2K. rewrite RV'. replace (1 / qn 4 * (1 / (qn k * qn k))) with (1 / (qn (2 * k) * qn (2 * k))) by (rewrite E2K, Q2, Q4; field; repeat split; first [exact NK|discriminate]). rewrite <- RV by exact N2K. f_equal.
  unfold wt. change (f_b (gt smooth k)) with (gb smooth k). change (f_a (gt smooth k)) with ga. rewrite (gb_sum smooth k (fun i => fw ga t i) Hk). unfold R. destruct smooth; [|apply V].
  replace (2 * k - 1)%nat with (S (2 * (k - 1))) by lia. replace (2 * k + 1)%nat with (S (2 * k)) by lia. pose proof (proj2 (V (k - 1)%nat)) as V1. pose proof (proj1 (V k)) as V2. pose proof (proj2 (V k)) as V3.
  change (fun i => fw ga t i) with (fw ga t). rewrite V1, V2, V3. assert (EK : (2 * k)%nat = S (S (2 * (k - 1)))) by lia. assert (QK : qn (2 * k) = qn (S (2 * (k - 1))) + 1) by (rewrite EK, qn_S; reflexivity).
  replace (qn (S (2 * (k - 1)))) with (qn (2 * k) - 1) by (rewrite QK; ring). rewrite (qn_S (2 * k)). field. exact N4.
Qed.
Section Gragg.
Context (W : Type) (f : Qc -> list Qc -> Outcome (list Qc)) (n : nat) (smooth : bool).
Hypothesis GR : good_rhs (N:=QcNum) n f.
Notation rs := (gragg_ref (N:=QcNum) no_events (fun _ : W => f) smooth (1 / qn 2) (qn 2)).
Lemma gragg_safe : ref_safe rs n.
Proof. apply (gragg_ref_safe (N:=QcNum) no_events (fun _ : W => f) n smooth (1 / qn 2) (qn 2)); [|apply no_events_fine]. intros w t x LX. right. apply GR. exact LX. Qed.
Lemma mid_stage t h x y slope m : y 0%nat = x -> midpoint n f t h y slope m -> forall i, (i <= S m)%nat -> forall j, (j < n)%nat -> cmp_ (y i) j = cmp_ x j + h / qn 2 * gU (fun q => cmp_ (slope q) j) i.
Proof.
  intros Y0 (M0 & M1 & MS) i Hi j Hj. assert (N2 : qn 2 <> 0) by (apply qn_pos; lia).
  assert (H : ((i <= S m)%nat -> cmp_ (y i) j = cmp_ x j + h / qn 2 * gU (fun q => cmp_ (slope q) j) i) /\ ((S i <= S m)%nat -> cmp_ (y (S i)) j = cmp_ x j + h / qn 2 * gU (fun q => cmp_ (slope q) j) (S i))); [|apply H; exact Hi].
  clear Hi. induction i as [|i [I1 I2]].
  - split; intros Hi; [rewrite Y0, gU_0; ring|]. rewrite gU_1. rewrite M1 by exact Hj. rewrite Y0. reflexivity.
  - split; [exact I2|]. intros Hi. replace (S (S i)) with (i + 2)%nat by lia. rewrite MS by lia. rewrite I1 by lia. replace (i + 2)%nat with (S (S i)) by lia. rewrite gU_SS. replace (i + 1)%nat with (S i) by lia. field. exact N2.
Qed.
Lemma gragg_blocks t x h k s s' v : length x = n -> (0 < k)%nat -> ref_result (N:=QcNum) rs t x h k s s' v -> exists ks, stages_of n f (gF smooth k) t h x ks /\ result_of n (gF smooth k) h x ks v.
Proof.
  intros LX Hk R. assert (LV : length v = n).
  { destruct (gragg_safe t x h k s LX) as [TH|(s2 & v2 & E & L)].
    - unfold ref_call in TH. destruct R as (s1 & R1 & R2 & R3). rewrite R1 in TH. cbn [obind] in TH. rewrite R2 in TH. cbn [obind] in TH. rewrite R3 in TH. discriminate TH.
    - unfold ref_call in E. destruct R as (s1 & R1 & R2 & R3). rewrite R1 in E. cbn [obind] in E. rewrite R2 in E. cbn [obind] in E. rewrite R3 in E. injection E as _ <-. exact L. }
  destruct (gragg_reference (W:=W) (fun _ => f) n smooth (g_w s) t x h k s GR eq_refl LX Hk) as (s2 & v2 & y & slope & R2 & _ & Y0 & MID & VAL). rewrite (ref_fun rs t x h k s s' v s2 v2 R R2) in *.
  pose proof (qn_pos k Hk) as NK. pose proof (qn_pos (2 * k) ltac:(lia)) as N2K. assert (N2 : qn 2 <> 0) by (apply qn_pos; lia). assert (E2K : qn (2 * k) = qn 2 * qn k) by apply ExtFacts.qn_mul.
  assert (EH : h / qn k / qn 2 = h / qn (2 * k)) by (rewrite E2K; field; auto). pose proof (mid_stage t (h / qn k) x y slope (2 * k) Y0 MID) as ST. rewrite EH in ST. destruct MID as (M0 & _).
  exists slope. apply resize_step; [exact N2K| |].
  - intros i Hi. assert (Hi2 : (i <= 2 * k)%nat) by (destruct smooth; cbn [gt f_n] in Hi; lia). destruct (M0 i Hi2) as [L E]. exists (y i). split; [exact L|]. cbn [gt f_c f_a]. split.
    + rewrite EH in E. replace (t + h / qn (2 * k) * qn i) with (t + qn i * (h / qn (2 * k))) by ring. exact E.
    + intros j Hj. apply ST; [lia|exact Hj].
  - split; [exact LV|]. intros j Hj. rewrite VAL by exact Hj. change (f_b (gt smooth k)) with (gb smooth k). rewrite (gb_sum smooth k (fun q => cmp_ (slope q) j) Hk). destruct smooth.
    + rewrite !ST by (try lia; exact Hj). assert (Q2 : qn 2 = 1 + 1) by (apply Qc_is_canon; reflexivity). assert (Q4 : qn 4 = 1 + 1 + 1 + 1) by (apply Qc_is_canon; reflexivity). rewrite Q2, Q4. field. repeat split; first [exact N2K|discriminate].
    + apply ST; [lia|exact Hj].
Qed.
End Gragg.
Theorem gragg_extrapolated : forall (smooth sym : bool) (ns : list nat) (m : nat), (1 <= m)%nat -> increasing ns m ->
  exists big bigstages, wf_table big bigstages 1 /\ order_conditions big bigstages 0 (gragg_order sym m) /\ row_sums big bigstages /\
    forall (W Q : Type) (f : Qc -> list Qc -> Outcome (list Qc)) (n : nat) (sq : stepseq Q) (c : xcfg QcNum),
    good_rhs (N:=QcNum) n f -> delivers sq ns -> xc_stages c = m -> xc_sym c = sym -> (xc_nocheck c = false -> (2 <= m)%nat) ->
    steps_by (gragg_ref (N:=QcNum) no_events (fun _ : W => f) smooth (1 / qn 2) (qn 2)) sq c n f big bigstages.
Proof.
  intros smooth sym ns m M1 INC. exists (co_of (big ns m sym (gF smooth))), (f_n (big ns m sym (gF smooth))).
  destruct (solver_table ns m sym (gF smooth) INC M1 (gF_n smooth) (gragg_order sym m)) as (A & B & C).
  { intros t Ht. destruct (mid_poly smooth t) as (r & L & R0 & R). assert (OT : (0 < order t)%nat) by (destruct t as [l]; rewrite order_Node; lia). unfold gragg_order in Ht. destruct sym.
    - exists r. split; [rewrite L; assert (order t + 1 < 2 * (m + 1))%nat by lia; assert ((order t + 1) / 2 < m + 1)%nat by (apply Nat.div_lt_upper_bound; lia); lia|]. split; [exact R0|]. intros i Hi. cbn [node]. apply R. apply (ns_pos ns m INC M1). exact Hi.
    - destruct (peval_square r) as (r' & L' & R0' & R'). exists r'. split; [rewrite L in L'; clear - L' Ht OT; pose proof (Nat.div_mod (order t + 1) 2 ltac:(lia)) as D1; pose proof (Nat.mod_upper_bound (order t + 1) 2 ltac:(lia)) as D2; pose proof (Nat.div_mod (m + 1) 2 ltac:(lia)) as D3; pose proof (Nat.mod_upper_bound (m + 1) 2 ltac:(lia)) as D4; lia|]. split; [congruence|]. intros i Hi. rewrite R', R by (apply (ns_pos ns m INC M1); exact Hi). f_equal. cbn [node]. pose proof (qn_pos _ (ns_pos ns m INC M1 i Hi)). field. assumption. }
  split; [exact A|]. split; [exact B|]. split; [exact C|]. intros W Q f n sq c GR DEL SM SYM M2. subst m. rewrite <- SYM.
  apply (solver_steps (gragg_ref (N:=QcNum) no_events (fun _ : W => f) smooth (1 / qn 2) (qn 2)) sq c n f ns (gF smooth)); try assumption.
  - apply (gragg_safe W f n smooth GR).
  - intros. eapply (gragg_blocks W f n smooth GR); eassumption.
  - apply gF_n.
Qed.
