(** DrvFacts.v - proofs for C52, C62. *)
From Coq Require Import List Arith Bool ZArith QArith Qcanon Lia Lqa String.
From Verif Require Import Base BaseFacts VOps SpModel RkModel RkSpec RkFacts3 RkFacts6 NewtFacts UtilModel OutModel OutSpec OutFacts DrvModel DrvSpec.
Import ListNotations.
Local Open Scope nat_scope.
Local Notation length := List.length (only parsing).

Lemma attempts_S k atts : attempts_of (1 + k) atts = atts 0 ++ attempts_of k (fun i => atts (i + 1)).
Proof. unfold attempts_of. cbn [Nat.add seq map List.concat]. f_equal. rewrite <- seq_shift, map_map. f_equal. apply map_ext. intros i. f_equal. lia. Qed.
Section Sv.
Context {S : Type} (sv : odesolver S).
Lemma loop_sound fuel tend : forall s s' l, sv_loop sv fuel tend s = Some (s', l, Ret tt) ->
  exists k states atts, 1 <= k <= fuel /\ steps_through sv s k states atts /\ s' = states k /\ l = attempts_of k atts /\ (forall i, 1 <= i < k -> (sv_time sv (states i) < tend)%Qc) /\ (tend <= sv_time sv (states k))%Qc.
Proof.
  induction fuel as [|f IH]; intros s s' l E; [discriminate E|]. cbn [sv_loop] in E. destruct (sv_step sv s) as [[s1 l1] o] eqn:ES. destruct o as [[]| |]; [|discriminate E|discriminate E].
  destruct (Qcltb (sv_time sv s1) tend) eqn:C.
  - destruct (sv_loop sv f tend s1) as [[[s2 l2] r]|] eqn:EL; [|discriminate E]. injection E as <- <- ->. destruct (IH _ _ _ EL) as (k & states & atts & K & (T0 & TT) & -> & -> & A & B).
    exists (1 + k), (fun i => match i with 0 => s | Datatypes.S j => states j end), (fun i => match i with 0 => l1 | Datatypes.S j => atts j end). split; [lia|]. split.
    { split; [reflexivity|]. intros [|i] Hi; cbn [Nat.add]; [rewrite T0; exact ES|]. apply TT. lia. }
    split; [reflexivity|]. split; [rewrite attempts_S; f_equal; unfold attempts_of; f_equal|split; [|exact B]].
    + apply map_ext. intros i. replace (i + 1) with (Datatypes.S i) by lia. reflexivity.
    + intros [|[|i]] Hi; [lia|rewrite T0; apply Qcltb_lt; exact C|]. apply A. lia.
  - injection E as <- <-. exists 1, (fun i => match i with 0 => s | _ => s1 end), (fun _ => l1). split; [lia|]. split; [split; [reflexivity|intros [|i] Hi; [exact ES|lia]]|]. split; [reflexivity|]. split; [unfold attempts_of; cbn; rewrite app_nil_r; reflexivity|]. split; [lia|]. apply Qcltb_ge. exact C.
Qed.
Lemma loop_complete tend k : forall fuel s states atts, 1 <= k <= fuel -> steps_through sv s k states atts -> (forall i, 1 <= i < k -> (sv_time sv (states i) < tend)%Qc) -> (tend <= sv_time sv (states k))%Qc ->
  sv_loop sv fuel tend s = Some (states k, attempts_of k atts, Ret tt).
Proof.
  induction k as [|k IH]; intros fuel s states atts K (T0 & TT) A B; [lia|]. destruct fuel as [|f]; [lia|]. cbn [sv_loop]. rewrite <- T0, (TT 0) by lia. destruct k as [|k].
  - apply Qcltb_ge in B. cbn [Nat.add]. rewrite B. unfold attempts_of. cbn. rewrite app_nil_r. reflexivity.
  - cbn [Nat.add]. rewrite (proj2 (Qcltb_lt _ _) (A 1 ltac:(lia))). rewrite (IH f (states 1) (fun i => states (i + 1)) (fun i => atts (i + 1))).
    + rewrite (attempts_S (Datatypes.S k) atts : attempts_of (Datatypes.S (Datatypes.S k)) atts = _). replace (Datatypes.S k + 1) with (Datatypes.S (Datatypes.S k)) by lia. reflexivity.
    + lia.
    + split; [reflexivity|]. intros i Hi. replace (i + 1 + 1) with (i + 1 + 1) by lia. apply TT. lia.
    + intros i Hi. apply A. lia.
    + replace (Datatypes.S k + 1) with (Datatypes.S (Datatypes.S k)) by lia. exact B.
Qed.
Lemma loop_iff fuel tend s s' l : sv_loop sv fuel tend s = Some (s', l, Ret tt) <->
  exists k states atts, 1 <= k <= fuel /\ steps_through sv s k states atts /\ s' = states k /\ l = attempts_of k atts /\ (forall i, 1 <= i < k -> (sv_time sv (states i) < tend)%Qc) /\ (tend <= sv_time sv (states k))%Qc.
Proof. split; [apply loop_sound|]. intros (k & states & atts & K & T & -> & -> & A & B). apply loop_complete; assumption. Qed.
(** well-behaved steps: as many as wanted *)
Lemma chain (I : S -> Prop) (P : Qc -> Prop) : steps_well sv I P -> forall k s, I s -> exists states atts, steps_through sv s k states atts /\ (forall i, i <= k -> I (states i)) /\ forall i, i < k -> P (sv_time sv (states (i + 1)%nat) - sv_time sv (states i))%Qc.
Proof.
  intros W. induction k as [|k IH]; intros s HS.
  - exists (fun _ => s), (fun _ => []). split; [split; [reflexivity|lia]|]. split; [intros; exact HS|lia].
  - destruct (W s HS) as (s1 & l1 & E & I1 & P1). destruct (IH s1 I1) as (states & atts & (T0 & TT) & J & Q).
    exists (fun i => match i with 0 => s | Datatypes.S j => states j end), (fun i => match i with 0 => l1 | Datatypes.S j => atts j end). split; [split; [reflexivity|]|split].
    + intros [|i] Hi; cbn [Nat.add]; [rewrite T0; exact E|apply TT; lia].
    + intros [|i] Hi; [exact HS|apply J; lia].
    + intros [|i] Hi; cbn [Nat.add]; [rewrite T0; exact P1|apply Q; lia].
Qed.
End Sv.
Lemma natQ_0 : natQ 0 = 0%Qc. Proof. reflexivity. Qed.
Lemma natQ_add a b : natQ (a + b) = (natQ a + natQ b)%Qc.
Proof. unfold natQ. apply Qc_is_canon. rewrite this_plus. cbn [this Q2Qc]. rewrite !Qred_correct, Nat2Z.inj_add, inject_Z_plus. reflexivity. Qed.
Lemma natQ_le a b : a <= b -> (natQ a <= natQ b)%Qc.
Proof. intros H. unfold natQ, Qcle. cbn [this Q2Qc]. rewrite !Qred_correct. rewrite <- Zle_Qle. lia. Qed.
Lemma natQ_nonneg a : (0 <= natQ a)%Qc. Proof. rewrite <- natQ_0. apply natQ_le. lia. Qed.
(** such a number of steps exists, and there is only one *)
Lemma archimedes (D h : Qc) : (0 < h)%Qc -> exists k, (D <= natQ k * h)%Qc.
Proof.
  intros P. assert (Z : h <> 0%Qc) by (intros ->; exact (Qclt_not_eq _ _ P eq_refl)). exists (Z.to_nat (Qround.Qceiling (this (D / h)%Qc))).
  set (c := Qround.Qceiling (this (D / h)%Qc)). assert (C : (this (D / h)%Qc <= inject_Z c)%Q) by apply Qround.Qle_ceiling.
  assert (C2 : (D / h <= natQ (Z.to_nat c))%Qc). { unfold natQ, Qcle. cbn [this Q2Qc]. rewrite Qred_correct. eapply Qle_trans; [exact C|]. rewrite <- Zle_Qle. lia. }
  assert (E : (D = D / h * h)%Qc) by (field; exact Z). rewrite E at 1. clear C E Z. revert C2. fold c. generalize (natQ (Z.to_nat c)). clear c. generalize (D / h)%Qc. intros u v C2. clear -P C2. qcnra.
Qed.
Lemma least (p : nat -> bool) m : p m = true -> exists k, p k = true /\ k <= m /\ forall j, j < k -> p j = false.
Proof.
  induction m as [m IH] using lt_wf_ind. intros H. destruct (existsb p (seq 0 m)) eqn:E.
  - apply existsb_exists in E as (j & J & PJ). apply in_seq in J. destruct (IH j ltac:(lia) PJ) as (k & A & B & C). exists k. split; [exact A|]. split; [lia|exact C].
  - exists m. split; [exact H|]. split; [lia|]. intros j J. destruct (p j) eqn:PJ; [|reflexivity]. assert (X : existsb p (seq 0 m) = true) by (apply existsb_exists; exists j; split; [apply in_seq; lia|exact PJ]). congruence.
Qed.
Lemma cover_exists D h : (0 < h)%Qc -> exists k, steps_to_cover D h k.
Proof.
  intros P. destruct (archimedes D h P) as (m & M).
  destruct (least (fun k => (1 <=? k) && Qcleb D (natQ k * h)) (1 + m)) as (k & A & B & C).
  { apply andb_true_iff. split; [apply Nat.leb_le; lia|]. apply Qcleb_le. rewrite natQ_add. assert (O : natQ 1 = 1%Qc) by reflexivity. rewrite O. replace ((1 + natQ m) * h)%Qc with (h + natQ m * h)%Qc by ring. qclra. }
  apply andb_true_iff in A as [A1 A2]. apply Nat.leb_le in A1. apply Qcleb_le in A2. exists k. split; [exact A1|]. split; [|exact A2]. intros j [J1 J2]. specialize (C j J2). apply andb_false_iff in C as [C|C]; [apply Nat.leb_gt in C; lia|]. apply Qcleb_gt. exact C.
Qed.
Lemma cover_unique D h k k' : steps_to_cover D h k -> steps_to_cover D h k' -> k = k'.
Proof.
  intros (A & B & C) (A' & B' & C'). destruct (Nat.lt_trichotomy k k') as [L|[L|L]]; [|exact L|]; exfalso.
  - specialize (B' k ltac:(lia)). exact (Qclt_not_le _ _ B' C).
  - specialize (B k' ltac:(lia)). exact (Qclt_not_le _ _ B C').
Qed.
Lemma cover_once D h : (0 < h)%Qc -> exists k, steps_to_cover D h k /\ forall k', steps_to_cover D h k' -> k' = k.
Proof. intros H. destruct (cover_exists D h H) as (k & K). exists k. split; [exact K|]. intros k' K'. exact (cover_unique D h k' k K' K). Qed.
Section Sv2.
Context {S : Type} (sv : odesolver S) (I : S -> Prop).
Lemma sum_times (P : Qc -> Prop) d k s states atts : (forall x, P x -> (d <= x)%Qc) -> steps_through sv s k states atts -> (forall i, i < k -> P (sv_time sv (states (i + 1)%nat) - sv_time sv (states i))%Qc) ->
  forall j, j <= k -> (sv_time sv s + natQ j * d <= sv_time sv (states j))%Qc.
Proof.
  intros PD (T0 & TT) Q. induction j as [|j IH]; intros J; [rewrite T0, natQ_0; replace (sv_time sv s + 0 * d)%Qc with (sv_time sv s) by ring; apply Qcle_refl|].
  specialize (IH ltac:(lia)). specialize (Q j ltac:(lia)). apply PD in Q. rewrite natQ_S. replace (j + 1) with (Datatypes.S j) in Q by lia. replace (sv_time sv s + (natQ j + 1) * d)%Qc with (sv_time sv s + natQ j * d + d)%Qc by ring. qclra.
Qed.
Lemma fixed_times d k s states atts : steps_through sv s k states atts -> (forall i, i < k -> (sv_time sv (states (i + 1)%nat) - sv_time sv (states i))%Qc = d) ->
  forall j, j <= k -> (sv_time sv (states j) = sv_time sv s + natQ j * d)%Qc.
Proof.
  intros (T0 & TT) Q. induction j as [|j IH]; intros J; [rewrite T0, natQ_0; ring|]. specialize (IH ltac:(lia)). specialize (Q j ltac:(lia)). rewrite natQ_S. replace (j + 1) with (Datatypes.S j) in Q by lia.
  replace (sv_time sv (states (Datatypes.S j))) with (sv_time sv (states (Datatypes.S j)) - sv_time sv (states j) + sv_time sv (states j))%Qc by ring. rewrite Q, IH. ring.
Qed.
Lemma fixed_driver D h k s : steps_well sv I (fun d => d = h) -> I s -> steps_to_cover D h k ->
  exists states atts, steps_through sv s k states atts /\ I (states k) /\ (sv_time sv (states k) = sv_time sv s + natQ k * h)%Qc /\ forall fuel, k <= fuel -> sv_loop sv fuel (sv_time sv s + D)%Qc s = Some (states k, attempts_of k atts, Ret tt).
Proof.
  intros W HS (K & B & C). destruct (chain sv I _ W k s HS) as (states & atts & T & J & Q). exists states, atts. split; [exact T|]. split; [apply J; lia|].
  pose proof (fixed_times h k s states atts T Q) as F. split; [apply F; lia|]. intros fuel HF. apply loop_complete; [lia|exact T| |].
  - intros i Hi. rewrite F by lia. specialize (B i Hi). qclra.
  - rewrite F by lia. qclra.
Qed.
Lemma bounded_driver D d k s : (0 < d)%Qc -> steps_well sv I (fun x => d <= x)%Qc -> I s -> steps_to_cover D d k ->
  exists m s' l, 1 <= m <= k /\ (sv_time sv s + D <= sv_time sv s')%Qc /\ forall fuel, m <= fuel -> sv_loop sv fuel (sv_time sv s + D)%Qc s = Some (s', l, Ret tt).
Proof.
  intros P W HS (K & B & C). destruct (chain sv I _ W k s HS) as (states & atts & T & J & Q). pose proof (sum_times _ d k s states atts (fun x H => H) T Q) as F.
  destruct (least (fun j => (1 <=? j) && Qcleb (sv_time sv s + D) (sv_time sv (states j))) k) as (m & A1 & A2 & A3).
  { apply andb_true_iff. split; [apply Nat.leb_le; exact K|]. apply Qcleb_le. specialize (F k (le_n k)). qclra. }
  apply andb_true_iff in A1 as [A1 A4]. apply Nat.leb_le in A1. apply Qcleb_le in A4. exists m, (states m), (attempts_of m atts). split; [lia|]. split; [exact A4|]. intros fuel HF. destruct T as [T0 TT]. apply loop_complete; [lia|split; [exact T0|intros i Hi; apply TT; lia]| |exact A4].
  intros i Hi. specialize (A3 i ltac:(lia)). apply andb_false_iff in A3 as [A3|A3]; [apply Nat.leb_gt in A3; lia|apply Qcleb_gt; exact A3].
Qed.
Lemma endless_driver D s : steps_well sv I (fun d => d <= 0)%Qc -> I s -> (0 < D)%Qc -> forall fuel, sv_loop sv fuel (sv_time sv s + D)%Qc s = None.
Proof.
  intros W HS DP. assert (G : forall fuel s0 tend, I s0 -> (sv_time sv s0 < tend)%Qc -> sv_loop sv fuel tend s0 = None).
  { induction fuel as [|f IH]; intros s0 tend I0 L; [reflexivity|]. cbn [sv_loop]. destruct (W s0 I0) as (s1 & l & E & I1 & P1). rewrite E. assert (L1 : (sv_time sv s1 < tend)%Qc) by qclra. rewrite (proj2 (Qcltb_lt _ _) L1), (IH s1 tend I1 L1). reflexivity. }
  intros fuel. apply G; [exact HS|]. qclra.
Qed.
Lemma short_driver D s : steps_well sv I (fun d => (D <= d)%Qc) -> I s -> exists s' l, sv_step sv s = (s', l, Ret tt) /\ forall fuel, 1 <= fuel -> sv_loop sv fuel (sv_time sv s + D)%Qc s = Some (s', l, Ret tt).
Proof.
  intros W HS. destruct (W s HS) as (s1 & l & E & I1 & P1). exists s1, l. split; [exact E|]. intros [|f] HF; [lia|]. cbn [sv_loop]. rewrite E. rewrite (proj2 (Qcltb_ge (sv_time sv s1) (sv_time sv s + D))); [reflexivity|]. qclra.
Qed.
(** outputs *)
Lemma flat_nil {A B} (l : list A) (f : A -> list B) : (forall a, f a = []) -> flat_map f l = [].
Proof. intros H. induction l as [|a l IH]; [reflexivity|]. cbn. rewrite H. exact IH. Qed.
Lemma flat_one {A B} (l : list A) (f : A -> B) : flat_map (fun a => [f a]) l = map f l.
Proof. induction l as [|a l IH]; [reflexivity|]. cbn. rewrite IH. reflexivity. Qed.
Lemma flat_of_map {A B C} (g : A -> B) (f : B -> list C) l : flat_map f (map g l) = flat_map (fun a => f (g a)) l.
Proof. induction l as [|a l IH]; [reflexivity|]. cbn. rewrite IH. reflexivity. Qed.
Lemma ids {A} (l : list A) : flat_map (fun a => [a]) l = l.
Proof. induction l as [|a l IH]; [reflexivity|]. cbn. rewrite IH. reflexivity. Qed.
Lemma outputs_ok outs D fuel s s' e : solveOde sv true outs D fuel s = Some (s', e, Ret tt) ->
  exists l, sv_loop sv fuel (sv_time sv s + D)%Qc s = Some (s', l, Ret tt) /\ e = map OBefore outs ++ map OAttempt l ++ map OAfter outs /\ befores e = outs /\ seen e = l /\ afters e = outs.
Proof.
  unfold solveOde. destruct (sv_loop _ _ _ _) as [[[s1 l] r]|]; [|discriminate]. destruct r as [[]| |]; intros E; try discriminate E. injection E as <- <-. exists l. split; [reflexivity|]. split; [reflexivity|].
  unfold befores, seen, afters. rewrite !flat_map_app, !flat_of_map, !ids. rewrite !(flat_nil outs) by reflexivity. rewrite !(flat_nil l) by reflexivity. rewrite !app_nil_r. repeat split.
Qed.
Lemma outputs_fail outs D fuel s s' e r : solveOde sv true outs D fuel s = Some (s', e, r) -> r <> Ret tt -> befores e = outs /\ afters e = [].
Proof.
  unfold solveOde. destruct (sv_loop _ _ _ _) as [[[s1 l] q]|]; [|discriminate]. destruct q as [[]| |]; intros E H; injection E as <- <- <-; [congruence| |];
    unfold befores, afters; rewrite !flat_map_app, !flat_of_map, !ids, !(flat_nil outs), !(flat_nil l) by reflexivity; rewrite !app_nil_r; split; reflexivity.
Qed.
End Sv2.

(** the Runge-Kutta solver *)
Section Rk.
Context {W : Type} (f : W -> Qc -> list Qc -> Outcome (list Qc)) (co : coeffs QcNum) (stages n : nat) (h : Qc) (w : W).
Hypothesis WF : wf_table co stages 1.
Hypothesis Last : co_last co = (-1)%Z.
Hypothesis GR : good_rhs (N:=QcNum) n (f w).
Lemma rk_well : steps_well (rk_solver no_events f co n h) (fun s => rk_w s = w /\ ready stages n h s) (fun d => d = h).
Proof.
  intros s [EW RD]. subst w. destruct (rk_step_ok f co stages n h WF Last s GR RD) as (s' & E & RD' & _ & W' & TS). unfold rk_solver. cbn [sv_step sv_time]. rewrite E.
  eexists. eexists. split; [reflexivity|]. split; [split; assumption|]. destruct TS as [T _]. cbn [fst] in T. rewrite T. ring.
Qed.
Lemma rk_att s : rk_w s = w -> ready stages n h s -> exists s' : rkst QcNum W, sv_step (rk_solver no_events f co n h) s = (s', [mkObs (rk_t s') (rk_x s') (mkPost (N:=QcNum) h true false false 0%Qc None 0%Z)], Ret tt) /\ rk_w s' = w /\ ready stages n h s' /\
  textbook_step co stages n (f w) h (rk_t s, rk_x s) (rk_t s', rk_x s').
Proof.
  intros EW RD. subst w. destruct (rk_step_ok f co stages n h WF Last s GR RD) as (s' & E & RD' & _ & W' & TS). unfold rk_solver. cbn [sv_step]. rewrite E. exists s'. split; [reflexivity|]. split; [exact W'|]. split; [exact RD'|exact TS].
Qed.
Lemma attempts_snoc k atts : attempts_of (k + 1) atts = attempts_of k atts ++ atts k.
Proof. unfold attempts_of. rewrite seq_app, map_app, concat_app. cbn. rewrite app_nil_r. reflexivity. Qed.
Theorem rk_driver t0 x0 s0 D outs k : rk_w s0 = w -> length x0 = n -> (0 < h)%Qc -> steps_to_cover D h k ->
  exists (s' : rkst QcNum W) (l : list obs) (traj : nat -> Qc * list Qc), (forall fuel, k <= fuel -> solveOde (rk_solver no_events f co n h) true outs D fuel (rk_set (N:=QcNum) no_events t0 x0 s0) = Some (s', map OBefore outs ++ map OAttempt l ++ map OAfter outs, Ret tt)) /\
    traj 0 = (t0, x0) /\ (forall i, i < k -> textbook_step co stages n (f w) h (traj i) (traj (S i))) /\ (rk_t s', rk_x s') = traj k /\ rk_t s' = (t0 + natQ k * h)%Qc /\
    l = map (fun i => mkObs (fst (traj (S i))) (snd (traj (S i))) (mkPost (N:=QcNum) h true false false 0%Qc None 0%Z)) (seq 0 k).
Proof.
  intros EW LX HP CV. set (s1 := rk_set (N:=QcNum) no_events t0 x0 s0). assert (R1 : rk_w s1 = w /\ ready stages n h s1) by (split; [exact EW|]; split; [exact LX|left; reflexivity]).
  destruct (fixed_driver _ _ D h k s1 rk_well R1 CV) as (states & atts & T & IK & TK & L). exists (states k), (attempts_of k atts), (fun i => (rk_t (states i), rk_x (states i))).
  destruct T as [T0 TT].
  assert (IV : forall i, i <= k -> rk_w (states i) = w /\ ready stages n h (states i)).
  { induction i as [|i IH]; intros Hi; [rewrite T0; exact R1|]. destruct (IH ltac:(lia)) as [A B]. destruct (rk_att (states i) A B) as (s' & E & C & D' & _). rewrite (TT i ltac:(lia)) in E. injection E as E _. replace (S i) with (i + 1) by lia. change (nT QcNum) with Qc in *. rewrite E. split; assumption. }
  split; [intros fuel HF; unfold solveOde; rewrite (L fuel HF : sv_loop _ fuel (sv_time _ s1 + D)%Qc s1 = _); reflexivity|]. split; [rewrite T0; reflexivity|].
  assert (ST : forall i, i < k -> textbook_step co stages n (f w) h (rk_t (states i), rk_x (states i)) (rk_t (states (S i)), rk_x (states (S i))) /\ atts i = [mkObs (rk_t (states (S i))) (rk_x (states (S i))) (mkPost (N:=QcNum) h true false false 0%Qc None 0%Z)]).
  { intros i Hi. destruct (IV i ltac:(lia)) as [A B]. destruct (rk_att (states i) A B) as (s' & E & C & D' & TS). rewrite (TT i Hi) in E. injection E as E1 E2. replace (S i) with (i + 1) by lia. change (nT QcNum) with Qc in *. rewrite E1, E2. split; [exact TS|reflexivity]. }
  split; [intros i Hi; apply ST; exact Hi|]. split; [reflexivity|]. split; [exact TK|].
  unfold attempts_of. assert (E : map atts (seq 0 k) = map (fun i => [mkObs (fst (rk_t (states (S i)), rk_x (states (S i)))) (snd (rk_t (states (S i)), rk_x (states (S i)))) (mkPost (N:=QcNum) h true false false 0%Qc None 0%Z)]) (seq 0 k)).
  { apply map_ext_in. intros i Hi. apply in_seq in Hi. apply ST. lia. }
  rewrite E, <- flat_map_concat_map. apply flat_one.
Qed.
Lemma rk_endless t0 x0 s0 D outs fuel : rk_w s0 = w -> length x0 = n -> (h <= 0)%Qc -> (0 < D)%Qc -> solveOde (rk_solver no_events f co n h) true outs D fuel (rk_set (N:=QcNum) no_events t0 x0 s0) = None.
Proof.
  intros EW LX HP DP. set (s1 := rk_set (N:=QcNum) no_events t0 x0 s0). assert (R1 : rk_w s1 = w /\ ready stages n h s1) by (split; [exact EW|]; split; [exact LX|left; reflexivity]).
  unfold solveOde. rewrite (endless_driver (rk_solver no_events f co n h) (fun s => rk_w s = w /\ ready stages n h s) D s1); [reflexivity| |exact R1|exact DP]. intros s HS. destruct (rk_well s HS) as (s' & l & A & B & C). exists s', l. split; [exact A|]. split; [exact B|]. rewrite C. exact HP.
Qed.
End Rk.

(** apply *)
Lemma apply_ok c t0 x0 a b : apply_config c t0 x0 = Ret (a, b) -> cf_solver c = true /\ b = (if cf_ref c then Some a else None) /\
  (match cf_init c with
   | Some (ty, t, x) => if String.eqb ty "sim_dyn_initial" then a = (t0, x0) else a = (t, x) /\ cf_rhs c = Some (length x)
   | None => a = (t0, x0) end).
Proof.
  unfold apply_config. destruct (cf_solver c); [|discriminate]. intros E. split; [reflexivity|]. destruct (configure c t0 x0) as [u| |] eqn:C; cbn [obind] in E; try discriminate E.
  assert (X : a = u /\ b = (if cf_ref c then Some a else None)) by (destruct (cf_ref c); cbn [obind] in E; injection E as <- <-; split; reflexivity). destruct X as [-> ->]. split; [reflexivity|].
  unfold configure in C. destruct (cf_init c) as [[[ty t] x]|]; [|injection C as <-; reflexivity]. destruct (String.eqb ty "sim_dyn_initial"); [injection C as <-; reflexivity|]. destruct (cf_rhs c) as [n|]; [|discriminate C]. destruct (Nat.eqb_spec (length x) n); [|discriminate C]. injection C as <-. split; congruence.
Qed.
Lemma apply_throws c t0 x0 : (apply_config c t0 x0 = Throw <-> cf_solver c = false \/ exists ty t x n, cf_init c = Some (ty, t, x) /\ ty <> "sim_dyn_initial"%string /\ cf_rhs c = Some n /\ length x <> n).
Proof.
  unfold apply_config. destruct (cf_solver c); [|split; [left; reflexivity|reflexivity]]. split.
  - intros E. right. destruct (configure c t0 x0) as [u| |] eqn:C; cbn [obind] in E; [destruct (cf_ref c); cbn [obind] in E; discriminate E| |discriminate E].
    unfold configure in C. destruct (cf_init c) as [[[ty t] x]|]; [|discriminate C]. destruct (String.eqb_spec ty "sim_dyn_initial"); [discriminate C|]. destruct (cf_rhs c) as [n'|]; [|discriminate C]. destruct (Nat.eqb_spec (length x) n'); [discriminate C|]. exists ty, t, x, n'. repeat split; assumption.
  - intros [H|(ty & t & x & m & E & NE & R & L)]; [discriminate H|]. unfold configure. rewrite E, R. apply String.eqb_neq in NE. rewrite NE. apply Nat.eqb_neq in L. rewrite L. reflexivity.
Qed.
