(** ExtFacts4.v - the extrapolation solver: values, definedness; the reference solvers. *)
From Coq Require Import List Arith Lia Bool ZArith QArith Qcanon.
From Verif Require Import Base BaseFacts VecModel VOps NewtFacts RkModel RkSpec RkFacts RkFacts2 RkFacts3 StepModel StepSpec StepFacts2 ExtModel ExtSpec ExtFacts ExtFacts2 ExtFacts3.
Import ListNotations.
Local Open Scope nat_scope.

Lemma ref_call_result {N S} (rs : refsolver N S) t x h k s s' v : ref_call rs t x h k s = Ret (s', v) <-> ref_result rs t x h k s s' v.
Proof.
  unfold ref_call, ref_result. split.
  - intros E. binv E. binv E. binv E. inversion E; subst. exists r. auto.
  - intros (s1 & E1 & E2 & E3). rewrite E1. cbn [obind]. rewrite E2. cbn [obind]. rewrite E3. reflexivity.
Qed.
Lemma results_lengths {N S} (rs : refsolver N S) n t x h ns : ref_safe rs n -> length x = n -> forall s s' vs, ref_results rs t x h ns s s' vs -> forall v, In v vs -> length v = n.
Proof.
  intros RS L. induction ns as [|m ns I]; intros s s' vs R v V; destruct vs as [|u vs]; cbn in R; try contradiction.
  destruct R as (s1 & R1 & R2). destruct V as [->|V]; [|exact (I _ _ _ R2 _ V)].
  apply ref_call_result in R1. destruct (RS t x h m s L) as [E|(s2 & w & E & E2)]; rewrite R1 in E; [discriminate|]. inversion E; subst w. exact E2.
Qed.

(** * Values *)
Theorem x_value {S Q} (rs : refsolver QcNum S) (sq : stepseq Q) (ev : events QcNum S) (c : xcfg QcNum) (n : nat) (s : xst QcNum S Q) (h : Qc) next (err : Qc) w :
  seq_ok sq (xc_stages c) -> ref_safe rs n -> length (x_x s) = n -> 1 <= xc_stages c -> (xc_nocheck c = false -> 2 <= xc_stages c) ->
  x_computed (N:=QcNum) rs sq ev c s h next err w ->
  exists w0 q0 zs q1, ev_start ev (x_x s) (x_t s) (x_s s) = Ret w0 /\ sq_take sq (xc_stages c) (sq_reset sq q0) = Ret (zs, q1) /\ increasing (map Z.to_nat zs) (xc_stages c) /\
    extrapolated rs (xc_sym c) (xc_nocheck c) (xc_stages c) n (xc_norm c) (x_t s) (x_x s) h (map Z.to_nat zs) w0 w next err.
Proof.
  intros SO RS LX S1 S2 (w0 & q0 & zs & q1 & vs & vs' & Tn & C1 & C2 & C3 & C4 & C5 & C6). exists w0, q0, zs, q1. split; [exact C1|]. split; [exact C2|].
  destruct (SO q0) as (zs' & q' & E & INC). rewrite E in C2. inversion C2; subst zs' q'. split; [exact INC|].
  change (nT QcNum) with Qc in *. pose proof (results_length (N:=QcNum) _ _ _ _ _ _ _ _ C3) as LV. rewrite map_length in LV. pose proof (take_length _ _ _ _ _ E) as LZ.
  assert (LEN : forall v, In v vs -> length v = n) by (exact (results_lengths (N:=QcNum) rs n _ _ _ _ RS LX _ _ _ C3)).
  assert (NTH : forall k, k < xc_stages c -> nth k (vs ++ vs') [] = nth k vs []) by (intros k K; apply app_nth1; change (nT QcNum) with Qc in *; lia).
  assert (TB : table (vs ++ vs') (xc_stages c) n).
  { split; [rewrite app_length; change (nT QcNum) with Qc in *; lia|]. intros k K. rewrite NTH by exact K. apply LEN, nth_In. change (nT QcNum) with Qc in *. lia. }
  destruct (neville_table (xc_sym c) _ _ n INC S1 _ TB) as (Ts' & E' & LT & TT & V). change (nT QcNum) with Qc in *. rewrite C4 in E'. inversion E'; subst Ts'; clear E'.
  assert (NX : nth 0 Tn [] = next) by (apply nth_error_nth; exact C5).
  exists vs. split; [exact C3|]. split; [rewrite <- NX; apply TT; lia|]. cbn zeta.
  assert (VE : forall i c0, i < xc_stages c -> c0 < n -> cmp_ (nth i Tn []) c0 = extrap (fun i => node (xc_sym c) (nth i (map Z.to_nat zs) 0)) (fun i => cmp_ (nth i vs []) c0) i (xc_stages c - 1 - i)).
  { intros i c0 I C0. rewrite V by assumption. apply extrap_ext. intros j J. split; [reflexivity|]. rewrite NTH by lia. reflexivity. }
  split.
  - intros c0 C0. rewrite <- NX. rewrite VE by lia. rewrite Nat.sub_0_r. reflexivity.
  - destruct (xc_nocheck c) eqn:NC; [exact C6|]. specialize (S2 eq_refl). destruct C6 as (e & E1 & E2).
    assert (L1 : 1 < length Tn) by (destruct TT as (LL & _); lia). rewrite (rd_ok (A:=list Qc) Tn 1 []) in E1 by exact L1. cbn [obind] in E1.
    assert (LN : length next = n) by (rewrite <- NX; apply TT; lia). assert (LN1 : length (nth 1 Tn []) = n) by (apply TT; lia).
    destruct (ladd_ls (nth 1 Tn []) next (- (1)) 1 n LN1 LN) as (T1 & A1 & A2 & A3).
    assert (SC : lscale (N:=QcNum) next 1%Qc = next).
    { unfold lscale. transitivity (map (fun x : Qc => x) next); [apply map_ext; intros a; cbn; change (@eq Qc (a * 1)%Qc a); ring|apply map_id]. }
    rewrite SC in A1. change (nT QcNum) with Qc in *. cbn [nopp n1 QcNum] in E1. change (nT QcNum) with Qc in E1.
    assert (EE : e = T1). { match type of E1 with ?A = _ => match type of A1 with ?B = _ => change (B = Ret e) in E1 end end. rewrite A1 in E1. inversion E1. reflexivity. }
    subst e. exists T1. split; [exact A2|]. split; [|exact E2]. intros c0 C0. rewrite A3 by exact C0. rewrite (VE 1 c0) by lia. replace (xc_stages c - 1 - 1) with (xc_stages c - 2) by lia. ring.
Qed.
(** if the results are values of polynomials in the node, the new state is their value at zero *)
Theorem x_poly {S} (rs : refsolver QcNum S) sym nocheck stages n norm (t : Qc) x (h : Qc) ns s s' next err (P : nat -> list Qc) :
  increasing ns stages -> 1 <= stages -> extrapolated rs sym nocheck stages n norm t x h ns s s' next err ->
  (forall k s1 s2 v, In k ns -> ref_result (N:=QcNum) rs t x h k s1 s2 v -> forall c, c < n -> cmp_ v c = peval (P c) (node sym k)) ->
  forall c, c < n -> length (P c) <= stages -> cmp_ next c = peval (P c) 0%Qc.
Proof.
  intros INC S1 (vs & R & LN & V & _) HP c C LP. rewrite V by exact C.
  assert (VS : forall ns s s' vs, ref_results (N:=QcNum) rs t x h ns s s' vs -> (forall k s1 s2 v, In k ns -> ref_result (N:=QcNum) rs t x h k s1 s2 v -> cmp_ v c = peval (P c) (node sym k)) ->
     forall i, i < length ns -> cmp_ (nth i vs []) c = peval (P c) (node sym (nth i ns 0))).
  { clear. induction ns as [|k ns I]; intros s s' vs R H i Hi; destruct vs as [|v vs]; cbn in R; try contradiction; [cbn in Hi; lia|].
    destruct R as (s1 & R1 & R2). destruct i as [|i]; [cbn; exact (H _ _ _ _ (or_introl eq_refl) R1)|]. cbn. cbn in Hi. apply (I _ _ _ R2); [|lia]. intros k' a b v' K. apply H. right. exact K. }
  rewrite (extrap_ext _ _ (fun i => node sym (nth i ns 0)) (fun i => peval (P c) (node sym (nth i ns 0)))).
  - apply (extrap_exact (fun i => node sym (nth i ns 0)) stages); [exact (xx_distinct sym ns stages INC S1)|lia|lia].
  - intros i I. split; [reflexivity|]. apply (VS _ _ _ _ R); [|destruct INC as (L & _); lia]. intros k s1 s2 v K RR. exact (HP _ _ _ _ K RR c C).
Qed.

(** * Definedness *)
Section Safe.
Context {N : Num} {S Q : Type} (rs : refsolver N S) (sq : stepseq Q) (ev : events N S) (c : xcfg N) (n : nat).
Notation st := (xst N S Q).
Hypothesis EN : xc_n c = n.
Hypothesis S1 : 1 <= xc_stages c.
Hypothesis S2 : xc_nocheck c = false -> 2 <= xc_stages c.
Hypothesis SQ : seq_ok sq (xc_stages c).
Hypothesis RS : ref_safe rs n.
Hypothesis NM : forall d, length d = n -> xc_norm c d <> UB.
Hypothesis EV : (forall x t w, ev_start ev x t w <> UB) /\ (forall x y t w, length x = n -> length y = n -> ev_end ev x y t w = Throw \/ exists w' er, ev_end ev x y t w = Ret (w', er) /\ length (ev_x er) = n).
Lemma last_take k : forall q zs q', sq_take sq (Datatypes.S k) q = Ret (zs, q') -> x_last sq k q = Ret (nth k zs 0%Z, q').
Proof.
  induction k as [|k I]; intros q zs q' E.
  - cbn in E. binv E. inversion E; subst. cbn. destruct r. exact E0.
  - cbn [sq_take] in E. binv E. binv E. inversion E; subst. destruct r0 as [zs0 q0]. cbn [x_last]. rewrite E0. cbn [obind fst snd nth]. exact (I _ _ _ E1).
Qed.
Lemma init_ok (s : st) : x_ready c s -> exists s1, x_init sq c s = Ret s1 /\ x_t s1 = x_t s /\ x_x s1 = x_x s /\ (exists h, x_h s1 = Some h) /\ xc_stages c <= length (x_T s1).
Proof.
  intros (L & R). unfold x_init. destruct (x_T s) as [|v T'] eqn:ET.
  - destruct (SQ (x_q s)) as (zs & q' & E & INC). unfold x_tsize. destruct (xc_stages c) as [|k] eqn:EK; [lia|]. replace (Datatypes.S k - 1) with k by lia. rewrite (last_take _ _ _ _ E). cbn [obind fst snd].
    eexists. split; [reflexivity|]. cbn. split; [reflexivity|]. split; [reflexivity|]. split; [eauto|]. rewrite repeat_length.
    destruct INC as (LI & I0 & IJ). rewrite map_length in LI. 
    assert (G : forall i, i < Datatypes.S k -> Datatypes.S i <= nth i (map Z.to_nat zs) 0).
    { induction i as [|i IH]; intros HI; [lia|]. specialize (IH ltac:(lia)). specialize (IJ i (Datatypes.S i) ltac:(lia) HI). lia. }
    specialize (G k ltac:(lia)). change 0 with (Z.to_nat 0) in G. rewrite map_nth in G. exact G.
  - exists s. split; [reflexivity|]. split; [reflexivity|]. split; [reflexivity|]. destruct R as [R|(R1 & R2)]; [discriminate|]. split; [destruct (x_h s); [eauto|contradiction]|rewrite ET; exact R2].
Qed.
Definition tab (m : nat) (Ts : list (list (nT N))) (len : nat) : Prop := length Ts = len /\ forall k, k < m -> length (nth k Ts []) = n.
Lemma wr_tab m (Ts : list (list (nT N))) len j v : tab m Ts len -> j < len -> length v = n -> exists Ts', wr Ts j v = Ret Ts' /\ tab m Ts' len.
Proof.
  intros (L & V) J LV. rewrite wr_ok by lia. eexists. split; [reflexivity|]. split; [rewrite upd_length; exact L|]. intros k K. rewrite nth_upd. destruct (Nat.eqb_spec k j) as [->|]; [|apply V; exact K].
  destruct (Nat.ltb_spec j (length Ts)); [exact LV|lia].
Qed.
Lemma neville_tab sym ns m (Ts : list (list (nT N))) len : length ns = m -> m <= len -> 1 <= m -> tab m Ts len -> exists Ts', neville sym ns m Ts = Ret Ts' /\ tab m Ts' len.
Proof.
  intros LN ML M1 H. unfold neville. apply (ofor_inv (fun _ Ts => tab m Ts len) 1 m); [exact M1|exact H|].
  intros k T1 K H1. apply (ofor_inv (fun _ Ts => tab m Ts len) (k + 1) (m + 1)); [lia|exact H1|].
  intros j T2 J (L2 & V2). unfold nev_update. rewrite (rd_ok _ (j - k - 1) []), (rd_ok _ (j - k) []) by lia. cbn [obind]. rewrite (rd_ok ns (j - 1) 0), (rd_ok ns (j - k - 1) 0) by lia. cbn [obind].
  unfold ladd. rewrite lzip_ok by (rewrite !lscale_length, !V2 by lia; lia). cbn [obind]. apply wr_tab; [split; assumption|lia|]. rewrite map_length, seq_length, lscale_length. apply V2. lia.
Qed.
Lemma stages_safe t x h Ts w q : length x = n -> xc_stages c <= length Ts ->
  ofor 0 (xc_stages c) (x_stage rs sq t x h) (Ts, [], w, sq_reset sq q) = Throw \/
  exists Ts' ns s q', ofor 0 (xc_stages c) (x_stage rs sq t x h) (Ts, [], w, sq_reset sq q) = Ret (Ts', ns, s, q') /\ length ns = xc_stages c /\ tab (xc_stages c) Ts' (length Ts).
Proof.
  intros LX LT. destruct (SQ q) as (zs & q' & E & _).
  assert (PRE : forall k, k < xc_stages c -> forall zk qk, sq_take sq k (sq_reset sq q) = Ret (zk, qk) -> exists r, sq_next sq qk = Ret r).
  { clear - E. intros k K. assert (G : forall m k q0 zs q', sq_take sq m q0 = Ret (zs, q') -> k < m -> forall zk qk, sq_take sq k q0 = Ret (zk, qk) -> exists r, sq_next sq qk = Ret r).
    { clear. induction m as [|m I]; intros k q0 zs q' E K zk qk F; [lia|]. cbn [sq_take] in E. binv E. destruct k as [|k]; cbn [sq_take] in F.
      - inversion F; subst. eauto.
      - rewrite E0 in F. cbn [obind] in F. binv F. inversion F; subst. binv E. destruct r0 as [z0 q1]. destruct r1 as [z1 q2]. cbn. exact (I k _ _ _ E2 ltac:(lia) _ _ E1). }
    exact (G _ _ _ _ _ E K). }
  destruct (ofor_inv_gen (fun k (r : list (list (nT N)) * list nat * S * Q) => let '(T', ns, s, qk) := r in length ns = k /\ tab k T' (length Ts) /\ exists zk, sq_take sq k (sq_reset sq q) = Ret (zk, qk)) True
     0 (xc_stages c) (x_stage rs sq t x h) (Ts, [], w, sq_reset sq q)) as [H|H].
  - lia.
  - split; [reflexivity|]. split; [split; [reflexivity|intros k K; lia]|]. exists []. reflexivity.
  - intros k [[[T' ns] s] qk] K (L & (LT' & V) & zk & TK). destruct (PRE k (proj2 K) _ _ TK) as ((z & q2) & NX). unfold x_stage.
    destruct (RS t x h (Z.to_nat z) s LX) as [RC|(s' & v & RC & LV)]; unfold ref_call in RC.
    + right. split; [|exact Logic.I]. destruct (rs_set rs t x s) as [s1| |]; [|reflexivity|discriminate RC]. cbn [obind] in RC |- *. rewrite NX. cbn [obind]. cbv zeta.
      destruct (rs_steps rs (Z.to_nat z) _) as [s2| |]; [|reflexivity|discriminate RC]. cbn [obind] in RC |- *. destruct (rs_get rs s2); [discriminate RC|reflexivity|discriminate RC].
    + left. binv RC. binv RC. binv RC. inversion RC; subst. rewrite E0. cbn [obind]. rewrite NX. cbn [obind]. cbv zeta. rewrite E1. cbn [obind]. rewrite E2. cbn [obind].
      rewrite wr_ok by lia. cbn [obind]. eexists. split; [reflexivity|]. split; [rewrite app_length; cbn; lia|]. split; [split; [rewrite upd_length; exact LT'|]|].
      * intros i I. rewrite nth_upd. destruct (Nat.eqb_spec i (length ns)) as [->|]; [destruct (Nat.ltb_spec (length ns) (length T')); [exact LV|lia]|apply V; lia].
      * exists (zk ++ [z]). exact (take_snoc _ _ _ _ _ _ _ TK NX).
  - right. destruct H as ([[[T' ns] s] qk] & H & L & TT & _). exists T', ns, s, qk. auto.
  - left. apply H.
Qed.
Lemma xfail_ub {A} (s s' : st) (o : Outcome A) k r : o <> UB -> (forall a, o = Ret a -> k a = (s', r) -> r <> AUb) -> xfail s o k = (s', r) -> r <> AUb.
Proof. unfold xfail. destruct o as [a| |]; intros H K E; [exact (K a eq_refl E)|inversion E; discriminate|contradiction]. Qed.
Lemma error_safe (Tn : list (list (nT N))) : tab (xc_stages c) Tn (length Tn) -> xc_stages c <= length Tn -> x_error c Tn <> UB /\ forall e Te, x_error c Tn = Ret (e, Te) -> length Te = length Tn.
Proof.
  intros (_ & V) L. unfold x_error. destruct (xc_nocheck c) eqn:NC; [split; [discriminate|intros e Te E; inversion E; reflexivity]|]. specialize (S2 eq_refl).
  rewrite (rd_ok _ 0 []), (rd_ok _ 1 []) by lia. cbn [obind]. unfold ladd. rewrite lzip_ok by (rewrite lscale_length, !V by lia; lia). cbn [obind].
  rewrite wr_ok by lia. match goal with |- context [xc_norm c ?D] => pose proof (NM D ltac:(rewrite map_length, seq_length, lscale_length; apply V; lia)) as NU end.
  destruct (xc_norm c _) as [e0| |]; [|split; [discriminate|intros e Te E; discriminate E]|contradiction]. cbn [obind]. split; [discriminate|]. intros e Te E. inversion E; subst. apply upd_length.
Qed.
Theorem x_attempt_safe (s s' : st) r : x_ready c s -> x_attempt rs sq ev c s = (s', r) -> r <> AUb /\ x_ready c s'.
Proof.
  intros RD. destruct (init_ok s RD) as (s1 & EI & I1 & I2 & (h & I3) & I4). destruct RD as (LX & RD). rewrite EN in LX. unfold x_attempt. rewrite EI. cbn [xfail]. rewrite I3, I1, I2.
  assert (U1 : x_ready c s1) by (split; [rewrite I2, EN; exact LX|right; rewrite I3; split; [discriminate|exact I4]]).
  destruct (ev_start ev (x_x s) (x_t s) (x_s s1)) as [w1| |] eqn:ES; [|cbn; intros E; inversion E; subst; split; [discriminate|exact U1]|exfalso; exact (proj1 EV _ _ _ ES)]. cbn [xfail].
  set (s2 := mkX (x_t s) (x_x s) (Some h) (x_T s1) w1 (x_q s1)).
  assert (U2 : x_ready c s2) by (split; [rewrite EN; exact LX|right; split; [discriminate|exact I4]]).
  destruct (stages_safe (x_t s) (x_x s) h (x_T s1) w1 (x_q s1) LX I4) as [EG|(Ts & ns & sr & q' & EG & LN & TB)]; rewrite EG; [cbn; intros E; inversion E; subst; split; [discriminate|exact U2]|].
  cbn [xfail]. destruct (neville_tab (xc_sym c) ns (xc_stages c) Ts (length (x_T s1)) LN I4 S1 TB) as (Tn & ENv & TN). rewrite ENv. cbn [xfail].
  pose proof TN as (LTn & VTn). rewrite (rd_ok _ 0 []) by lia. cbn [xfail].
  destruct (error_safe Tn) as (EU & EL); [split; [reflexivity|exact VTn]|lia|].
  destruct (x_error c Tn) as [[err Te]| |] eqn:EE; [|cbn; intros E; inversion E; subst; split; [discriminate|exact U2]|contradiction]. cbn [xfail]. specialize (EL _ _ eq_refl).
  destruct (if xc_nocheck c then (h, true, false) else xc_sc c h err) as [[h' acc] ch]. destruct acc.
  - destruct (proj2 EV (x_x s) (nth 0 Tn []) (nadd N (x_t s) h) sr LX ltac:(apply VTn; lia)) as [EV1|(w2 & er & EV1 & LE)]; rewrite EV1; [cbn; intros E; inversion E; subst; split; [discriminate|exact U2]|].
    cbn [xfail]. rewrite wr_ok by lia. cbn [xfail]. intros E.
    assert (U3 : x_ready c s'). { destruct (ch && _) in E; inversion E; subst; (split; [cbn; congruence|right; split; [discriminate|cbn; rewrite upd_length; lia]]). }
    split; [|exact U3]. destruct (ch && _) in E; inversion E; discriminate.
  - intros E. assert (U3 : x_ready c s'). { destruct (ch && _) in E; inversion E; subst; (split; [cbn; congruence|right; split; [discriminate|cbn; lia]]). }
    split; [|exact U3]. destruct (ch && _) in E; inversion E; discriminate.
Qed.
Theorem x_step_safe fuel : forall (s s' : st) posts r, x_ready c s -> x_step rs sq ev c fuel s = (s', posts, r) -> r <> Some AUb /\ x_ready c s'.
Proof.
  induction fuel as [|k I]; intros s s' posts r RD E; cbn in E; [inversion E; subst; split; [discriminate|exact RD]|].
  destruct (x_attempt rs sq ev c s) as [s1 t] eqn:EA. destruct (x_attempt_safe _ _ _ RD EA) as (A1 & A2). destruct t; try (inversion E; subst; split; [congruence|exact A2]).
  destruct (x_step rs sq ev c k s1) as [[s2 l] r2] eqn:ES. inversion E; subst. exact (I _ _ _ _ A2 ES).
Qed.
End Safe.
Lemma x_set_ready {N S Q} (rs : refsolver N S) (ev : events N S) (c : xcfg N) (n : nat) : xc_n c = n ->
  forall soft t x (s s' : xst N S Q), length x = n -> x_set rs ev soft t x s = Ret s' -> x_ready c s' /\ x_first c s' = Some (xc_hinit c) /\ x_t s' = t /\ x_x s' = x.
Proof. intros EN soft t x s s' L E. unfold x_set in E. binv E. inversion E; subst. split; [split; [cbn; congruence|left; reflexivity]|]. split; [reflexivity|]. split; reflexivity. Qed.
