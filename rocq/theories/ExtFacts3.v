(** ExtFacts3.v - the extrapolation solver. *)
From Coq Require Import List Arith Lia Bool ZArith QArith Qcanon.
From Verif Require Import Base BaseFacts VecModel VOps NewtFacts RkModel RkSpec RkFacts RkFacts2 RkFacts3 StepModel StepSpec StepFacts2 ExtModel ExtSpec ExtFacts ExtFacts2.
Import ListNotations.
Local Open Scope nat_scope.

Lemma take_snoc {Q} (sq : stepseq Q) k : forall q zs q1 z q2, sq_take sq k q = Ret (zs, q1) -> sq_next sq q1 = Ret (z, q2) -> sq_take sq (S k) q = Ret (zs ++ [z], q2).
Proof.
  induction k as [|k I]; intros q zs q1 z q2 E F.
  - cbn in E. inversion E; subst. cbn. rewrite F. reflexivity.
  - cbn [sq_take] in E. binv E. binv E. inversion E; subst. destruct r0 as [zs0 q0]. pose proof (I _ _ _ _ _ E1 F) as H.
    change (sq_take sq (S (S k)) q) with (r <- sq_next sq q ;; q <- sq_take sq (S k) (snd r) ;; Ret (fst r :: fst q, snd q)). rewrite E0. cbn [obind]. rewrite H. reflexivity.
Qed.
Lemma take_length {Q} (sq : stepseq Q) k : forall q zs q1, sq_take sq k q = Ret (zs, q1) -> length zs = k.
Proof.
  induction k as [|k I]; intros q zs q1 E; cbn in E; [inversion E; reflexivity|]. binv E. binv E. inversion E; subst. destruct r0 as [zs0 q0]. cbn. f_equal. exact (I _ _ _ E1).
Qed.

Section G.
Context {N : Num} {S Q : Type} (rs : refsolver N S) (sq : stepseq Q) (ev : events N S) (c : xcfg N).
Notation T := (nT N).
Notation vec := (list T).
Notation st := (xst N S Q).
Lemma results_snoc t x h ns : forall s s1 vs n s2 v, ref_results rs t x h ns s s1 vs -> ref_result rs t x h n s1 s2 v -> ref_results rs t x h (ns ++ [n]) s s2 (vs ++ [v]).
Proof.
  induction ns as [|m ns I]; intros s s1 vs n s2 v R F; destruct vs as [|u vs]; cbn in R |- *; try contradiction.
  - subst. exists s2. split; [exact F|reflexivity].
  - destruct R as (s0 & R1 & R2). exists s0. split; [exact R1|]. exact (I _ _ _ _ _ _ R2 F).
Qed.
Lemma results_length t x h ns : forall s s1 vs, ref_results rs t x h ns s s1 vs -> length vs = length ns.
Proof. induction ns as [|m ns I]; intros s s1 vs R; destruct vs as [|u vs]; cbn in R |- *; try contradiction; [reflexivity|]. destruct R as (s0 & R1 & R2). f_equal. exact (I _ _ _ R2). Qed.
Lemma upd_app {A} (l r : list A) v a : length l = v -> upd (l ++ r) v a = l ++ upd r 0 a.
Proof. revert v. induction l as [|y l I]; intros v H; cbn in H; subst; [reflexivity|]. cbn. rewrite I by reflexivity. reflexivity. Qed.
Lemma skipn_S_tl {A} k (l : list A) : k < length l -> exists a, skipn k l = a :: skipn (Datatypes.S k) l.
Proof. revert l. induction k as [|k I]; intros [|a l] H; cbn in H; try lia; [exists a; reflexivity|]. destruct (I l ltac:(lia)) as (b & E). exists b. exact E. Qed.
Lemma stages_inv t x h k Ts0 w q Ts ns s q' : ofor 0 k (x_stage rs sq t x h) (Ts0, [], w, q) = Ret (Ts, ns, s, q') ->
  exists zs vs, sq_take sq k q = Ret (zs, q') /\ ns = map Z.to_nat zs /\ ref_results rs t x h ns w s vs /\ length vs = k /\ k <= length Ts0 /\ Ts = vs ++ skipn k Ts0.
Proof.
  intros E. apply (ofor_inv_ret (fun k (r : list vec * list nat * S * Q) => let '(Ts, ns, s, q') := r in exists zs vs, sq_take sq k q = Ret (zs, q') /\ ns = map Z.to_nat zs /\
     ref_results rs t x h ns w s vs /\ length vs = k /\ k <= length Ts0 /\ Ts = vs ++ skipn k Ts0)) in E; [exact E|lia| |].
  - exists [], []. repeat split; try reflexivity. lia.
  - intros j [[[T1 n1] s1] q1] [[[T2 n2] s2] q2] J (zs & vs & A1 & A2 & A3 & A4 & A5 & A6) F. unfold x_stage in F. binv F. binv F. destruct r0 as [z q3]. binv F. binv F. binv F. inversion F; subst T2 n2 s2 q2; clear F.
    unfold wr in E4. destruct (Nat.ltb_spec j (length T1)) as [JL|]; [|discriminate]. inversion E4; subst r2; clear E4.
    assert (JT : j < length Ts0). { rewrite A6, app_length, skipn_length in JL. lia. }
    exists (zs ++ [z]), (vs ++ [r1]). split; [exact (take_snoc _ _ _ _ _ _ _ A1 E1)|]. split; [rewrite map_app, A2; reflexivity|].
    split; [apply (results_snoc _ _ _ _ _ s1); [exact A3|exists r; auto]|]. split; [rewrite app_length; cbn; lia|]. split; [lia|].
    rewrite A6. rewrite upd_app by exact A4. destruct (skipn_S_tl j Ts0 JT) as (a & SK). rewrite SK. cbn [upd]. rewrite <- app_assoc. reflexivity.
Qed.
Lemma xfail_inv {A} (s s' : st) (o : Outcome A) k r : xfail s o k = (s', r) -> (exists a, o = Ret a /\ k a = (s', r)) \/ (s' = s /\ (r = AThrow \/ r = AUb)).
Proof. unfold xfail. destruct o as [a| |]; intros H; [left; eauto|right; inversion H; auto|right; inversion H; auto]. Qed.
Lemma init_inv (s s1 : st) : x_init sq c s = Ret s1 -> x_t s1 = x_t s /\ x_x s1 = x_x s /\ x_s s1 = x_s s /\ x_h s1 = x_first c s.
Proof.
  unfold x_init, x_first. destruct (x_T s); intros E; [|inversion E; subst; auto]. binv E. inversion E; subst. auto.
Qed.
Lemma neville_length sym ns k (Ts Ts' : list vec) : neville sym ns k Ts = Ret Ts' -> length Ts' = length Ts.
Proof.
  unfold neville. intros E. destruct (le_lt_dec 1 k) as [L|L]; [|rewrite ofor_nil in E by lia; inversion E; reflexivity].
  apply (ofor_inv_ret (fun _ T' => length T' = length Ts) _ _ _ _ _ L) in E; [exact E|reflexivity|].
  intros j T1 T2 J L1 F. apply (ofor_inv_ret (fun _ T' => length T' = length Ts)) in F; [exact F|lia|exact L1|].
  intros i T3 T4 I L3 G. unfold nev_update in G. binv G. binv G. binv G. binv G. binv G. unfold wr in G. destruct (_ <? _); [|discriminate]. inversion G; subst. rewrite upd_length. exact L3.
Qed.
Notation x_moved := (x_moved rs sq ev c).
Definition xpassed (s s' : st) (h err : T) (accept : bool) (hend : T) (trunc : bool) : Prop :=
  exists next w, x_first c s = Some h /\ x_computed rs sq ev c s h next err w /\ verdict (ctl c) h err = accept /\ x_h s' = Some hend /\ x_T s' <> [] /\
    if accept then exists er, ev_end ev (x_x s) next (nadd N (x_t s) h) w = Ret (x_s s', er) /\ x_t s' = ev_t er /\ x_x s' = ev_x er /\ trunc = ev_trunc er
    else x_unmoved s s' /\ x_s s' = w /\ trunc = false.
Lemma ctl_verdict h err : exists h' change accept, (if xc_nocheck c then (h, true, false) else xc_sc c h err) = (h', accept, change) /\ verdict (ctl c) h err = accept /\
    next_size (ctl c) h err = (if change then h' else h) /\ below_min (ctl c) h err = change && nleb N (next_size (ctl c) h err) (xc_hmin c) /\ asks (ctl c) h err = change.
Proof.
  unfold verdict, next_size, below_min, next_size, asks. cbn. destruct (xc_nocheck c); [exists h, false, true; auto|]. destruct (xc_sc c h err) as [[h' accept] change]. exists h', change, accept. auto.
Qed.
Lemma xattempt_inv (s s' : st) r : x_attempt rs sq ev c s = (s', r) ->
  match r with
  | AUb | AThrow => x_unmoved s s'
  | ARejected a => exists h, xpassed s s' h (pa_err a) false (pa_h a) (pa_trunc a) /\ below_min (ctl c) h (pa_err a) = false /\ pa_accepted a = false /\ pa_changed a = asks (ctl c) h (pa_err a) /\ pa_h a = next_size (ctl c) h (pa_err a)
  | AAccepted a => exists h, xpassed s s' h (pa_err a) true (pa_h a) (pa_trunc a) /\ below_min (ctl c) h (pa_err a) = false /\ pa_accepted a = true /\ pa_changed a = asks (ctl c) h (pa_err a) /\ pa_h a = next_size (ctl c) h (pa_err a)
  | ATooSmall => exists h err acc trunc, xpassed s s' h err acc (next_size (ctl c) h err) trunc /\ below_min (ctl c) h err = true
  end.
Proof.
  unfold x_attempt. intros E. apply xfail_inv in E. destruct E as [(s1 & EI & E)|(-> & [->| ->])]; [|split; reflexivity..].
  destruct (init_inv _ _ EI) as (I1 & I2 & I3 & I4). rewrite I4 in E. rewrite I1, I2, I3 in E.
  destruct (x_first c s) as [h|] eqn:FS.
  2: { inversion E; subst. split; assumption. }
  apply xfail_inv in E. destruct E as [(w1 & ES & E)|(-> & [->| ->])]; [|split; assumption..].
  apply xfail_inv in E. destruct E as [([[[Ts ns] sr] q'] & EG & E)|(-> & [->| ->])]; [|split; reflexivity..].
  apply stages_inv in EG. destruct EG as (zs & vs & G1 & G2 & G3 & G4 & G5 & G6).
  apply xfail_inv in E. destruct E as [(Tn & EN & E)|(-> & [->| ->])]; [|split; reflexivity..].
  apply xfail_inv in E. destruct E as [(next & EX & E)|(-> & [->| ->])]; [|split; reflexivity..].
  apply xfail_inv in E. destruct E as [([err Te] & EE & E)|(-> & [->| ->])]; [|split; reflexivity..].
  assert (NX : nth_error Tn 0 = Some next). { unfold rd in EX. destruct (nth_error Tn 0); [inversion EX; reflexivity|discriminate]. }
  assert (TE : length Te = length Tn /\ if xc_nocheck c then err = n0 N else exists e, (v1 <- rd Tn 1 ;; ladd (lscale v1 (nopp N (n1 N))) next) = Ret e /\ xc_norm c e = Ret err).
  { unfold x_error in EE. destruct (xc_nocheck c); [inversion EE; auto|]. rewrite EX in EE. cbn [obind] in EE. binv EE. binv EE. binv EE. binv EE. inversion EE; subst.
    unfold wr in E3. destruct (_ <? _); [|discriminate]. inversion E3; subst. split; [apply upd_length|]. exists r1. rewrite E0. cbn [obind]. auto. }
  destruct TE as (TL & TE).
  assert (XC : x_computed rs sq ev c s h next err sr).
  { exists w1, (x_q s1), zs, q', vs, (skipn (xc_stages c) (x_T s1)), Tn. split; [exact ES|]. split; [exact G1|]. rewrite <- G2. split; [exact G3|]. rewrite <- G6. split; [exact EN|]. split; [exact NX|exact TE]. }
  assert (TNZ : 0 < length Te). { rewrite TL. destruct Tn; [discriminate NX|cbn; lia]. }
  destruct (ctl_verdict h err) as (h' & change & accept & V1 & V2 & V3 & V4 & V5). rewrite V1 in E. rewrite <- V3 in E. destruct accept.
  - apply xfail_inv in E. destruct E as [([w2 er] & EV & E)|(-> & [->| ->])]; [|split; reflexivity..].
    apply xfail_inv in E. destruct E as [(T' & EW & E)|(-> & [->| ->])]; [|split; reflexivity..].
    assert (TN' : T' <> []). { unfold wr in EW. destruct (_ <? _) in EW; [|discriminate]. inversion EW; subst. intros Z. apply (f_equal (@length _)) in Z. rewrite upd_length in Z. cbn in Z. lia. }
    rewrite <- V4 in E. destruct (below_min (ctl c) h err) eqn:BM.
    + inversion E; subst. exists h, err, true, (ev_trunc er). split; [|exact BM]. exists next, sr. split; [exact FS|]. split; [exact XC|]. split; [exact V2|]. split; [reflexivity|]. split; [exact TN'|]. exists er. auto.
    + inversion E; subst. exists h. cbn [pa_h pa_err pa_trunc pa_accepted pa_changed]. split; [|auto]. exists next, sr. split; [exact FS|]. split; [exact XC|]. split; [exact V2|]. split; [reflexivity|]. split; [exact TN'|]. exists er. auto.
  - assert (TN' : Te <> []) by (intros ->; cbn in TNZ; lia). rewrite <- V4 in E. destruct (below_min (ctl c) h err) eqn:BM; inversion E; subst; cbn [pa_h pa_err pa_trunc pa_accepted pa_changed].
    + exists h, err, false, false. split; [|exact BM]. exists next, sr. split; [exact FS|]. split; [exact XC|]. split; [exact V2|]. split; [reflexivity|]. split; [exact TN'|]. repeat split.
    + exists h. split; [|auto]. exists next, sr. split; [exact FS|]. split; [exact XC|]. split; [exact V2|]. split; [reflexivity|]. split; [exact TN'|]. repeat split.
Qed.
Lemma xpassed_first s s' h err acc hend trunc : xpassed s s' h err acc hend trunc -> x_first c s = Some h /\ x_first c s' = Some hend /\ verdict (ctl c) h err = acc.
Proof.
  intros (next & w & F & XC & V & H & TN & _). split; [exact F|]. split; [|exact V]. unfold x_first. destruct (x_T s'); [contradiction|exact H].
Qed.
Lemma xpassed_moved s s' h err hend trunc : xpassed s s' h err true hend trunc -> x_moved s s' h err trunc.
Proof. intros (next & w & F & XC & V & H & TN & er & E). exists s, next, w, er. split; [split; reflexivity|]. split; [exact XC|exact E]. Qed.
Lemma x_moved_from s s1 s' h err trunc : x_unmoved s s1 -> x_moved s1 s' h err trunc -> x_moved s s' h err trunc.
Proof.
  intros (U1 & U2) (s0 & next & w & er & (A1 & A2) & XC & E). exists s0, next, w, er. split; [split; congruence|]. split; [exact XC|]. rewrite <- U1, <- U2. exact E.
Qed.
Theorem xtrace fuel : forall (s s' : st) posts r h0, x_step rs sq ev c fuel s = (s', posts, r) -> x_first c s = Some h0 ->
  exists rejected, x_refused c h0 rejected /\
  let h := x_cur h0 rejected in
  match r with
  | Some (AAccepted a) => posts = rejected ++ [a] /\ pa_accepted a = true /\ pa_changed a = asks (ctl c) h (pa_err a) /\ verdict (ctl c) h (pa_err a) = true /\
       pa_h a = next_size (ctl c) h (pa_err a) /\ x_first c s' = Some (pa_h a) /\ x_moved s s' h (pa_err a) (pa_trunc a)
  | Some ATooSmall => posts = rejected /\ exists err, below_min (ctl c) h err = true /\ x_first c s' = Some (next_size (ctl c) h err) /\
       (if verdict (ctl c) h err then exists trunc, x_moved s s' h err trunc else x_unmoved s s')
  | Some AThrow => posts = rejected /\ x_unmoved s s'
  | None => posts = rejected /\ x_unmoved s s' /\ length posts = fuel
  | Some (ARejected _) => False
  | Some AUb => posts = rejected
  end.
Proof.
  induction fuel as [|k I]; intros s s' posts r h0 E FS.
  - cbn in E. inversion E; subst. exists []. split; [exact Logic.I|]. cbn. split; [reflexivity|]. split; [split; reflexivity|reflexivity].
  - cbn in E. destruct (x_attempt rs sq ev c s) as [s1 t] eqn:EA. apply xattempt_inv in EA. destruct t as [| | |a|a].
    + inversion E; subst. exists []. split; [exact Logic.I|reflexivity].
    + inversion E; subst. exists []. split; [exact Logic.I|]. split; [reflexivity|exact EA].
    + inversion E; subst. destruct EA as (h & err & acc & trunc & PA & BM). destruct (xpassed_first _ _ _ _ _ _ _ PA) as (F1 & F2 & V). rewrite FS in F1. inversion F1; subst h.
      exists []. split; [exact Logic.I|]. cbn [x_cur fold_left]. split; [reflexivity|]. exists err. split; [exact BM|]. split; [exact F2|]. rewrite V. destruct acc; [exists trunc; exact (xpassed_moved _ _ _ _ _ _ PA)|].
      destruct PA as (next & w & _ & _ & _ & _ & _ & U & _). exact U.
    + destruct EA as (h & PA & BM & A1 & A2 & A3). destruct (x_step rs sq ev c k s1) as [[s2 l] r2] eqn:ES. inversion E; subst; clear E.
      destruct (xpassed_first _ _ _ _ _ _ _ PA) as (F1 & F2 & V). rewrite FS in F1. inversion F1; subst h.
      destruct PA as (next & w & _ & _ & _ & _ & _ & U & _ & TR).
      destruct (I _ _ _ _ _ ES F2) as (rej & FR & M). exists (a :: rej). split; [cbn; auto 10|].
      change (x_cur h0 (a :: rej)) with (x_cur (pa_h a) rej). cbn zeta in M |- *. destruct U as (U1 & U2).
      destruct r as [[| | |b|b]|].
      * rewrite M. reflexivity.
      * destruct M as (-> & M1 & M2). split; [reflexivity|]. split; congruence.
      * destruct M as (-> & err & M1 & M2 & M3). split; [reflexivity|]. exists err. split; [exact M1|]. split; [exact M2|].
        destruct (verdict (ctl c) (x_cur (pa_h a) rej) err); [destruct M3 as (tr & M3); exists tr; apply (x_moved_from _ s1); [split; assumption|exact M3]|destruct M3; split; congruence].
      * exact M.
      * destruct M as (-> & M1 & M2 & M3 & M4 & M5 & M6). split; [reflexivity|]. repeat (split; [assumption|]). apply (x_moved_from _ s1); [split; assumption|exact M6].
      * destruct M as (-> & (M1 & M2) & M3). split; [reflexivity|]. split; [split; congruence|cbn; congruence].
    + inversion E; subst. destruct EA as (h & PA & BM & A1 & A2 & A3). destruct (xpassed_first _ _ _ _ _ _ _ PA) as (F1 & F2 & V). rewrite FS in F1. inversion F1; subst h.
      exists []. split; [exact Logic.I|]. cbn [x_cur fold_left]. split; [reflexivity|]. repeat (split; [assumption|]). exact (xpassed_moved _ _ _ _ _ _ PA).
Qed.
End G.
