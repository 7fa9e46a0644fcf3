(** StepFacts2.v - lemmas about adaptive stepping. *)
From Coq Require Import List Arith Bool ZArith QArith Qcanon Reals Lra Lia.
From Verif Require Import Base BaseFacts VecModel VOps NewtFacts RkModel RkSpec RkFacts RkFacts2 RkFacts3 RkFacts4 RkFacts5 RkFacts6 RkFacts7 StepModel StepSpec StepFacts.
Import ListNotations.
Local Open Scope nat_scope.

Section Gen.
Context {N : Num} {W : Type} (ev : events N W) (f : W -> nT N -> list (nT N) -> Outcome (list (nT N))) (c : erkcfg N).
Notation T := (nT N).
Lemma compute_klen (o o' : output N) co g x t h log : rk_compute o co g x t h = Ret (o', log) -> length (o_k o') = length (o_k o).
Proof.
  unfold rk_compute. intros E. binv E. binv E. binv E. destruct r1 as [[[ks buf] pa] lg]. binv E. destruct r1 as [[x2s b2] pb]. inversion E; subst; clear E. cbn [o_k].
  assert (L1 : length r0 = length (o_k o)).
  { unfold wr in E1. destruct (0 <? length (o_k o)); [|discriminate]. inversion E1. apply upd_length. }
  destruct (le_lt_dec 1 (length (o_k o))) as [L|L].
  - apply (ofor_inv_ret (fun _ (st : list (list T) * list T * nat * list (T * list T)) => let '(k, _, _, _) := st in length k = length (o_k o)) _ _ _ _ _ L) in E2; [exact E2|exact L1|].
    intros k [[[k1 b1] p1] l1] [[[k2 b3] p2] l2] _ K EE. unfold rk_stage in EE. binv EE. binv EE. binv EE. binv EE. binv EE. inversion EE; subst.
    match goal with H : wr _ _ _ = Ret _ |- _ => unfold wr in H; destruct (_ <? _); [|discriminate]; inversion H; subst end. rewrite upd_length. exact K.
  - rewrite ofor_nil in E2 by lia. inversion E2; subst. exact L1.
Qed.
(** what one pass does *)
Definition passed (s s' : rkst N W) (h err : T) (accept : bool) (hend : T) (trunc : bool) : Prop :=
  exists w1 o log next,
    first_size c s = Some h /\ ev_start ev (rk_x s) (rk_t s) (rk_w s) = Ret w1 /\
    rk_compute (rk_out (erk_init c s)) (e_co c) (f w1) (rk_x s) (rk_t s) h = Ret (o, log) /\
    rd (o_x2 o) (e_mode c) = Ret next /\ erk_error c o = Ret err /\ verdict c h err = accept /\
    if accept then exists er x2s, ev_end ev (rk_x s) next (nadd N (rk_t s) h) w1 = Ret (rk_w s', er) /\ wr (o_x2 o) (e_mode c) (rk_x s) = Ret x2s /\
         s' = mkRk (ev_t er) (ev_x er) (Some hend) (mkOut (o_k o) x2s (o_buf o)) (rk_w s') /\ trunc = ev_trunc er
    else s' = mkRk (rk_t s) (rk_x s) (Some hend) o w1 /\ trunc = false.
Lemma init_fields (s : rkst N W) : rk_t (erk_init c s) = rk_t s /\ rk_x (erk_init c s) = rk_x s /\ rk_w (erk_init c s) = rk_w s /\ rk_h (erk_init c s) = first_size c s.
Proof. unfold erk_init, first_size. destruct (out_is_empty (rk_out s)); auto. Qed.
Lemma fail_inv {A} (s s' : rkst N W) (o : Outcome A) k r : fail s o k = (s', r) ->
  (exists a, o = Ret a /\ k a = (s', r)) \/ (s' = s /\ (r = AThrow \/ r = AUb)).
Proof. unfold fail. destruct o as [a| |]; intros H; [left; eauto|right; inversion H; auto|right; inversion H; auto]. Qed.
Lemma attempt_inv (s s' : rkst N W) r : erk_attempt ev f c s = (s', r) ->
  match r with
  | AUb | AThrow => unmoved s s'
  | ARejected a => passed s s' (pa_h a) (pa_err a) false (next_size c (pa_h a) (pa_err a)) (pa_trunc a) /\ below_min c (pa_h a) (pa_err a) = false /\ pa_accepted a = false /\ pa_changed a = asks c (pa_h a) (pa_err a)
  | AAccepted a => passed s s' (pa_h a) (pa_err a) true (after_size c (pa_h a) (pa_err a) (pa_trunc a)) (pa_trunc a) /\ below_min c (pa_h a) (pa_err a) = false /\ pa_accepted a = true /\ pa_changed a = asks c (pa_h a) (pa_err a)
  | ATooSmall => exists h err acc trunc, passed s s' h err acc (next_size c h err) trunc /\ below_min c h err = true
  end.
Proof.
  unfold erk_attempt. destruct (init_fields s) as (I1 & I2 & I3 & I4). rewrite I1, I2, I3, I4.
  destruct (first_size c s) as [h|] eqn:FS.
  2: { intros E. inversion E; subst. split; assumption. }
  intros E. apply fail_inv in E. destruct E as [(w1 & ES & E)|(-> & [->| ->])]; [|split; assumption..].
  apply fail_inv in E. destruct E as [([o log] & EC & E)|(-> & [->| ->])]; [|split; reflexivity..]. cbn [fst] in E.
  apply fail_inv in E. destruct E as [(next & EN & E)|(-> & [->| ->])]; [|split; reflexivity..].
  apply fail_inv in E. destruct E as [(err & EE & E)|(-> & [->| ->])]; [|split; reflexivity..].
  assert (V : exists h' change accept, (if e_nocheck c then (h, true, false) else e_sc c h err) = (h', accept, change) /\ verdict c h err = accept /\
    next_size c h err = (if change then h' else h) /\ below_min c h err = change && nleb N (next_size c h err) (e_hmin c) /\ asks c h err = change).
  { unfold verdict, next_size, below_min, next_size, asks. destruct (e_nocheck c); [exists h, false, true; auto|]. destruct (e_sc c h err) as [[h' accept] change]. exists h', change, accept. auto. }
  destruct V as (h' & change & accept & V1 & V2 & V3 & V4 & V5). rewrite V1 in E. rewrite <- V3 in E. destruct accept.
  - apply fail_inv in E. destruct E as [([w2 er] & EV & E)|(-> & [->| ->])]; [|split; reflexivity..].
    apply fail_inv in E. destruct E as [(x2s & EW & E)|(-> & [->| ->])]; [|split; reflexivity..].
    rewrite <- V4 in E. destruct (below_min c h err) eqn:BM.
    + inversion E; subst. exists h, err, true, (ev_trunc er). split; [|exact BM]. exists w1, o, log, next. repeat (split; [assumption|]). exists er, x2s. cbn. auto.
    + inversion E; subst. cbn [pa_h pa_err pa_trunc pa_accepted pa_changed]. split; [|auto]. exists w1, o, log, next. repeat (split; [assumption|]). exists er, x2s. cbn. auto.
  - rewrite <- V4 in E. destruct (below_min c h err) eqn:BM; inversion E; subst; cbn [pa_h pa_err pa_trunc pa_accepted pa_changed].
    + exists h, err, false, false. split; [|exact BM]. exists w1, o, log, next. repeat (split; [assumption|]). auto.
    + split; [|auto]. exists w1, o, log, next. repeat (split; [assumption|]). auto.
Qed.
Lemma init_k_pos (s : rkst N W) : 0 < length (o_k (rk_out (erk_init c s))).
Proof.
  unfold erk_init. destruct (out_is_empty (rk_out s)) eqn:E; cbn.
  - rewrite repeat_length. lia.
  - unfold out_is_empty in E. destruct (o_k (rk_out s)); [discriminate|cbn; lia].
Qed.
Lemma passed_first s s' h err acc hend trunc : passed s s' h err acc hend trunc -> first_size c s' = Some hend.
Proof.
  intros (w1 & o & log & next & F & ES & EC & EN & EE & V & Q). apply compute_klen in EC. pose proof (init_k_pos s) as P. rewrite <- EC in P.
  assert (G : out_is_empty o = false) by (unfold out_is_empty; destruct (o_k o); [cbn in P; lia|reflexivity]).
  destruct acc.
  - destruct Q as (er & x2s & _ & _ & -> & _). unfold first_size, out_is_empty in *. cbn. destruct (o_k o); [discriminate|reflexivity].
  - destruct Q as (-> & _). unfold first_size. cbn. rewrite G. reflexivity.
Qed.
Lemma passed_rej s s' h err hend trunc : passed s s' h err false hend trunc -> unmoved s s'.
Proof. intros (w1 & o & log & next & F & ES & EC & EN & EE & V & Q). destruct Q as (-> & _). split; reflexivity. Qed.
Lemma passed_acc s s' h err hend trunc : passed s s' h err true hend trunc -> moved ev s s' h trunc.
Proof. intros (w1 & o & log & next & F & ES & EC & EN & EE & V & Q). destruct Q as (er & x2s & E1 & E2 & E3 & E4). exists w1, next, er. rewrite E3 at 2 3. auto. Qed.
Lemma passed_verdict s s' h err acc hend trunc : passed s s' h err acc hend trunc -> verdict c h err = acc /\ first_size c s = Some h.
Proof. intros (w1 & o & log & next & F & ES & EC & EN & EE & V & Q). auto. Qed.
Lemma moved_from (s s1 s' : rkst N W) h trunc : unmoved s s1 -> moved ev s1 s' h trunc -> moved ev s s' h trunc.
Proof. intros (U1 & U2) (w & next & er & M). exists w, next, er. rewrite <- U1, <- U2. exact M. Qed.
Lemma sizes_app (h : option T) (l : list (postarg N)) a : sizes c h (l ++ [a]) -> sizes c h l.
Proof. revert h. induction l as [|b l I]; intros h; cbn; [auto|]. intros (H & S). split; [exact H|exact (I _ S)]. Qed.
Theorem trace fuel : forall (s s' : rkst N W) posts r, erk_step ev f c fuel s = (s', posts, r) ->
  sizes c (first_size c s) posts /\
  exists rejected, Forall (refused c) rejected /\
  match r with
  | Some (AAccepted a) => posts = rejected ++ [a] /\ pa_accepted a = true /\ pa_changed a = asks c (pa_h a) (pa_err a) /\ verdict c (pa_h a) (pa_err a) = true /\ moved ev s s' (pa_h a) (pa_trunc a) /\
       first_size c s' = Some (after_size c (pa_h a) (pa_err a) (pa_trunc a))
  | Some ATooSmall => posts = rejected /\ exists h err, sizes c (first_size c s) (posts ++ [mkPost h true true true err None 0%Z]) /\ below_min c h err = true /\
                      first_size c s' = Some (next_size c h err) /\
                      (if verdict c h err then exists trunc, moved ev s s' h trunc else unmoved s s')
  | Some AThrow => posts = rejected /\ unmoved s s'
  | None => posts = rejected /\ unmoved s s' /\ length posts = fuel
  | Some (ARejected _) => False
  | Some AUb => posts = rejected
  end.
Proof.
  induction fuel as [|k I]; intros s s' posts r E.
  - cbn in E. inversion E; subst. split; [exact I|]. exists []. split; [constructor|]. split; [reflexivity|]. split; [split; reflexivity|reflexivity].
  - cbn in E. destruct (erk_attempt ev f c s) as [s1 t] eqn:EA. apply attempt_inv in EA. destruct t as [| | |a|a].
    + inversion E; subst. split; [exact Logic.I|]. exists []. auto.
    + inversion E; subst. split; [exact Logic.I|]. exists []. auto.
    + inversion E; subst. split; [exact Logic.I|]. exists []. split; [constructor|]. split; [reflexivity|].
      destruct EA as (h & err & acc & trunc & PA & BM). exists h, err. destruct (passed_verdict _ _ _ _ _ _ _ PA) as (V & F).
      split; [cbn; auto|]. split; [exact BM|]. split; [exact (passed_first _ _ _ _ _ _ _ PA)|]. rewrite V. destruct acc; [exists trunc; exact (passed_acc _ _ _ _ _ _ PA)|exact (passed_rej _ _ _ _ _ _ PA)].
    + destruct EA as (PA & BM & A1 & A2). destruct (erk_step ev f c k s1) as [[s2 l] r2] eqn:ES. inversion E; subst; clear E.
      destruct (I _ _ _ _ ES) as (SZ & rej & FR & M). pose proof (passed_first _ _ _ _ _ _ _ PA) as PF. destruct (passed_verdict _ _ _ _ _ _ _ PA) as (V & F).
      pose proof (passed_rej _ _ _ _ _ _ PA) as U. rewrite PF in SZ, M. split; [cbn; auto|]. exists (a :: rej). split; [constructor; [repeat split; assumption|exact FR]|].
      destruct U as (U1 & U2).
      destruct r as [[| | |b|b]|].
      * rewrite M. reflexivity.
      * destruct M as (-> & M1 & M2). split; [reflexivity|]. split; congruence.
      * destruct M as (-> & h & err & M1 & M2 & M3 & M4). split; [reflexivity|]. exists h, err. split; [cbn; auto|]. split; [exact M2|]. split; [exact M3|].
        destruct (verdict c h err); [destruct M4 as (tr & M4); exists tr; apply (moved_from _ s1); [split; assumption|exact M4]|destruct M4; split; congruence].
      * exact M.
      * destruct M as (-> & M1 & M2 & M3 & M4 & M5). split; [reflexivity|]. split; [exact M1|]. split; [exact M2|]. split; [exact M3|]. split; [|exact M5]. apply (moved_from _ s1); [split; assumption|exact M4].
      * destruct M as (-> & (M1 & M2) & M3). split; [reflexivity|]. split; [split; congruence|cbn; congruence].
    + inversion E; subst. destruct EA as (PA & BM & A1 & A2). destruct (passed_verdict _ _ _ _ _ _ _ PA) as (V & F).
      split; [cbn; auto|]. exists []. split; [constructor|]. split; [reflexivity|]. split; [exact A1|]. split; [exact A2|]. split; [exact V|]. split; [exact (passed_acc _ _ _ _ _ _ PA)|exact (passed_first _ _ _ _ _ _ _ PA)].
Qed.
End Gen.

(** * Exact arithmetic, no events *)
Section Ex.
Context {W : Type} (f : W -> Qc -> list Qc -> Outcome (list Qc)) (c : erkcfg QcNum) (stages n : nat) (w : W).
Hypothesis WF : wf_table (e_co c) stages 2.
Hypothesis SC : shortcut_ok (e_co c) stages.
Hypothesis EN : e_n c = n.
Hypothesis MD : e_mode c < 2.
Hypothesis NC : e_nocheck c = false.
Hypothesis NM : forall d, length d = n -> exists e, e_norm c d = Ret e.
Hypothesis GR : good_rhs (N:=QcNum) n (f w).
Notation es h t x y err := (embedded_step (e_co c) stages n (e_mode c) (f w) (e_norm c) h t x y err).
Lemma init_shaped (s : rkst QcNum W) : erk_ready stages n s -> shaped (rk_out (erk_init c s)) stages n 2 /\ exists h, first_size c s = Some h.
Proof.
  intros (L & [E|(H & S)]).
  - unfold erk_init, first_size. rewrite E. cbn. split; [|eauto]. assert (LC : length (co_c (e_co c)) + 1 = stages) by apply WF. rewrite <- LC, EN. apply out_new_shaped.
  - assert (OE : out_is_empty (rk_out s) = false).
    { unfold out_is_empty. destruct S as [L' _]. assert (0 < stages) by apply WF. destruct (o_k (rk_out s)); [simpl in L'; lia|reflexivity]. }
    unfold erk_init, first_size. rewrite OE. split; [exact S|]. destruct (rk_h s) as [h|]; [eauto|contradiction].
Qed.
Lemma error_ok (o : output QcNum) : shaped o stages n 2 -> exists d err, erk_error c o = Ret err /\ e_norm c d = Ret err /\ length d = n /\
  forall j, j < n -> cmp_ d j = (cmp_ (nth 0 (o_x2 o) []) j - cmp_ (nth 1 (o_x2 o) []) j)%Qc.
Proof.
  intros (Sk & Sx & Sb & Uk & Ux). unfold erk_error. rewrite NC. cbn [negb orb]. change (nT QcNum) with Qc in *.
  assert (SX : @length (list Qc) (o_x2 o) = 2) by exact Sx.
  rewrite (rd_ok (A:=list Qc) (o_x2 o) 0 []) by lia. cbn [obind]. rewrite (rd_ok (A:=list Qc) (o_x2 o) 1 []) by lia. cbn [obind].
  assert (L0 : length (nth 0 (o_x2 o) []) = n) by (apply Ux, nth_In; change (nT QcNum) with Qc; lia).
  assert (L1 : length (nth 1 (o_x2 o) []) = n) by (apply Ux, nth_In; change (nT QcNum) with Qc; lia).
  change (nT QcNum) with Qc in *. unfold lsub. rewrite (lzip_ok (N:=QcNum)) by (change (nT QcNum) with Qc; lia). cbn [obind].
  match goal with |- context [e_norm c ?d] => set (dd := d) end.
  assert (LD : @length Qc dd = n) by (unfold dd; rewrite map_length, seq_length; exact L0).
  destruct (NM dd LD) as (e & E). exists dd, e. rewrite E. split; [reflexivity|]. split; [reflexivity|]. split; [exact LD|].
  intros j J. unfold dd, cmp_. rewrite nth_map_seq by (change (nT QcNum) with Qc in *; lia). reflexivity.
Qed.
Lemma pass_ok (s s' : rkst QcNum W) (h err : Qc) acc (hend : Qc) trunc : rk_w s = w -> erk_ready stages n s -> passed (N:=QcNum) no_events f c s s' h err acc hend trunc ->
  erk_ready stages n s' /\ rk_w s' = w /\ trunc = false /\ exists y, es h (rk_t s) (rk_x s) y err /\
  if acc then rk_t s' = (rk_t s + h)%Qc /\ rk_x s' = y else unmoved s s'.
Proof.
  intros RW RD (w1 & o & log & next & F & ES & EC & ENx & EE & V & Q). destruct (init_shaped s RD) as (SH & _). cbn in ES. inversion ES; subst w1; clear ES. rewrite RW in EC, Q.
  destruct (compute_all (e_co c) stages n 2 (f w) (rk_x s) (rk_t s) h _ WF SC GR (proj1 RD) SH) as (o' & evals & EC' & SH' & TS & TR).
  change (nT QcNum) with Qc in *. rewrite EC in EC'. inversion EC'; subst o' log; clear EC'.
  assert (NX : next = nth (e_mode c) (o_x2 o) []).
  { pose proof SH' as (_ & Sx & _). assert (SX : @length (list Qc) (o_x2 o) = 2) by exact Sx. rewrite (rd_ok (A:=list Qc) (o_x2 o) (e_mode c) []) in ENx by lia. inversion ENx. reflexivity. }
  destruct (error_ok o SH') as (d & err' & E1 & E2 & E3 & E4). change (nT QcNum) with Qc in *. rewrite EE in E1. inversion E1; subst err'; clear E1.
  assert (ST : es h (rk_t s) (rk_x s) next err).
  { exists evals, (o_k o), (nth 0 (o_x2 o) []), (nth 1 (o_x2 o) []), d. split; [exact TS|]. split; [apply TR; lia|]. split; [apply TR; lia|].
    split; [rewrite NX; apply TR; exact MD|]. split; [split; assumption|exact E2]. }
  assert (LN : @length Qc next = n) by (rewrite NX; apply (TR _ MD)).
  destruct acc.
  - destruct Q as (er & x2s & Q1 & Q2 & Q3 & Q4). cbn in Q1. assert (RW' : w = rk_w s') by (inversion Q1; reflexivity). assert (ER : er = mkEvres (N:=QcNum) next (rk_t s + h)%Qc false None 0%Z) by (inversion Q1; reflexivity). subst er. cbn in Q3, Q4. rewrite <- RW' in Q3. rewrite Q3.
    unfold wr in Q2. destruct (_ <? _) in Q2; [|discriminate Q2]. inversion Q2; subst x2s; clear Q2.
    split; [|split; [reflexivity|split; [exact Q4|exists next; split; [exact ST|split; reflexivity]]]].
    split; [exact LN|]. right. split; [discriminate|]. destruct SH' as (Sk & Sx & Sb & Uk & Ux). split; [exact Sk|]. split; [exact (eq_trans (upd_length (A:=list Qc) (o_x2 o) (e_mode c) (rk_x s)) Sx)|].
    split; [exact Sb|]. split; [exact Uk|]. cbn [rk_out o_x2]. intros v IV. destruct (In_upd _ _ _ _ IV) as [->|IV']; [exact (proj1 RD)|exact (Ux _ IV')].
  - destruct Q as (-> & ->). cbn. split; [split; [exact (proj1 RD)|right; split; [discriminate|exact SH']]|]. split; [reflexivity|]. split; [reflexivity|]. exists next. split; [exact ST|split; reflexivity].
Qed.
Lemma no_fail (s s' : rkst QcNum W) r : rk_w s = w -> erk_ready stages n s -> erk_attempt (N:=QcNum) no_events f c s = (s', r) -> r <> AUb /\ r <> AThrow.
Proof.
  intros RW RD. destruct (init_shaped s RD) as (SH & h & FS). unfold erk_attempt. destruct (init_fields c s) as (I1 & I2 & I3 & I4). rewrite I1, I2, I3, I4, FS. cbn [ev_start no_events fail].
  destruct (compute_all (e_co c) stages n 2 (f w) (rk_x s) (rk_t s) h _ WF SC GR (proj1 RD) SH) as (o' & evals & EC' & SH' & TS & TR).
  change (nT QcNum) with Qc in *. rewrite RW, EC'. cbn [fail fst]. pose proof SH' as (_ & Sx & _). assert (SX : @length (list Qc) (o_x2 o') = 2) by exact Sx.
  rewrite (rd_ok (A:=list Qc) (o_x2 o') (e_mode c) []) by lia. cbn [fail].
  destruct (error_ok o' SH') as (d & err' & E1 & E2 & E3 & E4). change (nT QcNum) with Qc in *. rewrite E1. cbn [fail].
  destruct (if e_nocheck c then (h, true, false) else e_sc c h err') as [[h' acc] ch].
  rewrite (wr_ok (A:=list Qc) (o_x2 o') (e_mode c)) by lia. cbn [fail].
  intros E. destruct acc; cbn in E;
  repeat match type of E with context [if ?b then _ else _] => destruct b end; inversion E; split; discriminate.
Qed.
Theorem adaptive fuel : forall (s s' : rkst QcNum W) posts r, rk_w s = w -> erk_ready stages n s -> erk_step (N:=QcNum) no_events f c fuel s = (s', posts, r) ->
  erk_ready stages n s' /\ rk_w s' = w /\ sizes c (first_size c s) posts /\
  exists rejected, Forall (fun a => refused c a /\ exists y, es (pa_h a) (rk_t s) (rk_x s) y (pa_err a)) rejected /\
  match r with
  | Some (AAccepted a) => posts = rejected ++ [a] /\ pa_accepted a = true /\ pa_trunc a = false /\ verdict c (pa_h a) (pa_err a) = true /\
       rk_t s' = (rk_t s + pa_h a)%Qc /\ es (pa_h a) (rk_t s) (rk_x s) (rk_x s') (pa_err a)
  | Some ATooSmall => posts = rejected /\ exists h err y, es h (rk_t s) (rk_x s) y err /\ below_min c h err = true /\
       (if verdict c h err then rk_t s' = (rk_t s + h)%Qc /\ rk_x s' = y else unmoved s s')
  | None => posts = rejected /\ unmoved s s' /\ length posts = fuel
  | _ => False
  end.
Proof.
  induction fuel as [|k I]; intros s s' posts r RW RD E.
  - cbn in E. inversion E; subst. split; [exact RD|]. split; [reflexivity|]. split; [exact Logic.I|]. exists []. split; [constructor|]. split; [reflexivity|]. split; [split; reflexivity|reflexivity].
  - cbn in E. destruct (erk_attempt (N:=QcNum) no_events f c s) as [s1 t] eqn:EA. destruct (no_fail _ _ _ RW RD EA) as (NF1 & NF2). apply attempt_inv in EA. destruct t as [| | |a|a]; [congruence|congruence| | |].
    + inversion E; subst s' posts r. destruct EA as (h & err & acc & trunc & PA & BM). destruct (passed_verdict _ _ _ _ _ _ _ _ _ _ PA) as (V & F).
      destruct (pass_ok _ _ _ _ _ _ _ RW RD PA) as (R1 & R2 & _ & y & R3 & R4).
      split; [exact R1|]. split; [exact R2|]. split; [exact Logic.I|]. exists []. split; [constructor|]. split; [reflexivity|]. exists h, err, y. rewrite V. auto.
    + destruct EA as (PA & BM & A1 & A2). destruct (erk_step (N:=QcNum) no_events f c k s1) as [[s2 l] r2] eqn:ES. inversion E; subst posts s2 r2; clear E.
      destruct (pass_ok _ _ _ _ _ _ _ RW RD PA) as (R1 & R2 & _ & y & R3 & U1 & U2).
      destruct (I _ _ _ _ R2 R1 ES) as (Q1 & Q2 & SZ & rej & FR & M). pose proof (passed_first _ _ _ _ _ _ _ _ _ _ PA) as PF. destruct (passed_verdict _ _ _ _ _ _ _ _ _ _ PA) as (V & F).
      rewrite PF in SZ. rewrite U1, U2 in *. split; [exact Q1|]. split; [exact Q2|]. split; [cbn; auto|]. exists (a :: rej). split; [constructor; [split; [repeat split; assumption|eauto]|exact FR]|].
      destruct r as [[| | |b|b]|].
      * exact M.
      * exact M.
      * destruct M as (-> & h & err & z & M1 & M2 & M3). split; [reflexivity|]. exists h, err, z. split; [exact M1|]. split; [exact M2|].
        destruct (verdict c h err); [exact M3|destruct M3; split; congruence].
      * exact M.
      * destruct M as (-> & M). split; [reflexivity|exact M].
      * destruct M as (-> & (M1 & M2) & M3). split; [reflexivity|]. split; [split; congruence|cbn; congruence].
    + inversion E; subst s' posts r. destruct EA as (PA & BM & A1 & A2). destruct (passed_verdict _ _ _ _ _ _ _ _ _ _ PA) as (V & F).
      destruct (pass_ok _ _ _ _ _ _ _ RW RD PA) as (R1 & R2 & TR & y & R3 & U1 & U2).
      split; [exact R1|]. split; [exact R2|]. split; [cbn; auto|]. exists []. split; [constructor|]. split; [reflexivity|]. split; [exact A1|]. split; [exact TR|]. split; [exact V|]. split; [exact U1|]. rewrite U2. exact R3.
Qed.
End Ex.
Lemma set_ready {N W} (ev : events N W) t x (s : rkst N W) stages n : length x = n -> erk_ready stages n (erk_set ev t x s).
Proof. intros L. split; [exact L|left; reflexivity]. Qed.

(** * The number of attempts *)
Local Open Scope R_scope.
Theorem attempts_bounded {W : Type} (ev : events RNum W) f (c : erkcfg RNum) (rho : R) : 0 < e_hmin c -> 0 <= rho < 1 ->
  (forall h err, 0 < h -> verdict c h err = false -> snd (e_sc c h err) = true /\ fst (fst (e_sc c h err)) <= rho * h) ->
  forall k (s : rkst RNum W) h, first_size c s = Some h -> rho ^ k * h <= e_hmin c -> 0 < h ->
  exists r, snd (erk_step ev f c (S k) s) = Some r.
Proof.
  intros HM HR HS. induction k as [|k I]; intros s h F L H.
  - cbn. destruct (erk_attempt ev f c s) as [s1 t] eqn:EA. apply attempt_inv in EA. destruct t as [| | |a|a]; cbn; eauto. exfalso.
    destruct EA as (PA & BM & _). destruct (passed_verdict _ _ _ _ _ _ _ _ _ _ PA) as (V & F'). rewrite F in F'. inversion F'; subst h. destruct (HS _ _ H V) as (C1 & C2).
    unfold below_min, next_size in BM. unfold verdict in V. destruct (e_nocheck c); [discriminate|]. rewrite C1 in BM. cbn in BM. unfold Rleb in BM. destruct (Rle_dec _ _) as [|NL]; [discriminate|]. apply NL.
    cbn in *. nra.
  - change (erk_step ev f c (S (S k)) s) with (match erk_attempt ev f c s with
           | (s', ARejected a) => let '(s2, l, r) := erk_step ev f c (S k) s' in (s2, a :: l, r)
           | (s', AAccepted a) => (s', [a], Some (AAccepted a))
           | (s', r) => (s', [], Some r)
           end).
    destruct (erk_attempt ev f c s) as [s1 t] eqn:EA. apply attempt_inv in EA. destruct t as [| | |a|a]; cbn [snd]; eauto.
    destruct EA as (PA & BM & _). destruct (passed_verdict _ _ _ _ _ _ _ _ _ _ PA) as (V & F'). rewrite F in F'. inversion F'; subst h. destruct (HS _ _ H V) as (C1 & C2).
    pose proof (passed_first _ _ _ _ _ _ _ _ _ _ PA) as PF. set (h' := next_size c (pa_h a) (pa_err a)) in *.
    assert (H' : e_hmin c < h' /\ h' <= rho * pa_h a).
    { unfold below_min in BM. fold h' in BM. assert (EH : h' = fst (fst (e_sc c (pa_h a) (pa_err a)))). { unfold h', next_size. unfold verdict in V. destruct (e_nocheck c); [discriminate|]. rewrite C1. reflexivity. }
      split; [|rewrite EH; exact C2]. unfold verdict in V. destruct (e_nocheck c); [discriminate|]. rewrite C1 in BM. cbn in BM. unfold Rleb in BM. destruct (Rle_dec _ _) as [|NL]; [discriminate|]. apply Rnot_le_lt. exact NL. }
    destruct H' as (H1 & H2). destruct (I s1 h' PF) as (r & E).
    + apply Rle_trans with (rho ^ k * (rho * pa_h a)); [apply Rmult_le_compat_l; [apply pow_le; lra|exact H2]|]. cbn in L |- *. lra.
    + cbn in *. lra.
    + destruct (erk_step ev f c (S k) s1) as [[s2 l] r2]. cbn in E |- *. eauto.
Qed.
Theorem attempts_simple {W : Type} (ev : events RNum W) f (c : erkcfg RNum) (q : scset RNum) order (s : rkst RNum W) h :
  0 < e_hmin c -> sensible q -> e_sc c = (fun h err => controlR q h err order) -> first_size c s = Some h -> 0 < h ->
  exists fuel r, snd (erk_step ev f c fuel s) = Some r.
Proof.
  intros HM SQ ES F H.
  assert (HR : 0 <= shrink q < 1).
  { pose proof eps_range. destruct SQ as (S1 & S2 & S3 & S4 & S5 & S6 & S7 & S8). unfold shrink. split.
    - apply Rle_trans with (sc_decMax q); [exact S6|apply Rmax_r].
    - apply Rmax_lub_lt; [cbn in *; nra|exact S7]. }
  destruct (pow_lt_1_zero (shrink q) ltac:(rewrite Rabs_pos_eq; lra) (e_hmin c / h) ltac:(apply Rdiv_lt_0_compat; assumption)) as (k & K).
  exists (S k). apply (attempts_bounded ev f c (shrink q) HM HR) with (h := h); [|exact F| |exact H].
  - intros h0 err H0 V. unfold verdict in V. rewrite ES in *. destruct (e_nocheck c); [discriminate|]. cbn [orb] in V. destruct (rejected_step q h0 err order SQ H0 V) as (R1 & R2 & _). split; assumption.
  - specialize (K k (le_n k)). rewrite Rabs_pos_eq in K by (apply pow_le; lra). apply (Rmult_lt_compat_r h) in K; [|exact H]. unfold Rdiv in K. rewrite Rmult_assoc, Rinv_l in K by lra. rewrite Rmult_1_r in K. apply Rlt_le. exact K.
Qed.

(** * No undefined behaviour, in any arithmetic *)
Section Safe.
Context {N : Num} {W : Type} (ev : events N W) (f : W -> nT N -> list (nT N) -> Outcome (list (nT N))) (c : erkcfg N) (stages n : nat).
Hypothesis WF : wf_table (e_co c) stages 2.
Hypothesis EN : e_n c = n.
Hypothesis MD : (e_mode c < 2)%nat.
Hypothesis NM : forall d, length d = n -> e_norm c d <> UB.
Hypothesis GR : forall w, safe_rhs n (f w).
Hypothesis EV : (forall x t w, ev_start ev x t w <> UB) /\ (forall x y t w, length x = n -> length y = n -> ev_end ev x y t w <> UB).
Lemma init_shaped_gen (s : rkst N W) : erk_ready stages n s -> shaped (rk_out (erk_init c s)) stages n 2 /\ exists h, first_size c s = Some h.
Proof.
  intros (L & [E|(H & S)]).
  - unfold erk_init, first_size. rewrite E. cbn. split; [|eauto]. assert (LC : (length (co_c (e_co c)) + 1)%nat = stages) by apply WF. rewrite <- LC, EN. apply out_new_shaped.
  - assert (OE : out_is_empty (rk_out s) = false).
    { unfold out_is_empty. destruct S as [L' _]. assert (0 < stages)%nat by apply WF. destruct (o_k (rk_out s)); [simpl in L'; lia|reflexivity]. }
    unfold erk_init, first_size. rewrite OE. split; [exact S|]. destruct (rk_h s) as [h|]; [eauto|contradiction].
Qed.
Lemma fail_ub {A} (s s' : rkst N W) (o : Outcome A) k r : o <> UB -> (forall a, o = Ret a -> k a = (s', r) -> r <> AUb) -> fail s o k = (s', r) -> r <> AUb.
Proof. unfold fail. destruct o as [a| |]; intros H K E; [exact (K a eq_refl E)|inversion E; discriminate|contradiction]. Qed.
Lemma attempt_safe (s s' : rkst N W) r : erk_ready stages n s -> erk_attempt ev f c s = (s', r) -> r <> AUb /\ (forall a, r = ARejected a -> erk_ready stages n s').
Proof.
  intros RD E. destruct (init_shaped_gen s RD) as (SH & h & FS). split.
  - revert E. unfold erk_attempt. destruct (init_fields c s) as (I1 & I2 & I3 & I4). rewrite I1, I2, I3, I4, FS.
    apply fail_ub; [apply EV|]. intros w1 _.
    destruct (compute_safe (e_co c) stages n 2 (f w1) (rk_x s) (rk_t s) h WF (GR w1) (proj1 RD) _ SH) as [(o & log & EC & SO & _)|(EC & _)]; rewrite EC; [|cbn; intros E; inversion E; discriminate].
    cbn [fail fst]. destruct SO as (Sk & Sx & Sb & Uk & Ux). rewrite (rd_ok _ _ []) by lia. cbn [fail].
    assert (L0 : forall i, (i < 2)%nat -> length (nth i (o_x2 o) []) = n) by (intros i Hi; apply Ux, nth_In; lia).
    apply fail_ub.
    + unfold erk_error. destruct (negb (e_nocheck c) || e_force c); [|discriminate]. rewrite (rd_ok _ 0%nat []), (rd_ok _ 1%nat []) by lia. cbn [obind]. unfold lsub.
      rewrite lzip_ok by (rewrite !L0 by lia; lia). cbn [obind]. apply NM. rewrite map_length, seq_length. apply L0. lia.
    + intros err _. destruct (if e_nocheck c then (h, true, false) else e_sc c h err) as [[h' acc] ch]. destruct acc.
      * apply fail_ub; [apply EV; [apply RD|apply L0; exact MD]|]. intros [w2 er] _. rewrite wr_ok by lia. cbn [fail]. intros E. destruct (ch && _); inversion E; discriminate.
      * intros E. destruct (ch && _); inversion E; discriminate.
  - intros a ->. apply attempt_inv in E. destruct E as ((w1 & o & log & next & F & ES & EC & ENx & EE & V & Q) & _). rewrite F in FS. inversion FS; subst h.
    destruct (compute_safe (e_co c) stages n 2 (f w1) (rk_x s) (rk_t s) (pa_h a) WF (GR w1) (proj1 RD) _ SH) as [(o' & log' & EC' & SO & _)|(EC' & _)]; rewrite EC in EC'; [|discriminate].
    inversion EC'; subst o'. destruct Q as (-> & _). split; [apply RD|]. right. split; [discriminate|exact SO].
Qed.
Theorem step_safe fuel : forall (s s' : rkst N W) posts r, erk_ready stages n s -> erk_step ev f c fuel s = (s', posts, r) -> r <> Some AUb.
Proof.
  induction fuel as [|k I]; intros s s' posts r RD E; cbn in E; [inversion E; discriminate|].
  destruct (erk_attempt ev f c s) as [s1 t] eqn:EA. destruct (attempt_safe _ _ _ RD EA) as (A1 & A2). destruct t; try (inversion E; congruence).
  destruct (erk_step ev f c k s1) as [[s2 l] r2] eqn:ES. inversion E; subst. exact (I _ _ _ _ (A2 _ eq_refl) ES).
Qed.
End Safe.
