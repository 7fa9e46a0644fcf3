(** ImpFacts3.v - steps of the implicit alpha solver. *)
From Coq Require Import List Arith Bool ZArith QArith Qcanon Lia Qfield Permutation.
From Verif Require Import Base BaseFacts VecModel VOps MapModel MapSpec MapFacts NewtModel NewtSpec NewtFacts NewtFacts4 RkModel RkSpec RkFacts ExtModel ExtFacts ExtFacts5 ImpModel ImpSpec ImpFacts.
Import ListNotations.
Local Open Scope nat_scope.

Section Step.
Context {N : Num} {W P S : Type} (ev : events N W) (nw : newton N S) (c : icfg N W P).
Notation st := (ist N W P S).
Notation vec := (list (nT N)).

Lemma ifail_inv {A} (s : st) (o : Outcome A) k s' r : ifail s o k = (s', r) ->
  (exists a, o = Ret a /\ k a = (s', r)) \/ (o = Throw /\ s' = s /\ r = IThrow) \/ (o = UB /\ s' = s /\ r = IUb).
Proof. destruct o; cbn [ifail]; intros H; [left; eauto|right; left|right; right]; inversion H; auto. Qed.

(** What a step that returns did. *)
Definition done_step (s s' : st) (a : postarg N) : Prop :=
  let m := em_setStep (ic_h c) (i_map s) in
  exists xp pr1 w1 e0 e1 n2 w2 w3 n3 e2 X2 w4 er,
    (match ic_pred c with Some pr => pr (ndiv N (ic_h c) (nnat (ic_psteps c))) (em_t m) (em_x m) (ic_psteps c) (i_pr s, i_w s) | None => Ret (em_x m, (i_pr s, i_w s)) end) = Ret (xp, (pr1, w1)) /\
    em_eqn (ic_nd c) (ic_nf c) xp = Ret e0 /\ i_order c e0 = Ret e1 /\ nw_guess nw e1 (i_hard s) (i_nw s) = Ret n2 /\
    ic_before c (em_t m) (em_x m) w1 = Ret w2 /\ ev_start ev (em_x m) (em_t m) w2 = Ret w3 /\
    nw_run nw (i_vmapping c w3 m) n2 = Ret (n3, NConverged) /\
    i_unorder c (nw_sol nw n3) = Ret e2 /\ em_expand (ic_nd c) (ic_nf c) m e2 = Ret X2 /\
    ev_end ev (em_x m) X2 (nadd N (em_t m) (ic_h c)) w3 = Ret (w4, er) /\
    s' = mkI (em_setState (ev_t er) (ev_x er) m) false (if ev_trunc er then nw_reset nw n3 else n3) pr1 w4 /\
    a = mkPost (ic_h c) true false (ev_trunc er) (n0 N) (ev_izf er) (ev_type er).
Lemma step_inv s s' r : i_step ev nw c s = (s', r) ->
  match r with
  | IDone a => done_step s s' a
  | _ => i_map s' = em_setStep (ic_h c) (i_map s) /\ (forall stt, r = IFailed stt -> stt <> NConverged)
  end.
Proof.
  unfold i_step. cbv zeta. intros E.
  Ltac failcase := split; [reflexivity|discriminate].
  apply ifail_inv in E. destruct E as [([xp [pr1 w1]] & E1 & E)|[(_ & -> & ->)|(_ & -> & ->)]]; [|failcase|failcase].
  apply ifail_inv in E. destruct E as [(e0 & E2 & E)|[(_ & -> & ->)|(_ & -> & ->)]]; [|failcase|failcase].
  apply ifail_inv in E. destruct E as [(e1 & E3 & E)|[(_ & -> & ->)|(_ & -> & ->)]]; [|failcase|failcase].
  apply ifail_inv in E. destruct E as [(n2 & E4 & E)|[(_ & -> & ->)|(_ & -> & ->)]]; [|failcase|failcase].
  apply ifail_inv in E. destruct E as [(w2 & E5 & E)|[(_ & -> & ->)|(_ & -> & ->)]]; [|failcase|failcase].
  apply ifail_inv in E. destruct E as [(w3 & E6 & E)|[(_ & -> & ->)|(_ & -> & ->)]]; [|failcase|failcase].
  apply ifail_inv in E. destruct E as [([n3 stt] & E7 & E)|[(_ & -> & ->)|(_ & -> & ->)]]; [|failcase|failcase].
  destruct stt; try (inversion E; subst s' r; split; [reflexivity|intros ? Q; inversion Q; discriminate]).
  apply ifail_inv in E. destruct E as [(e2 & E8 & E)|[(_ & -> & ->)|(_ & -> & ->)]]; [|failcase|failcase].
  apply ifail_inv in E. destruct E as [(X2 & E9 & E)|[(_ & -> & ->)|(_ & -> & ->)]]; [|failcase|failcase].
  apply ifail_inv in E. destruct E as [([w4 er] & E10 & E)|[(_ & -> & ->)|(_ & -> & ->)]]; [|failcase|failcase].
  inversion E; subst s' r. unfold done_step. cbv zeta.
  exists xp, pr1, w1, e0, e1, n2, w2, w3, n3, e2, X2, w4, er. repeat (split; [assumption|]). split; reflexivity.
Qed.
(** Nothing visible changes unless the step is done. *)
Lemma all_or_nothing s s' r : i_step ev nw c s = (s', r) ->
  match r with
  | IDone a => exists w3 X2 w4 er, ev_end ev (em_x (i_map s)) X2 (nadd N (em_t (i_map s)) (ic_h c)) w3 = Ret (w4, er) /\
      em_t (i_map s') = ev_t er /\ em_x (i_map s') = ev_x er /\ a = mkPost (ic_h c) true false (ev_trunc er) (n0 N) (ev_izf er) (ev_type er)
  | _ => em_t (i_map s') = em_t (i_map s) /\ em_x (i_map s') = em_x (i_map s)
  end.
Proof.
  intros E. pose proof (step_inv s s' r E) as I. destruct r as [a|stt| |]; try (destruct I as [-> _]; split; reflexivity).
  destruct I as (xp & pr1 & w1 & e0 & e1 & n2 & w2 & w3 & n3 & e2 & X2 & w4 & er & _ & _ & _ & _ & _ & _ & _ & _ & _ & E1 & -> & ->).
  exists w3, X2, w4, er. repeat split. exact E1.
Qed.
(** Newton's verdict decides. *)
Lemma verdict s s' stt : i_step ev nw c s = (s', IFailed stt) ->
  stt <> NConverged /\ exists g n2 n3, nw_run nw g n2 = Ret (n3, stt).
Proof.
  intros E. pose proof (step_inv s s' _ E) as [_ Q]. split; [apply (Q stt eq_refl)|]. unfold i_step in E. cbv zeta in E.
  repeat (apply ifail_inv in E; destruct E as [(? & ? & E)|[(_ & _ & E)|(_ & _ & E)]]; try discriminate E;
    repeat match type of E with (let (_, _) := ?z in _) = _ => destruct z | (match ?z with pair _ _ => _ end) = _ => destruct z end).
  all: match type of E with (match ?z with _ => _ end) = _ => destruct z end; try (inversion E; subst; eauto; fail).
  repeat (apply ifail_inv in E; destruct E as [(? & ? & E)|[(_ & _ & E)|(_ & _ & E)]]; try discriminate E;
    repeat match type of E with (let (_, _) := ?z in _) = _ => destruct z | (match ?z with pair _ _ => _ end) = _ => destruct z end); discriminate E.
Qed.

(** Never undefined with safe components. *)
Ltac lens := repeat (progress rewrite ?app_length, ?map_length, ?seq_length, ?firstn_length, ?skipn_length, ?lscale_length).
Lemma expand_total (m : emap N) x nd nf : length (em_x m) = 2 * nd + nf -> length x = nd + nf ->
  exists X1, em_expand nd nf m x = Ret X1 /\ length X1 = 2 * nd + nf.
Proof.
  intros L0 L. unfold em_expand. rewrite L, Nat.eqb_refl. cbn [negb]. rewrite lblk_ok by lia. cbn [obind].
  unfold ladd. rewrite lzip_ok by (lens; lia). cbn [obind].
  rewrite lzip_ok by (lens; lia). cbn [obind].
  eexists. split; [reflexivity|]. lens. lia.
Qed.
Lemma map_total nd nf (f : nT N -> vec -> Outcome vec) (m : emap N) x : length (em_x m) = 2 * nd + nf -> em_valid m = false ->
  (forall t x, length x = 2 * nd + nf -> f t x = Throw \/ exists y, f t x = Ret y /\ length y = 2 * nd + nf) -> length x = nd + nf ->
  em_map nd nf f x m = Throw \/ exists y m', em_map nd nf f x m = Ret (y, m') /\ length y = nd + nf.
Proof.
  intros L0 V F L. unfold em_map, em_prepare. rewrite V. destruct (F (em_t m) (em_x m) L0) as [E|(k & E & Lk)]; rewrite E; cbn [obind]; [left; reflexivity|].
  destruct (expand_total m x nd nf L0 L) as (X1 & EX & LX). unfold em_expand in *. cbn [em_x em_h em_alpha em_t em_f0]. rewrite EX. cbn [obind].
  destruct (F (nadd N (em_t m) (em_h m)) X1 LX) as [E2|(k2 & E2 & Lk2)]; rewrite E2; cbn [obind]; [left; reflexivity|]. right.
  unfold lsub, ladd. rewrite lzip_ok by (lens; lia). cbn [obind].
  rewrite lzip_ok by (lens; lia). cbn [obind].
  rewrite lzip_ok by (lens; lia). cbn [obind].
  eexists. eexists. split; [reflexivity|]. lens. lia.
Qed.
Lemma vmapping_total w (m : emap N) : i_safe ev nw c -> length (em_x m) = n_vars c -> em_valid m = false ->
  forall x, length x = inSize (i_vmapping c w m) -> mapf (i_vmapping c w m) x = Throw \/ exists y, mapf (i_vmapping c w m) x = Ret y /\ length y = outSize (i_vmapping c w m).
Proof.
  intros (SR & _ & _ & SO & _) L0 V x. unfold i_vmapping.
  assert (BASE : forall x, length x = ic_nd c + ic_nf c -> mapf (em_vmapping (ic_nd c) (ic_nf c) (ic_rhs c w) m) x = Throw \/
    exists y, mapf (em_vmapping (ic_nd c) (ic_nf c) (ic_rhs c w) m) x = Ret y /\ length y = ic_nd c + ic_nf c).
  { intros z Lz. cbn [mapf em_vmapping]. destruct (map_total (ic_nd c) (ic_nf c) (ic_rhs c w) m z L0 V (SR w) Lz) as [E|(y & m' & E & Ly)]; rewrite E; cbn [obind]; [left; reflexivity|right; eauto]. }
  destruct (ic_ord c) as [o|] eqn:EO; cbn [inSize outSize mapf em_vmapping].
  - intros Lx. destruct (SO o eq_refl) as [P1 P2]. unfold reord_map, unorderInput, orderOutput. cbn [inOrd outOrd rmap].
    destruct (perm_bounds _ _ P1) as [LO [ND B]]. destruct (perm_bounds _ _ P2) as [LO2 [ND2 B2]].
    destruct (unorder_ok (n0 N) (fst o) [] x) as [u [E [LU _]]]; [intros i I; apply B in I; lia|lia|]. rewrite E. cbn [obind].
    destruct (BASE u) as [E2|(y & E2 & Ly)]; [lia|rewrite E2; left; reflexivity|]. rewrite E2. cbn [obind]. right.
    rewrite (order_ok (n0 N)) by (intros i I; apply B2 in I; lia). eexists. split; [reflexivity|]. unfold pick. rewrite map_length. exact LO2.
  - exact (BASE x).
Qed.
Lemma step_defined s s' r : i_safe ev nw c -> length (em_x (i_map s)) = n_vars c -> i_step ev nw c s = (s', r) ->
  r <> IUb /\ length (em_x (i_map s')) = n_vars c.
Proof.
  intros SF L E. pose proof SF as (SR & SB & SP & SO & SG & SN & SE1 & SE2).
  assert (LEN : length (em_x (i_map s')) = n_vars c).
  { pose proof (step_inv s s' _ E) as I. destruct r as [a'|?| |].
    - destruct I as (xp & pr1 & w1 & e0 & e1 & n2 & w2 & w3 & n3 & e2 & X2 & w4 & er & _ & _ & _ & _ & _ & _ & _ & _ & E1 & E2 & -> & _).
      cbn [i_map em_setState em_x]. destruct (expand_total (em_setStep (ic_h c) (i_map s)) e2 (ic_nd c) (ic_nf c)) as (X & EX & LX); [exact L| |].
      { unfold em_expand in E1. destruct (length e2 =? ic_nd c + ic_nf c) eqn:Q2; [apply Nat.eqb_eq in Q2; exact Q2|discriminate E1]. }
      rewrite EX in E1. inversion E1; subst X2. destruct (SE2 _ _ (nadd N (em_t (em_setStep (ic_h c) (i_map s))) (ic_h c)) w3 L LX) as [Q3|(w5 & er' & Q3 & Q4)];
        cbn [em_setStep em_x em_t] in *; rewrite Q3 in E2; [discriminate E2|]. inversion E2; subst. exact Q4.
    - destruct I as [-> _]. exact L.
    - destruct I as [-> _]. exact L.
    - destruct I as [-> _]. exact L. }
  split; [|exact LEN]. clear LEN. intros ->. unfold i_step in E. cbv zeta in E.
  apply ifail_inv in E. destruct E as [([xp [pr1 w1]] & E1 & E)|[(_ & _ & E)|(E1 & _)]]; [|discriminate E|].
  2:{ destruct (ic_pred c) as [pr|] eqn:EP; [|discriminate E1]. cbn [em_setStep em_t em_x] in E1.
      destruct (SP pr eq_refl (ndiv N (ic_h c) (nnat (ic_psteps c))) (em_t (i_map s)) (em_x (i_map s)) (ic_psteps c) (i_pr s, i_w s) L) as [Q|(y & q' & Q & _)]; rewrite Q in E1; discriminate E1. }
  assert (LP : length xp = n_vars c).
  { destruct (ic_pred c) as [pr|] eqn:EP; cbn [em_setStep em_t em_x] in E1; [|inversion E1; subst; exact L].
    destruct (SP pr eq_refl (ndiv N (ic_h c) (nnat (ic_psteps c))) (em_t (i_map s)) (em_x (i_map s)) (ic_psteps c) (i_pr s, i_w s) L) as [Q|(y & q' & Q & LY)]; rewrite Q in E1; [discriminate E1|].
    inversion E1; subst; exact LY. }
  unfold n_vars in *.
  apply ifail_inv in E. destruct E as [(e0 & E2 & E)|[(_ & _ & E)|(E2 & _)]]; [|discriminate E|unfold em_eqn in E2; rewrite lblk_ok in E2 by lia; discriminate E2].
  unfold em_eqn in E2. rewrite lblk_ok in E2 by lia. inversion E2; subst e0. clear E2.
  assert (LE : length (firstn (ic_nd c + ic_nf c) (skipn (ic_nd c) xp)) = ic_nd c + ic_nf c) by (rewrite firstn_length, skipn_length; lia).
  apply ifail_inv in E. destruct E as [(e1 & E3 & E)|[(_ & _ & E)|(E3 & _)]]; [|discriminate E|].
  2:{ unfold i_order in E3. destruct (ic_ord c) as [o|] eqn:EO; [|discriminate E3]. destruct (SO o eq_refl) as [P1 _]. destruct (perm_bounds _ _ P1) as [LO [ND B]].
      rewrite (order_ok (n0 N)) in E3 by (intros i I; apply B in I; lia). discriminate E3. }
  apply ifail_inv in E. destruct E as [(n2 & E4 & E)|[(_ & _ & E)|(E4 & _)]]; [|discriminate E|exact (SG _ _ _ E4)].
  apply ifail_inv in E. destruct E as [(w2 & E5 & E)|[(_ & _ & E)|(E5 & _)]]; [|discriminate E|exact (SB _ _ _ E5)].
  apply ifail_inv in E. destruct E as [(w3 & E6 & E)|[(_ & _ & E)|(E6 & _)]]; [|discriminate E|exact (SE1 _ _ _ L E6)].
  assert (SZ : inSize (i_vmapping c w3 (em_setStep (ic_h c) (i_map s))) = ic_nd c + ic_nf c /\ outSize (i_vmapping c w3 (em_setStep (ic_h c) (i_map s))) = ic_nd c + ic_nf c)
    by (unfold i_vmapping; destruct (ic_ord c); split; reflexivity).
  pose proof (SN (i_vmapping c w3 (em_setStep (ic_h c) (i_map s))) n2 (proj1 SZ) (proj2 SZ) (vmapping_total w3 (em_setStep (ic_h c) (i_map s)) SF L eq_refl)) as RUN.
  apply ifail_inv in E. destruct E as [([n3 stt] & E7 & E)|[(_ & _ & E)|(E7 & _)]]; [|discriminate E|destruct RUN as [RUN|(? & ? & RUN & _)]; rewrite RUN in E7; discriminate E7].
  destruct RUN as [RUN|(s1 & st1 & RUN & LS)]; rewrite RUN in E7; [discriminate E7|]. inversion E7; subst s1 st1.
  destruct stt; try discriminate E. specialize (LS eq_refl).
  apply ifail_inv in E.
  assert (UO : exists e2, i_unorder c (nw_sol nw n3) = Ret e2 /\ length e2 = ic_nd c + ic_nf c).
  { unfold i_unorder. destruct (ic_ord c) as [o|] eqn:EO; [|eauto]. destruct (SO o eq_refl) as [P1 _]. destruct (perm_bounds _ _ P1) as [LO [ND B]].
    destruct (unorder_ok (n0 N) (fst o) [] (nw_sol nw n3)) as [u [Q1 [Q2 _]]]; [intros i I; apply B in I; lia|lia|]. exists u. split; [exact Q1|lia]. }
  destruct UO as (e2 & UO & LU). rewrite UO in E. destruct E as [(e2' & E8 & E)|[(E8 & _)|(E8 & _)]]; [|discriminate E8|discriminate E8]. inversion E8; subst e2'.
  destruct (expand_total (em_setStep (ic_h c) (i_map s)) e2 (ic_nd c) (ic_nf c) L LU) as (X2 & EX & LX).
  apply ifail_inv in E. rewrite EX in E. destruct E as [(X2' & E9 & E)|[(E9 & _)|(E9 & _)]]; [|discriminate E9|discriminate E9]. inversion E9; subst X2'.
  apply ifail_inv in E. destruct E as [([w4 er] & E10 & E)|[(_ & _ & E)|(E10 & _)]]; [discriminate E|discriminate E|].
  destruct (SE2 _ _ (nadd N (em_t (em_setStep (ic_h c) (i_map s))) (ic_h c)) w3 L LX) as [Q3|(w5 & er' & Q3 & Q4)]; cbn [em_setStep em_x em_t] in *; rewrite Q3 in E10; discriminate E10.
Qed.
End Step.
