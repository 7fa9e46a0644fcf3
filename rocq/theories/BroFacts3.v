(** BroFacts3.v - histories of calls of the Broyden and the pattern-preserving Broyden directions. *)
From Coq Require Import List Arith Bool QArith Qcanon Lia Lqa Qfield.
From Verif Require Import Base BaseFacts SMap SpModel SpSpec SpFacts SpFacts2 SpFacts3 SpFacts4 MapModel JacModel JacSpec JacFacts VecModel VOps
  LUModel LUSpec LUFacts LUFacts2 LUFacts3 LUFacts4 LUFacts5 NewtModel NewtSpec NewtFacts NewtFacts2 NewtFacts4 RkSpec ImpFacts BroModel BroSpec BroFacts BroFacts2.
Import ListNotations.
Local Open Scope nat_scope.

Lemma mapply_B n A B s i : i < n -> (forall i j, i < n -> j < n -> A i j = B i j) -> mapply n A s i = mapply n B s i.
Proof. intros Hi E. apply mapply_extm. auto. Qed.
Lemma broyden_next_ext n e e' A B s y i j : i < n -> j < n -> (forall i j, i < n -> j < n -> A i j = B i j) -> broyden_next n e A s y i j = broyden_next n e' B s y i j.
Proof. intros Hi Hj E. unfold broyden_next. rewrite E by assumption. rewrite (mapply_B n A B s i Hi E). reflexivity. Qed.
Lemma lead_ext n A B : (forall i j, i < n -> j < n -> A i j = B i j) -> leading_nonsingular n A -> leading_nonsingular n B.
Proof.
  intros E H k Hk x Hx. apply (H k Hk x). intros r Hr. rewrite <- (Hx r Hr). apply qsum_ext. intros c Hc. rewrite E by lia. reflexivity.
Qed.
Lemma good_keys n e e' : map fst e = map fst e' -> good_pattern n e -> good_pattern n e'.
Proof.
  intros K [NE [[A1 A2] SC]].
  assert (ST : forall r c, stored e r c <-> stored e' r c) by (intros; apply (stored_keys e e'); exact K).
  split; [destruct e, e'; cbn in K; congruence|]. split; [split|].
  - intros r c H. apply A1, ST, H.
  - intros i Hi. destruct (A2 i Hi) as [[c [X1 X2]] [r [Y1 Y2]]]. split; [exists c; split; [apply ST; exact X1|exact X2]|exists r; split; [apply ST; exact Y1|exact Y2]].
  - intros r c H [r' [X1 X2]]. destruct (SC r c H) as [c' [Z1 Z2]]. { exists r'. split; [exact X1|]. apply ST. exact X2. }
    exists c'. split; [exact Z1|]. apply ST. exact Z2.
Qed.
Lemma newton_neg n A (x : list Qc) (f : list Qc) B : (forall i j, i < n -> j < n -> A i j = B i j) -> length x = n -> solves n A (vfun x) (vfun f) ->
  newton_like n (B, f) (lscale (N:=QcNum) x (Qcopp 1)).
Proof.
  intros E L S. split; [exact (eq_trans (lscale_length (N:=QcNum) x _) L)|]. cbn [fst snd].
  apply (solves_scale n _ _ _ (- (1))%Qc) in S. intros r Hr. specialize (S r Hr). cbv beta in S.
  transitivity (vfun f r * - (1))%Qc; [|ring]. rewrite <- S. apply qsum_ext. intros c Hc. cbv beta. rewrite (vfun_scale x _ c), E by assumption. reflexivity.
Qed.

(** The provider's matrix has the elements B and the pattern e. *)
Definition matches (n : nat) (J : smat QcNum) (B : matrix) (e : entries_) : Prop :=
  square n J /\ map fst (sdat J) = map fst e /\ (forall i j, i < n -> j < n -> mval (sdat J) i j = B i j) /\ good_pattern n e.
Definition upd_ok (n : nat) (next : entries_ -> matrix -> (nat -> Qc) -> (nat -> Qc) -> matrix)
    (u : smat QcNum -> list Qc -> list Qc -> list Qc -> list Qc -> Outcome (smat QcNum)) : Prop :=
  forall J B e x f xp fp B', matches n J B e -> length x = n -> length f = n -> length xp = n -> length fp = n -> x <> xp ->
    (forall i j, i < n -> j < n -> B' i j = next e B (vdiff x xp) (vdiff f fp) i j) ->
    (forall i j, i < n -> j < n -> B' i j <> B i j -> stored e i j) ->
    exists J', u J x f xp fp = Ret J' /\ matches n J' B' e.
Definition bro_u (n : nat) (J : smat QcNum) (x f xp fp : list Qc) : Outcome (smat QcNum) :=
  r <- secant_parts (N:=QcNum) J x f xp fp ;; broyden_elems (N:=QcNum) (length x) (snd r) (fst r) J.
Definition fake_u (J : smat QcNum) (x f xp fp : list Qc) : Outcome (smat QcNum) :=
  r <- secant_parts (N:=QcNum) J x f xp fp ;; fake_elems (N:=QcNum) (snd r) (fst r) J.

Lemma bro_upd_ok n : upd_ok n (broyden_next n) (bro_u n).
Proof.
  intros J B e x f xp fp B' [SQ [K [V G]]] Lx Lf Lxp Lfp D HB HC. unfold bro_u.
  destruct (secant_parts_ok n J x f xp fp SQ Lx Lf Lxp Lfp) as [dx [left [E [L1 [L2 [V1 V2]]]]]]. rewrite E. cbn [obind fst snd].
  assert (V3 : forall i, i < n -> vfun left i = ((vdiff f fp i - mapply n B (vdiff x xp) i) / normsq n (vdiff x xp))%Qc).
  { intros i Hi. rewrite (V2 i Hi). rewrite (mapply_B n _ B _ i Hi V). reflexivity. }
  rewrite Lx. destruct (broyden_elems_ok n J left dx SQ L2 L1) as [J' [E' [SK V']]].
  { intros i j Hi Hj NZ. apply (stored_keys (sdat J) e i j K). apply HC; auto. rewrite HB by assumption. unfold broyden_next.
    rewrite <- (V3 i Hi), <- (V1 j). intros X. apply NZ. revert X. generalize (vfun left i * vfun dx j)%Qc. intros z X. clear - X. qclra. }
  exists J'. split; [exact E'|]. split; [eapply same_keys_square; eassumption|]. split; [rewrite <- K; apply SK|]. split; [|exact G].
  intros i j Hi Hj. rewrite (V' i j Hi Hj), (V i j Hi Hj), HB by assumption. unfold broyden_next. rewrite (V3 i Hi), (V1 j). reflexivity.
Qed.
Lemma fake_upd_ok n : upd_ok n (fake_next n) fake_u.
Proof.
  intros J B e x f xp fp B' [SQ [K [V G]]] Lx Lf Lxp Lfp D HB HC. unfold fake_u.
  destruct (secant_parts_ok n J x f xp fp SQ Lx Lf Lxp Lfp) as [dx [left [E [L1 [L2 [V1 V2]]]]]]. rewrite E. cbn [obind fst snd].
  assert (V3 : forall i, i < n -> vfun left i = ((vdiff f fp i - mapply n B (vdiff x xp) i) / normsq n (vdiff x xp))%Qc).
  { intros i Hi. rewrite (V2 i Hi). rewrite (mapply_B n _ B _ i Hi V). reflexivity. }
  destruct (fake_elems_ok n J left dx SQ L2 L1) as [J' [E' [SK V']]].
  exists J'. split; [exact E'|]. split; [eapply same_keys_square; eassumption|]. split; [rewrite <- K; apply SK|]. split; [|exact G].
  intros i j Hi Hj. rewrite (V' i j), (V i j Hi Hj), HB by assumption. unfold fake_next, broyden_next. rewrite (storedb_keys _ e i j K).
  destruct (storedb e i j); [|ring]. rewrite (V3 i Hi), (V1 j). reflexivity.
Qed.

Lemma qn_dir_inv n next J0 keep x f it t Bo prev q : qn_run n next J0 keep (DDir x f it :: t) Bo prev q ->
  length x = n /\ length f = n /\
  ((Bo = None /\ exists q', q = (mval (J0 x), f) :: q' /\ leading_nonsingular n (mval (J0 x)) /\ qn_run n next J0 keep t (Some (mval (J0 x), J0 x)) (Some (x, f)) q') \/
   (exists B e q', Bo = Some (B, e) /\ prev = None /\ q = (B, f) :: q' /\ leading_nonsingular n B /\ qn_run n next J0 keep t (Some (B, e)) (Some (x, f)) q') \/
   (exists B e xp fp B' q', Bo = Some (B, e) /\ prev = Some (xp, fp) /\ q = (B', f) :: q' /\ x <> xp /\
      (forall i j, i < n -> j < n -> B' i j = next e B (vdiff x xp) (vdiff f fp) i j) /\
      (forall i j, i < n -> j < n -> B' i j <> B i j -> stored e i j) /\
      leading_nonsingular n B' /\ qn_run n next J0 keep t (Some (B', e)) (Some (x, f)) q')).
Proof.
  intros R. inversion R; split; try assumption; split; try assumption.
  - left. split; [reflexivity|]. eexists. repeat split; eauto.
  - right. left. do 3 eexists. repeat split; eauto.
  - right. right. do 6 eexists. repeat split; eauto.
Qed.

Section Hist.
Context {P : Type} (jp : jprov P) (n : nat) (J0 : list Qc -> entries_) (keep : bool).
Hypothesis PR : provides jp n J0 keep (when_empty jp).
Let Hset := proj1 PR.
Let Hhard := proj1 (proj2 PR).
Let Hcomp := proj1 (proj2 (proj2 PR)).
Let Hgood := proj2 (proj2 (proj2 PR)).

(** the state of the direction object against the reference *)
Definition binv (s : bst P) (Bo : option (matrix * entries_)) (prev : option (list Qc * list Qc)) : Prop :=
  match Bo with None => mat_empty (jp_J jp (b_p s)) = true | Some (B, e) => matches n (jp_J jp (b_p s)) B e end /\
  match prev with None => b_have s = false | Some (xp, fp) => b_have s = true /\ b_xp s = xp /\ b_fp s = fp /\ length xp = n /\ length fp = n end.
Lemma matches_nonempty J B e : matches n J B e -> mat_empty J = false.
Proof.
  intros [_ [K [_ [NE _]]]]. unfold mat_empty. destruct (sdat J) eqn:E; [|reflexivity]. destruct e; [congruence|cbn in K; congruence].
Qed.
Lemma computed_matches x p : length x = n -> mat_empty (jp_J jp p) = true ->
  exists p', jp_compute jp x p = Ret p' /\ matches n (jp_J jp p') (mval (J0 x)) (J0 x).
Proof.
  intros L M. destruct (Hcomp x p L M) as [p' [E [D SQ]]]. exists p'. split; [exact E|]. split; [exact SQ|]. split; [rewrite D; reflexivity|].
  split; [intros; rewrite D; reflexivity|]. apply Hgood. exact L.
Qed.
(** the first part of a direction computation: the matrix used *)
Definition front (u : smat QcNum -> list Qc -> list Qc -> list Qc -> list Qc -> Outcome (smat QcNum)) (s : bst P) (x0 f0 : list Qc) : Outcome (P * smat QcNum) :=
  let recalc := mat_empty (jp_J jp (b_p s)) in
  p <- (if recalc then jp_compute jp x0 (b_p s) else Ret (b_p s)) ;;
  J <- (if negb recalc && b_have s then u (jp_J jp p) x0 f0 (b_xp s) (b_fp s) else Ret (jp_J jp p)) ;;
  Ret (p, J).
Lemma bro_front x f it s : bro_dir jp x f it s = (a <- front (bro_u n) s x f ;; lu <- setMatrix (sdat (snd a)) ;; r <- lu_direction lu f ;;
  Ret (fst r, mkB (jp_set jp (fst a) (snd a)) (b_lu s) x f true)).
Proof.
  unfold bro_dir, front, bro_u. destruct (if mat_empty (jp_J jp (b_p s)) then jp_compute jp x (b_p s) else Ret (b_p s)); cbn [obind]; try reflexivity.
  destruct (negb (mat_empty (jp_J jp (b_p s))) && b_have s); cbn [obind fst snd]; [|reflexivity].
  destruct (secant_parts (N:=QcNum) (jp_J jp a) x f (b_xp s) (b_fp s)) as [q| |]; cbn [obind]; try reflexivity.
  destruct (broyden_elems (N:=QcNum) (length x) (snd q) (fst q) (jp_J jp a)); reflexivity.
Qed.
Lemma fake_front x f it s : fake_dir jp x f it s = (a <- front fake_u s x f ;;
  lu <- (if lu_is_empty (b_lu s) then setMatrix (sdat (snd a)) else setMatrixFast (b_lu s) (sdat (snd a))) ;; r <- lu_direction lu f ;;
  Ret (fst r, mkB (jp_set jp (fst a) (snd a)) (snd r) x f true)).
Proof.
  unfold fake_dir, front, fake_u. destruct (if mat_empty (jp_J jp (b_p s)) then jp_compute jp x (b_p s) else Ret (b_p s)); cbn [obind]; try reflexivity.
  destruct (negb (mat_empty (jp_J jp (b_p s))) && b_have s); cbn [obind fst snd]; [|reflexivity].
  destruct (secant_parts (N:=QcNum) (jp_J jp a) x f (b_xp s) (b_fp s)) as [q| |]; cbn [obind]; try reflexivity.
  destruct (fake_elems (N:=QcNum) (snd q) (fst q) (jp_J jp a)); reflexivity.
Qed.
Lemma front_ok next u x f it t s Bo prev q : upd_ok n next u -> binv s Bo prev -> qn_run n next J0 keep (DDir x f it :: t) Bo prev q ->
  exists a B e q', front u s x f = Ret a /\ q = (B, f) :: q' /\ matches n (snd a) B e /\ leading_nonsingular n B /\ length x = n /\ length f = n /\
    qn_run n next J0 keep t (Some (B, e)) (Some (x, f)) q'.
Proof.
  intros U [IB IP] R. unfold front. apply qn_dir_inv in R. destruct R as [Lx [Lf R]].
  destruct R as [[-> [q' [-> [NS R]]]]|[[B [e [q' [-> [-> [-> [NS R]]]]]]]|[B [e [xp [fp [B' [q' [-> [-> [-> [D [H1 [H2 [NS R]]]]]]]]]]]]]]].
  - rewrite IB. destruct (computed_matches x (b_p s) Lx IB) as [p' [E M]]. rewrite E. cbn [negb andb obind].
    do 4 eexists. split; [reflexivity|]. split; [reflexivity|]. cbn [snd]. split; [exact M|]. repeat split; auto.
  - rewrite (matches_nonempty _ _ _ IB). rewrite IP. cbn [negb andb obind].
    do 4 eexists. split; [reflexivity|]. split; [reflexivity|]. cbn [snd]. split; [exact IB|]. repeat split; auto.
  - destruct IP as [P1 [P2 [P3 [P4 P5]]]]. rewrite (matches_nonempty _ _ _ IB). rewrite P1, P2, P3. cbn [negb andb obind].
    destruct (U _ B e x f xp fp B' IB Lx Lf P4 P5 D H1 H2) as [J' [E M]]. rewrite E. cbn [obind].
    do 4 eexists. split; [reflexivity|]. split; [reflexivity|]. cbn [snd]. split; [exact M|]. repeat split; auto.
Qed.
Lemma solve_matches s J B e f : dd_inv n s -> matches n J B e -> leading_nonsingular n B -> length f = n ->
  exists s1 s2 x, (if lu_is_empty s then setMatrix (sdat J) else setMatrixFast s (sdat J)) = Ret s1 /\ lu_direction s1 f = Ret (x, s2) /\
    newton_like n (B, f) x /\ dd_inv n s2.
Proof.
  intros I [SQ [K [V G]]] NS L. pose proof SQ as [F [SZ [RM ST]]].
  assert (G' : good_pattern n (sdat J)) by (apply (good_keys n e); auto).
  destruct (set_and_solve n s (sdat J) f I (row_major_distinct _ RM) (proj1 (proj2 G')) (lead_ext n B (mval (sdat J)) ltac:(intros; symmetry; auto) NS) (proj2 (proj2 G')) L)
    as [s1 [s2 [x [E1 [E2 [Lx [SX I2]]]]]]].
  exists s1, s2. eexists. split; [exact E1|]. unfold lu_direction. rewrite E2. cbn [obind fst snd]. split; [reflexivity|]. split; [|exact I2].
  apply (newton_neg n (mval (sdat J)) x f B); auto.
Qed.
Lemma reset_binv s (hard : bool) (lu' : LUModel.lu) Bo prev : binv s Bo prev ->
  binv (mkB (if hard then jp_hard jp (b_p s) else b_p s) lu' (b_xp s) (b_fp s) false) (if hard && negb keep then None else Bo) None.
Proof.
  intros [IB IP]. split; [|reflexivity]. cbn [b_p]. destruct hard; cbn [andb].
  - specialize (Hhard (b_p s)). destruct keep; cbn [negb].
    + rewrite Hhard. exact IB.
    + exact Hhard.
  - exact IB.
Qed.
Lemma next_binv (a : P * smat QcNum) x f (lu' : LUModel.lu) B e : matches n (snd a) B e -> length x = n -> length f = n ->
  binv (mkB (jp_set jp (fst a) (snd a)) lu' x f true) (Some (B, e)) (Some (x, f)).
Proof. intros M Lx Lf. split; cbn; [rewrite Hset; exact M|repeat split; auto]. Qed.
Lemma bro_hist_gen : forall h s Bo prev q, binv s Bo prev -> qn_run n (broyden_next n) J0 keep h Bo prev q ->
  exists ds s', dhist (bro_dd jp) h s = Ret (ds, s') /\ Forall2 (newton_like n) q ds.
Proof.
  induction h as [|ev h I]; intros s Bo prev q IV R.
  - inversion R; subst. exists [], s. split; [reflexivity|constructor].
  - destruct ev as [hard|x f it|ok].
    + inversion R; subst. cbn [dhist bro_dd dd_reset]. eapply I; [|eassumption]. apply (reset_binv s hard (b_lu s) Bo prev IV).
    + destruct (front_ok _ _ x f it h s Bo prev q (bro_upd_ok n) IV R) as [a [B [e [q' [E [-> [M [NS [Lx [Lf R']]]]]]]]]].
      cbn [dhist bro_dd dd_dir]. rewrite bro_front, E. cbn [obind].
      destruct (solve_matches lu_empty (snd a) B e f (or_introl eq_refl) M NS Lf) as [s1 [s2 [d [E1 [E2 [ND _]]]]]].
      change (lu_is_empty lu_empty) with true in E1. cbv iota in E1. rewrite E1. cbn [obind]. rewrite E2. cbn [obind fst snd].
      destruct (I _ _ _ _ (next_binv a x f (b_lu s) B e M Lx Lf) R') as [ds [s' [E3 F]]]. rewrite E3. cbn [obind fst snd].
      exists (d :: ds), s'. split; [reflexivity|]. constructor; assumption.
    + inversion R; subst. cbn [dhist bro_dd dd_report]. eapply I; eassumption.
Qed.
Lemma fake_hist_gen : forall h s Bo prev q, binv s Bo prev -> dd_inv n (b_lu s) -> qn_run n (fake_next n) J0 keep h Bo prev q ->
  exists ds s', dhist (fake_dd jp) h s = Ret (ds, s') /\ Forall2 (newton_like n) q ds.
Proof.
  induction h as [|ev h I]; intros s Bo prev q IV DI R.
  - inversion R; subst. exists [], s. split; [reflexivity|constructor].
  - destruct ev as [hard|x f it|ok].
    + inversion R; subst. cbn [dhist fake_dd dd_reset]. eapply I; [| |eassumption]. apply (reset_binv s hard _ Bo prev IV).
      cbn [fake_reset b_lu]. destruct hard; [left; reflexivity|exact DI].
    + destruct (front_ok _ _ x f it h s Bo prev q (fake_upd_ok n) IV R) as [a [B [e [q' [E [-> [M [NS [Lx [Lf R']]]]]]]]]].
      cbn [dhist fake_dd dd_dir]. rewrite fake_front, E. cbn [obind].
      destruct (solve_matches (b_lu s) (snd a) B e f DI M NS Lf) as [s1 [s2 [d [E1 [E2 [ND DI2]]]]]].
      rewrite E1. cbn [obind]. rewrite E2. cbn [obind fst snd].
      destruct (I _ _ _ _ (next_binv a x f s2 B e M Lx Lf) DI2 R') as [ds [s' [E3 F]]]. rewrite E3. cbn [obind fst snd].
      exists (d :: ds), s'. split; [reflexivity|]. constructor; assumption.
    + inversion R; subst. cbn [dhist fake_dd dd_report]. eapply I; eassumption.
Qed.
Lemma bro_history h p q : when_empty jp p -> qn_run n (broyden_next n) J0 keep h None None q ->
  exists ds s', dhist (bro_dd jp) h (b_new p) = Ret (ds, s') /\ Forall2 (newton_like n) q ds.
Proof. intros W. apply bro_hist_gen. split; [exact W|reflexivity]. Qed.
Lemma fake_history h p q : when_empty jp p -> qn_run n (fake_next n) J0 keep h None None q ->
  exists ds s', dhist (fake_dd jp) h (b_new p) = Ret (ds, s') /\ Forall2 (newton_like n) q ds.
Proof. intros W. apply fake_hist_gen. split; [exact W|reflexivity]. left; reflexivity. Qed.
End Hist.
