(** IfpFacts5.v - runs of the implicit alpha solver in rounded arithmetic stay near the solution: no hypothesis on the computed states. *)
From Coq Require Import List Arith Bool ZArith Lia Permutation Reals Lra Psatz.
From Verif Require Import Base BaseFacts VecModel VOps MapModel NewtModel NewtSpec RkModel RkSpec StepSpec ExtModel ImpModel ImpSpec
  ConvSpec FpSpec ImcSpec ImcFacts ImcFacts2 ImcFacts3 IfpSpec IfpFacts IfpFacts2 IfpFacts3 IfpFacts4.
Import ListNotations.
Local Open Scope R_scope.

Lemma size_of n (y : list R) : exists m, 0 <= m /\ bound n y m /\ forall q, 0 <= q -> bound n y q -> m <= q.
Proof.
  induction n as [|n (m & M0 & MB & MM)].
  - exists 0. split; [lra|]. split; [intros j Hj; lia|]. intros; assumption.
  - exists (Rmax m (Rabs (cmpR y n))). split; [apply Rle_trans with m; [assumption|apply Rmax_l]|]. split.
    + intros j Hj. destruct (Nat.eq_dec j n) as [->|NE]; [apply Rmax_r|]. eapply Rle_trans; [apply MB; lia|apply Rmax_l].
    + intros q Q0 QB. apply Rmax_lub; [apply MM; [assumption|]; intros j Hj; apply QB; lia|apply QB; lia].
Qed.
Lemma near_bound n (y z : list R) e b : near n y z e -> bound n z b -> bound n y (b + e).
Proof. intros N H j Hj. specialize (N j Hj). specialize (H j Hj). exact (abs_shift _ _ _ _ N H). Qed.
Lemma bound_le n (y : list R) a b : a <= b -> bound n y a -> bound n y b.
Proof. intros L H j Hj. eapply Rle_trans; [apply H; assumption|assumption]. Qed.

Section Steps.
Context {N : Num} {W P NS : Type}.
Lemma steps_last (ev : events N W) (nw : newton N NS) (c : icfg N W P) k : forall s s',
  i_steps ev nw c (S k) s = Some s' -> exists s1 a, i_steps ev nw c k s = Some s1 /\ i_step ev nw c s1 = (s', IDone a).
Proof.
  induction k as [|k IH]; intros s s' E.
  - cbn [i_steps] in E. destruct (i_step ev nw c s) as [s1 r] eqn:E1. destruct r as [a| | |]; try discriminate E. injection E as <-. exists s, a. split; [reflexivity|exact E1].
  - cbn [i_steps] in E. cbn [i_steps]. destruct (i_step ev nw c s) as [s1 r] eqn:E1. destruct r as [a| | |]; try discriminate E. apply IH. exact E.
Qed.
End Steps.

Section Grow.
Context (rnd : R -> R) (u eta : R) {W P D : Type} (dd : vmapping (FNum rnd) -> ddir (FNum rnd) D) (lit : ls_lit (FNum rnd)) (mt limit : nat) (c : icfg (FNum rnd) W P) (g : R -> list R -> list R) (Tm G Lt phi : R).
Hypothesis RD : rounds rnd u eta.
Hypothesis ID : idempotent rnd.
Hypothesis U0 : 0 <= u.
Hypothesis E0 : 0 <= eta.
Notation w := (u + eta).
Hypothesis W1 : w <= 1.
Hypothesis LE : (l_eta lit : R) <= 1.
Hypothesis CR : forall w b, 0 <= b -> computes_near (n_vars c) Tm b (phi * (1 + b)) (ic_rhs c w) g.
Hypothesis SW : forall b, 0 <= b -> slopes_within (n_vars c) Tm b (G * (1 + b)) Lt g.
Hypothesis PF : positions_first (ic_nd c) (ic_nf c) g.
Hypothesis PM : forall o, ic_ord c = Some o -> Permutation (fst o) (seq 0 (ic_nd c + ic_nf c)) /\ Permutation (snd o) (seq 0 (ic_nd c + ic_nf c)).
Hypothesis PR : forall pr, ic_pred c = Some pr -> forall h t x k q y q', pr h t x k q = Ret (y, q') -> machine rnd y.
Hypothesis G0 : 0 <= G.
Hypothesis Lt0 : 0 <= Lt.
Hypothesis phi0 : 0 <= phi.
Notation n := (n_vars c).
Notation nw := (plain_newton dd lit mt limit).
Notation st := (ist (FNum rnd) W P (perf (FNum rnd) (S:=D))).
Notation h := (ic_h c : R).
Hypothesis HH : 0 < h.
Variables (X : R -> list R) (t0 T B E : R) (count : nat) (x0 : list R) (soft : bool) (s : st).
Hypothesis HTm : 2 * (1 + Rabs t0 + T) <= Tm.
Hypothesis HC : INR count * h <= T.
Hypothesis HW : 3 * INR count * w <= 1.
Hypothesis TP : 0 <= toleranceF s.
Hypothesis Lx : length x0 = n.
Hypothesis Mx : machine rnd x0.
Hypothesis A01 : 0 <= als rnd s <= 1.
Hypothesis B0 : 0 <= B.
Hypothesis XB : forall t, t0 <= t <= t0 + T -> bound n (X t) (B - E).
Notation A := (1 + Rabs t0 + T).
Notation eps := (toleranceF s + step_noise B (G * (1 + B)) Lt A T h w (phi * (1 + B))).
Notation e1 := (60 * (1 + G + phi) * (1 + h) * w + h * phi).
Notation s0 := (i_set (N:=FNum rnd) t0 x0 soft s).
Variable kap : R.
Hypothesis K1 : kap < 1.
Hypothesis NX : near n x0 (X t0) E.
Hypothesis ST : forall k z y del, (k < count)%nat -> 0 <= del -> z 0%nat = x0 -> apath n g (als rnd s) h eps t0 z k ->
  astep n g (als rnd s) h (eps + e1 * del) (t0 + INR k * h) (z k) y -> near n y (X (t0 + INR (S k) * h)) (E + kap * del).

Lemma noise_split b : step_noise b (G * (1 + b)) Lt A T h w (phi * (1 + b)) = step_noise B (G * (1 + B)) Lt A T h w (phi * (1 + B)) + e1 * (b - B).
Proof. unfold step_noise. ring. Qed.

Lemma stays k : (k <= count)%nat -> forall sk, i_steps no_events nw c k s0 = Some sk ->
  length (xs rnd sk) = n /\ machine rnd (xs rnd sk) /\ als rnd sk = als rnd s /\ toleranceF sk = toleranceF s /\
  Rabs (ts rnd sk - (t0 + INR k * h)) <= 2 * INR k * w * A /\ bound n (xs rnd sk) B /\
  exists z, z 0%nat = x0 /\ z k = xs rnd sk /\ apath n g (als rnd s) h eps t0 z k.
Proof.
  assert (T00 : 0 <= T) by (apply Rle_trans with (INR count * h); [apply Rmult_le_pos; [apply pos_INR|lra]|exact HC]).
  induction k as [|k IH]; intros HK sk ES.
  - cbn [i_steps] in ES. injection ES as <-. split; [exact Lx|]. split; [exact Mx|]. split; [reflexivity|]. split; [reflexivity|]. split.
    { change (INR 0) with 0. unfold ts. cbn [i_set i_map em_setState em_t]. replace (t0 - (t0 + 0 * h)) with 0 by ring. rewrite Rabs_R0. lra. }
    split; [change (bound n x0 B); replace B with ((B - E) + E) by ring; apply near_bound with (z := X t0); [exact NX|apply XB; lra]|].
    exists (fun _ => x0). split; [reflexivity|]. split; [reflexivity|]. intros i Hi; lia.
  - destruct (steps_last no_events nw c k s0 sk ES) as (s1 & a & E1 & E2). destruct (IH ltac:(lia) s1 E1) as (L1 & M1 & A1 & T1 & TT1 & B1 & z & Z0 & ZK & PZ). clear IH.
    assert (GR : forall w, good_rhs (N:=FNum rnd) n (ic_rhs c w)). { intros wd t x Lx1. destruct (CR wd 0 ltac:(lra) t x Lx1) as (y & Q1 & Q2 & _). exists y. split; assumption. }
    destruct (residualF rnd dd lit mt limit c (proj1 RD) ID LE GR PM PR s1 sk a L1 M1 E2) as (wd & X1 & F0 & F1 & Q0 & Q1 & LX & MX1 & POS & VEL & ET & EX & EA & ETOL).
    clear Q0 Q1 POS VEL. destruct (size_of n (xs rnd sk)) as (m & M0 & MB & MM). set (b := Rmax B m).
    assert (BB : B <= b) by apply Rmax_l. assert (Bm : m <= b) by apply Rmax_r. assert (b0 : 0 <= b) by lra.
    assert (E2' : i_steps no_events nw c 1 s1 = Some sk) by (cbn [i_steps]; rewrite E2; reflexivity).
    assert (KC : INR (k + 1) <= INR count) by (apply le_INR; lia).
    destruct (steps_realF rnd u eta dd lit mt limit c g Tm b (G * (1 + b)) Lt (phi * (1 + b)) RD ID U0 E0 W1 LE (fun w => CR w b b0) (SW b b0) PF PM PR b0
       ltac:(apply Rmult_le_pos; lra) Lt0 ltac:(apply Rmult_le_pos; lra) ltac:(lra) t0 T HTm 1 k s1 sk) as (TF & v & V0 & V1 & PV); try assumption.
    { apply Rle_trans with (3 * INR count * w); [apply Rmult_le_compat_r; lra|exact HW]. }
    { apply Rle_trans with (INR count * h); [apply Rmult_le_compat_r; lra|exact HC]. }
    { rewrite A1. exact A01. }
    { rewrite T1. exact TP. }
    { intros i si Hi Ei. destruct i as [|[|i]]; [|  |lia].
      - cbn [i_steps] in Ei. injection Ei as <-. apply bound_le with B; assumption.
      - rewrite E2' in Ei. injection Ei as <-. apply bound_le with m; assumption. }
    replace (k + 1)%nat with (S k) in TF by lia.
    specialize (PV 0%nat ltac:(lia)). change (INR 0) with 0 in PV. rewrite Rmult_0_l, Rplus_0_r, V0, V1, A1, T1, noise_split in PV.
    assert (AS : astep n g (als rnd s) h (eps + e1 * (b - B)) (t0 + INR k * h) (z k) (xs rnd sk)). { rewrite ZK. rewrite Rplus_assoc. exact PV. }
    pose proof (ST k z (xs rnd sk) (b - B) ltac:(lia) ltac:(lra) Z0 PZ AS) as NK.
    assert (IN : t0 <= t0 + INR (S k) * h <= t0 + T).
    { assert (0 <= INR (S k) * h) by (apply Rmult_le_pos; [apply pos_INR|lra]). assert (INR (S k) * h <= INR count * h) by (apply Rmult_le_compat_r; [lra|apply le_INR; lia]). lra. }
    pose proof (near_bound _ _ _ _ _ NK (XB _ IN)) as BK. replace (B - E + (E + kap * (b - B))) with (B + kap * (b - B)) in BK by ring.
    assert (bB : b = B).
    { unfold b in *. destruct (Rle_dec m B) as [LMB|LMB]; [apply Rmax_left; assumption|]. assert (R1 : Rmax B m = m) by (apply Rmax_right; lra). rewrite R1 in *. exfalso.
      destruct (Rle_dec 0 (B + kap * (m - B))) as [PP|PP].
      - pose proof (MM _ PP BK). nra.
      - destruct (Nat.eq_dec n 0) as [Z|Z].
        + assert (m <= 0); [|lra]. apply MM; [lra|]. intros j Hj. lia.
        + assert (P0 : (0 < n)%nat) by lia. pose proof (BK 0%nat P0) as Q. pose proof (Rabs_pos (cmpR (xs rnd sk) 0)). lra. }
    rewrite bB in *. rewrite Rminus_diag_eq, Rmult_0_r, Rplus_0_r in BK by reflexivity. rewrite Rminus_diag_eq, Rmult_0_r, Rplus_0_r in AS by reflexivity.
    split; [change (length (em_x (i_map sk)) = n); rewrite EX; exact LX|]. split; [change (machine rnd (em_x (i_map sk))); rewrite EX; exact MX1|].
    split; [rewrite <- A1; exact EA|]. split; [rewrite <- T1; exact ETOL|]. split; [exact TF|]. split; [exact BK|].
    exists (fun i => if (i <=? k)%nat then z i else xs rnd sk). split; [exact Z0|]. split; [rewrite (proj2 (Nat.leb_gt (S k) k)) by lia; reflexivity|].
    intros i Hi. destruct (Nat.eq_dec i k) as [->|NE].
    + rewrite Nat.leb_refl. rewrite (proj2 (Nat.leb_gt (S k) k)) by lia. exact AS.
    + rewrite (proj2 (Nat.leb_le i k)) by lia. rewrite (proj2 (Nat.leb_le (S i) k)) by lia. apply PZ. lia.
Qed.
End Grow.
