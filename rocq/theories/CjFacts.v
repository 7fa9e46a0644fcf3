(** CjFacts.v - the constant Jacobian descent direction. *)
From Coq Require Import List Arith Bool Lia ZArith QArith Qcanon.
From Verif Require Import Base BaseFacts SMap SpModel SpSpec SpFacts MapModel JacModel JacSpec JacFacts VecModel VOps LUModel LUSpec LUFacts LUFacts2 LUFacts3 LUFacts4 LUFacts5 NewtModel NewtSpec NewtFacts NewtFacts2 NewtFacts3 NewtFacts4 CjSpec.
Import ListNotations.
Local Open Scope nat_scope.
Lemma factorize_done st st' : factorize st = Ret st' -> ufact st' = true -> factorize st' = Ret st'.
Proof. intros _ F. unfold factorize. rewrite F. reflexivity. Qed.
Lemma lu_first e n s1 : distinct_keys e -> acceptable e n -> setMatrix e = Ret s1 -> leading_nonsingular n (mval e) -> stencil_covers e n ->
  exists st, ufact st = true /\ forall f, length f = n -> exists d, lu_direction s1 f = Ret (d, st) /\ lu_direction st f = Ret (d, st) /\ length d = n /\ solves n (mval e) (vfun d) (fun i => - vfun f i)%Qc.
Proof.
  intros ND AC E1 NS SC. destruct (setMatrix_inv e n s1 ND AC E1) as [HY HH]. assert (HR1 : represents s1 n (mval e)) by (left; auto).
  destruct (factorize_ok s1 n (mval e) HR1 NS) as (st & EF & EY & HD & HP). assert (UF : ufact st = true) by apply HD. exists st. split; [exact UF|]. intros f L.
  destruct (lu_solve_stencil e n s1 f ND AC E1 NS (or_introl SC) L) as [s2 [x [E2 [Lx SX]]]].
  assert (S2 : s2 = st). { destruct (solve_ok s1 n (mval e) f HR1 NS ltac:(lia)) as (st' & x' & E2' & EF' & _). congruence. } subst s2.
  assert (E3 : solve st f = Ret (st, x)). { unfold solve in E2 |- *. rewrite EF in E2. rewrite (factorize_done s1 st EF UF). exact E2. }
  unfold lu_direction. rewrite E2, E3. cbn [obind fst snd]. eexists. split; [reflexivity|]. split; [reflexivity|]. split; [exact (eq_trans (lscale_length (N:=QcNum) x _) Lx)|].
  apply (solves_scale n _ _ _ (- (1))%Qc) in SX. eapply solves_ext; [| |exact SX].
  - intros i. symmetry. apply vfun_scale.
  - intros i. cbv beta; ring.
Qed.
(** the factorizer between calls *)
Definition cj_inv (dx : Qc) (jt : option (trimmer QcNum)) (n : nat) (ref : option dcall) (s : lu) : Prop :=
  match ref with
  | None => ufact s = false
  | Some (_, g, x0, _) => ufact s = true /\ exists J, default_provider (N:=QcNum) dx jt g x0 = Ret J /\ forall f, length f = n ->
      exists d, lu_direction s f = Ret (d, s) /\ length d = n /\ solves n (mval (sdat J)) (vfun d) (fun i => - vfun f i)%Qc
  end.
Lemma const_hist_ok dx jt n : forall h ref s, cj_inv dx jt n ref s -> const_usable dx jt n ref h ->
  exists ds s', const_hist dx jt h s = Ret (ds, s') /\ const_directions dx jt n ref h ds.
Proof.
  induction h as [|[[[hard g] x0] f0] h IH]; intros ref s I U; cbn [const_hist]. { exists [], s. split; [reflexivity|exact Logic.I]. }
  destruct U as (L & U1 & U2). cbn [snd fst] in L, U1. cbn [const_dd dd_dir dd_reset].
  assert (FRESH : forall s0, ufact s0 = false -> (ref = None \/ hard = true) -> exists d s', const_dir dx jt g x0 f0 0 s0 = Ret (d, s') /\ cj_inv dx jt n (Some (hard, g, x0, f0)) s' /\
    length d = n /\ exists J, default_provider (N:=QcNum) dx jt g x0 = Ret J /\ solves n (mval (sdat J)) (vfun d) (fun i => - vfun f0 i)%Qc).
  { intros s0 F0 RH. destruct (U1 RH) as (_ & J & EJ & ND & AC & NS & SC). unfold const_dir. rewrite F0, EJ. cbn [obind]. destruct (proj2 (setMatrix_accepts_iff (sdat J) ND) (ex_intro _ n AC)) as [s1 E1]. rewrite E1. cbn [obind].
    destruct (lu_first (sdat J) n s1 ND AC E1 NS SC) as (st & UF & K). destruct (K f0 L) as (d & D1 & D2 & LD & SD). exists d, st. split; [exact D1|]. split.
    - split; [exact UF|]. exists J. split; [exact EJ|]. intros f Lf. destruct (K f Lf) as (d' & _ & D2' & LD' & SD'). exists d'. auto.
    - split; [exact LD|]. exists J. auto. }
  assert (STEP : exists d s', const_dir dx jt g x0 f0 0 (if hard then lu_empty else s) = Ret (d, s') /\ cj_inv dx jt n (Some (const_ref ref (hard, g, x0, f0))) s' /\
    length d = n /\ let '(_, g', x0', _) := const_ref ref (hard, g, x0, f0) in exists J, default_provider (N:=QcNum) dx jt g' x0' = Ret J /\ solves n (mval (sdat J)) (vfun d) (fun i => - vfun f0 i)%Qc).
  { destruct hard.
    - destruct (FRESH lu_empty eq_refl (or_intror eq_refl)) as (d & s' & K). exists d, s'. replace (const_ref ref (true, g, x0, f0)) with (true, g, x0, f0) by (destruct ref; reflexivity). exact K.
    - destruct ref as [[[[hr gr] xr] fr]|]; [|exact (FRESH s I (or_introl eq_refl))]. cbn [const_ref]. destruct I as (UF & J & EJ & K). destruct (K f0 L) as (d & D & LD & SD). exists d, s.
      unfold const_dir. rewrite UF. cbn [obind]. split; [exact D|]. split; [split; [exact UF|exists J; auto]|]. split; [exact LD|]. exists J. auto. }
  destruct STEP as (d & s' & E & I' & LD & SD). rewrite E. cbn [obind fst snd]. destruct (IH _ s' I' U2) as (ds & s2 & E2 & D2). rewrite E2. cbn [obind fst snd]. exists (d :: ds), s2. split; [reflexivity|].
  cbn [const_directions]. destruct (const_ref ref (hard, g, x0, f0)) as [[[? ?] ?] ?]. split; [split; [exact LD|exact SD]|exact D2].
Qed.
Lemma const_hist_fresh dx jt n h : const_usable dx jt n None h -> exists ds s', const_hist dx jt h lu_empty = Ret (ds, s') /\ const_directions dx jt n None h ds.
Proof. apply const_hist_ok. reflexivity. Qed.
(** an affine system: the constant Jacobian is the right one everywhere *)
