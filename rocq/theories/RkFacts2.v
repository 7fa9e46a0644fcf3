(** RkFacts2.v - the first-same-as-last shortcut, failures of the right-hand side, histories of fixed steps. *)
From Coq Require Import List Arith Lia Bool ZArith QArith Qcanon.
From Verif Require Import Base BaseFacts VecModel VOps NewtFacts NewtFacts4 RkModel RkSpec RkFacts.
Import ListNotations.
Local Open Scope nat_scope.

(** Loops *)
Lemma ofor__snoc {S} count a (body : nat -> S -> Outcome S) s :
  ofor_ (Datatypes.S count) a body s = obind (ofor_ count a body s) (body (a + count)).
Proof.
  revert a s. induction count as [|c I]; intros a s.
  - simpl. rewrite Nat.add_0_r. destruct (body a s); reflexivity.
  - change (ofor_ (Datatypes.S (Datatypes.S c)) a body s) with (obind (body a s) (ofor_ (Datatypes.S c) (Datatypes.S a) body)).
    change (ofor_ (Datatypes.S c) a body s) with (obind (body a s) (ofor_ c (Datatypes.S a) body)).
    destruct (body a s) as [x| |]; cbn [obind]; auto. rewrite I. replace (Datatypes.S a + c) with (a + Datatypes.S c) by lia. reflexivity.
Qed.
Lemma ofor_snoc {S} a b (body : nat -> S -> Outcome S) s : a <= b ->
  ofor a (Datatypes.S b) body s = obind (ofor a b body s) (body b).
Proof. intros H. unfold ofor. replace (Datatypes.S b - a) with (Datatypes.S (b - a)) by lia. rewrite ofor__snoc. replace (a + (b - a)) with b by lia. reflexivity. Qed.
Lemma ofor_nil {S} a b (body : nat -> S -> Outcome S) s : b <= a -> ofor a b body s = Ret s.
Proof. intros H. unfold ofor. replace (b - a) with 0 by lia. reflexivity. Qed.
(** two loops whose states stay related end alike *)
Definition orel {S T} (R : S -> T -> Prop) (x : Outcome S) (y : Outcome T) : Prop :=
  match x, y with Ret a, Ret b => R a b | Throw, Throw => True | UB, UB => True | _, _ => False end.
Lemma ofor_rel {S T} (R : nat -> S -> T -> Prop) a b (f : nat -> S -> Outcome S) (g : nat -> T -> Outcome T) s t :
  a <= b -> R a s t -> (forall k x y, a <= k < b -> R k x y -> orel (R (Datatypes.S k)) (f k x) (g k y)) ->
  orel (R b) (ofor a b f s) (ofor a b g t).
Proof.
  intros H H0 HS. induction b as [|b I].
  - assert (a = 0) by lia. subst. rewrite !ofor_nil by lia. exact H0.
  - destruct (Nat.eq_dec a (Datatypes.S b)) as [->|NE]; [rewrite !ofor_nil by lia; exact H0|].
    rewrite !ofor_snoc by lia. assert (IB : orel (R b) (ofor a b f s) (ofor a b g t)) by (apply I; [lia|intros; apply HS; [lia|assumption]]).
    destruct (ofor a b f s), (ofor a b g t); simpl in IB |- *; try contradiction; auto. apply HS; [lia|assumption].
Qed.
Lemma ofor_inv_ret {S} (P : nat -> S -> Prop) a b (body : nat -> S -> Outcome S) s r :
  a <= b -> P a s -> (forall k x x', a <= k < b -> P k x -> body k x = Ret x' -> P (Datatypes.S k) x') -> ofor a b body s = Ret r -> P b r.
Proof.
  intros H H0 HS. revert r. induction b as [|b I]; intros r E.
  - assert (a = 0) by lia. subst. rewrite ofor_nil in E by lia. inversion E; subst. exact H0.
  - destruct (Nat.eq_dec a (Datatypes.S b)) as [->|NE]; [rewrite ofor_nil in E by lia; inversion E; subst; exact H0|].
    rewrite ofor_snoc in E by lia. apply obind_inv in E. destruct E as [x [E1 E2]].
    apply (HS b x); [lia| |assumption]. apply I; [lia| |assumption]. intros; eapply HS; eauto; lia.
Qed.
Lemma ofor_ext {S} a b (f g : nat -> S -> Outcome S) s : (forall k x, a <= k < b -> f k x = g k x) -> ofor a b f s = ofor a b g s.
Proof.
  intros H. unfold ofor. assert (G : forall c i s, a <= i -> i + c <= Nat.max a b -> ofor_ c i f s = ofor_ c i g s).
  { induction c as [|c I]; intros i s' Hi Hc; [reflexivity|]. simpl. rewrite H by lia. destruct (g i s'); simpl; auto. apply I; lia. }
  apply G; lia.
Qed.

(** * First same as last, for any number system *)
Section Fsal.
Context {N : Num}.
Notation T := (nT N).
Notation vec := (list T).
Lemma accum_ext (cs cs' : vec) p p' h ks ks' count v :
  (forall i, i < count -> nth_error cs (p + i) = nth_error cs' (p' + i)) ->
  (forall i, i < count -> nth_error ks i = nth_error ks' i) ->
  accum cs p h ks count v = accum cs' p' h ks' count v.
Proof.
  intros H1 H2. apply ofor_ext. intros k x K. unfold rd. rewrite H1 by lia. rewrite H2 by lia. reflexivity.
Qed.
Lemma accum_length (cs : vec) p h ks count v v' : accum cs p h ks count v = Ret v' -> length v' = length v.
Proof.
  intros E. unfold accum in E. revert E. apply (ofor_inv_ret (fun _ x => length x = length v)); [lia|reflexivity|].
  intros k x x' _ L E. binv E. destruct (neqb N r (n0 N)); [inversion E; subst; assumption|]. binv E.
  unfold ladd in E. rewrite (lzip_length _ _ _ _ E). assumption.
Qed.
Definition obs_of (r : Outcome (output N * list (T * vec))) : Outcome (list vec * list vec * list (T * vec)) :=
  r <- r ;; Ret (o_k (fst r), o_x2 (fst r), snd r).

Context (co : coeffs N) (stages n nx ix : nat) (f : T -> vec -> Outcome vec) (x1 : vec) (t1 h : T).
Let co' := mkCo (co_a co) (co_b co) (co_c co) (-1)%Z.
Hypothesis LX : length x1 = n.
Hypothesis St : 2 <= stages.
Hypothesis Last : co_last co = Z.of_nat ix.
Hypothesis Row : forall i, i < stages - 1 -> nth_error (co_b co) (ix * stages + i) = nth_error (co_a co) (tri (stages - 1) + i).
Hypothesis Zero : exists z, nth_error (co_b co) (ix * stages + (stages - 1)) = Some z /\ neqb N z (n0 N) = true.

Lemma stage_eq s st : rk_stage co' f x1 t1 h s st = rk_stage co f x1 t1 h s st. Proof. reflexivity. Qed.

(** after the stage loop the buffer is the result row *)
Lemma stages_end o k0 ks buf pa log : shaped o stages n nx ->
  ofor 1 stages (rk_stage co f x1 t1 h) (upd (o_k o) 0 k0, o_buf o, 0, [(t1, x1)]) = Ret (ks, buf, pa, log) ->
  length buf = n /\ accum (co_b co) (ix * stages) h ks stages x1 = Ret buf.
Proof.
  intros SH E. destruct SH as [Sk [_ [Sb _]]].
  assert (exists m, stages = S m /\ 1 <= m) as [m [-> M]] by (destruct stages; [lia|eexists; split; [reflexivity|lia]]).
  rewrite ofor_snoc in E by lia. apply obind_inv in E. destruct E as [[[[ks1 buf1] pa1] log1] [E1 E2]].
  assert (I : length buf1 = n /\ pa1 = tri m /\ length ks1 = S m).
  { revert E1. apply (ofor_inv_ret (fun k (st : list vec * vec * nat * list (T * vec)) => let '(ks, buf, pa, log) := st in length buf = n /\ pa = tri k /\ length ks = S m)); [lia| |].
    - split; [assumption|]. split; [reflexivity|]. rewrite upd_length. assumption.
    - intros k [[[ks2 buf2] pa2] log2] [[[ks3 buf3] pa3] log3] K [L2 [P2 L3]] E. unfold rk_stage in E.
      rewrite vcpy_ok in E by lia. cbn [obind] in E. binv E. binv E. binv E. binv E. inversion E; subst.
      split; [rewrite (accum_length _ _ _ _ _ _ _ E0); reflexivity|]. split; [rewrite tri_S; lia|].
      unfold wr in E4. destruct (k <? length ks2); inversion E4. rewrite upd_length. assumption. }
  destruct I as [L1 [P1 L2]]. unfold rk_stage in E2. rewrite vcpy_ok in E2 by lia. cbn [obind] in E2. binv E2. binv E2. binv E2. binv E2. inversion E2; subst.
  split; [rewrite (accum_length _ _ _ _ _ _ _ E); lia|].
  unfold wr in E4. destruct (m <? length ks1); inversion E4; subst ks; clear E4.
  unfold accum. rewrite ofor_snoc by lia.
  assert (A : accum (co_b co) (ix * S m) h (upd ks1 m r1) m x1 = accum (co_a co) (tri m) h ks1 m x1).
  { apply accum_ext.
    - intros i Hi. specialize (Row i). replace (S m - 1) with m in Row by lia. apply Row. assumption.
    - intros i Hi. rewrite nth_error_upd. assert (Q : (i =? m) = false) by (apply Nat.eqb_neq; lia). rewrite Q. reflexivity. }
  unfold accum in A, E. rewrite A, E. cbn [obind]. destruct Zero as [z [Z1 Z2]]. replace (S m - 1) with m in Z1 by lia.
  unfold rd. rewrite Z1. cbn [obind]. rewrite Z2. reflexivity.
Qed.

Definition rrel (buf0 : vec) (k : nat) (a b : list vec * vec * nat) : Prop :=
  fst (fst a) = fst (fst b) /\ snd a = snd b /\ snd a = k * stages /\ (forall v, In v (fst (fst a)) -> length v = n) /\
  length (snd (fst a)) = n /\ (k <= ix -> snd (fst a) = buf0).
Lemma rres_step ks buf : length buf = n -> accum (co_b co) (ix * stages) h ks stages x1 = Ret buf ->
  forall k x y, rrel buf k x y -> orel (rrel buf (S k)) (rk_result co stages ks x1 h k x) (rk_result co' stages ks x1 h k y).
Proof.
  intros Lb HA k [[u1 u2] u3] [[v1 v2] v3] [R1 [R2 [R3 [R4 [R5 R6]]]]]. simpl in R1, R2, R3, R4, R5, R6. subst v1 v3. unfold rk_result.
  change (co_last co') with (-1)%Z. change (co_b co') with (co_b co). rewrite Last.
  assert (NZ : (Z.of_nat k =? -1)%Z = false) by (apply Z.eqb_neq; lia). rewrite NZ.
  unfold rd. destruct (nth_error u1 k) as [x2|] eqn:EN; cbn [obind]; [|exact Logic.I].
  pose proof (R4 _ (nth_error_In _ _ EN)) as Lx2. rewrite !vcpy_ok by lia. cbn [obind].
  destruct (Z.of_nat k =? Z.of_nat ix)%Z eqn:EK.
  - apply Z.eqb_eq in EK. assert (k = ix) by lia. subst k. rewrite R3, HA. cbn [obind]. rewrite (R6 (le_n _)).
    unfold wr. destruct (ix <? length u1); cbn [obind]; [|exact Logic.I]. unfold orel, rrel. simpl fst. simpl snd.
    split; [reflexivity|]. split; [reflexivity|]. split; [simpl; lia|].
    split; [intros v V; destruct (In_upd _ _ _ _ V) as [->|V']; auto|]. split; [exact Lx2|intros; lia].
  - destruct (accum (co_b co) u3 h ks stages x1) as [b| |] eqn:EA; cbn [obind]; try exact Logic.I.
    unfold wr. destruct (k <? length u1); cbn [obind]; [|exact Logic.I]. unfold orel, rrel. simpl fst. simpl snd.
    split; [reflexivity|]. split; [reflexivity|]. split; [simpl; lia|].
    split; [intros v V; destruct (In_upd _ _ _ _ V) as [->|V']; [rewrite (accum_length _ _ _ _ _ _ _ EA); assumption|auto]|].
    split; [exact R5|intros; apply R6; lia].
Qed.
Lemma fsal_same o : shaped o stages n nx ->
  obs_of (rk_compute o co f x1 t1 h) = obs_of (rk_compute o co' f x1 t1 h).
Proof.
  intros SH. unfold rk_compute. destruct (f t1 x1) as [k0| |]; [|reflexivity|reflexivity]. cbn [obind].
  assert (W : wr (o_k o) 0 k0 = Ret (upd (o_k o) 0 k0)) by (apply wr_ok; destruct SH as [-> _]; lia). rewrite W. cbn [obind].
  destruct SH as [Sk SH']. rewrite Sk. assert (SH : shaped o stages n nx) by (split; assumption).
  change (rk_stage co' f x1 t1 h) with (rk_stage co f x1 t1 h).
  destruct (ofor 1 stages (rk_stage co f x1 t1 h) (upd (o_k o) 0 k0, o_buf o, 0, [(t1, x1)])) as [[[[ks buf] pa] log]| |] eqn:E; [|reflexivity|reflexivity].
  cbn [obind]. destruct (stages_end _ _ _ _ _ _ SH E) as [Lb HA]. destruct SH' as [Sx [Sb [Uk Ux]]].
  assert (H : orel (rrel buf (length (o_x2 o))) (ofor 0 (length (o_x2 o)) (rk_result co stages ks x1 h) (o_x2 o, buf, 0))
     (ofor 0 (length (o_x2 o)) (rk_result co' stages ks x1 h) (o_x2 o, buf, 0))).
  { apply ofor_rel; [lia| |].
    - split; [reflexivity|]. split; [reflexivity|]. split; [reflexivity|]. split; [exact Ux|]. split; [exact Lb|reflexivity].
    - intros k x y _ R. apply rres_step; assumption. }
  destruct (ofor 0 (length (o_x2 o)) (rk_result co stages ks x1 h) (o_x2 o, buf, 0)) as [[[a1 a2] a3]| |],
           (ofor 0 (length (o_x2 o)) (rk_result co' stages ks x1 h) (o_x2 o, buf, 0)) as [[[b1 b2] b3]| |];
    simpl in H; try contradiction; try reflexivity.
  destruct H as [H _]. simpl in H. subst. reflexivity.
Qed.
End Fsal.
