(** OrdFacts2.v - stages a + h*v1 + O(h^2) and the order of the Rosenbrock methods. *)
From Coq Require Import List Arith Bool Lia ZArith QArith Qcanon.
From Verif Require Import Base BaseFacts LUSpec LUModel RkModel RkSpec StepModel RosModel RosSpec OrdSpec OrdFacts RosFacts3.
Import ListNotations.
Local Open Scope nat_scope.

Section Approx.
Variables (n : nat) (I : Type) (h : I -> Qc) (ok : I -> Prop) (a : nat -> Qc).
Notation Mv A v := (fun j => qsum n (fun k => (A j k * v k)%Qc)).
(** v = a + h*v1 + O(h^2) *)
Definition App (v : I -> nat -> Qc) (v1 : nat -> Qc) : Prop := OO n h ok 2 (fun i j => (v i j - a j - h i * v1 j)%Qc).
Lemma App_ext v v' v1 v1' : (forall i, ok i -> forall j, j < n -> v i j = v' i j) -> (forall j, j < n -> v1 j = v1' j) -> App v' v1' -> App v v1.
Proof. intros A B. apply OO_ext. intros i Oi j Hj. rewrite A, B by assumption. reflexivity. Qed.
Lemma App_base v v1 : App v v1 -> OO n h ok 1 (fun i j => (v i j - a j)%Qc).
Proof.
  intros H. apply (OO_ext _ (fun i j => ((v i j - a j - h i * v1 j) + h i * v1 j)%Qc)); [intros; ring|].
  apply OO_add; [apply OO_weaken, H|]. apply (OO_h (p:=0) (v:=fun _ => v1)). apply OO_const.
Qed.
Lemma App_bounded v v1 : App v v1 -> OO n h ok 0 v.
Proof.
  intros H. apply (OO_ext _ (fun i j => ((v i j - a j) + a j)%Qc)); [intros; ring|].
  apply OO_add; [apply OO_weaken, (App_base v v1 H)|apply OO_const].
Qed.
Lemma App_rhs f t x f0 g F c (y v : I -> list Qc) : expands n f t x f0 g F -> (forall j, j < n -> a j = cmp_ f0 j) ->
  (forall i, ok i -> length (y i) = n /\ f (t + c * h i)%Qc (y i) = Ret (v i)) ->
  OO n h ok 2 (fun i j => (cmp_ (y i) j - cmp_ x j - h i * (c * a j))%Qc) ->
  App (fun i => cmp_ (v i)) (fun j => (c * (g j + qsum n (fun k => F j k * a k)))%Qc).
Proof.
  intros EX Ha HY HD.
  assert (D1 : OO n h ok 1 (fun i j => (cmp_ (y i) j - cmp_ x j)%Qc)).
  { apply (OO_ext _ (fun i j => ((cmp_ (y i) j - cmp_ x j - h i * (c * a j)) + h i * (c * a j))%Qc)); [intros; ring|].
    apply OO_add; [apply OO_weaken, HD|]. apply (OO_h (p:=0) (v:=fun _ j => (c * a j)%Qc)). apply OO_const. }
  pose proof (OO_rhs n h ok f t x f0 g F c y v EX HY D1) as R. pose proof (OO_mat F HD) as R2.
  unfold App. eapply OO_ext; [|exact (OO_add R R2)]. intros i Oi j Hj. cbv beta. rewrite Ha by exact Hj.
  rewrite (qsum_ext n (fun k => (F j k * (cmp_ (y i) k - cmp_ x k - h i * (c * a k)))%Qc) (fun k => (F j k * (cmp_ (y i) k - cmp_ x k) - (h i * c) * (F j k * a k))%Qc)) by (intros; ring).
  rewrite qsum_sub, qsum_scale. ring.
Qed.
Lemma App_implicit J d v w w1 : (forall i, ok i -> forall j, j < n -> v i j = (w i j + d * (h i * qsum n (fun k => J j k * v i k)))%Qc) -> App w w1 ->
  App v (fun j => (w1 j + d * qsum n (fun k => J j k * a k))%Qc).
Proof.
  intros EQ HW. pose proof (OO_implicit J d EQ (App_bounded w w1 HW)) as V0.
  assert (V1 : OO n h ok 1 (fun i j => (v i j - a j)%Qc)).
  { eapply OO_ext; [|exact (OO_add (App_base w w1 HW) (OO_scale d (OO_h (OO_mat J V0))))]. intros i Oi j Hj. cbv beta. rewrite EQ by assumption. ring. }
  eapply OO_ext; [|exact (OO_add HW (OO_scale d (OO_h (OO_mat J V1))))]. intros i Oi j Hj. cbv beta. rewrite EQ at 1 by assumption.
  rewrite (qsum_ext n (fun k => (J j k * (v i k - a k))%Qc) (fun k => (J j k * v i k - J j k * a k)%Qc)) by (intros; ring). rewrite qsum_sub. ring.
Qed.
Lemma App_const : App (fun _ => a) (fun _ => 0%Qc).
Proof. unfold App. exists 0%Qc, 1%Qc. split; [apply Qcle_refl|]. split; [reflexivity|]. intros i _ _. rewrite Qcmult_0_l. unfold norm1. rewrite qsum_zero; [apply Qcle_refl|]. intros j _. apply Qcabs_zero_iff. ring. Qed.
(** combinations with coefficients that sum up to 1 *)
Lemma App_comb p q u u1 v v1 : (p + q = 1)%Qc -> App u u1 -> App v v1 -> App (fun i j => (p * u i j + q * v i j)%Qc) (fun j => (p * u1 j + q * v1 j)%Qc).
Proof.
  intros E HU HV. eapply OO_ext; [|exact (OO_add (OO_scale p HU) (OO_scale q HV))]. intros i Oi j Hj. cbv beta.
  assert (Q : q = (1 - p)%Qc) by (rewrite <- E; ring). rewrite Q. ring.
Qed.
Lemma App_move p v v1 : App v v1 -> OO n h ok 2 (fun i j => (h i * (p * v i j) - h i * (p * a j))%Qc).
Proof. intros H. eapply OO_ext; [|exact (OO_scale p (OO_h (App_base v v1 H)))]. intros; cbv beta; ring. Qed.
Lemma App_pert c J v v1 w w1 : App v v1 -> App w w1 -> App (fun i j => (w i j + c * h i * qsum n (fun k => J j k * v i k))%Qc) (fun j => (w1 j + c * qsum n (fun k => J j k * a k))%Qc).
Proof.
  intros HV HW. eapply OO_ext; [|exact (OO_add HW (OO_scale c (OO_h (OO_mat J (App_base v v1 HV)))))]. intros i Oi j Hj. cbv beta.
  rewrite (qsum_ext n (fun k => (J j k * (v i k - a k))%Qc) (fun k => (J j k * v i k - J j k * a k)%Qc)) by (intros; ring). rewrite qsum_sub. ring.
Qed.
End Approx.
Arguments App n {I} h ok a v v1.
Arguments App_ext {n I h ok a} v v' v1 v1'.
Arguments App_base {n I h ok a v v1}.
Arguments App_bounded {n I h ok a v v1}.
Arguments App_implicit {n I h ok a} J d {v w w1}.
Arguments App_comb {n I h ok a} p q {u u1 v v1}.
Arguments App_move {n I h ok a} p {v v1}.
Arguments App_pert {n I h ok a} c J {v v1 w w1}.
Arguments App_const {n I h ok} a.

Lemma shifted_iff n hw J (k b : nat -> Qc) : solves n (shifted hw J) k b -> forall j, j < n -> k j = (b j + hw * qsum n (fun i => J j i * k i))%Qc.
Proof.
  intros S j Hj. specialize (S j Hj). unfold shifted in S.
  rewrite (qsum_ext n _ (fun i => delta j i * k i - hw * (J j i * k i))%Qc) in S by (intros; ring).
  rewrite qsum_sub, (delta_sum n j k Hj), qsum_scale in S. rewrite <- S. ring.
Qed.

(** * W1 *)
Lemma w1_order n J d (x f0 : list Qc) : exists C h0, (0 <= C)%Qc /\ (0 < h0)%Qc /\ forall h k1 next, (Qcabs h <= h0)%Qc -> w1_formula n J (h * d) x f0 h k1 next ->
  (norm1 n (fun j => (cmp_ next j - (cmp_ x j + h * cmp_ f0 j))%Qc) <= C * Qcabs h ^ 2)%Qc.
Proof.
  set (I := (Qc * list Qc * list Qc)%type). set (hh := fun i : I => fst (fst i)). set (K1 := fun i : I => cmp_ (snd (fst i))).
  set (ok := fun i : I => let '(h, k1, next) := i in w1_formula n J (h * d) x f0 h k1 next).
  assert (A1 : App n hh ok (cmp_ f0) K1 (fun j => 0 + d * qsum n (fun k => J j k * cmp_ f0 k))%Qc).
  { apply (App_implicit J d (w:=fun _ => cmp_ f0) (w1:=fun _ => 0%Qc)); [|apply App_const]. intros [[h k1] next] (L1 & L2 & S & N) j Hj. unfold hh, K1. cbn [fst snd].
    rewrite (shifted_iff _ _ _ _ _ S j Hj) at 1. unfold vfun, cmp_. ring. }
  destruct (OO_h (App_base A1)) as (C & h0 & A & B & Q). exists C, h0. split; [exact A|]. split; [exact B|]. intros h k1 next L W.
  specialize (Q (h, k1, next) W L). unfold hh, K1 in Q. cbn [fst snd] in Q. eapply Qcle_trans; [|exact Q].
  destruct W as (L1 & L2 & S & N). rewrite (norm1_ext n _ (fun j => h * (cmp_ k1 j - cmp_ f0 j))%Qc); [apply Qcle_refl|]. intros j Hj. rewrite N by exact Hj. ring.
Qed.

(** * SW2(4) *)
Section SW.
Variables (n : nat) (J : nat -> nat -> Qc) (d : Qc) (f : Qc -> list Qc -> Outcome (list Qc)) (t : Qc) (x f0 : list Qc) (g : nat -> Qc) (F : nat -> nat -> Qc).
Hypothesis EX : expands n f t x f0 g F.
Record inst : Type := mkInst { i_h : Qc; i_k1 : list Qc; i_k2 : list Qc; i_next : list Qc; i_y : list Qc; i_f2 : list Qc }.
Definition iok (i : inst) : Prop :=
  length (i_y i) = n /\ (forall j, j < n -> cmp_ (i_y i) j = (cmp_ x j + qc 2 3 * i_h i * cmp_ (i_k1 i) j)%Qc) /\ f (t + qc 2 3 * i_h i)%Qc (i_y i) = Ret (i_f2 i) /\
  solves n (shifted (i_h i * d) J) (vfun (i_k1 i)) (vfun f0) /\
  solves n (shifted (i_h i * d) J) (vfun (i_k2 i)) (fun j => (cmp_ (i_f2 i) j - qc 4 3 * (i_h i * d) * matvec n J (i_k1 i) j)%Qc) /\
  forall j, j < n -> cmp_ (i_next i) j = (cmp_ x j + i_h i * (qc 1 4 * cmp_ (i_k1 i) j + qc 3 4 * cmp_ (i_k2 i) j))%Qc.
Notation pp := (fun j => (g j + qsum n (fun k => F j k * cmp_ f0 k))%Qc).
Notation qq := (fun j => (d * qsum n (fun k => J j k * cmp_ f0 k))%Qc).
Section Inst.
Context {I : Type} (pr : I -> inst) (ok : I -> Prop) (IOK : forall i, ok i -> iok (pr i)).
Notation h := (fun i => i_h (pr i)).
Lemma app_k1 : App n h ok (cmp_ f0) (fun i => cmp_ (i_k1 (pr i))) qq.
Proof.
  apply (App_ext _ (fun i => cmp_ (i_k1 (pr i))) _ (fun j => (0 + qq j)%Qc)); [reflexivity|intros; ring|].
  apply (App_implicit J d (w:=fun _ => cmp_ f0) (w1:=fun _ => 0%Qc)); [|apply App_const]. intros i Oi j Hj. apply IOK in Oi as (_ & _ & _ & S & _).
  rewrite (shifted_iff _ _ _ _ _ S j Hj) at 1. unfold vfun, cmp_. ring.
Qed.
Lemma app_f2 : App n h ok (cmp_ f0) (fun i => cmp_ (i_f2 (pr i))) (fun j => (qc 2 3 * pp j)%Qc).
Proof.
  apply (App_rhs n I h ok (cmp_ f0) f t x f0 g F (qc 2 3) (fun i => i_y (pr i)) (fun i => i_f2 (pr i)) EX); [auto|intros i Oi; apply IOK in Oi as (A & _ & B & _); auto|].
  apply (OO_ext _ (fun i j => (i_h (pr i) * (qc 2 3 * cmp_ (i_k1 (pr i)) j) - i_h (pr i) * (qc 2 3 * cmp_ f0 j))%Qc)).
  - intros i Oi j Hj. apply IOK in Oi as (_ & Y & _). rewrite Y by exact Hj. ring.
  - apply (App_move (qc 2 3) app_k1).
Qed.
Lemma app_k2 : App n h ok (cmp_ f0) (fun i => cmp_ (i_k2 (pr i))) (fun j => (qc 2 3 * pp j - qc 1 3 * qq j)%Qc).
Proof.
  eapply App_ext; [reflexivity| |eapply (App_implicit J d (v:=fun i => cmp_ (i_k2 (pr i))) (w:=fun i j => (cmp_ (i_f2 (pr i)) j + (qc (-4) 3 * d) * i_h (pr i) * qsum n (fun k => J j k * cmp_ (i_k1 (pr i)) k))%Qc));
    [|apply (App_pert (qc (-4) 3 * d)%Qc J app_k1 app_f2)]].
  - intros j Hj. cbv beta. replace (qc (-4) 3) with (- qc 1 3 - 1)%Qc by (apply Qc_is_canon; reflexivity). ring.
  - intros i Oi j Hj. apply IOK in Oi as (_ & _ & _ & _ & S & _). rewrite (shifted_iff _ _ _ _ _ S j Hj) at 1. cbv beta. unfold matvec, vfun, cmp_.
    replace (qc (-4) 3) with (- qc 4 3)%Qc by (apply Qc_is_canon; reflexivity). ring.
Qed.
Lemma app_incr : App n h ok (cmp_ f0) (fun i j => (qc 1 4 * cmp_ (i_k1 (pr i)) j + qc 3 4 * cmp_ (i_k2 (pr i)) j)%Qc) (fun j => (qc 1 2 * pp j)%Qc).
Proof.
  eapply App_ext; [reflexivity| |eapply (App_comb (qc 1 4) (qc 3 4) (u:=fun i => cmp_ (i_k1 (pr i))) (v:=fun i => cmp_ (i_k2 (pr i)))); [apply Qc_is_canon; reflexivity|apply app_k1|apply app_k2]].
  intros j _. cbv beta. assert (Q : forall p q : Qc, (qc 1 2 * p = qc 1 4 * q + qc 3 4 * (qc 2 3 * p - qc 1 3 * q))%Qc).
  { intros p q. replace (qc 1 4 * q + qc 3 4 * (qc 2 3 * p - qc 1 3 * q))%Qc with ((qc 3 4 * qc 2 3) * p + (qc 1 4 - qc 3 4 * qc 1 3) * q)%Qc by ring.
    replace (qc 3 4 * qc 2 3)%Qc with (qc 1 2) by (apply Qc_is_canon; reflexivity). replace (qc 1 4 - qc 3 4 * qc 1 3)%Qc with 0%Qc by (apply Qc_is_canon; reflexivity). ring. }
  apply Q.
Qed.
Lemma order2 : OO n h ok 3 (fun i j => (cmp_ (i_next (pr i)) j - taylor2 n x f0 g F (i_h (pr i)) j)%Qc).
Proof.
  eapply OO_ext; [|exact (OO_h app_incr)]. intros i Oi j Hj. apply IOK in Oi as (_ & _ & _ & _ & _ & N). rewrite N by exact Hj. cbv beta. unfold taylor2. ring.
Qed.
(** the error estimate *)
Context (k3 k4 y4 f1 f4 : I -> list Qc).
Hypothesis HE : forall i, ok i -> length (i_next (pr i)) = n /\ f (t + i_h (pr i))%Qc (i_next (pr i)) = Ret (f1 i) /\
  solves n (shifted (i_h (pr i) * d) J) (vfun (k3 i)) (vfun (f1 i)) /\ length (y4 i) = n /\
  (forall j, j < n -> cmp_ (y4 i) j = (cmp_ (i_next (pr i)) j + qc 2 3 * i_h (pr i) * cmp_ (k3 i) j)%Qc) /\ f (t + qc 5 3 * i_h (pr i))%Qc (y4 i) = Ret (f4 i) /\
  solves n (shifted (i_h (pr i) * d) J) (vfun (k4 i)) (fun j => (cmp_ (f4 i) j + i_h (pr i) * d * (qc 2 3 * matvec n J (i_k1 (pr i)) j + qc 6 1 * matvec n J (i_k2 (pr i)) j))%Qc).
Lemma app_f1 : App n h ok (cmp_ f0) (fun i => cmp_ (f1 i)) pp.
Proof.
  apply (App_ext _ (fun i => cmp_ (f1 i)) _ (fun j => (1 * pp j)%Qc)); [reflexivity|intros; ring|].
  apply (App_rhs n I h ok (cmp_ f0) f t x f0 g F 1%Qc (fun i => i_next (pr i)) f1 EX); [auto|intros i Oi; apply HE in Oi as (A & B & _); rewrite Qcmult_1_l; auto|].
  eapply OO_ext; [|apply (App_move 1%Qc app_incr)]. intros i Oi j Hj. apply IOK in Oi as (_ & _ & _ & _ & _ & N). rewrite N by exact Hj. cbv beta. ring.
Qed.
Lemma app_k3 : App n h ok (cmp_ f0) (fun i => cmp_ (k3 i)) (fun j => (pp j + qq j)%Qc).
Proof.
  apply (App_implicit J d (v:=fun i => cmp_ (k3 i)) (w:=fun i => cmp_ (f1 i)) (w1:=pp)); [|exact app_f1]. intros i Oi j Hj. apply HE in Oi as (_ & _ & S & _).
  rewrite (shifted_iff _ _ _ _ _ S j Hj) at 1. unfold vfun, cmp_. ring.
Qed.
Lemma app_f4 : App n h ok (cmp_ f0) (fun i => cmp_ (f4 i)) (fun j => (qc 5 3 * pp j)%Qc).
Proof.
  apply (App_rhs n I h ok (cmp_ f0) f t x f0 g F (qc 5 3) y4 f4 EX); [auto|intros i Oi; apply HE in Oi as (_ & _ & _ & A & _ & B & _); auto|].
  eapply OO_ext; [|exact (OO_add (App_move 1%Qc app_incr) (App_move (qc 2 3) app_k3))]. intros i Oi j Hj. pose proof Oi as Oi2. apply IOK in Oi as (_ & _ & _ & _ & _ & N).
  apply HE in Oi2 as (_ & _ & _ & _ & Y & _). rewrite Y, N by exact Hj. cbv beta. replace (qc 5 3) with (1 + qc 2 3)%Qc by (apply Qc_is_canon; reflexivity). ring.
Qed.
Lemma app_k4 : App n h ok (cmp_ f0) (fun i => cmp_ (k4 i)) (fun j => (qc 5 3 * pp j + qc 23 3 * qq j)%Qc).
Proof.
  eapply App_ext; [reflexivity| |eapply (App_implicit J d (v:=fun i => cmp_ (k4 i)) (w:=fun i j => (cmp_ (f4 i) j + (qc 2 3 * d) * i_h (pr i) * qsum n (fun k => J j k * cmp_ (i_k1 (pr i)) k) + (qc 6 1 * d) * i_h (pr i) * qsum n (fun k => J j k * cmp_ (i_k2 (pr i)) k))%Qc));
    [|apply (App_pert (qc 6 1 * d)%Qc J (w:=fun i j => (cmp_ (f4 i) j + (qc 2 3 * d) * i_h (pr i) * qsum n (fun k => J j k * cmp_ (i_k1 (pr i)) k))%Qc) app_k2 (App_pert (qc 2 3 * d)%Qc J app_k1 app_f4))]].
  - intros j Hj. cbv beta. replace (qc 23 3) with (qc 2 3 + qc 6 1 + 1)%Qc by (apply Qc_is_canon; reflexivity). ring.
  - intros i Oi j Hj. apply HE in Oi as (_ & _ & _ & _ & _ & _ & S). rewrite (shifted_iff _ _ _ _ _ S j Hj) at 1. cbv beta. unfold matvec, vfun, cmp_. ring.
Qed.
Lemma estimate3 : OO n h ok 3 (fun i j => (i_h (pr i) * qc 1 8 * (qc 5 1 * (cmp_ (k3 i) j - cmp_ (i_k2 (pr i)) j) + cmp_ (i_k1 (pr i)) j - cmp_ (k4 i) j))%Qc).
Proof.
  pose proof (OO_scale (qc 1 8) (OO_h (OO_add (OO_add (OO_scale (qc 5 1) app_k3) (OO_scale (qc (-5) 1) app_k2)) (OO_add app_k1 (OO_scale (qc (-1) 1) app_k4))))) as H.
  eapply OO_ext; [|exact H]. intros i Oi j Hj. cbv beta.
  generalize (cmp_ (k3 i) j) (cmp_ (i_k2 (pr i)) j) (cmp_ (i_k1 (pr i)) j) (cmp_ (k4 i) j) (i_h (pr i)) (cmp_ f0 j) (g j + qsum n (fun k => F j k * cmp_ f0 k))%Qc (d * qsum n (fun k => J j k * cmp_ f0 k))%Qc.
  intros K3 K2 K1 K4 hh a p q.
  replace (qc (-5) 1) with (- qc 5 1)%Qc by (apply Qc_is_canon; reflexivity). replace (qc (-1) 1) with (- (1))%Qc by (apply Qc_is_canon; reflexivity).
  assert (P : (qc 5 1 - qc 5 1 * qc 2 3 - qc 5 3 = 0)%Qc) by (apply Qc_is_canon; reflexivity).
  assert (R : (qc 5 1 + qc 5 1 * qc 1 3 + 1 - qc 23 3 = 0)%Qc) by (apply Qc_is_canon; reflexivity).
  match goal with |- ?l = _ => transitivity (l - qc 1 8 * (hh * hh) * ((qc 5 1 - qc 5 1 * qc 2 3 - qc 5 3) * p + (qc 5 1 + qc 5 1 * qc 1 3 + 1 - qc 23 3) * q))%Qc end.
  - rewrite P, R. ring.
  - ring.
Qed.
End Inst.
End SW.
