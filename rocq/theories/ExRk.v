(** ExRk.v - concrete cases for PropRk.v, and refutations. *)
From Coq Require Import List Arith Lia ZArith QArith Qcanon Bool.
From Verif Require Import Base BaseFacts VecModel VOps RkModel RkSpec RkFacts3 RkFacts4 RkFacts6.
Import ListNotations.
Local Open Scope nat_scope.
Definition q (z : Z) : Qc := Q2Qc (inject_Z z).
Definition qf (a : Z) (b : positive) : Qc := Q2Qc (a # b).
Definition ql (l : list Z) : list Qc := map q l.
Definition tq (l : list Qc) : list Q := map this l.

(** x0' = x1 * t, x1' = x0 * x1 - 1: nonlinear, depending on time *)
Definition f2 (t : Qc) (x : list Qc) : Outcome (list Qc) := Ret [(cmp_ x 1 * t)%Qc; (cmp_ x 0 * cmp_ x 1 - 1)%Qc].
Example f2_good : good_rhs (N:=QcNum) 2 f2. Proof. intros t x L. eexists; split; reflexivity. Qed.
Example work_space : shaped (N:=QcNum) (out_new 4 2 1) 4 2 1. Proof. apply out_new_shaped. Qed.
Definition showC (r : Outcome (output QcNum * list (Qc * list Qc))) : option (list (list Q) * nat) :=
  match r with Ret (o, l) => Some (map tq (o_x2 o), length l) | _ => None end.
Example rk4_case : showC (rk_compute (N:=QcNum) (out_new 4 2 1) tab_rk4 f2 (ql [1; 2]%Z) (q 0) (qf 1 2)) = Some ([[(21423 # 16384)%Q; (8757985 # 3145728)%Q]], 4).
Proof. vm_compute. reflexivity. Qed.
(** A right-hand side failing at the third evaluation. *)
Definition f3 (t : Qc) (x : list Qc) : Outcome (list Qc) := if Qcltb (q 1) (cmp_ x 0) then Throw else Ret [1%Qc].
Example f3_safe : safe_rhs (N:=QcNum) 1 f3.
Proof. intros t x L. unfold f3. destruct (Qcltb (q 1) (cmp_ x 0)); [left; reflexivity|right; eexists; split; reflexivity]. Qed.
Example f3_case : rk_compute (N:=QcNum) (out_new 4 1 1) tab_rk4 f3 [0%Qc] 0%Qc (q 3) = Throw. Proof. reflexivity. Qed.

(** Fixed steps *)
Definition s_init : rkst QcNum unit := mkRk (N:=QcNum) 0%Qc [] None out_empty tt.
Definition showS (r : Outcome (rkst QcNum unit * list (postarg QcNum))) : option (Q * list Q * nat) :=
  match r with Ret (s, l) => Some (this (rk_t s), tq (rk_x s), length l) | _ => None end.
Example euler_case : showS (rk_steps (N:=QcNum) no_events (fun _ => f2) tab_euler 2 (qf 1 2) 3 (rk_set (N:=QcNum) no_events (q 1) (ql [1; 2]%Z) s_init))
  = Some ((5 # 2)%Q, [(67 # 8)%Q; (407 # 32)%Q], 3).
Proof. vm_compute. reflexivity. Qed.
(** The pre-step observers of the first step are given the step size before it has been set (an uninitialised member). *)
Theorem C29_first_pre_observer_refuted : exists r, rk_step (N:=QcNum) no_events (fun _ : unit => f2) tab_euler 2 (qf 1 2) (rk_set (N:=QcNum) no_events (q 1) (ql [1; 2]%Z) s_init)
   = Ret r /\ snd (fst r) = None.
Proof.
  destruct (rk_step_ok (fun _ : unit => f2) tab_euler 1 2 (qf 1 2) wf_euler eq_refl (rk_set (N:=QcNum) no_events (q 1) (ql [1; 2]%Z) s_init) f2_good) as [s' [E _]];
    [split; [reflexivity|left; reflexivity]|].
  eexists. split; [exact E|reflexivity].
Qed.

(** C30: the table of DOPRI 5(4) *)
Example dopri45_row : co_last tab_dopri45 = Z.of_nat 0 /\ row_repeats tab_dopri45 7 0.
Proof. split; [reflexivity|]. destruct sc_dopri45 as [H|[ix [H1 [_ H2]]]]; [discriminate H|]. assert (ix = 0) by (apply Nat2Z.inj; symmetry; exact H1). subst. exact H2. Qed.
(** With a single stage there is no last stage argument: the shortcut returns what was in the buffer. *)
Theorem C30_single_stage_refuted : exists (co : coeffs QcNum) o, co_last co = Z.of_nat 0 /\ shaped o 1 1 1 /\
  visible (rk_compute (N:=QcNum) o co (fun _ _ => Ret [1%Qc]) [q 5] 0%Qc 1%Qc) <> visible (rk_compute (N:=QcNum) o (no_shortcut co) (fun _ _ => Ret [1%Qc]) [q 5] 0%Qc 1%Qc).
Proof.
  exists (mkCo (N:=QcNum) [] [0%Qc] [] 0%Z), (mkOut (N:=QcNum) [[q 7]] [[q 8]] [q 9]). split; [reflexivity|]. split.
  - repeat split; simpl; intros v [<-|[]]; reflexivity.
  - intros E. vm_compute in E. discriminate E.
Qed.

(** C31: the orders are sharp. *)
Theorem C31_rk4_order5_refuted : ~ order_conditions tab_rk4 4 0 5.
Proof. intros H. specialize (H (Node [Node []; Node []; Node []; Node []]) (le_n _)). apply (f_equal this) in H. vm_compute in H. discriminate H. Qed.
Theorem C31_dopri45_low_order5_refuted : ~ order_conditions tab_dopri45 7 1 5.
Proof. intros H. specialize (H (Node [Node []; Node []; Node []; Node []]) (le_n _)). apply (f_equal this) in H. vm_compute in H. discriminate H. Qed.
Theorem C31_dopri45_high_order6_refuted : ~ order_conditions tab_dopri45 7 0 6.
Proof. intros H. specialize (H (Node [Node []; Node []; Node []; Node []; Node []]) (le_n _)). apply (f_equal this) in H. vm_compute in H. discriminate H. Qed.
(** The 8(7) table satisfies not even the first condition exactly. *)
Theorem C31_dopri78_exact_refuted : ~ order_conditions tab_dopri78 13 0 1.
Proof. intros H. specialize (H (Node []) (le_n _)). apply (f_equal this) in H. vm_compute in H. discriminate H. Qed.

(** C32: x' = (x1, -x0), RK4, h = 1: the first five terms of the cosine and sine series. *)
Definition rot (i j : nat) : Qc := match i, j with 0, 1 => q 1 | 1, 0 => q (-1) | _, _ => q 0 end.
Example rk4_linear : showC (rk_compute (N:=QcNum) (out_new 4 2 1) tab_rk4 (linear_rhs 2 rot) (ql [1; 0]%Z) (q 0) (q 1)) = Some ([[(13 # 24)%Q; (-5 # 6)%Q]], 4).
Proof. vm_compute. reflexivity. Qed.
(** x' = 4 (t-1)^3 + 1 from t = 1, h = 2: x = 16 + 2. *)
Example rk4_poly : showC (rk_compute (N:=QcNum) (out_new 4 1 1) tab_rk4 (poly_rhs 1 4 (fun _ k => nth k (ql [1; 0; 0; 4]%Z) 0%Qc) (q 1)) (ql [0]%Z) (q 1) (q 2)) = Some ([[18 # 1]], 4).
Proof. vm_compute. reflexivity. Qed.
(** Degree 4 is not integrated exactly by RK4. *)
Example rk4_poly4 : showC (rk_compute (N:=QcNum) (out_new 4 1 1) tab_rk4 (poly_rhs 1 5 (fun _ k => nth k (ql [0; 0; 0; 0; 5]%Z) 0%Qc) (q 1)) (ql [0]%Z) (q 1) (q 2)) = Some ([[100 # 3]], 4).
Proof. vm_compute. reflexivity. Qed.
