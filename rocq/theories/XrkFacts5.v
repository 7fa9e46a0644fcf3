(** XrkFacts5.v - every accepted step of the extrapolation solver is a step of one explicit Runge-Kutta method. *)
From Coq Require Import List Arith Bool ZArith QArith Qcanon Lia Field.
From Verif Require Import Base BaseFacts VecModel VOps RkModel RkSpec RkFacts StepModel StepSpec ExtModel ExtSpec ExtFacts ExtFacts2 ExtFacts3 ExtFacts4 ExtFacts5 XrkSpec XrkFacts XrkFacts2 XrkFacts3 XrkFacts4.
Import ListNotations.
Local Open Scope Qc_scope.

(** * Extrapolated blocks *)
Section Mix.
Context (ns : list nat) (m : nat) (sym : bool) (F : nat -> ft).
Hypothesis INC : increasing ns m.
Hypothesis M1 : (1 <= m)%nat.
Notation x := (fun i => node sym (nth i ns 0%nat)).
Definition big : ft := mix (wx x 0 (m - 1)) (fun i => F (nth i ns 0%nat)) m.
Lemma ns_pos i : (i < m)%nat -> (0 < nth i ns 0)%nat.
Proof. destruct INC as (L & Z & I). intros Hi. destruct i as [|i]; [exact Z|]. specialize (I 0%nat (S i) ltac:(lia) Hi). lia. Qed.
Lemma x_dist : forall i j, (i < j)%nat -> (j < m)%nat -> x i <> x j.
Proof. exact (xx_distinct sym ns m INC M1). Qed.
Lemma weights_one : qsum m (wx x 0 (m - 1)) = 1.
Proof.
  rewrite (qsum_ext m _ (fun i => wx x 0 (m - 1) i * (fun _ => 1) i)) by (intros; ring). assert (E : m = S (m - 1)) by lia. rewrite E at 1. rewrite <- (extrap_weights x (m - 1) (fun _ => 1)).
  apply (extrap_const x m x_dist). lia.
Qed.
Lemma big_order t : (exists r, (length r <= m)%nat /\ peval r 0 = 1 / qn (density t) /\ forall i, (i < m)%nat -> wt (F (nth i ns 0%nat)) t = peval r (x i)) -> wt big t = 1 / qn (density t).
Proof.
  intros (r & L & R0 & R). unfold big. rewrite wt_mix. assert (E : m = S (m - 1)) by lia. rewrite E at 1. rewrite <- (extrap_weights x (m - 1) (fun i => wt (F (nth i ns 0%nat)) t)).
  rewrite (XrkFacts3.extrap_ext x _ (fun i => peval r (x i))) by (intros i Hi; apply R; lia). rewrite <- R0. apply (extrap_exact x m x_dist); lia.
Qed.
Lemma big_step n f t h x0 (vs : list (list Qc)) u : length x0 = n -> (forall i, (i < m)%nat -> exists k, stages_of n f (F (nth i ns 0%nat)) t h x0 k /\ result_of n (F (nth i ns 0%nat)) h x0 k (nth i vs [])) ->
  length u = n -> (forall j, (j < n)%nat -> cmp_ u j = extrap x (fun i => cmp_ (nth i vs []) j) 0 (m - 1)) -> exists k, stages_of n f big t h x0 k /\ result_of n big h x0 k u.
Proof.
  intros LX H LU HU. apply (mix_step n f _ (fun i => F (nth i ns 0%nat)) t h x0 (fun i => nth i vs []) LX m H u LU). intros j Hj. rewrite HU by exact Hj. rewrite extrap_weights. assert (E : S (m - 1) = m) by lia. rewrite E.
  rewrite (qsum_ext m (fun i => wx x 0 (m - 1) i * (cmp_ (nth i vs []) j - cmp_ x0 j)) (fun i => wx x 0 (m - 1) i * cmp_ (nth i vs []) j + (- cmp_ x0 j) * wx x 0 (m - 1) i)) by (intros; ring).
  rewrite qsum_add, qsum_scale, weights_one. ring.
Qed.
End Mix.

(** the table *)
Section Table.
Context (ns : list nat) (m : nat) (sym : bool) (F : nat -> ft).
Hypothesis INC : increasing ns m.
Hypothesis M1 : (1 <= m)%nat.
Hypothesis F_n : forall k, (0 < k)%nat -> (0 < f_n (F k))%nat /\ f_c (F k) 0%nat = 0 /\ rows_ok (F k).
Notation B := (big ns m sym F).
Lemma B_n : (0 < f_n B)%nat. Proof. apply mix_n; [lia|]. intros i Hi. apply F_n. apply (ns_pos ns m INC M1). exact Hi. Qed.
Lemma B_c : f_c B 0%nat = 0. Proof. apply mix_c0; [lia|]. intros i Hi. pose proof (F_n _ (ns_pos ns m INC M1 i Hi)). tauto. Qed.
Lemma B_rows : rows_ok B. Proof. apply rows_mix. intros i Hi. apply F_n. apply (ns_pos ns m INC M1). exact Hi. Qed.
Lemma solver_table p : (forall t, (order t <= p)%nat -> exists r, (length r <= m)%nat /\ peval r 0 = 1 / qn (density t) /\ forall i, (i < m)%nat -> wt (F (nth i ns 0%nat)) t = peval r (node sym (nth i ns 0%nat))) ->
  wf_table (co_of B) (f_n B) 1 /\ order_conditions (co_of B) (f_n B) 0 p /\ row_sums (co_of B) (f_n B).
Proof.
  intros W. pose proof B_n. pose proof B_c. pose proof B_rows. split; [apply co_wf; assumption|]. split.
  - apply co_order; try assumption. intros t Ht. apply big_order; [exact INC|exact M1|]. exact (W t Ht).
  - apply co_rows; assumption.
Qed.
End Table.

(** * The solver *)
Section Solver.
Context {S Q : Type} (rs : refsolver QcNum S) (sq : stepseq Q) (c : xcfg QcNum) (n : nat) (f : Qc -> list Qc -> Outcome (list Qc)) (ns : list nat) (F : nat -> ft).
Hypothesis SAFE : ref_safe rs n.
Hypothesis REF : forall t x h k s s' v, length x = n -> (0 < k)%nat -> ref_result (N:=QcNum) rs t x h k s s' v -> exists ks, stages_of n f (F k) t h x ks /\ result_of n (F k) h x ks v.
Hypothesis F_n : forall k, (0 < k)%nat -> (0 < f_n (F k))%nat /\ f_c (F k) 0%nat = 0 /\ rows_ok (F k).
Hypothesis INC : increasing ns (xc_stages c).
Hypothesis M1 : (1 <= xc_stages c)%nat.
Hypothesis M2 : xc_nocheck c = false -> (2 <= xc_stages c)%nat.
Hypothesis DEL : delivers sq ns.
Notation m := (xc_stages c).
Notation B := (big ns m (xc_sym c) F).
Notation B_n := (B_n ns m (xc_sym c) F INC M1 F_n).
Notation B_c := (B_c ns m (xc_sym c) F INC M1 F_n).
Lemma seq_fine : seq_ok sq m.
Proof. intros q. destruct (DEL q) as (zs & q' & E & EN). assert (L : length ns = m) by apply INC. rewrite L in E. exists zs, q'. split; [exact E|]. rewrite EN. exact INC. Qed.
Lemma results_each t x h : length x = n -> forall ks s s' vs, (forall i, (i < length ks)%nat -> (0 < nth i ks 0)%nat) -> ref_results (N:=QcNum) rs t x h ks s s' vs ->
  forall i, (i < length ks)%nat -> exists k, stages_of n f (F (nth i ks 0%nat)) t h x k /\ result_of n (F (nth i ks 0%nat)) h x k (nth i vs []).
Proof.
  intros LX. induction ks as [|k ks I]; intros s s' vs POS R i Hi; [cbn in Hi; lia|]. destruct vs as [|v vs]; [destruct R|]. destruct R as (s1 & R1 & R2). destruct i as [|i].
  - cbn [nth]. exact (REF t x h k s s1 v LX (POS 0%nat Hi) R1).
  - cbn [nth]. apply (I s1 s' vs); [|exact R2|cbn in Hi; lia]. intros j Hj. apply (POS (Datatypes.S j)). cbn. lia.
Qed.
Lemma accepted_first fuel : forall (s s' : xst QcNum S Q) posts a, x_step (N:=QcNum) rs sq no_events c fuel s = (s', posts, Some (AAccepted a)) -> exists h0, x_first c s = Some h0.
Proof.
  destruct fuel as [|k]; intros s s' posts a E; [discriminate E|]. unfold x_first. destruct (x_T s) as [|v T] eqn:ET; [eexists; reflexivity|]. destruct (x_h s) as [h|] eqn:EH; [eexists; reflexivity|]. exfalso.
  cbn [x_step] in E. unfold x_attempt, x_init in E. rewrite ET in E. unfold xfail at 1 in E. rewrite EH in E. discriminate E.
Qed.
Lemma accepted_step fuel (s s' : xst QcNum S Q) posts a : length (x_x s) = n -> x_step (N:=QcNum) rs sq no_events c fuel s = (s', posts, Some (AAccepted a)) ->
  exists h, textbook_step (co_of B) (f_n B) n f h (x_t s, x_x s) (x_t s', x_x s').
Proof.
  intros LX E. destruct (accepted_first _ _ _ _ _ E) as (h0 & FI). destruct (xtrace _ _ _ _ _ _ _ _ _ _ E FI) as (rej & _ & H). cbv zeta in H. set (h := x_cur h0 rej) in *. destruct H as (_ & _ & _ & _ & _ & _ & MV).
  destruct MV as (s0 & next & w & er & [UT UX] & CP & EE & T' & X' & _). cbn [no_events ev_end] in EE. injection EE as _ <-. cbn [ev_t ev_x] in T', X'.
  assert (L0 : length (x_x s0) = n) by (rewrite UX; exact LX).
  destruct (x_value rs sq no_events c n s0 h next _ w seq_fine SAFE L0 M1 M2 CP) as (w0 & q0 & zs & q1 & _ & TK & INCz & (vs & RR & LN & VAL)). cbv zeta in VAL. destruct VAL as [VAL _].
  destruct (DEL q0) as (zs' & q' & TK' & EN). assert (LNS : length ns = m) by apply INC. rewrite LNS in TK'. rewrite TK in TK'. injection TK' as -> _. rewrite EN in *.
  exists h. rewrite X', T'. rewrite UT, UX in *. change (nadd QcNum (x_t s) h) with (x_t s + h).
  destruct (big_step ns m (xc_sym c) F INC M1 n f (x_t s) h (x_x s) vs next LX) as (k & ST & RES).
  - intros i Hi. apply (results_each (x_t s) (x_x s) h LX ns w0 w vs); [intros j Hj; apply (ns_pos ns m INC M1); lia|exact RR|lia].
  - exact LN.
  - exact VAL.
  - eapply co_step; [exact B_c|exact B_n|exact ST|exact RES].
Qed.
Lemma solver_steps : steps_by rs sq c n f (co_of B) (f_n B).
Proof. intros fuel s s' posts a LX E. exact (accepted_step fuel s s' posts a LX E). Qed.
End Solver.
