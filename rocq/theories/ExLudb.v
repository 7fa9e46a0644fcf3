(** ExLudb.v - the theorem of PropLudb.v at work, and what it does not promise. *)
From Coq Require Import List Arith Bool Lia ZArith Reals Lra.
From Flocq Require Import Core IEEE754.BinarySingleNaN.
From Verif Require Import Base LUSpec LUModel LufModel LufSpec IeeeSpec VdSpec ExVd PropLudb.
Import ListNotations.
Local Open Scope nat_scope.

(** Full 2 by 2 matrices. *)
Definition full2 (a b c d : double) : entriesN DNum := [((0,0), a); ((0,1), b); ((1,0), c); ((1,1), d)].
Lemma full2_ok a b c d : distinct_keys (full2 a b c d) /\ acceptableN (full2 a b c d) 2 /\ coversN (full2 a b c d) 2.
Proof.
  assert (ST : forall r k, r < 2 -> k < 2 -> storedN (full2 a b c d) r k).
  { intros [|[|r]] [|[|k]] H1 H2; try lia; eexists; simpl; auto. }
  split; [|split; [split|]].
  - unfold distinct_keys. cbn. repeat constructor; simpl; intuition discriminate.
  - intros r k [v I]. simpl in I. repeat (destruct I as [I|I]; [injection I as <- <- _; lia|]). destruct I.
  - intros i Hi. split; exists 0; (split; [apply ST; lia|lia]).
  - intros r k Hk _. exists k. split; [lia|apply ST; lia].
Qed.
Definition solution (e : entriesN DNum) (b : list double) : Outcome (list double) := st <- setMatrixN e ;; r <- solveN st b ;; Ret (snd r).
Definition is2 (o : Outcome (list double)) (p : double -> double -> bool) : bool := match o with Ret [x; y] => p x y | _ => false end.
(** [[2, 1], [4, 3]] x = (3, 7): x = (1, 1), finite; [[1, 2], [2, 4]] x = (1, 2): the second pivot is zero and the second component NaN; with (1, 1) it is infinite. *)
Example C92_case : is2 (solution (full2 (dbl 2 0) (dbl 1 0) (dbl 4 0) (dbl 3 0)) [dbl 3 0; dbl 7 0]) (fun x y => Beqb x (dbl 1 0) && Beqb y (dbl 1 0)) = true /\
  is2 (solution (full2 (dbl 1 0) (dbl 2 0) (dbl 2 0) (dbl 4 0)) [dbl 1 0; dbl 2 0]) (fun x y => is_nan y) = true /\
  is2 (solution (full2 (dbl 1 0) (dbl 2 0) (dbl 2 0) (dbl 4 0)) [dbl 1 0; dbl 1 0]) (fun x y => negb (is_finite y) && negb (is_nan y)) = true.
Proof. vm_compute. repeat split. Qed.
Example C92_nan_case : exists st x, setMatrixN (full2 (dbl 2 0) (dbl 1 0) (dbl 4 0) B754_nan) = Ret st /\ solveN st [dbl 3 0; dbl 7 0] = Ret x /\ nth 1 (snd x) dzero = (B754_nan : double).
Proof.
  destruct (full2_ok (dbl 2 0) (dbl 1 0) (dbl 4 0) B754_nan) as (D & A & _). destruct (C92_visible _ 2 D A) as (st & st' & L & U & E1 & E2 & F & H).
  destruct (H [dbl 3 0; dbl 7 0] ltac:(simpl; lia)) as (x & X & _ & _ & N & _). exists st, (st', x). split; [exact E1|]. split; [exact X|]. apply N; [lia|]. right. exists 1. simpl. auto.
Qed.
(** Overflow of a pivot stays invisible: the solution of [[1, 2^1000], [2^1000, 1]] x = (1, 1) is computed as (1, 0) - the second equation then reads 2^1000 = 1. *)
Theorem C92_silent_overflow_refuted : ~ (forall (e : entriesN DNum) n st st' (b x : list double), distinct_keys e -> acceptableN e n -> coversN e n -> setMatrixN e = Ret st -> solveN st b = Ret (st', x) -> length b = n ->
  (forall r c v, In ((r, c), v) e -> is_finite (v : double) = true) -> (forall r, r < n -> is_finite (nth r x dzero) = true) ->
  forall r, r < n -> getUN (nlay st') (nu st') r r = Ret (B754_infinity true : double) -> False).
Proof.
  intros H. set (e := full2 (dbl 1 0) (dbl 1 1000) (dbl 1 1000) (dbl 1 0)). destruct (full2_ok (dbl 1 0) (dbl 1 1000) (dbl 1 1000) (dbl 1 0)) as (D & A & C). fold e in D, A, C.
  assert (Q : match (st <- setMatrixN e ;; solveN st [dbl 1 0; dbl 1 0]) with
              | Ret (st', [x; y]) => is_finite (x : double) && is_finite (y : double) && match getUN (nlay st') (nu st') 1 1 with Ret (B754_infinity s) => s | _ => false end
              | _ => false end = true) by (vm_compute; reflexivity).
  destruct (setMatrixN e) as [st| |] eqn:E; [|discriminate Q|discriminate Q]. cbn [obind] in Q. destruct (solveN st [dbl 1 0; dbl 1 0]) as [[st' x]| |] eqn:X; [|discriminate Q|discriminate Q].
  destruct x as [|x1 [|x2 [|x3 x]]]; try discriminate Q. apply andb_prop in Q as [Q Q3]. apply andb_prop in Q as [Q1 Q2].
  apply (H e 2 st st' [dbl 1 0; dbl 1 0] [x1; x2] D A C E X eq_refl) with (r := 1); [| |lia|].
  - intros r c v I. simpl in I. repeat (destruct I as [I|I]; [injection I as _ _ <-; vm_compute; reflexivity|]). destruct I.
  - intros [|[|r]] Hr; [exact Q1|exact Q2|lia].
  - destruct (getUN (nlay st') (nu st') 1 1) as [[ |s| | ]| |]; try discriminate Q3. rewrite Q3. reflexivity.
Qed.
Example C92_silent_overflow : is2 (solution (full2 (dbl 1 0) (dbl 1 1000) (dbl 1 1000) (dbl 1 0)) [dbl 1 0; dbl 1 0]) (fun x y => Beqb x (dbl 1 0) && Beqb y dzero) = true.
Proof. vm_compute. reflexivity. Qed.
(** NaN in one row need not reach the others: the first component stays finite when NaN is in the second row of a lower triangular matrix. *)
Theorem C92_nan_everywhere_refuted : ~ (forall (e : entriesN DNum) n st st' (b x : list double), distinct_keys e -> acceptableN e n -> coversN e n -> setMatrixN e = Ret st -> solveN st b = Ret (st', x) -> length b = n ->
  forall r, r < n -> nth r b dzero = B754_nan -> forall i, i < n -> nth i x dzero = B754_nan).
Proof.
  intros H. set (e := [((0,0), dbl 1 0); ((1,1), dbl 1 0)] : entriesN DNum).
  assert (D : distinct_keys e) by (unfold distinct_keys; cbn; repeat constructor; simpl; intuition discriminate).
  assert (ST : forall i, i < 2 -> storedN e i i) by (intros [|[|i]] Hi; try lia; eexists; simpl; auto).
  assert (A : acceptableN e 2).
  { split; [intros r k [v I]; simpl in I; repeat (destruct I as [I|I]; [injection I as <- <- _; lia|]); destruct I|]. intros i Hi. split; exists i; (split; [apply ST; lia|lia]). }
  assert (C : coversN e 2).
  { intros r c Hc (r' & L & v & I). simpl in I. repeat (destruct I as [I|I]; [injection I as E1 E2 _; lia|]). destruct I. }
  assert (Q : match (st <- setMatrixN e ;; solveN st [dbl 1 0; (B754_nan : double)]) with Ret (_, [x; _]) => negb (is_nan (x : double)) | _ => false end = true) by (vm_compute; reflexivity).
  destruct (setMatrixN e) as [st| |] eqn:E; [|discriminate Q|discriminate Q]. cbn [obind] in Q. destruct (solveN st [dbl 1 0; (B754_nan : double)]) as [[st' x]| |] eqn:X; [|discriminate Q|discriminate Q].
  destruct x as [|x1 [|x2 [|x3 x]]]; try discriminate Q. pose proof (H e 2 st st' [dbl 1 0; (B754_nan : double)] [x1; x2] D A C E X eq_refl 1 ltac:(lia) eq_refl 0 ltac:(lia)) as N. cbn [nth] in N. rewrite N in Q. discriminate Q.
Qed.
