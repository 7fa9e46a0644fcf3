(** ExJac.v - concrete cases meeting the hypotheses of the theorems in PropJac.v, and refutations. *)
From Coq Require Import List Arith QArith Qcanon Lia ZArith Permutation.
From Verif Require Import Base BaseFacts SMap SpModel SpSpec MapModel JacModel JacSpec.
Import ListNotations.
Local Open Scope nat_scope.

Definition q (z : Z) : Qc := Q2Qc (inject_Z z).
Definition ql (l : list Z) : list Qc := map q l.
Definition el (r c : nat) (z : Z) : key * Qc := ((r, c), q z).
Definition dump (J : smat QcNum) : list (nat * nat * Q) := map (fun e => (fst e, this (snd e))) (sdat J).
Definition ez (r c : nat) (z : Z) : nat * nat * Z := ((r, c), z).
Definition zd (l : list (nat * nat * Z)) : list (nat * nat * Q) := map (fun e => (fst e, inject_Z (snd e))) l.

(** F(x) = (2 x0 + 3, x0 - x1, x1 + 4 x2, 5 x3): affine; total on lists of length 4. *)
Definition exF (x : list Qc) : list Qc :=
  let v i := nth i x 0%Qc in [(q 2 * v 0%nat + q 3)%Qc; (v 0%nat - v 1%nat)%Qc; (v 1%nat + q 4 * v 2%nat)%Qc; (q 5 * v 3%nat)%Qc].
Definition exg : vmapping QcNum := mkMap (N:=QcNum) 4 4 (fun x => Ret (exF x)).
Definition exA (r c : nat) : Qc := q (nth c (nth r [[2; 0; 0; 0]; [1; -1; 0; 0]; [0; 1; 4; 0]; [0; 0; 0; 5]] [])%Z 0%Z).
Definition exb (r : nat) : Qc := q (nth r [3; 0; 0; 0] 0)%Z.
Example ex_computes : computes (N:=QcNum) exg exF 4 4. Proof. split; [reflexivity|]. split; [reflexivity|]. intros x L. split; reflexivity. Qed.
Example ex_affine : affine 4 exA exb exF.
Proof.
  intros x L. unfold exF. cbn [map seq]. unfold qsum, exA, exb. cbn [forn nth seq fold_left].
  repeat (apply (f_equal2 (@cons Qc)); [unfold q; change (inject_Z 0) with 0%Q; change (inject_Z 1) with 1%Q; change (inject_Z (-1)) with (-1)%Q; change (Q2Qc (-1)) with (- (1))%Qc; try ring|]). reflexivity.
Qed.
Definition exX : list Qc := ql [7; 8; 9; 10]%Z.
Definition showJ (o : Outcome (smat QcNum * list (list Qc))) : option (list (nat * nat * Q) * nat) :=
  match o with Ret (J, l) => Some (dump J, length l) | _ => None end.
Example jac_case : showJ (computeJacobian (N:=QcNum) (q 2) exg exX)
  = Some (zd [ez 0 0 (2); ez 1 0 (1); ez 1 1 (-1); ez 2 1 (1); ez 2 2 (4); ez 3 3 (5)], 5).
Proof. reflexivity. Qed.
(** Three groups are not needed: columns 0, 2 (and 3) share no row; column 1 is alone. *)
Definition exJ : smat QcNum := mkS (N:=QcNum) true (4, 4) [el 0 0 9; el 1 0 9; el 1 1 9; el 2 1 9; el 2 2 9; el 3 3 9].
Example groups_case : groups exJ = [[0; 2; 3]; [1]]. Proof. reflexivity. Qed.
Example ex_well_sized : well_sized exJ.
Proof. intros r c [x I]. simpl in I. repeat (destruct I as [I|I]; [injection I as <- <- _; simpl; lia|]). destruct I. Qed.
Example ex_respects : respects (N:=QcNum) exF 4 exJ.
Proof.
  intros r x y Lx Ly H.
  assert (S : forall c, (exists v, In ((r, c), v) (sdat exJ)) -> nth c x (n0 QcNum) = nth c y (n0 QcNum)) by (intros c [v I]; apply H; exists v; exact I).
  unfold exF. cbv zeta beta. change (n0 QcNum) with 0%Qc in *. change (nT QcNum) with Qc in *. destruct r as [|[|[|[|r]]]]; cbn [nth].
  - rewrite (S 0%nat); [reflexivity|]. exists (q 9); unfold exJ, el; cbn [sdat In]; auto 9.
  - rewrite (S 0%nat), (S 1%nat); [reflexivity|exists (q 9); unfold exJ, el; cbn [sdat In]; auto 9|exists (q 9); unfold exJ, el; cbn [sdat In]; auto 9].
  - rewrite (S 1%nat), (S 2%nat); [reflexivity|exists (q 9); unfold exJ, el; cbn [sdat In]; auto 9|exists (q 9); unfold exJ, el; cbn [sdat In]; auto 9].
  - rewrite (S 3%nat); [reflexivity|exists (q 9); unfold exJ, el; cbn [sdat In]; auto 9].
  - reflexivity.
Qed.
Example sparse_case : showJ (computeSparseJacobian (N:=QcNum) (q 2) exg exX exJ)
  = Some (zd [ez 0 0 (2); ez 1 0 (1); ez 1 1 (-1); ez 2 1 (1); ez 2 2 (4); ez 3 3 (5)], 3).
Proof. reflexivity. Qed.
Definition sq4 (x : Qc) : Qc := if Qceqb x (q 4) then q 2 else if Qceqb x (q 9) then q 3 else q 1.
Definition exg2 : vmapping QcNum := mkMap (N:=QcNum) 2 2 (fun x => Ret [(q (-4) * nth 0 x 0 + nth 1 x 0)%Qc; (q 9 * nth 1 x 0)%Qc]).
Example normalize_case : match normalize (N:=QcNum) (q 1) sq4 exg2 (ql [5; 6]%Z) with Ret d => map this d = [(1 # 2)%Q; (1 # 3)%Q] | _ => False end.
Proof. reflexivity. Qed.

(** Without the dependence hypothesis the compressed values are wrong: output 0 also depends on variable 1. *)
Theorem C22_any_pattern_refuted :
  ~ (forall (delta : Qc) (g : vmapping QcNum) (F : list Qc -> list Qc) (n m : nat) (x0 : list Qc) (J J' : smat QcNum) (log : list (list Qc)),
       computes (N:=QcNum) g F n m -> ssz J = (m, n) -> length x0 = n -> well_sized J ->
       computeSparseJacobian (N:=QcNum) delta g x0 J = Ret (J', log) ->
       forall r c v, In ((r, c), v) (sdat J') -> v = quotient (N:=QcNum) F x0 delta r c).
Proof.
  intros H.
  pose (F := fun x : list Qc => [(nth 0 x 0 + nth 1 x 0)%Qc; nth 1 x 0%Qc]).
  pose (g := mkMap (N:=QcNum) 2 2 (fun x => Ret (F x))).
  pose (J := mkS (N:=QcNum) true (2, 2) [el 0 0 0; el 1 1 0]).
  assert (C : computes (N:=QcNum) g F 2 2) by (split; [reflexivity|split; [reflexivity|intros x L; split; reflexivity]]).
  assert (W : well_sized J).
  { intros r c [x I]. simpl in I. repeat (destruct I as [I|I]; [injection I as <- <- _; simpl; lia|]). destruct I. }
  destruct (computeSparseJacobian (N:=QcNum) (q 1) g (ql [0; 0]%Z) J) as [[J' log]| |] eqn:E; [|discriminate E|discriminate E].
  assert (V : exists v, In ((0%nat, 0%nat), v) (sdat J') /\ this v = 2%Q).
  { assert (M : match computeSparseJacobian (N:=QcNum) (q 1) g (ql [0; 0]%Z) J with Ret (J', _) => match sdat J' with e :: _ => fst e = (0%nat, 0%nat) /\ this (snd e) = 2%Q | [] => False end | _ => False end) by (split; reflexivity).
    rewrite E in M. destruct (sdat J') as [|[k v] l]; [destruct M|]. destruct M as [M1 M2]. cbn [fst snd] in *. subst k. exists v. split; [left; reflexivity|exact M2]. }
  destruct V as [v [I V]]. pose proof (H (q 1) g F 2 2 (ql [0; 0]%Z) J J' log C eq_refl eq_refl W E 0%nat 0%nat v I) as Q.
  rewrite Q in V. assert (Z : this (quotient (N:=QcNum) F (ql [0; 0]%Z) (q 1) 0 0) = 1%Q) by reflexivity. rewrite Z in V. discriminate V.
Qed.

(** * Trimmers *)
Definition exM : smat QcNum := mkS (N:=QcNum) false (3, 3) [el 0 0 1; el 0 2 (-8); el 1 0 3; el 1 1 1; el 2 1 4].
Example exM_sorted : row_major (sdat exM).
Proof. simpl. repeat split; intros k' x I; repeat (destruct I as [I|I]; [injection I as <- _; unfold before; simpl; lia|]); destruct I. Qed.
Example width_case : match trim_width (N:=QcNum) 2 exM with Ret J => dump J | _ => [] end = zd [ez 0 0 (1); ez 1 0 (3); ez 1 1 (1); ez 2 1 (4)].
Proof. reflexivity. Qed.
Example threshold_case : match trim_threshold (N:=QcNum) (Q2Qc (1 # 2)) exM with Ret J => dump J | _ => [] end = zd [ez 0 0 (1); ez 0 2 (-8); ez 1 1 (1); ez 2 1 (4)].
Proof. reflexivity. Qed.
(** A width above INT_MAX becomes negative in the comparison and removes everything. *)
Theorem C24_any_width_refuted :
  ~ (forall (width : Z) (J J' : smat QcNum), fast J = false -> row_major (sdat J) -> (0 <= width < 2 ^ 32)%Z -> trim_width (N:=QcNum) width J = Ret J' ->
       forall r c x, sfind J (r, c) = Some x -> (Z.abs (Z.of_nat r - Z.of_nat c) < width)%Z -> sfind J' (r, c) = Some x).
Proof.
  intros H. assert (W : (0 <= 2 ^ 31 < 2 ^ 32)%Z) by lia.
  pose proof (H (2 ^ 31)%Z exM (new_map (N:=QcNum) (3, 3)) eq_refl exM_sorted W eq_refl 0%nat 0%nat (q 1) eq_refl) as E.
  discriminate E. reflexivity.
Qed.

(** * The provider *)
(** The mapping (x0 + 1, x0 - x1) and a history of two evaluations, a reset and a third one. *)
Definition exk (x : list Qc) : list Qc := [(nth 0 x 0 + 1)%Qc; (nth 0 x 0 - nth 1 x 0)%Qc].
Definition exgk : vmapping QcNum := mkMap (N:=QcNum) 2 2 (fun x => Ret (exk x)).
Example exk_computes : computes (N:=QcNum) exgk exk 2 2. Proof. split; [reflexivity|]. split; [reflexivity|]. intros x L. split; reflexivity. Qed.
Definition showP (o : Outcome (sprov QcNum * list (list Qc))) : option (list (nat * nat * Q) * nat) :=
  match o with Ret (p, l) => Some (dump (spJ p), length l) | _ => None end.
Example hist_case : showP (
  r <- sp_compute (N:=QcNum) (q 1) None exgk (ql [1; 2]%Z) sp_new ;;
  r <- sp_compute (N:=QcNum) (q 1) None exgk (ql [2; 3]%Z) (fst r) ;;
  sp_compute (N:=QcNum) (q 1) None exgk (ql [0; 0]%Z) (sp_hardReset (fst r))) = Some (zd [ez 0 0 1; ez 1 0 1; ez 1 1 (-1)], 3).
Proof. vm_compute. reflexivity. Qed.
Example second_case : showP (r <- sp_compute (N:=QcNum) (q 1) None exgk (ql [1; 2]%Z) sp_new ;; sp_compute (N:=QcNum) (q 1) None exgk (ql [2; 3]%Z) (fst r))
  = Some (zd [ez 0 0 1; ez 1 0 1; ez 1 1 (-1)], 3).
Proof. vm_compute. reflexivity. Qed.
Lemma showP_ret o d l : showP o = Some (d, l) -> exists p log, o = Ret (p, log) /\ dump (spJ p) = d.
Proof. destruct o as [[p log]| |]; simpl; intros H; try discriminate. injection H as <- <-. eauto. Qed.
Example ex_reach : exists p, sp_reach (N:=QcNum) (q 1) 2 p /\ sdat (spJ p) <> [].
Proof.
  assert (S : showP (sp_compute (N:=QcNum) (q 1) None exgk (ql [1; 2]%Z) sp_new) = Some (zd [ez 0 0 1; ez 1 0 1; ez 1 1 (-1)], 3)) by (vm_compute; reflexivity).
  destruct (showP_ret _ _ _ S) as [p [l [E D]]].
  exists p. split; [apply (reach_compute (N:=QcNum) (q 1) 2 sp_new exgk exk (ql [1; 2]%Z) p l (reach_new (N:=QcNum) (q 1) 2) exk_computes eq_refl E)|].
  intros Z. unfold dump in D. rewrite Z in D. discriminate D.
Qed.
(** Removing the trimmer between two evaluations: the second one uses addresses into an array that was reassigned. *)
Theorem C58_trimmer_switched_off_refuted :
  ~ (forall (g : vmapping QcNum) (F : list Qc -> list Qc) (n : nat) (x0 x1 : list Qc) (t : trimmer QcNum) (p : sprov QcNum) (l : list (list Qc)),
       computes (N:=QcNum) g F n n -> length x0 = n -> length x1 = n ->
       sp_compute (N:=QcNum) (q 1) (Some t) g x0 sp_new = Ret (p, l) -> exists r, sp_compute (N:=QcNum) (q 1) None g x1 p = Ret r).
Proof.
  intros H. pose (t := fun J : smat QcNum => Ret J).
  assert (S : showP (sp_compute (N:=QcNum) (q 1) (Some t) exgk (ql [1; 2]%Z) sp_new) = Some (zd [ez 0 0 1; ez 1 0 1; ez 1 1 (-1)], 3)) by (vm_compute; reflexivity).
  destruct (showP_ret _ _ _ S) as [p [l [E D]]].
  destruct (H exgk exk 2 (ql [1; 2]%Z) (ql [1; 2]%Z) t p l exk_computes eq_refl eq_refl E) as [r Er].
  assert (LV : lay_valid p = false).
  { unfold sp_compute in E. destruct (computeJacobian (N:=QcNum) (q 1) exgk (ql [1; 2]%Z)) as [[J lg]| |]; [|discriminate E|discriminate E]. cbn [obind fst snd t] in E. injection E as <- _. reflexivity. }
  unfold sp_compute in Er. rewrite LV in Er. destruct (sdat (spJ p)) eqn:Z; [unfold dump in D; rewrite Z in D; discriminate D|discriminate Er].
Qed.
(** The pattern learned at (0,0) for (x0 x1, x1) lacks the elements of row 0; at (1,1) they are nonzero and still missing. *)
Definition exh (x : list Qc) : list Qc := [(nth 0 x 0 * nth 1 x 0)%Qc; nth 1 x 0%Qc].
Theorem C58_later_pattern_complete_refuted :
  ~ (forall (dx : Qc) (n : nat) (p p' : sprov QcNum) (g : vmapping QcNum) (F : list Qc -> list Qc) (x0 : list Qc) (l : list (list Qc)),
       sp_reach (N:=QcNum) dx n p -> computes (N:=QcNum) g F n n -> length x0 = n -> sp_compute (N:=QcNum) dx None g x0 p = Ret (p', l) ->
       forall r c, r < n -> c < n -> change (N:=QcNum) F x0 dx r c <> 0%Qc -> hasIndex (spJ p') (r, c) = true).
Proof.
  intros H. pose (g := mkMap (N:=QcNum) 2 2 (fun x => Ret (exh x))).
  assert (C : computes (N:=QcNum) g exh 2 2) by (split; [reflexivity|split; [reflexivity|intros x L; split; reflexivity]]).
  assert (S : showP (sp_compute (N:=QcNum) (q 1) None g (ql [0; 0]%Z) sp_new) = Some (zd [ez 1 1 1], 3)) by (vm_compute; reflexivity).
  destruct (showP_ret _ _ _ S) as [p [l [E Dp]]].
  assert (S2 : showP (r <- sp_compute (N:=QcNum) (q 1) None g (ql [0; 0]%Z) sp_new ;; sp_compute (N:=QcNum) (q 1) None g (ql [1; 1]%Z) (fst r)) = Some (zd [ez 1 1 1], 2)) by (vm_compute; reflexivity).
  rewrite E in S2. cbn [obind fst] in S2. destruct (showP_ret _ _ _ S2) as [p2 [l2 [E2 D2]]].
  pose proof (reach_compute (N:=QcNum) (q 1) 2 sp_new g exh (ql [0; 0]%Z) p l (reach_new (N:=QcNum) (q 1) 2) C eq_refl E) as R.
  pose proof (H (q 1) 2 p p2 g exh (ql [1; 1]%Z) l2 R C eq_refl E2 0%nat 0%nat) as X.
  assert (D : change (N:=QcNum) exh (ql [1; 1]%Z) (q 1) 0 0 <> 0%Qc).
  { intros D. apply (f_equal (fun x : Qc => Qnum (this x))) in D. lazy in D. discriminate D. }
  assert (X' : hasIndex (spJ p2) (0%nat, 0%nat) = true) by (apply X; [lia|lia|exact D]).
  unfold hasIndex, sfind in X'. unfold dump in D2. destruct (sdat (spJ p2)) as [|[k v] [|e2 d2]]; [discriminate D2| |discriminate D2].
  cbn [map fst snd] in D2. injection D2 as K _. subst k. destruct (fast (spJ p2)); discriminate X'.
Qed.
