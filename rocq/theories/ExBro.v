(** ExBro.v - concrete cases meeting the hypotheses of the theorems in PropBro.v, and refutations. *)
From Coq Require Import List Arith Bool QArith Qcanon Lia ZArith.
From Verif Require Import Base BaseFacts SMap SpModel SpSpec SpFacts MapModel JacModel JacSpec JacFacts VOps LUModel LUSpec LUFacts5 NewtModel NewtSpec BroModel BroSpec BroFacts BroFacts4 ExNewt PropBro.
Import ListNotations.
Local Open Scope nat_scope.

(** F(x) = (x0^3 + 2 x0 + x1 - 3, x0 + x1^3 + 2 x1 - 5): the Jacobian is full everywhere. *)
Definition cube (v : Qc) : Qc := (v * v * v + q 2 * v)%Qc.
Definition Fn (x : list Qc) : list Qc := let v i := nth i x 0%Qc in [(cube (v 0%nat) + v 1%nat - q 3)%Qc; (v 0%nat + cube (v 1%nat) - q 5)%Qc].
Definition gn : vmapping QcNum := mkMap (N:=QcNum) 2 2 (fun x => Ret (Fn x)).
Example gn_computes : computes (N:=QcNum) gn Fn 2 2. Proof. split; [reflexivity|]. split; [reflexivity|]. intros x L. split; reflexivity. Qed.
Definition hh : Qc := qf 1 2.
Lemma pair2 (x : list Qc) : length x = 2 -> exists a b, x = [a; b].
Proof. destruct x as [|a [|b [|]]]; try discriminate. eauto. Qed.
Lemma cube_grows (v : Qc) : (cube (v + hh) - cube v)%Qc <> 0%Qc.
Proof.
  intros E.
  assert (E' : ((v + qf 1 4) * (v + qf 1 4) * qf 3 2 + qf 33 32)%Qc = 0%Qc).
  { transitivity (cube (v + hh) - cube v)%Qc; [|exact E]. unfold cube.
    assert (H1 : hh = (qf 1 4 + qf 1 4)%Qc) by (apply Qc_is_canon; reflexivity).
    assert (H2 : q 2 = (q 1 + q 1)%Qc) by (apply Qc_is_canon; reflexivity).
    assert (H3 : (qf 3 2 = (qf 1 4 + qf 1 4) * q 3)%Qc) by (apply Qc_is_canon; reflexivity).
    assert (H4 : (qf 33 32 = qf 1 4 * qf 1 4 * qf 1 4 * q 2 + q 4 * qf 1 4)%Qc) by (apply Qc_is_canon; reflexivity).
    assert (H5 : (q 3 = 1 + 1 + 1)%Qc) by (apply Qc_is_canon; reflexivity).
    assert (H6 : (q 4 = 1 + 1 + 1 + 1)%Qc) by (apply Qc_is_canon; reflexivity).
    assert (H7 : (q 1 = 1)%Qc) by (apply Qc_is_canon; reflexivity).
    rewrite H1, H3, H4, H2, H5, H6, H7. ring. }
  assert (P : (0 <= (v + qf 1 4) * (v + qf 1 4) * qf 3 2)%Qc).
  { assert (S : (0 <= (v + qf 1 4) * (v + qf 1 4))%Qc).
    { generalize (v + qf 1 4)%Qc. intros w. change (this 0%Qc <= Qred (this w * this w))%Q. rewrite Qred_correct. change (this 0%Qc) with 0%Q.
      unfold Qle. cbn [Qmult Qnum Qden]. rewrite Z.mul_1_r. apply Z.square_nonneg. }
    replace 0%Qc with (0 * qf 3 2)%Qc by ring. apply Qcmult_le_compat_r; [exact S|]. discriminate. }
  apply (Qcplus_le_compat _ _ (qf 33 32) (qf 33 32)) in P; [|apply Qcle_refl]. rewrite E' in P. vm_compute in P. apply P. reflexivity.
Qed.
Lemma full_good (e : entries_) : (forall r c, stored e r c <-> r < 2 /\ c < 2) -> good_pattern 2 e.
Proof.
  intros S. split; [|split; [split|]].
  - destruct (proj2 (S 0 0) ltac:(lia)) as [v H]. destruct e; [destruct H|discriminate].
  - intros r c H. apply S. exact H.
  - intros i Hi. split; [exists i|exists i]; (split; [apply S|]; lia).
  - intros r c H _. exists c. split; [lia|]. apply S. lia.
Qed.
Example gn_good : forall x : list Qc, length x = 2 -> good_pattern 2 (computed hh None gn x).
Proof.
  intros x L. destruct (computeJacobian_ok (N:=QcNum) hh gn Fn 2 x gn_computes L) as [J [E [FJ [SZ [RM [V V2]]]]]].
  assert (SD : sdat J = computed hh None gn x) by (unfold computed, default_provider; change (nT QcNum) with Qc in *; rewrite E; reflexivity).
  rewrite <- SD. apply full_good. intros r c. split.
  - intros [v H]. assert (S : sfind J (r, c) = Some v) by (exact (proj2 (sfind_In J (r, c) v RM) H)).
    destruct (le_lt_dec 2 r) as [Q|Q]; [rewrite V2 in S by auto; discriminate|]. destruct (le_lt_dec 2 c) as [Q'|Q']; [rewrite V2 in S by auto; discriminate|]. auto.
  - intros [Hr Hc]. specialize (V r c Hr Hc).
    assert (NZ : JacSpec.change (N:=QcNum) Fn x hh r c <> 0%Qc).
    { destruct (pair2 x L) as [a [b ->]]. destruct r as [|[|]], c as [|[|]]; try lia; unfold JacSpec.change, bumped, Fn; cbn [upd nth nsub nadd QcNum n0].
      - intros K. apply (cube_grows a). rewrite <- K. ring.
      - intros K. apply (f_equal (fun z => z)) in K. ring_simplify in K. discriminate K.
      - intros K. ring_simplify in K. discriminate K.
      - intros K. apply (cube_grows b). rewrite <- K. ring. }
    destruct (neqb QcNum (JacSpec.change (N:=QcNum) Fn x hh r c) (n0 QcNum)) eqn:Z.
    + exfalso. apply NZ. apply Qceqb_eq. exact Z.
    + exists (quotient (N:=QcNum) Fn x hh r c). apply (proj1 (sfind_In J (r, c) _ RM)). exact V.
Qed.

(** Both providers, for this mapping. *)
Example gn_default : provides (default_jp hh None gn) 2 (computed hh None gn) true any_time.
Proof. exact (C69_default_provider hh gn Fn 2 gn_computes gn_good). Qed.
Example gn_sparse : provides (sparse_jp hh None gn) 2 (computed hh None gn) false (when_empty (sparse_jp hh None gn)).
Proof. exact (C69_sparse_provider hh gn Fn 2 gn_computes gn_good). Qed.
Example new_empty : when_empty (default_jp hh None gn) default_new /\ when_empty (sparse_jp hh None gn) (sp_new (N:=QcNum)).
Proof. split; reflexivity. Qed.

(** * A history: two directions, a hard reset, two more *)
Definition xa : list Qc := ql [0; 0]%Z.
Definition xb : list Qc := ql [1; 2]%Z.
Definition xc : list Qc := ql [2; 1]%Z.
Definition xd : list Qc := ql [1; 1]%Z.
Definition hist4 : list dev := [DReset false; DDir xa (Fn xa) 0; DDir xb (Fn xb) 1; DReset true; DDir xc (Fn xc) 0; DDir xd (Fn xd) 1; DReport true].
Definition J_ (x : list Qc) : entries_ := computed hh None gn x.
(** factors of a 2 x 2 matrix *)
Definition L2 (B : matrix) : list (list Qc) := [[q 1; q 0]; [B 1%nat 0%nat / B 0%nat 0%nat; q 1]]%Qc.
Definition U2 (B : matrix) : list (list Qc) := [[B 0%nat 0%nat; B 0%nat 1%nat]; [q 0; B 1%nat 1%nat - B 1%nat 0%nat / B 0%nat 0%nat * B 0%nat 1%nat]]%Qc.
Lemma ns2 (B : matrix) : nonsing_check 2 B (L2 B) (U2 B) = true -> leading_nonsingular 2 B. Proof. apply nonsing_check_ok. Qed.
Lemma stored_full (x : list Qc) i j : map fst (J_ x) = [(0,0);(0,1);(1,0);(1,1)] -> i < 2 -> j < 2 -> stored (J_ x) i j.
Proof.
  intros E Hi Hj. assert (I : In (i, j) (map fst (J_ x))) by (rewrite E; destruct i as [|[|]], j as [|[|]]; try lia; cbn; tauto).
  apply in_map_iff in I. destruct I as [[k v] [K I]]. cbn in K. subst k. exists v. exact I.
Qed.
Ltac pts := intros K; apply (f_equal (fun l => this (nth 0 l 0%Qc))) in K; vm_compute in K; try discriminate K.
Ltac spts := intros K; apply (f_equal (fun o => match o with Some l => this (nth 0 l 0%Qc) | None => 0%Q end)) in K; vm_compute in K; discriminate K.
Definition B1 (nx : nat -> entries_ -> matrix -> (nat -> Qc) -> (nat -> Qc) -> matrix) : matrix := nx 2 (J_ xa) (mval (J_ xa)) (vdiff xb xa) (vdiff (Fn xb) (Fn xa)).
(** DefaultJacobianProvider: the hard reset does not make the matrix be computed anew. *)
Definition B2 nx : matrix := nx 2 (J_ xa) (B1 nx) (vdiff xd xc) (vdiff (Fn xd) (Fn xc)).
Definition q_keep nx : list (matrix * list Qc) := [(mval (J_ xa), Fn xa); (B1 nx, Fn xb); (B1 nx, Fn xc); (B2 nx, Fn xd)].
(** SparseJacobianProvider: it does. *)
Definition B3 nx : matrix := nx 2 (J_ xc) (mval (J_ xc)) (vdiff xd xc) (vdiff (Fn xd) (Fn xc)).
Definition q_forget nx : list (matrix * list Qc) := [(mval (J_ xa), Fn xa); (B1 nx, Fn xb); (mval (J_ xc), Fn xc); (B3 nx, Fn xd)].
Ltac run1 := solve [reflexivity | apply ns2; vm_compute; reflexivity | pts | (intros; reflexivity) | (intros; apply stored_full; [vm_compute; reflexivity|assumption|assumption]) ].
Example run_keep_bro : qn_run 2 (broyden_next 2) (computed hh None gn) true hist4 None None (q_keep broyden_next).
Proof.
  unfold hist4, q_keep. apply QReset. apply QCompute; [run1..|]. apply QUpdate; [run1..|]. apply QReset. apply QSame; [run1..|]. apply QUpdate; [run1..|]. apply QReport. apply QNil.
Qed.
Example run_forget_bro : qn_run 2 (broyden_next 2) (computed hh None gn) false hist4 None None (q_forget broyden_next).
Proof.
  unfold hist4, q_forget. apply QReset. apply QCompute; [run1..|]. apply QUpdate; [run1..|]. apply QReset. apply QCompute; [run1..|]. apply QUpdate; [run1..|]. apply QReport. apply QNil.
Qed.
Example run_keep_fake : qn_run 2 (fake_next 2) (computed hh None gn) true hist4 None None (q_keep fake_next).
Proof.
  unfold hist4, q_keep. apply QReset. apply QCompute; [run1..|]. apply QUpdate; [run1..|]. apply QReset. apply QSame; [run1..|]. apply QUpdate; [run1..|]. apply QReport. apply QNil.
Qed.
Definition dirs {S} (o : Outcome (list (list Qc) * S)) : option (list (list Q)) := match o with Ret r => Some (map tq (fst r)) | _ => None end.
Example dirs_keep : dirs (dhist (bro_dd (default_jp hh None gn)) hist4 (b_new default_new)) = dirs (dhist (fake_dd (default_jp hh None gn)) hist4 (b_new default_new)) /\
  match dirs (dhist (bro_dd (default_jp hh None gn)) hist4 (b_new default_new)) with Some l => length l | None => 0 end = 4.
Proof. split; vm_compute; reflexivity. Qed.
(** the two providers give different directions after the hard reset *)
Example dirs_differ : option_map (fun l => nth 0 (nth 2 l []) 0%Q) (dirs (dhist (bro_dd (default_jp hh None gn)) hist4 (b_new default_new)))
  <> option_map (fun l => nth 0 (nth 2 l []) 0%Q) (dirs (dhist (bro_dd (sparse_jp hh None gn)) hist4 (b_new (sp_new (N:=QcNum))))).
Proof. vm_compute. discriminate. Qed.

(** One update from a state in the middle of a history. *)
Definition mid : bst (smat QcNum) := match dhist (bro_dd (default_jp hh None gn)) [DDir xa (Fn xa) 0] (b_new default_new) with Ret r => snd r | _ => b_new default_new end.
Definition Jfull : smat QcNum := mkS (N:=QcNum) true (2, 2) [((0, 0), 1%Qc); ((0, 1), 1%Qc); ((1, 0), 1%Qc); ((1, 1), 1%Qc)].
Lemma Jfull_square : square 2 Jfull.
Proof.
  split; [reflexivity|]. split; [reflexivity|]. split.
  - cbn [Jfull sdat row_major]. unfold before. cbn [In fst snd]. repeat split; intros k x H; repeat (destruct H as [H|H]; [injection H as <- <-; cbn; lia|]); destruct H.
  - intros r c [v H]. cbn [Jfull sdat In] in H. repeat (destruct H as [H|H]; [injection H as <- <- <-; lia|]). destruct H.
Qed.
Lemma mid_square : square 2 (jp_J (default_jp hh None gn) (b_p mid)).
Proof. apply (square_keys 2 Jfull); [exact Jfull_square|vm_compute; reflexivity..]. Qed.
Example mid_case : mat_empty (jp_J (default_jp hh None gn) (b_p mid)) = false /\ b_have mid = true /\ length (b_xp mid) = 2 /\ length (b_fp mid) = 2 /\ xb <> b_xp mid /\
  (exists d s', bro_dir (default_jp hh None gn) xb (Fn xb) 1 mid = Ret (d, s')) /\ (exists d s', fake_dir (default_jp hh None gn) xb (Fn xb) 1 mid = Ret (d, s')).
Proof.
  split; [vm_compute; reflexivity|]. split; [vm_compute; reflexivity|]. split; [vm_compute; reflexivity|]. split; [vm_compute; reflexivity|]. split; [pts|]. split.
  - destruct (bro_dir (default_jp hh None gn) xb (Fn xb) 1 mid) as [[d s']| |] eqn:E; [eauto| |]; exfalso;
      assert (K : match bro_dir (default_jp hh None gn) xb (Fn xb) 1 mid with Ret _ => true | _ => false end = true) by (vm_compute; reflexivity); rewrite E in K; discriminate.
  - destruct (fake_dir (default_jp hh None gn) xb (Fn xb) 1 mid) as [[d s']| |] eqn:E; [eauto| |]; exfalso;
      assert (K : match fake_dir (default_jp hh None gn) xb (Fn xb) 1 mid with Ret _ => true | _ => false end = true) by (vm_compute; reflexivity); rewrite E in K; discriminate.
Qed.

(** * Affine: the system of ExNewt *)
Example ga_follows : follows 2 Fa [DReset true; DDir xa (Fa xa) 0; DDir xb (Fa xb) 1; DReset true; DDir xc (Fa xc) 0; DDir xd (Fa xd) 1] None.
Proof. cbn [follows]. repeat (split; [reflexivity|]). split; [discriminate|]. repeat (split; [reflexivity|]). split; [spts|].
  repeat (split; [reflexivity|]). split; [discriminate|]. repeat (split; [reflexivity|]). split; [spts|exact I]. Qed.
Example ga_all : forall x : list Qc, length x = 2 -> good_pattern 2 (computed hh None ga x).
Proof. intros x L. apply (affine_good hh ga Fa 2 Aa ba ga_computes ga_affine); auto. discriminate. exact ga_solvable. Qed.
Example ga_dirs : dirs (dhist (bro_dd (default_jp hh None ga)) [DReset true; DDir xa (Fa xa) 0; DDir xb (Fa xb) 1; DDir xc (Fa xc) 2] (b_new default_new)) =
  Some [zq [1; 2]%Z; zq [0; 0]%Z; zq [-1; 1]%Z].
Proof. vm_compute. reflexivity. Qed.

(** * Refutations *)
(** F(x) = (x0 + x0 x1, x1): at the origin the element (0,1) of the Jacobian is zero and not stored. *)
Definition Fs (x : list Qc) : list Qc := let v i := nth i x 0%Qc in [(v 0%nat + v 0%nat * v 1%nat)%Qc; v 1%nat].
Definition gs : vmapping QcNum := mkMap (N:=QcNum) 2 2 (fun x => Ret (Fs x)).
Example gs_computes : computes (N:=QcNum) gs Fs 2 2. Proof. split; [reflexivity|]. split; [reflexivity|]. intros x L. split; reflexivity. Qed.
Lemma gs_follows : follows 2 Fs [DDir xa (Fs xa) 0; DDir xd (Fs xd) 1] None.
Proof. cbn [follows]. repeat (split; [reflexivity|]). split; [discriminate|]. repeat (split; [reflexivity|]). split; [spts|exact I]. Qed.
(** Broyden's direction is not available for mappings with sparse Jacobians: the second direction throws. *)
Theorem C69_sparse_mapping_refuted : ~ (forall (g : vmapping QcNum) F n h, computes g F n n -> follows n F h None ->
  dhist (bro_dd (default_jp hh None g)) h (b_new default_new) <> Throw).
Proof. intros H. apply (H gs Fs 2 _ gs_computes gs_follows). vm_compute. reflexivity. Qed.
Print Assumptions C69_sparse_mapping_refuted.
(** The restricted update does not satisfy the secant equation. *)
Definition mid_s : bst (smat QcNum) := match dhist (fake_dd (default_jp hh None gs)) [DDir xa (Fs xa) 0] (b_new default_new) with Ret r => snd r | _ => b_new default_new end.
Theorem C70_secant_refuted : ~ (forall (g : vmapping QcNum) F n h (s s' : bst (smat QcNum)) x f it ds d, computes g F n n -> follows n F (h ++ [DDir x f it]) None ->
  dhist (fake_dd (default_jp hh None g)) h (b_new default_new) = Ret (ds, s) -> b_have s = true -> fake_dir (default_jp hh None g) x f it s = Ret (d, s') ->
  forall i, i < n -> mapply n (mval (sdat (b_p s'))) (vdiff x (b_xp s)) i = vdiff f (b_fp s) i).
Proof.
  intros H. specialize (H gs Fs 2 [DDir xa (Fs xa) 0] mid_s). 
  assert (E1 : exists ds, dhist (fake_dd (default_jp hh None gs)) [DDir xa (Fs xa) 0] (b_new default_new) = Ret (ds, mid_s)).
  { unfold mid_s. destruct (dhist (fake_dd (default_jp hh None gs)) [DDir xa (Fs xa) 0] (b_new default_new)) as [[ds s]| |] eqn:E; [exists ds; reflexivity| |]; exfalso;
      assert (K : match dhist (fake_dd (default_jp hh None gs)) [DDir xa (Fs xa) 0] (b_new default_new) with Ret _ => true | _ => false end = true) by (vm_compute; reflexivity); rewrite E in K; discriminate. }
  destruct E1 as [ds E1].
  destruct (fake_dir (default_jp hh None gs) xd (Fs xd) 1 mid_s) as [[d s']| |] eqn:E.
  - specialize (H s' xd (Fs xd) 1 ds d gs_computes gs_follows E1 ltac:(vm_compute; reflexivity) E 0 ltac:(lia)).
    assert (K : match fake_dir (default_jp hh None gs) xd (Fs xd) 1 mid_s with Ret (_, s') => this (mapply 2 (mval (sdat (b_p s'))) (vdiff xd (b_xp mid_s)) 0) | _ => 0%Q end = (3 # 2)%Q) by (vm_compute; reflexivity).
    rewrite E in K. rewrite H in K. vm_compute in K. discriminate K.
  - assert (K : match fake_dir (default_jp hh None gs) xd (Fs xd) 1 mid_s with Ret _ => true | _ => false end = true) by (vm_compute; reflexivity). rewrite E in K. discriminate.
  - assert (K : match fake_dir (default_jp hh None gs) xd (Fs xd) 1 mid_s with Ret _ => true | _ => false end = true) by (vm_compute; reflexivity). rewrite E in K. discriminate.
Qed.
Print Assumptions C70_secant_refuted.
(** hardResetMayHelp is true, but with DefaultJacobianProvider the direction after a hard reset is not the Newton one for the mapping at that point. *)
Theorem C69_hard_reset_refuted : ~ (forall (g : vmapping QcNum) F n h x s0 ds d s', computes g F n n -> follows n F (h ++ [DReset true; DDir x (F x) 0]) None ->
  dhist (bro_dd (default_jp hh None g)) h (b_new default_new) = Ret (ds, s0) ->
  bro_dir (default_jp hh None g) x (F x) 0 (bro_reset (default_jp hh None g) true s0) = Ret (d, s') -> newton_like n (mval (computed hh None g x), F x) d).
Proof.
  intros H. specialize (H gn Fn 2 [DDir xa (Fn xa) 0] xc mid).
  assert (E1 : exists ds, dhist (bro_dd (default_jp hh None gn)) [DDir xa (Fn xa) 0] (b_new default_new) = Ret (ds, mid)).
  { unfold mid. destruct (dhist (bro_dd (default_jp hh None gn)) [DDir xa (Fn xa) 0] (b_new default_new)) as [[ds s]| |] eqn:E; [exists ds; reflexivity| |]; exfalso;
      assert (K : match dhist (bro_dd (default_jp hh None gn)) [DDir xa (Fn xa) 0] (b_new default_new) with Ret _ => true | _ => false end = true) by (vm_compute; reflexivity); rewrite E in K; discriminate. }
  destruct E1 as [ds E1].
  set (o := bro_dir (default_jp hh None gn) xc (Fn xc) 0 (bro_reset (default_jp hh None gn) true mid)) in *.
  assert (K : match o with Ret (d, _) => negb (Qeq_bool (this (qsum 2 (fun c => mval (computed hh None gn xc) 0 c * vfun d c)%Qc)) (this (- vfun (Fn xc) 0)%Qc)) | _ => false end = true) by (vm_compute; reflexivity).
  destruct o as [[d s']| |] eqn:E; [|discriminate K|discriminate K].
  destruct (H ds d s' gn_computes ltac:(cbn [app follows]; repeat (split; [reflexivity|]); split; [discriminate|]; repeat (split; [reflexivity|]); split; [discriminate|exact I]) E1 eq_refl) as [_ S].
  specialize (S 0 ltac:(lia)). cbn [fst snd] in S. rewrite S in K. vm_compute in K. discriminate K.
Qed.
Print Assumptions C69_hard_reset_refuted.

(** * Lazy updates: f(x) = 1 + 2x - 4/3 x (x-1) (x-2), so that f(0), f(1), f(2) = 1, 3, 5; the computed derivative at 0 is 1 *)
Definition Fl (x : list Qc) : list Qc := map (fun v => 1 + q 2 * v - qf 4 3 * (v * (v - 1) * (v - q 2)))%Qc x.
Definition gl : vmapping QcNum := mkMap (N:=QcNum) 1 1 (fun x => Ret (Fl x)).
Example gl_computes : computes (N:=QcNum) gl Fl 1 1.
Proof. split; [reflexivity|]. split; [reflexivity|]. intros x L. split; [reflexivity|]. unfold Fl. rewrite map_length. exact L. Qed.
Definition pt (v : Z) : list Qc * list Qc := (ql [v], Fl (ql [v])).
Definition lruns (r3 : bool) : list lrun := [mkRun true (pt 0) [pt 1; pt 2] (Some true); mkRun false (pt 2) [pt 1] (Some r3); mkRun false (pt 2) [] (Some true)].
Definition Jl (x : list Qc) : entries_ := computed hh None gl x.
(** lazy_iterations 0: the first run's corrections are added at the start of the second, whose failure makes the third compute anew. *)
Definition Bl : matrix := fun i j => (mval (Jl (ql [0]%Z)) i j + lazy_delta 1 (Jl (ql [0]%Z)) (mval (Jl (ql [0]%Z))) (steps (pt 0) [pt 1; pt 2]) (fun _ _ => 0%Qc) i j)%Qc.
Definition ql_runs : list (matrix * list Qc) :=
  [(mval (Jl (ql [0]%Z)), snd (pt 0)); (mval (Jl (ql [0]%Z)), snd (pt 1)); (mval (Jl (ql [0]%Z)), snd (pt 2));
   (Bl, snd (pt 2)); (Bl, snd (pt 1)); (mval (Jl (ql [2]%Z)), snd (pt 2))].
Definition L1 : list (list Qc) := [[q 1]].
Lemma ns1 (B : matrix) : nonsing_check 1 B L1 [[B 0 0]] = true -> leading_nonsingular 1 B. Proof. apply nonsing_check_ok. Qed.
Example lruns_case : lazy_runs 1 0 Jl (lruns false) None RecomputeJ ql_runs.
Proof.
  unfold lruns.
  apply (LRRun 1 0 Jl (mkRun true (pt 0) [pt 1; pt 2] (Some true)) _ None RecomputeJ (mval (Jl (ql [0]%Z))) (Jl (ql [0]%Z)) (fun _ _ => 0%Qc) [(Bl, snd (pt 2)); (Bl, snd (pt 1)); (mval (Jl (ql [2]%Z)), snd (pt 2))]).
  - cbn [r_first r_rest apart]. repeat (split; [reflexivity|]). split; [pts|]. repeat (split; [reflexivity|]). split; [pts|]. split; [reflexivity|]. split; [reflexivity|exact I].
  - apply SNew.
  - apply ns1. vm_compute. reflexivity.
  - apply (LRRun 1 0 Jl (mkRun false (pt 2) [pt 1] (Some false)) _ _ _ Bl (Jl (ql [0]%Z)) (fun _ _ => 0%Qc) [(mval (Jl (ql [2]%Z)), snd (pt 2))]).
    + cbn [r_first r_rest apart]. repeat (split; [reflexivity|]). split; [pts|]. split; [reflexivity|]. split; [reflexivity|exact I].
    + apply SUpdate.
    + apply ns1. vm_compute. reflexivity.
    + apply (LRRun 1 0 Jl (mkRun false (pt 2) [] (Some true)) [] _ _ (mval (Jl (ql [2]%Z))) (Jl (ql [2]%Z)) (fun _ _ => 0%Qc) []).
      * cbn [r_first r_rest apart]. split; [reflexivity|]. split; [reflexivity|exact I].
      * apply SRecompute.
      * apply ns1. vm_compute. reflexivity.
      * apply LRNil.
Qed.
(** the derivative the provider computes at 2 is -3; in the second run the matrix is 3 instead of the slope 2 *)
Example lazy_dirs : dirs (dhist (lazy_dd (default_jp hh None gl) 0) (runs_events (lruns false)) (l_new default_new)) =
  Some [zq [-1]%Z; zq [-3]%Z; zq [-5]%Z; [(-5 # 3)%Q]; [(-1)%Q]; [(5 # 3)%Q]].
Proof. vm_compute. reflexivity. Qed.

(** The matrix of the second run does not satisfy the secant equation of the last step before it (nor of any other). *)
Theorem C71_secant_refuted : ~ (forall (g : vmapping QcNum) F n x0 x1 x2 B e D, computes g F n n -> apart n (x0, F x0) [(x1, F x1); (x2, F x2)] ->
  lazy_start n (computed hh None g) x2 (Some (mval (computed hh None g x0), computed hh None g x0,
     lazy_delta n (computed hh None g x0) (mval (computed hh None g x0)) (steps (x0, F x0) [(x1, F x1); (x2, F x2)]) (fun _ _ => 0%Qc))) UpdateJ B e D ->
  forall i, i < n -> mapply n B (vdiff x2 x1) i = vdiff (F x2) (F x1) i).
Proof.
  intros H. specialize (H gl Fl 1 (ql [0]%Z) (ql [1]%Z) (ql [2]%Z) _ _ _ gl_computes
    ltac:(cbn [apart fst snd]; repeat (split; [reflexivity|]); split; [pts|]; repeat (split; [reflexivity|]); split; [pts|]; split; [reflexivity|]; split; [reflexivity|exact I])
    (SUpdate _ _ _ _ _ _) 0 ltac:(lia)).
  apply (f_equal this) in H. vm_compute in H. discriminate H.
Qed.
Print Assumptions C71_secant_refuted.
(** C71_overshoot on the same data: two steps of slope 2, matrix 1 *)
Example overshoot_case : storedb (Jl (ql [0]%Z)) 0 0 = true /\ (forall s y, In (s, y) (steps (pt 0) [pt 1; pt 2]) -> s 0 <> 0%Qc /\ y 0 = (q 2 * s 0%nat)%Qc) /\
  this (Bl 0 0) = 3%Q.
Proof.
  split; [vm_compute; reflexivity|]. split; [|vm_compute; reflexivity].
  intros s y [E|[E|[]]]; injection E as <- <-; (split; [intros K; apply (f_equal this) in K; vm_compute in K; discriminate K|apply Qc_is_canon; vm_compute; reflexivity]).
Qed.
Example ga_lazy : follows 2 Fa (runs_events [mkRun true (xa, Fa xa) [(xb, Fa xb)] (Some true); mkRun false (xc, Fa xc) [(xd, Fa xd)] None]) None.
Proof. cbn [runs_events flat_map run_events number_from r_hard r_first r_rest r_report app follows]. repeat (split; [reflexivity|]). split; [discriminate|].
  repeat (split; [reflexivity|]). split; [spts|]. repeat (split; [reflexivity|]). split; [discriminate|]. repeat (split; [reflexivity|]). split; [spts|exact I]. Qed.

(** * Hart *)
Lemma full_visible (x s : list Qc) : map fst (J_ x) = [(0,0);(0,1);(1,0);(1,1)] -> vfun s 1 <> 0%Qc -> hart_visible (J_ x) 2 s.
Proof. intros K V i Hi. exists 1. split; [lia|]. split; [exact V|]. split; [exists 1; split; [lia|apply stored_full; auto]|exists 0; split; [lia|apply stored_full; auto]]. Qed.
Lemma full_ends (x : list Qc) : map fst (J_ x) = [(0,0);(0,1);(1,0);(1,1)] -> row_ends 2 (J_ x).
Proof. intros K i Hi. exists i. split; [lia|]. apply stored_full; auto. Qed.
Definition xe : list Qc := ql [2; 3]%Z.
Definition hist5 : list dev := [DDir xa (Fn xa) 0; DDir xb (Fn xb) 1; DReset false; DDir xb (Fn xb) 0; DDir xe (Fn xe) 1; DReset true; DDir xc (Fn xc) 0; DDir xe (Fn xe) 1].
Ltac vis := apply full_visible; [vm_compute; reflexivity|intros K; apply (f_equal this) in K; vm_compute in K; discriminate K].
Example hart_case : hart_fits 2 (computed hh None gn) hist5 None None.
Proof.
  unfold hist5. cbn [hart_fits].
  split; [reflexivity|]. split; [reflexivity|]. split; [split; [apply ns2; vm_compute; reflexivity|apply full_ends; vm_compute; reflexivity]|].
  split; [reflexivity|]. split; [reflexivity|]. split; [vis|].
  split; [reflexivity|]. split; [reflexivity|]. split; [exact I|].
  split; [reflexivity|]. split; [reflexivity|]. split; [vis|].
  split; [reflexivity|]. split; [reflexivity|]. split; [split; [apply ns2; vm_compute; reflexivity|apply full_ends; vm_compute; reflexivity]|].
  split; [reflexivity|]. split; [reflexivity|]. split; [vis|exact I].
Qed.
Example hart_pre : (forall p, any_time (jp_hard (default_jp hh None gn) p)) /\ (forall p, when_empty (sparse_jp hh None gn) (jp_hard (sparse_jp hh None gn) p)).
Proof. split; intros p; [exact I|reflexivity]. Qed.
Example hart_dirs : match dirs (dhist (hart_dd (default_jp hh None gn)) hist5 (b_new default_new)) with Some l => length l | None => 0 end = 8 - 2.
Proof. vm_compute. reflexivity. Qed.

(** * NaN: the same point twice (with division by zero giving not-a-number) *)
Example same_point_nan : match secant_parts (N:=NanNum) (mkS (N:=NanNum) true (1, 1) [((0, 0), Some 1%Qc)]) [Some 1%Qc] [Some (q 2)] [Some 1%Qc] [Some (q 2)] with
  Ret (dx, l) => map (option_map this) l | _ => [] end = [None].
Proof. vm_compute. reflexivity. Qed.
