(** BroFacts4.v - single direction computations, the providers, affine systems, and what a hard reset does. *)
From Coq Require Import List Arith Bool QArith Qcanon Lia Lqa Qfield.
From Verif Require Import Base BaseFacts SMap SpModel SpSpec SpFacts SpFacts2 SpFacts3 SpFacts4 MapModel JacModel JacSpec JacFacts JacFacts2 VecModel VOps
  LUModel LUSpec LUFacts LUFacts2 LUFacts3 LUFacts4 LUFacts5 NewtModel NewtSpec NewtFacts NewtFacts2 NewtFacts4 RkSpec ImpFacts BroModel BroSpec BroFacts BroFacts2 BroFacts3.
Import ListNotations.
Local Open Scope nat_scope.

Section One.
Context {P : Type} (jp : jprov P) (n : nat).
Hypothesis Hset : forall p J, jp_J jp (jp_set jp p J) = J.
Context (s : bst P) (x f : list Qc) (it : nat).
Hypothesis SQ : square n (jp_J jp (b_p s)).
Hypothesis NE : mat_empty (jp_J jp (b_p s)) = false.
Hypothesis HV : b_have s = true.
Hypothesis Lx : length x = n.
Hypothesis Lf : length f = n.
Hypothesis Lxp : length (b_xp s) = n.
Hypothesis Lfp : length (b_fp s) = n.
Hypothesis D : x <> b_xp s.
Let J := mval (sdat (jp_J jp (b_p s))).
Let dx := vdiff x (b_xp s).
Let df := vdiff f (b_fp s).

Lemma bro_one d s' : bro_dir jp x f it s = Ret (d, s') ->
  (forall i j, i < n -> j < n -> mval (sdat (jp_J jp (b_p s'))) i j = broyden_next n [] J dx df i j) /\
  map fst (sdat (jp_J jp (b_p s'))) = map fst (sdat (jp_J jp (b_p s))).
Proof.
  intros E. rewrite (bro_front jp n) in E. unfold front in E. rewrite NE, HV in E. cbn [negb andb obind] in E. unfold bro_u in E.
  destruct (secant_parts_ok n _ x f (b_xp s) (b_fp s) SQ Lx Lf Lxp Lfp) as [dx' [left [E1 [L1 [L2 [V1 V2]]]]]]. rewrite E1 in E. cbn [obind fst snd] in E.
  rewrite Lx in E.
  destruct (broyden_elems_dich n (jp_J jp (b_p s)) left dx' SQ L2 L1) as [[_ ST]|[ET _]]; [|rewrite ET in E; discriminate].
  destruct (broyden_elems_ok n (jp_J jp (b_p s)) left dx' SQ L2 L1 ST) as [J' [E' [SK V']]]. rewrite E' in E. cbn [obind snd] in E.
  apply obind_inv in E. destruct E as [lu [_ E]]. apply obind_inv in E. destruct E as [r [_ E]]. injection E as <- <-. cbn [b_p]. rewrite Hset.
  split; [|apply SK]. intros i j Hi Hj. rewrite (V' i j Hi Hj), (V2 i Hi), (V1 j). reflexivity.
Qed.
Lemma bro_one_throws i j : i < n -> j < n -> broyden_next n [] J dx df i j <> J i j -> ~ stored (sdat (jp_J jp (b_p s))) i j -> bro_dir jp x f it s = Throw.
Proof.
  intros Hi Hj NZ NS. rewrite (bro_front jp n). unfold front. rewrite NE, HV. cbn [negb andb obind]. unfold bro_u.
  destruct (secant_parts_ok n _ x f (b_xp s) (b_fp s) SQ Lx Lf Lxp Lfp) as [dx' [left [E1 [L1 [L2 [V1 V2]]]]]]. rewrite E1. cbn [obind fst snd]. rewrite Lx.
  destruct (broyden_elems_dich n (jp_J jp (b_p s)) left dx' SQ L2 L1) as [[_ ST]|[ET _]]; [|rewrite ET; reflexivity].
  exfalso. apply NS. apply ST; auto. rewrite (V2 i Hi), (V1 j). intros Z. apply NZ. unfold broyden_next. fold J dx df in Z. rewrite Z. ring.
Qed.
Lemma fake_one d s' : fake_dir jp x f it s = Ret (d, s') ->
  (forall i j, i < n -> j < n -> mval (sdat (jp_J jp (b_p s'))) i j = fake_next n (sdat (jp_J jp (b_p s))) J dx df i j) /\
  map fst (sdat (jp_J jp (b_p s'))) = map fst (sdat (jp_J jp (b_p s))).
Proof.
  intros E. rewrite (fake_front jp) in E. unfold front in E. rewrite NE, HV in E. cbn [negb andb obind] in E. unfold fake_u in E.
  destruct (secant_parts_ok n _ x f (b_xp s) (b_fp s) SQ Lx Lf Lxp Lfp) as [dx' [left [E1 [L1 [L2 [V1 V2]]]]]]. rewrite E1 in E. cbn [obind fst snd] in E.
  destruct (fake_elems_ok n (jp_J jp (b_p s)) left dx' SQ L2 L1) as [J' [E' [SK V']]]. rewrite E' in E. cbn [obind snd] in E.
  apply obind_inv in E. destruct E as [lu [_ E]]. apply obind_inv in E. destruct E as [r [_ E]]. injection E as <- <-. cbn [b_p]. rewrite Hset.
  split; [|apply SK]. intros i j Hi Hj. rewrite (V' i j). unfold fake_next, broyden_next. fold J. destruct (storedb _ i j); [|ring].
  rewrite (V2 i Hi), (V1 j). reflexivity.
Qed.
End One.

Lemma mapply_mval n (A B : matrix) s i : i < n -> (forall i j, i < n -> j < n -> A i j = B i j) -> mapply n A s i = mapply n B s i.
Proof. apply mapply_B. Qed.
Lemma distsq_ext n A B C : (forall i j, i < n -> j < n -> A i j = B i j) -> distsq n A C = distsq n B C.
Proof. intros E. apply qsum_ext. intros i Hi. apply qsum_ext. intros j Hj. rewrite E by assumption. reflexivity. Qed.

Lemma bro_step_facts {P} (jp : jprov P) n s x f it d s' : (forall p J, jp_J jp (jp_set jp p J) = J) ->
  square n (jp_J jp (b_p s)) -> mat_empty (jp_J jp (b_p s)) = false -> b_have s = true ->
  length x = n -> length f = n -> length (b_xp s) = n -> length (b_fp s) = n -> x <> b_xp s ->
  bro_dir jp x f it s = Ret (d, s') ->
  let J := mval (sdat (jp_J jp (b_p s))) in let J' := mval (sdat (jp_J jp (b_p s'))) in
  let dx := vdiff x (b_xp s) in let df := vdiff f (b_fp s) in
  (forall i, i < n -> mapply n J' dx i = df i) /\
  (forall z i, i < n -> qsum n (fun c => dx c * z c)%Qc = 0%Qc -> mapply n J' z i = mapply n J z i) /\
  (forall C, (forall i, i < n -> mapply n C dx i = df i) ->
     (distsq n J' J <= distsq n C J)%Qc /\ ((distsq n C J <= distsq n J' J)%Qc -> forall i j, i < n -> j < n -> C i j = J' i j)).
Proof.
  intros Hset SQ NE HV Lx Lf Lxp Lfp D E. cbv zeta. destruct (bro_one jp n Hset s x f it SQ NE HV Lx Lf Lxp Lfp d s' E) as [V _].
  pose proof (normsq_diff n x (b_xp s) Lx Lxp D) as NZ. repeat split.
  - intros i Hi. rewrite (mapply_B n _ _ _ i Hi V). apply broyden_secant. exact NZ.
  - intros z i Hi O. rewrite (mapply_B n _ _ _ i Hi V). apply broyden_orth. exact O.
  - rewrite (distsq_ext n _ _ _ V). apply broyden_least; auto.
  - intros LE i j Hi Hj. rewrite (V i j Hi Hj). apply broyden_unique; auto. rewrite <- (distsq_ext n _ _ _ V). exact LE.
Qed.
Lemma fake_step_facts {P} (jp : jprov P) n s x f it d s' : (forall p J, jp_J jp (jp_set jp p J) = J) ->
  square n (jp_J jp (b_p s)) -> mat_empty (jp_J jp (b_p s)) = false -> b_have s = true ->
  length x = n -> length f = n -> length (b_xp s) = n -> length (b_fp s) = n -> x <> b_xp s ->
  fake_dir jp x f it s = Ret (d, s') ->
  let e := sdat (jp_J jp (b_p s)) in
  let J := mval e in let J' := mval (sdat (jp_J jp (b_p s'))) in
  let dx := vdiff x (b_xp s) in let df := vdiff f (b_fp s) in
  map fst (sdat (jp_J jp (b_p s'))) = map fst e /\
  (forall i, i < n -> (0 <= row_share n e dx i)%Qc /\ (row_share n e dx i <= 1)%Qc /\
     (df i - mapply n J' dx i = (df i - mapply n J dx i) * (1 - row_share n e dx i))%Qc /\
     (Qcabs (df i - mapply n J' dx i) <= Qcabs (df i - mapply n J dx i))%Qc) /\
  (forall i, i < n -> (forall j, j < n -> dx j <> 0%Qc -> stored e i j) -> mapply n J' dx i = df i).
Proof.
  intros Hset SQ NE HV Lx Lf Lxp Lfp D E. cbv zeta. destruct (fake_one jp n Hset s x f it SQ NE HV Lx Lf Lxp Lfp d s' E) as [V K].
  pose proof (normsq_diff n x (b_xp s) Lx Lxp D) as NZ. split; [exact K|]. split.
  - intros i Hi. rewrite (mapply_B n _ _ _ i Hi V). destruct (row_share_bounds n (sdat (jp_J jp (b_p s))) (vdiff x (b_xp s)) i NZ) as [A B].
    split; [exact A|]. split; [exact B|]. split; [apply fake_row; exact NZ|apply fake_row_le; exact NZ].
  - intros i Hi C. rewrite (mapply_B n _ _ _ i Hi V). apply fake_row_covered; auto.
Qed.

(** ** The providers *)
Lemma computeJacobian_square dx (g : vmapping QcNum) F n (x : list Qc) : computes g F n n -> length x = n ->
  exists J log, computeJacobian (N:=QcNum) dx g x = Ret (J, log) /\ square n (to_fast J) /\ sdat J = computed dx None g x.
Proof.
  intros CF L. destruct (computeJacobian_ok (N:=QcNum) dx g F n x CF L) as [J [E [FJ [SZ [RM [V V2]]]]]]. exists J. eexists. split; [exact E|].
  assert (SD : sdat J = computed dx None g x) by (unfold computed, default_provider; change (nT QcNum) with Qc in *; rewrite E; reflexivity).
  split; [|exact SD]. split; [reflexivity|]. split; [exact SZ|]. split; [exact RM|]. cbn [to_fast sdat].
  intros r c [v H]. assert (S : sfind J (r, c) = Some v) by (exact (proj2 (sfind_In J (r, c) v RM) H)).
  destruct (le_lt_dec n r) as [Q|Q]; [rewrite V2 in S by auto; discriminate|]. destruct (le_lt_dec n c) as [Q'|Q']; [rewrite V2 in S by auto; discriminate|]. auto.
Qed.
Lemma default_provides dx (g : vmapping QcNum) F n : computes g F n n -> (forall x, length x = n -> good_pattern n (computed dx None g x)) ->
  provides (default_jp dx None g) n (computed dx None g) true any_time.
Proof.
  intros CF G. split; [reflexivity|]. split; [reflexivity|]. split; [|exact G]. intros x p L _.
  destruct (computeJacobian_square dx g F n x CF L) as [J [log [E [SQ SD]]]]. exists (to_fast J). cbn [jp_compute default_jp jp_J]. split; [|split; [exact SD|exact SQ]].
  unfold default_provider. change (nT QcNum) with Qc in *. rewrite E. reflexivity.
Qed.
Lemma provides_weaken {P} (jp : jprov P) n J0 keep (p1 p2 : P -> Prop) : (forall p, p2 p -> p1 p) -> provides jp n J0 keep p1 -> provides jp n J0 keep p2.
Proof. intros W [A [B [C D]]]. split; [exact A|]. split; [exact B|]. split; [|exact D]. intros x p L H. apply C; auto. Qed.
Lemma sparse_provides dx (g : vmapping QcNum) F n : computes g F n n -> (forall x, length x = n -> good_pattern n (computed dx None g x)) ->
  provides (sparse_jp dx None g) n (computed dx None g) false (when_empty (sparse_jp dx None g)).
Proof.
  intros CF G. split; [reflexivity|]. split; [reflexivity|]. split; [|exact G]. intros x p L W.
  destruct (computeJacobian_square dx g F n x CF L) as [J [log [E [SQ SD]]]]. cbn [jp_compute sparse_jp jp_J]. unfold sp_compute.
  assert (EM : sdat (spJ p) = []). { unfold when_empty, mat_empty in W. cbn [jp_J sparse_jp] in W. destruct (sdat (spJ p)); [reflexivity|discriminate]. }
  change (nT QcNum) with Qc in *. rewrite EM, E. cbn [obind fst snd].
  assert (WS : well_sized (to_fast J)). { destruct SQ as [_ [SZ [_ ST]]]. intros r c H. rewrite SZ. apply ST. exact H. }
  change Qc with (nT QcNum). rewrite (calc_layout_ok (to_fast J) WS). cbn [obind fst]. eexists. split; [reflexivity|]. cbn [spJ]. split; [exact SD|exact SQ].
Qed.

(** ** Affine systems *)
Lemma affine_good dx (g : vmapping QcNum) F n A b : computes g F n n -> affine n A b F -> dx <> 0%Qc -> solvable_pattern n A -> 0 < n ->
  forall x, length x = n -> good_pattern n (computed dx None g x) /\ (forall i j, i < n -> j < n -> mval (computed dx None g x) i j = A i j) /\
    (forall i j, stored (computed dx None g x) i j <-> i < n /\ j < n /\ A i j <> 0%Qc).
Proof.
  intros CF AF DX SP Hn x L. pose proof (usable_affine n A b F g x (F x) dx false CF AF L DX (proj2 (proj2 (proj2 CF) x L)) SP) as [_ [J [EJ [_ [AC [_ SC]]]]]].
  destruct (provider_affine n A b F g x dx CF AF L DX) as [J' [EJ' [RM [ST V]]]]. rewrite EJ in EJ'. injection EJ' as <-.
  unfold computed. rewrite EJ. split; [|split; [exact V|exact ST]]. split; [|split; assumption].
  destruct (proj2 AC 0 Hn) as [[c [[v H] _]] _]. destruct (sdat J); [destruct H|discriminate].
Qed.
Lemma affine_diff n A b F (x y : list Qc) i : affine n A b F -> length x = n -> length y = n -> i < n ->
  mapply n A (vdiff x y) i = vdiff (F x) (F y) i.
Proof.
  intros AF Lx Ly Hi. unfold vdiff at 2, vfun. rewrite (AF x Lx), (AF y Ly).
  rewrite !nth_map_seq by assumption. unfold mapply.
  transitivity (qsum n (fun c => A i c * nth c x 0 - A i c * nth c y 0))%Qc; [apply qsum_ext; intros; unfold vdiff, vfun; ring|].
  rewrite qsum_sub. ring.
Qed.
Section Aff.
Context (n : nat) (A : matrix) (b : nat -> Qc) (F : list Qc -> list Qc) (next : entries_ -> matrix -> (nat -> Qc) -> (nat -> Qc) -> matrix).
Context (J0 : list Qc -> entries_) (keep : bool).
Hypothesis NX : forall e B s y, (forall i, i < n -> mapply n B s i = y i) -> forall i j, i < n -> j < n -> next e B s y i j = B i j.
Hypothesis AF : affine n A b F.
Hypothesis LF : forall x, length x = n -> length (F x) = n.
Hypothesis NS : leading_nonsingular n A.
Hypothesis JA : forall x, length x = n -> forall i j, i < n -> j < n -> mval (J0 x) i j = A i j.
Lemma affine_qn : forall h Bo prev, follows n F h (option_map fst prev) ->
  (forall B e, Bo = Some (B, e) -> forall i j, i < n -> j < n -> B i j = A i j) ->
  (forall xp fp, prev = Some (xp, fp) -> length xp = n /\ fp = F xp) ->
  exists q, qn_run n next J0 keep h Bo prev q /\ Forall2 (fun m f => (forall i j, i < n -> j < n -> fst m i j = A i j) /\ snd m = f) q (residuals h).
Proof.
  induction h as [|ev h I]; intros Bo prev FO HB HP.
  - exists []. split; constructor.
  - destruct ev as [hard|x f it|ok]; cbn [follows] in FO; cbn [residuals].
    + destruct (I (if hard && negb keep then None else Bo) None FO) as [q [R V]].
      * intros B e E. destruct (hard && negb keep); [discriminate|]. eauto.
      * discriminate.
      * exists q. split; [constructor; exact R|exact V].
    + destruct FO as [Lx [-> [DP FO]]].
      assert (NSB : forall B : matrix, (forall i j, i < n -> j < n -> B i j = A i j) -> leading_nonsingular n B) by (intros B E; apply (lead_ext n A B); [intros; symmetry; auto|exact NS]).
      assert (HP' : forall xp fp, Some (x, F x) = Some (xp, fp) -> length xp = n /\ fp = F xp) by (intros xp fp E; injection E as <- <-; auto).
      destruct Bo as [[B e]|].
      * destruct prev as [[xp fp]|].
        -- destruct (HP xp fp eq_refl) as [Lxp ->]. destruct (I (Some (B, e)) (Some (x, F x)) FO) as [q [R V]]; auto.
           exists ((B, F x) :: q). split; [|constructor; [split; [exact (HB B e eq_refl)|reflexivity]|exact V]].
           apply QUpdate; auto.
           ++ intros ->. apply DP. reflexivity.
           ++ intros i j Hi Hj. symmetry. apply NX; auto. intros k Hk. rewrite (mapply_B n B A _ k Hk (HB B e eq_refl)). apply (affine_diff n A b F); auto.
           ++ intros i j _ _ X. congruence.
           ++ apply NSB. exact (HB B e eq_refl).
        -- destruct (I (Some (B, e)) (Some (x, F x)) FO) as [q [R V]]; auto.
           exists ((B, F x) :: q). split; [|constructor; [split; [exact (HB B e eq_refl)|reflexivity]|exact V]].
           apply QSame; auto. apply NSB. exact (HB B e eq_refl).
      * destruct (I (Some (mval (J0 x), J0 x)) (Some (x, F x)) FO) as [q [R V]]; auto.
        -- intros B e E. injection E as <- <-. apply JA. exact Lx.
        -- exists ((mval (J0 x), F x) :: q). split; [|constructor; [split; [exact (JA x Lx)|reflexivity]|exact V]].
           apply QCompute; auto.
    + destruct (I Bo prev FO HB HP) as [q [R V]]. exists q. split; [constructor; exact R|exact V].
Qed.
End Aff.
Lemma forall2_newton n A : forall q ds fs, Forall2 (newton_like n) q ds -> Forall2 (fun m f => (forall i j, i < n -> j < n -> fst m i j = A i j) /\ snd m = f) q fs ->
  Forall2 (fun f d => newton_like n (A, f) d) fs ds.
Proof.
  induction q as [|m q I]; intros ds fs H1 H2; inversion H1; inversion H2; subst; constructor; auto.
  match goal with H : newton_like n m _, H' : _ /\ _ |- _ => destruct H as [L S]; destruct H' as [E <-] end. split; [exact L|]. cbn [fst snd].
  intros r Hr. etransitivity; [|exact (S r Hr)]. apply qsum_ext. intros c Hc. rewrite E by assumption. reflexivity.
Qed.
Lemma fake_exact n e B s y i j : (forall i, i < n -> mapply n B s i = y i) -> i < n -> fake_next n e B s y i j = B i j.
Proof. intros H Hi. unfold fake_next. destruct (storedb e i j); [apply broyden_exact; assumption|reflexivity]. Qed.
Lemma bro_affine {P} (jp : jprov P) (p : P) keep n A b F (g : vmapping QcNum) dx h : computes g F n n -> affine n A b F -> dx <> 0%Qc -> solvable_pattern n A -> 0 < n ->
  provides jp n (computed dx None g) keep (when_empty jp) -> when_empty jp p -> follows n F h None ->
  exists ds s', dhist (bro_dd jp) h (b_new p) = Ret (ds, s') /\ Forall2 (fun f d => newton_like n (A, f) d) (residuals h) ds.
Proof.
  intros CF AF DX SP Hn PR W FO.
  destruct (affine_qn n A b F (broyden_next n) (computed dx None g) keep (fun e B s y H i j Hi _ => broyden_exact n e B s y i j H Hi) AF
    (fun x L => proj2 (proj2 (proj2 CF) x L)) (proj1 SP) (fun x L => proj1 (proj2 (affine_good dx g F n A b CF AF DX SP Hn x L))) h None None FO ltac:(discriminate) ltac:(discriminate)) as [q [R V]].
  destruct (bro_history jp n (computed dx None g) keep PR h p q W R) as [ds [s' [E N]]]. exists ds, s'. split; [exact E|]. eapply forall2_newton; eassumption.
Qed.
Lemma fake_affine {P} (jp : jprov P) (p : P) keep n A b F (g : vmapping QcNum) dx h : computes g F n n -> affine n A b F -> dx <> 0%Qc -> solvable_pattern n A -> 0 < n ->
  provides jp n (computed dx None g) keep (when_empty jp) -> when_empty jp p -> follows n F h None ->
  exists ds s', dhist (fake_dd jp) h (b_new p) = Ret (ds, s') /\ Forall2 (fun f d => newton_like n (A, f) d) (residuals h) ds.
Proof.
  intros CF AF DX SP Hn PR W FO.
  destruct (affine_qn n A b F (fake_next n) (computed dx None g) keep (fun e B s y H i j Hi _ => fake_exact n e B s y i j H Hi) AF
    (fun x L => proj2 (proj2 (proj2 CF) x L)) (proj1 SP) (fun x L => proj1 (proj2 (affine_good dx g F n A b CF AF DX SP Hn x L))) h None None FO ltac:(discriminate) ltac:(discriminate)) as [q [R V]].
  destruct (fake_history jp n (computed dx None g) keep PR h p q W R) as [ds [s' [E N]]]. exists ds, s'. split; [exact E|]. eapply forall2_newton; eassumption.
Qed.
