(** BroFacts5.v - the lazily updated direction. *)
From Coq Require Import List Arith Bool QArith Qcanon Lia Lqa Qfield.
From Verif Require Import Base BaseFacts SMap SpModel SpSpec SpFacts SpFacts2 SpFacts3 SpFacts4 MapModel JacModel JacSpec JacFacts VecModel VOps
  LUModel LUSpec LUFacts LUFacts2 LUFacts3 LUFacts4 LUFacts5 NewtModel NewtSpec NewtFacts NewtFacts2 NewtFacts4 RkSpec ImpFacts BroModel BroSpec BroFacts BroFacts2 BroFacts3.
Import ListNotations.
Local Open Scope nat_scope.

(** ** A factorizer that holds a matrix and can be used repeatedly *)
Definition lu_for (n : nat) (s : lu) (b : entries_) : Prop :=
  exists a, acceptable a n /\ stencil_covers a n /\ ulay s = mk_layout n a /\ represents s n (mval b) /\ fill_covered a (mval b) n.
Lemma represents_wf s n A : represents s n A -> wf s n.
Proof. intros [[V [HL [HU _]]]|[W _]]; [split; [exact V|split; assumption]|exact W]. Qed.
Lemma lu_for_dd n s b : lu_for n s b -> dd_inv n s.
Proof. intros [a [A1 [A2 [A3 [A4 _]]]]]. right. exists a. split; [exact A1|]. split; [exact A2|]. split; [exact (represents_wf s n _ A4)|exact A3]. Qed.
Lemma lu_for_nonempty n s b : 0 < n -> lu_for n s b -> lu_is_empty s = false.
Proof.
  intros Hn [a [_ [_ [_ [R _]]]]]. apply represents_wf in R. destruct R as [V _]. pose proof (v_p _ _ V) as L. unfold lu_is_empty.
  destruct (yp (ulay s)); [cbn in L; lia|reflexivity].
Qed.
Lemma set_lu n s b : dd_inv n s -> distinct_keys b -> acceptable b n -> stencil_covers b n ->
  exists s1, (if lu_is_empty s then setMatrix b else setMatrixFast s b) = Ret s1 /\ lu_for n s1 b.
Proof.
  intros I ND AC SC.
  assert (FR : exists s1, setMatrix b = Ret s1 /\ lu_for n s1 b).
  { destruct (proj2 (setMatrix_accepts_iff b ND) (ex_intro _ n AC)) as [s1 E1]. destruct (setMatrix_inv b n s1 ND AC E1) as [HY HH].
    exists s1. split; [exact E1|]. exists b. split; [exact AC|]. split; [exact SC|]. split; [exact HY|]. split; [left; exact HH|]. apply stencil_covers_fill; auto. }
  destruct I as [->|[a [AA [SA [W LY]]]]]; [exact FR|].
  destruct (lu_is_empty s) eqn:EM; [exact FR|].
  destruct (forallb (fun e => in_profile s (fst (fst e)) (snd (fst e))) b) eqn:FB.
  - assert (HB : forall r c, LUSpec.stored b r c -> in_skyline a r c).
    { intros r c [v Hs]. rewrite forallb_forall in FB. specialize (FB _ Hs). simpl in FB. destruct (proj1 AC r c) as [Hr Hc]; [exists v; assumption|].
      apply (in_skyline_profile a n s r c AA LY Hr Hc). assumption. }
    destruct (fast_ok a n s b AA W LY ND HB) as (s1 & E1 & LY1 & HH).
    exists s1. split; [exact E1|]. exists a. split; [exact AA|]. split; [exact SA|]. split; [exact LY1|]. split; [left; exact HH|]. exact (skyline_fill a b n SA HB).
  - assert (EX : exists r c, LUSpec.stored b r c /\ in_profile s r c = false).
    { clear -FB. induction b as [|[[r c] v] b I]; simpl in FB; [discriminate|]. apply andb_false_iff in FB. destruct FB as [F|F].
      - exists r, c. split; [exists v; simpl; auto|assumption].
      - destruct (I F) as [r' [c' [[v' H1] H2]]]. exists r', c'. split; [exists v'; simpl; auto|assumption]. }
    rewrite (setMatrixFast_fallback s n b W (proj1 AC) EX). exact FR.
Qed.
Lemma use_lu n s b f : lu_for n s b -> leading_nonsingular n (mval b) -> length f = n ->
  exists x s2, lu_direction s f = Ret (x, s2) /\ lu_for n s2 b /\ newton_like n (mval b, f) x.
Proof.
  intros [a [A1 [A2 [A3 [A4 A5]]]]] NS L.
  destruct (proj1 (solve_correct_iff a (mval b) n s A4 ltac:(rewrite A3; auto) NS) A5 f L) as (s2 & x & E2 & Lx & SX).
  destruct (solve_ok s n (mval b) f A4 NS ltac:(lia)) as (st2' & x' & E2' & _ & EY & HD & _). rewrite E2 in E2'. injection E2' as <- <-.
  unfold lu_direction. rewrite E2. cbn [obind fst snd]. do 2 eexists. split; [reflexivity|]. split.
  - exists a. split; [exact A1|]. split; [exact A2|]. split; [congruence|]. split; [right; exact HD|exact A5].
  - apply (newton_neg n (mval b) x f (mval b)); auto.
Qed.

(** ** J += m_dJ *)
Lemma mval_cons i j v (d : entries_) r c : distinct_keys (((i, j), v) :: d) -> mval (((i, j), v) :: d) r c = ((if Nat.eqb r i && Nat.eqb c j then v else 0) + mval d r c)%Qc.
Proof.
  intros ND. inversion ND as [|? ? NI _]; subst. cbn [mval]. rewrite (Nat.eqb_sym r i), (Nat.eqb_sym c j).
  destruct (Nat.eqb_spec i r) as [->|]; [destruct (Nat.eqb_spec c j) as [->|]|]; cbn [andb]; try ring;
  [|destruct (Nat.eqb_spec j c); [congruence|cbn [andb]; ring]].
  rewrite Nat.eqb_refl. cbn [andb]. rewrite (mval_notin d r j); [ring|]. intros [w H]. apply NI. apply (in_map fst) in H. exact H.
Qed.
Lemma add_ok n : forall (d : entries_) (J : smat QcNum), square n J -> (forall r c, stored d r c -> stored (sdat J) r c) -> distinct_keys d ->
  exists J', ofold (fun J e => at_upd J (fst e) (fun y => nadd QcNum y (snd e))) d J = Ret J' /\ same_keys J J' /\
    forall r c, mval (sdat J') r c = (mval (sdat J) r c + mval d r c)%Qc.
Proof.
  induction d as [|[[i j] v] d I]; intros J SQ ST ND.
  - exists J. split; [reflexivity|]. split; [apply same_keys_refl|]. intros. unfold mval at 3. cbn. ring.
  - cbn [ofold fst snd]. destruct (at_upd_add n J i j v SQ (ST i j (ex_intro _ v (or_introl eq_refl)))) as [J1 [E1 [K1 V1]]].
    change (nT QcNum) with Qc in *. rewrite E1. cbn [obind].
    destruct (I J1 (same_keys_square n J J1 SQ K1)) as [J2 [E2 [K2 V2]]].
    { intros r c [w H]. destruct K1 as [_ [_ K1]]. apply (stored_keys (sdat J) (sdat J1) r c (eq_sym K1)). apply ST. exists w. right. exact H. }
    { inversion ND; assumption. }
    exists J2. split; [exact E2|]. split; [eapply same_keys_trans; eassumption|]. intros r c. rewrite V2, V1, (mval_cons i j v d r c ND). ring.
Qed.

(** The matrix D is stored in dJ on the pattern e. *)
Definition holdsD (n : nat) (dJ : smat QcNum) (D : matrix) (e : entries_) : Prop :=
  square n dJ /\ map fst (sdat dJ) = map fst e /\ (forall i j, i < n -> j < n -> mval (sdat dJ) i j = D i j).
Lemma add_matrix_ok n J B e dJ D : matches n J B e -> holdsD n dJ D e ->
  exists J', add_matrix (N:=QcNum) J dJ = Ret J' /\ matches n J' (fun i j => B i j + D i j)%Qc e.
Proof.
  intros [SQ [K [V G]]] [SD [KD VD]]. unfold add_matrix.
  destruct (add_ok n (sdat dJ) J SQ) as [J' [E [KJ VJ]]].
  { intros r c H. apply (stored_keys (sdat dJ) (sdat J) r c (eq_trans KD (eq_sym K))). exact H. }
  { apply row_major_distinct. apply SD. }
  exists J'. split; [exact E|]. split; [exact (same_keys_square n J J' SQ KJ)|]. split; [rewrite <- K; apply KJ|]. split; [|exact G].
  intros i j Hi Hj. rewrite VJ, V, VD by assumption. reflexivity.
Qed.
Lemma mval_zeros : forall (d : entries_) r c, mval (map (fun e => (fst e, 0%Qc)) d) r c = 0%Qc.
Proof. induction d as [|[[i j] v] d I]; intros r c; [reflexivity|]. cbn. destruct (Nat.eqb i r && Nat.eqb j c); auto. Qed.
Lemma makeZero_ok n J (e : entries_) : square n J -> map fst (sdat J) = map fst e -> holdsD n (makeZero (N:=QcNum) J) (fun _ _ => 0%Qc) e.
Proof.
  intros SQ K. assert (SK : same_keys J (makeZero (N:=QcNum) J)).
  { repeat split; cbn; auto. rewrite map_map. apply map_ext. reflexivity. }
  split; [eapply same_keys_square; eassumption|]. split; [rewrite <- K; apply SK|]. intros i j _ _. cbn. apply mval_zeros.
Qed.
Lemma lazy_add_ok n J B e dJ D x f xp fp : matches n J B e -> holdsD n dJ D e -> length x = n -> length f = n -> length xp = n -> length fp = n ->
  exists dJ', (r <- secant_parts (N:=QcNum) J x f xp fp ;; fake_elems (N:=QcNum) (snd r) (fst r) dJ) = Ret dJ' /\
    holdsD n dJ' (fun i j => D i j + (fake_next n e B (vdiff x xp) (vdiff f fp) i j - B i j))%Qc e.
Proof.
  intros [SQ [K [V G]]] [SD [KD VD]] Lx Lf Lxp Lfp.
  destruct (secant_parts_ok n J x f xp fp SQ Lx Lf Lxp Lfp) as [dx [left [E [L1 [L2 [V1 V2]]]]]]. rewrite E. cbn [obind fst snd].
  destruct (fake_elems_ok n dJ left dx SD L2 L1) as [J' [E' [SK V']]].
  exists J'. split; [exact E'|]. split; [eapply same_keys_square; eassumption|]. split; [rewrite <- KD; apply SK|].
  intros i j Hi Hj. rewrite (V' i j), (VD i j Hi Hj). unfold fake_next, broyden_next. rewrite (storedb_keys _ e i j KD).
  destruct (storedb e i j); [|ring]. rewrite (V2 i Hi), (V1 j), (mapply_B n _ B _ i Hi V). ring.
Qed.

Lemma jaction_recompute a : a = RecomputeJ \/ a <> RecomputeJ.
Proof. destruct a; auto; right; discriminate. Qed.

Section Lazy.
Context {P : Type} (jp : jprov P) (n lazy : nat) (J0 : list Qc -> entries_) (keep : bool).
Hypothesis PR : provides jp n J0 keep any_time.
Let Hset := proj1 PR.
Let Hcomp := proj1 (proj2 (proj2 PR)).
Let Hgood := proj2 (proj2 (proj2 PR)).

Definition lready (s : lst (P:=P)) (B : matrix) (e : entries_) (D : matrix) : Prop :=
  matches n (jp_J jp (l_p s)) B e /\ holdsD n (l_dJ s) D e /\ lu_for n (l_lu s) (sdat (jp_J jp (l_p s))).
Definition linv (s : lst (P:=P)) (st : option (matrix * entries_ * matrix)) (a : jaction) : Prop :=
  l_act s = a /\
  match st with None => a = RecomputeJ /\ dd_inv n (l_lu s) | Some (B, e, D) => lready s B e D end.
Lemma matches_n J B e : matches n J B e -> 0 < n.
Proof.
  intros [[_ [_ [_ ST]]] [K [_ [NE _]]]]. destruct (sdat J) as [|[[r c] v] d] eqn:E; [destruct e; [congruence|cbn in K; congruence]|].
  destruct (ST r c) as [H _]; [|lia]. exists v. left. reflexivity.
Qed.
Lemma set_matches s J B e : dd_inv n s -> matches n J B e ->
  exists s1, (if lu_is_empty s then setMatrix (sdat J) else setMatrixFast s (sdat J)) = Ret s1 /\ lu_for n s1 (sdat J).
Proof.
  intros I [SQ [K [V G]]]. pose proof SQ as [F [SZ [RM ST]]].
  assert (G' : good_pattern n (sdat J)) by (apply (good_keys n e); auto).
  apply set_lu; [exact I|apply row_major_distinct; exact RM|apply G'|apply G'].
Qed.
Lemma finish (p : P) J' dJ lu B e f D : matches n J' B e -> lu_for n lu (sdat J') -> leading_nonsingular n B -> length f = n -> holdsD n dJ D e ->
  exists d lu2, lu_direction lu f = Ret (d, lu2) /\ newton_like n (B, f) d /\
    forall x it a, lready (mkL (jp_set jp p J') dJ lu2 x f true a it) B e D.
Proof.
  intros M LU NS Lf HD. pose proof M as [SQ [K [V G]]].
  destruct (use_lu n lu (sdat J') f LU (lead_ext n B _ ltac:(intros; symmetry; auto) NS) Lf) as [d [lu2 [E [LU2 [L S]]]]].
  exists d, lu2. split; [exact E|]. split; [|intros; split; [|split]; cbn; rewrite ?Hset; auto].
  split; [exact L|]. intros r Hr. etransitivity; [|exact (S r Hr)]. cbn [fst]. apply qsum_ext. intros c Hc. rewrite V by assumption. reflexivity.
Qed.
Lemma lazy_first s st a x f B e D : linv s st a -> l_have s = false -> lazy_start n J0 x st a B e D -> leading_nonsingular n B -> length x = n -> length f = n ->
  exists d s', lazy_dir jp x f 0 s = Ret (d, s') /\ newton_like n (B, f) d /\ lready s' B e D /\
    l_have s' = true /\ l_xp s' = x /\ l_fp s' = f /\ l_act s' = a /\ l_last s' = 0.
Proof.
  intros [HA HI] HV ST NS Lx Lf. unfold lazy_dir. rewrite HA, HV. cbn [Nat.eqb andb].
  assert (RC : st = None \/ a = RecomputeJ -> B = mval (J0 x) /\ e = J0 x /\ D = (fun _ _ => 0%Qc) /\ a = RecomputeJ /\ dd_inv n (l_lu s)).
  { intros H. destruct ST; cbn in HI; try (destruct H; discriminate).
    - destruct HI as [-> I]. auto.
    - destruct st as [[[B1 e1] D1]|]; [|destruct HI as [_ I]; auto]. destruct HI as [_ [_ LU]]. repeat split; auto. eapply lu_for_dd; eassumption. }
  destruct (jaction_recompute a) as [->|NR].
  - rewrite orb_true_r. destruct RC as [-> [-> [-> [_ DI]]]]; [auto|].
    destruct (Hcomp x (l_p s) Lx I) as [p' [E [SD SQ]]]. rewrite E. cbn [obind negb andb].
    assert (M : matches n (jp_J jp p') (mval (J0 x)) (J0 x)).
    { split; [exact SQ|]. split; [rewrite SD; reflexivity|]. split; [intros; rewrite SD; reflexivity|]. apply Hgood. exact Lx. }
    destruct (set_matches (l_lu s) _ _ _ DI M) as [s1 [E1 LU]]. rewrite E1. cbn [obind].
    destruct (finish p' (jp_J jp p') (makeZero (N:=QcNum) (jp_J jp p')) s1 _ _ f _ M LU NS Lf (makeZero_ok n _ _ SQ ltac:(rewrite SD; reflexivity))) as [d [lu2 [E2 [ND LR]]]].
    rewrite E2. cbn [obind fst snd]. do 2 eexists. split; [reflexivity|]. split; [exact ND|]. split; [apply LR|]. cbn. repeat split; auto.
  - destruct ST as [a|st|B e D|B e D]; [destruct HI as [X _]; congruence|congruence| |].
    + destruct HI as [M [HD LU]]. rewrite (matches_nonempty n _ _ _ M). cbn [orb negb andb obind].
      destruct (finish (l_p s) _ _ _ B e f D M LU NS Lf HD) as [d [lu2 [E2 [ND LR]]]].
      rewrite E2. cbn [obind fst snd]. do 2 eexists. split; [reflexivity|]. split; [exact ND|]. split; [apply LR|]. cbn. repeat split; auto.
    + destruct HI as [M [HD LU]]. rewrite (matches_nonempty n _ _ _ M). cbn [orb negb andb obind].
      destruct (add_matrix_ok n _ B e _ D M HD) as [J' [EJ M']]. rewrite EJ. cbn [obind].
      destruct (set_matches (l_lu s) J' _ e (lu_for_dd _ _ _ LU) M') as [s1 [E1 LU1]].
      rewrite (lu_for_nonempty n _ _ (matches_n _ _ _ M) LU) in E1. rewrite E1. cbn [obind].
      destruct (finish (l_p s) J' (makeZero (N:=QcNum) (l_dJ s)) s1 _ e f _ M' LU1 NS Lf (makeZero_ok n _ e (proj1 HD) (proj1 (proj2 HD)))) as [d [lu2 [E2 [ND LR]]]].
      rewrite E2. cbn [obind fst snd]. do 2 eexists. split; [reflexivity|]. split; [exact ND|]. split; [apply LR|]. cbn. repeat split; auto.
Qed.
Lemma lazy_inner s a x f xp fp k B e D : lready s B e D -> l_act s = a -> l_have s = true -> l_xp s = xp -> l_fp s = fp ->
  leading_nonsingular n B -> length x = n -> length f = n -> length xp = n -> length fp = n ->
  exists d s', lazy_dir jp x f (S k) s = Ret (d, s') /\ newton_like n (B, f) d /\
    lready s' B e (fun i j => D i j + (fake_next n e B (vdiff x xp) (vdiff f fp) i j - B i j))%Qc /\
    l_have s' = true /\ l_xp s' = x /\ l_fp s' = f /\ l_act s' = a /\ l_last s' = S k.
Proof.
  intros [M [HD LU]] HA HV <- <- NS Lx Lf Lxp Lfp. unfold lazy_dir. rewrite HV. cbn [Nat.eqb andb negb obind].
  destruct (lazy_add_ok n _ B e _ D x f _ _ M HD Lx Lf Lxp Lfp) as [dJ' [ED HD']]. rewrite ED. cbn [obind].
  destruct (finish (l_p s) _ dJ' _ B e f _ M LU NS Lf HD') as [d [lu2 [E2 [ND LR]]]].
  rewrite E2. cbn [obind fst snd]. do 2 eexists. split; [reflexivity|]. split; [exact ND|]. split; [apply LR|]. cbn. repeat split; auto.
Qed.
Lemma dhist_app {S} (dd : ddir QcNum S) h1 h2 s : dhist dd (h1 ++ h2) s =
  (a <- dhist dd h1 s ;; b <- dhist dd h2 (snd a) ;; Ret (fst a ++ fst b, snd b)).
Proof.
  revert s. induction h1 as [|ev h1 I]; intros s; cbn [dhist app].
  - cbn [obind fst snd]. destruct (dhist dd h2 s) as [[u v]| |]; reflexivity.
  - destruct ev as [hard|x f it|ok]; auto. destruct (dd_dir dd x f it s) as [r| |]; cbn [obind]; auto. rewrite I.
    destruct (dhist dd h1 (snd r)) as [u| |]; cbn [obind fst snd]; auto. destruct (dhist dd h2 (snd u)); reflexivity.
Qed.
Lemma lazy_rest : forall pts s a p k B e D, lready s B e D -> l_act s = a -> l_have s = true -> l_xp s = fst p -> l_fp s = snd p ->
  leading_nonsingular n B -> apart n p pts -> l_last s = k ->
  exists ds s', dhist (lazy_dd jp lazy) (number_from (S k) pts) s = Ret (ds, s') /\
    Forall2 (newton_like n) (map (fun p => (B, snd p)) pts) ds /\ lready s' B e (lazy_delta n e B (steps p pts) D) /\ l_act s' = a /\ l_last s' = k + length pts.
Proof.
  induction pts as [|[x f] pts I]; intros s a p k B e D LR HA HV HX HF NS AP HL; cbn [number_from dhist].
  - exists [], s. split; [reflexivity|]. split; [constructor|]. split; [exact LR|]. split; [exact HA|]. cbn. lia.
  - cbn [apart] in AP. destruct AP as [L1 [L2 [NE AP]]]. cbn [fst] in NE.
    assert (L34 : length x = n /\ length f = n) by (destruct pts; cbn in AP; intuition). destruct L34 as [L3 L4].
    destruct (lazy_inner s a x f (fst p) (snd p) k B e D LR HA HV HX HF NS L3 L4 L1 L2) as [d [s1 [E1 [ND [LR1 [H1 [H2 [H3 [H4 H5]]]]]]]]].
    change (dd_dir (lazy_dd jp lazy) x f (S k) s) with (lazy_dir jp x f (S k) s). rewrite E1. cbn [obind fst snd].
    destruct (I s1 a (x, f) (S k) B e _ LR1 H4 H1 H2 H3 NS AP H5) as [ds [s' [E2 [F2 [LR2 [A2 K2]]]]]].
    rewrite E2. cbn [obind fst snd].
    exists (d :: ds), s'. split; [reflexivity|]. split; [constructor; assumption|]. split; [exact LR2|]. split; [exact A2|]. cbn [length]. lia.
Qed.
Lemma lazy_runs_ok : forall rs st a q, lazy_runs n lazy J0 rs st a q -> forall s, linv s st a ->
  exists ds s', dhist (lazy_dd jp lazy) (runs_events rs) s = Ret (ds, s') /\ Forall2 (newton_like n) q ds.
Proof.
  induction 1 as [st a|r rs st a B e D q AP ST NS R I]; intros s IV.
  - exists [], s. split; [reflexivity|constructor].
  - destruct r as [hard [x f] pts rep]. cbn [r_hard r_first r_rest r_report fst] in *.
    change (runs_events ({| r_hard := hard; r_first := (x, f); r_rest := pts; r_report := rep |} :: rs)) with (run_events {| r_hard := hard; r_first := (x, f); r_rest := pts; r_report := rep |} ++ runs_events rs). rewrite dhist_app. unfold run_events at 1. cbn [r_hard r_first r_rest r_report].
    cbn [dhist]. rewrite dhist_app. cbn [number_from].
    assert (IV' : linv (lazy_reset jp hard s) (if hard then None else st) (if hard then RecomputeJ else a) /\ l_have (lazy_reset jp hard s) = false).
    { destruct IV as [A1 A2]. destruct hard; cbn [lazy_reset]; split; try reflexivity; split; cbn; auto. split; [reflexivity|left; reflexivity]. }
    destruct IV' as [IV' HV'].
    assert (LL : length x = n /\ length f = n) by (destruct pts; cbn in AP; intuition). destruct LL as [Lx Lf].
    destruct (lazy_first _ _ _ x f B e D IV' HV' ST NS Lx Lf) as [d [s1 [E1 [ND [LR1 [H1 [H2 [H3 [H4 H5]]]]]]]]].
    destruct (lazy_rest pts s1 _ (x, f) 0 B e D LR1 H4 H1 H2 H3 NS AP H5) as [ds [s2 [E2 [F2 [LR2 [A2 K2]]]]]].
    cbn [dhist]. change (dd_dir (lazy_dd jp lazy) x f 0 (dd_reset (lazy_dd jp lazy) hard s)) with (lazy_dir jp x f 0 (lazy_reset jp hard s)).
    rewrite E1. cbn [obind fst snd]. rewrite E2. cbn [obind fst snd].
    set (s3 := match rep with Some b => lazy_report lazy b s2 | None => s2 end).
    assert (E3 : dhist (lazy_dd jp lazy) match rep with Some b => [DReport b] | None => [] end s2 = Ret ([], s3)) by (unfold s3; destruct rep; reflexivity).
    rewrite E3. cbn [obind fst snd]. rewrite app_nil_r.
    destruct (I s3) as [ds' [s4 [E4 F4]]].
    { unfold s3. destruct rep as [b|]; cbn [next_use].
      - split; [|exact LR2]. cbn [lazy_report l_act]. rewrite K2. destruct b; [|reflexivity]. rewrite Nat.add_0_l, Nat.add_1_r. reflexivity.
      - split; [exact A2|exact LR2]. }
    rewrite E4. cbn [obind fst snd].
    exists ((d :: ds) ++ ds'), s4. split; [reflexivity|]. cbn [map app]. constructor; [exact ND|]. apply Forall2_app; assumption.
Qed.
Lemma lazy_history rs p q : lazy_runs n lazy J0 rs None RecomputeJ q ->
  exists ds s', dhist (lazy_dd jp lazy) (runs_events rs) (l_new p) = Ret (ds, s') /\ Forall2 (newton_like n) q ds.
Proof. intros R. eapply lazy_runs_ok; [exact R|]. split; [reflexivity|]. split; [reflexivity|left; reflexivity]. Qed.
End Lazy.
