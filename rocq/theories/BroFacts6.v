(** BroFacts6.v - Hart's direction; a Jacobian that is never computed again; the lazily updated direction on affine systems. *)
From Coq Require Import List Arith Bool QArith Qcanon Lia Lqa Qfield.
From Verif Require Import Base BaseFacts SMap SpModel SpSpec SpFacts SpFacts2 SpFacts3 SpFacts4 MapModel JacModel JacSpec JacFacts VecModel VOps
  LUModel LUSpec LUFacts LUFacts2 LUFacts3 LUFacts4 LUFacts5 NewtModel NewtSpec NewtFacts NewtFacts2 NewtFacts4 RkSpec ImpFacts BroModel BroSpec BroFacts BroFacts2 BroFacts3 BroFacts4 BroFacts5.
Import ListNotations.
Local Open Scope nat_scope.

Lemma solve_total st n A b : decomposed st n A -> length b = n -> exists x, solve st b = Ret (st, x) /\ length x = n.
Proof.
  intros ((V & HL & HU) & HF & _) Hb. unfold solve, factorize. rewrite HF. cbn [obind]. rewrite (v_p _ _ V).
  destruct (ofor_inv (fun _ (x : list Qc) => length x = n) (Nat.min 1 n) n (fwd_row (ulay st) (ul st)) b ltac:(lia) Hb) as (x1 & E1 & L1).
  { intros i x Hi H. destruct (fwd_row_ok (ulay st) n (ul st) i x V HL ltac:(lia) ltac:(lia)) as (x' & E' & K1 & _). exists x'. split; [exact E'|congruence]. }
  assert (E1' : ofor 1 n (fwd_row (ulay st) (ul st)) b = Ret x1) by (destruct n; exact E1).
  rewrite E1'. cbn [obind]. unfold ofor_down.
  destruct (ofor_inv (fun _ (x : list Qc) => length x = n) 0 n (fun k => bwd_row (ulay st) (uu st) (n - 1 - k)) x1 ltac:(lia) L1) as (x2 & E2 & L2).
  { intros i x Hi H. destruct (bwd_row_ok (ulay st) n (uu st) (n - 1 - i) x V HU ltac:(lia) ltac:(lia)) as (x' & E' & K1 & _). exists x'. split; [exact E'|congruence]. }
  rewrite E2. cbn [obind]. eauto.
Qed.
Lemma solve_covered st n A b : decomposed st n A -> covered st n -> leading_nonsingular n A -> length b = n ->
  exists x, solve st b = Ret (st, x) /\ length x = n /\ solves n A (vfun x) (vfun b).
Proof.
  intros HD [C1 C2] NS Hb. destruct (solve_total st n A b HD Hb) as [x [E L]]. exists x. split; [exact E|]. split; [exact L|].
  destruct (solve_ok st n A b (or_intror HD) NS ltac:(lia)) as (st' & x' & E' & _ & _ & _ & _ & _ & _ & HX). rewrite E in E'. injection E' as <- <-.
  intros r Hr. rewrite <- (HX r Hr). destruct HD as (_ & _ & HP).
  rewrite (mul_assoc_vec A (AL (ulay st) (ul st)) (Uof st) n (vfun x) r ltac:(intros c Hc; apply HP; auto)).
  apply qsum_ext. intros k Hk. f_equal. apply qsum_ext. intros c Hc. f_equal.
  unfold Utrunc. destruct (Nat.eqb_spec k c); simpl; auto. destruct (Nat.leb_spec c (nn k (ys (ulay st)))); auto.
Qed.
Lemma visible_ext e n s s' : (forall i, vfun s i = vfun s' i) -> hart_visible e n s -> hart_visible e n s'.
Proof. intros E H i Hi. destruct (H i Hi) as [k [H1 [H2 H3]]]. exists k. split; [exact H1|]. split; [rewrite <- E; exact H2|exact H3]. Qed.

Section Hart.
Context {P : Type} (jp : jprov P) (n : nat) (J0 : list Qc -> entries_) (keep : bool) (pre : P -> Prop).
Hypothesis PR : provides jp n J0 keep pre.
Hypothesis HP : forall p, pre (jp_hard jp p).
Let Hcomp := proj1 (proj2 (proj2 PR)).
Let Hgood := proj2 (proj2 (proj2 PR)).
Definition hready (lu : LUModel.lu) (B : matrix) (e : entries_) : Prop :=
  acceptable e n /\ decomposed lu n B /\ ulay lu = mk_layout n e /\ covered lu n.
Definition hartinv (s : bst P) (Bo : option (matrix * entries_)) (prev : option (list Qc * list Qc)) : Prop :=
  match Bo with None => ufact (b_lu s) = false /\ pre (b_p s) | Some (B, e) => hready (b_lu s) B e end /\
  match prev with None => b_have s = false | Some (xp, fp) => b_have s = true /\ b_xp s = xp /\ b_fp s = fp /\ length xp = n /\ length fp = n end.
Lemma hready_dir lu B e f : hready lu B e -> length f = n ->
  exists d, lu_direction lu f = Ret (d, lu) /\ (leading_nonsingular n B -> newton_like n (B, f) d).
Proof.
  intros [HA [HD [HY HC]]] L. destruct (solve_total lu n B f HD L) as [x [E Lx]]. unfold lu_direction. rewrite E. cbn [obind fst snd].
  eexists. split; [reflexivity|]. intros NS. destruct (solve_covered lu n B f HD HC NS L) as [x' [E' [_ S]]]. rewrite E in E'. injection E' as <-.
  apply (newton_neg n B x f B); auto.
Qed.
Lemma hart_first (e : entries_) f : distinct_keys e -> good_pattern n e -> leading_nonsingular n (mval e) -> row_ends n e -> length f = n ->
  exists s1 s2 d, setMatrix e = Ret s1 /\ lu_direction s1 f = Ret (d, s2) /\ hready s2 (mval e) e /\ newton_like n (mval e, f) d.
Proof.
  intros ND [_ [HA SC]] NS RE L. destruct (proj2 (setMatrix_accepts_iff e ND) (ex_intro _ n HA)) as [s1 E1]. destruct (setMatrix_inv e n s1 ND HA E1) as [HY HH].
  assert (HR : represents s1 n (mval e)) by (left; auto).
  destruct (solve_ok s1 n (mval e) f HR NS ltac:(lia)) as (st & x & E & EF & EY & HD & _).
  assert (HY1 : ulay st = mk_layout n e) by congruence.
  assert (HCv : covered st n).
  { assert (DG : forall i, (i < n)%nat -> (i <= nn i (ys (ulay st)))%nat).
    { intros i Hi. rewrite HY1. simpl. destruct (scan_s_spec n e) as [_ HS']. destruct (RE i Hi) as (c & Hc & Hs).
      apply (proj1 (HS' i Hi)) in Hs. lia. }
    split; auto. intros r c Hr Hc Hlt. pose proof (DG r Hr).
    apply (stencil_covers_fill e n SC (Lof st) (Uof st)); try lia; [apply Lof_unit|apply Uof_upper|apply HD|].
    rewrite HY1 in Hlt. apply (lastcol_spec n e r c Hr Hlt). }
  assert (RD : hready st (mval e) e) by (split; [exact HA|split; [exact HD|split; [exact HY1|exact HCv]]]).
  destruct (solve_covered st n (mval e) f HD HCv NS L) as [x' [E' [Lx S]]].
  assert (X : x' = x).
  { unfold solve in E, E'. rewrite EF in E. cbn [obind] in E. unfold factorize in E'. destruct HD as [_ [F _]]. rewrite F in E'. cbn [obind] in E'. congruence. }
  subst x'. exists s1, st. eexists. split; [exact E1|]. unfold lu_direction. rewrite E. cbn [obind fst snd]. split; [reflexivity|]. split; [exact RD|].
  apply (newton_neg n (mval e) x f (mval e)); auto.
Qed.
Lemma hart_hist_gen : forall h s Bo prev, hartinv s Bo prev -> hart_fits n J0 h (option_map snd Bo) (option_map fst prev) ->
  exists q ds s', dhist (hart_dd jp) h s = Ret (ds, s') /\ sec_run n J0 h Bo prev q /\
    Forall2 (fun m d => leading_nonsingular n (fst m) -> newton_like n m d) q ds.
Proof.
  induction h as [|ev h I]; intros s Bo prev [IB IP] FT.
  - exists [], [], s. split; [reflexivity|]. split; constructor.
  - destruct ev as [hard|x f it|ok]; cbn [hart_fits] in FT.
    + assert (IV : hartinv (fake_reset jp hard s) (if hard then None else Bo) None).
      { split; [|reflexivity]. destruct hard; cbn [fake_reset b_lu b_p]; [split; [reflexivity|apply HP]|exact IB]. }
      destruct (I (fake_reset jp hard s) (if hard then None else Bo) None IV) as [q [ds [s' [E [R F]]]]]; [destruct hard; exact FT|].
      exists q, ds, s'. split; [exact E|]. split; [constructor; exact R|exact F].
    + destruct FT as [Lx [Lf [CN FT]]]. cbn [dhist]. change (dd_dir (hart_dd jp) x f it s) with (hart_dir jp x f it s). unfold hart_dir.
      assert (NX : forall (p : P) lu, b_have (mkB p lu x f true) = true /\ b_xp (mkB p lu x f true) = x /\ b_fp (mkB p lu x f true) = f /\ length x = n /\ length f = n) by (intros; cbn; auto).
      destruct Bo as [[B e]|]; cbn [option_map snd] in *.
      * pose proof IB as [HA [HD [HY HC]]]. destruct HD as [HW [HF HPr]]. rewrite HF. cbn [negb obind].
        destruct prev as [[xp fp]|]; cbn [option_map fst] in *.
        -- destruct IP as [P1 [P2 [P3 [P4 P5]]]]. rewrite P1, P2, P3.
           destruct (lsub_n x xp n Lx P4) as [sv [E1 [Ls Vs]]]. destruct (lsub_n f fp n Lf P5) as [yv [E2 [Ly Vy]]].
           change (nT QcNum) with Qc in *. rewrite E1. cbn [obind]. rewrite E2. cbn [obind].
           assert (VI : hart_visible e n sv).
           { eapply visible_ext; [|exact CN]. intros i. rewrite Vs. unfold vfun. destruct (lt_dec i n) as [Q|Q].
             - rewrite (nth_map_seq n (vdiff x xp) 0%Qc i Q). reflexivity.
             - rewrite nth_overflow by (rewrite map_length, seq_length; lia). unfold vdiff, vfun. rewrite !nth_overflow by lia. ring. }
           destruct (hart_step e n (b_lu s) B sv yv HA (conj HW (conj HF HPr)) HY HC Ls Ly VI) as (lu' & B' & E3 & HY' & HD' & HC' & SX).
           change (nT QcNum) with Qc in *. rewrite E3. cbn [obind].
           assert (RD : hready lu' B' e) by (split; [exact HA|split; [exact HD'|split; [exact HY'|exact HC']]]).
           destruct (hready_dir lu' B' e f RD Lf) as [d [E4 ND]]. rewrite E4. cbn [obind fst snd].
           destruct (I (mkB (b_p s) lu' x f true) (Some (B', e)) (Some (x, f)) (conj RD (NX _ _)) FT) as [q [ds [s' [E5 [R F]]]]]. rewrite E5. cbn [obind fst snd].
           exists ((B', f) :: q), (d :: ds), s'. split; [reflexivity|]. split; [|constructor; [exact ND|exact F]].
           apply HUpdate; [| |exact R].
           ++ intros i Hi. unfold mapply. rewrite <- Vy, <- (SX i Hi). apply qsum_ext. intros c Hc. rewrite Vs. reflexivity.
           ++ destruct (hart_run_ok e n HA [] lu' B' HD' HY' HC' ltac:(intros ? ? [])) as (st' & A' & _ & _ & Z & _ & EA). rewrite (EA eq_refl) in Z. exact Z.
        -- rewrite IP. cbn [obind]. destruct (hready_dir (b_lu s) B e f IB Lf) as [d [E4 ND]]. rewrite E4. cbn [obind fst snd].
           destruct (I (mkB (b_p s) (b_lu s) x f true) (Some (B, e)) (Some (x, f)) (conj IB (NX _ _)) FT) as [q [ds [s' [E5 [R F]]]]]. rewrite E5. cbn [obind fst snd].
           exists ((B, f) :: q), (d :: ds), s'. split; [reflexivity|]. split; [constructor; exact R|constructor; [exact ND|exact F]].
      * destruct IB as [UF PP]. rewrite UF. cbn [negb]. destruct CN as [NS RE].
        destruct (Hcomp x (b_p s) Lx PP) as [p' [E [SD SQ]]]. rewrite E. cbn [obind].
        assert (DK : distinct_keys (J0 x)) by (rewrite <- SD; apply row_major_distinct; apply SQ).
        destruct (hart_first (J0 x) f DK (Hgood x Lx) NS RE Lf) as [s1 [s2 [d [E1 [E2 [RD ND]]]]]]. rewrite SD.
        change (nT QcNum) with Qc in *. rewrite E1. cbn [obind]. rewrite E2. cbn [obind fst snd].
        destruct (I (mkB p' s2 x f true) (Some (mval (J0 x), J0 x)) (Some (x, f)) (conj RD (NX _ _)) FT) as [q [ds [s' [E5 [R F]]]]]. rewrite E5. cbn [obind fst snd].
        exists ((mval (J0 x), f) :: q), (d :: ds), s'. split; [reflexivity|]. split; [constructor; exact R|constructor; [intros _; exact ND|exact F]].
    + destruct (I s Bo prev (conj IB IP) FT) as [q [ds [s' [E [R F]]]]]. exists q, ds, s'. split; [exact E|]. split; [constructor; exact R|exact F].
Qed.
Lemma hart_history h p : pre p -> hart_fits n J0 h None None ->
  exists q ds s', dhist (hart_dd jp) h (b_new p) = Ret (ds, s') /\ sec_run n J0 h None None q /\
    Forall2 (fun m d => leading_nonsingular n (fst m) -> newton_like n m d) q ds.
Proof. intros PP. apply (hart_hist_gen h (b_new p) None None). split; [split; [reflexivity|exact PP]|reflexivity]. Qed.
End Hart.

(** ** The default provider's Jacobian is never computed again *)
Lemma fake_data_nonempty (left dx : list Qc) d d' : fake_data (N:=QcNum) left dx d = Ret d' -> d <> [] -> d' <> [].
Proof.
  destruct d as [|[k v] d]; [congruence|]. cbn [fake_data]. intros E _. apply obind_inv in E. destruct E as [l [_ E]]. apply obind_inv in E. destruct E as [e [_ E]].
  apply obind_inv in E. destruct E as [t [_ E]]. injection E as <-. discriminate.
Qed.
Lemma mat_empty_false J : mat_empty (N:=QcNum) J = false <-> sdat J <> [].
Proof. unfold mat_empty. destruct (sdat J); split; congruence. Qed.
Lemma at_upd_nonempty (J J' : smat QcNum) k f : at_upd J k f = Ret J' -> sdat J <> [] -> sdat J' <> [].
Proof.
  unfold at_upd. destruct (fast J).
  - destruct (fast_pos (sdat J) k) as [i|]; [|discriminate]. destruct (nth_error (sdat J) i) as [[k0 x]|]; [|discriminate]. intros E NE. injection E as <-. cbn.
    intros Z. apply NE. apply length_zero_iff_nil. rewrite <- (upd_length (sdat J) i (k0, f x)). change (nT QcNum) with Qc in *. rewrite Z. reflexivity.
  - intros E NE. injection E as <-. cbn. destruct (sdat J) as [|[k1 v1] d]; [congruence|]. cbn [mput]. destruct (cmp KO k k1); discriminate.
Qed.
Lemma ofor_pres {S} (Q : S -> Prop) body : (forall (k : nat) (x x' : S), body k x = Ret x' -> Q x -> Q x') ->
  forall a b s s', ofor a b body s = Ret s' -> Q s -> Q s'.
Proof.
  intros H a b. unfold ofor. generalize (b - a). intros c. revert a. induction c as [|c I]; intros a s s' E HQ; cbn in E.
  - injection E as <-. exact HQ.
  - apply obind_inv in E. destruct E as [x [E1 E2]]. eauto.
Qed.
Lemma broyden_nonempty n (left dx : list Qc) J J' : broyden_elems (N:=QcNum) n left dx J = Ret J' -> sdat J <> [] -> sdat J' <> [].
Proof.
  unfold broyden_elems. apply (ofor_pres (fun J => sdat J <> [])). intros i x x'. apply (ofor_pres (fun J => sdat J <> [])). intros j y y' E NE.
  apply obind_inv in E. destruct E as [l [_ E]]. apply obind_inv in E. destruct E as [d [_ E]]. cbv zeta in E. destruct (neqb QcNum _ _) in E; [injection E as <-; exact NE|].
  eapply at_upd_nonempty; eassumption.
Qed.
Lemma bro_never dx1 dx2 jt1 jt2 g1 g2 : forall h (s : bst (smat QcNum)), mat_empty (b_p s) = false ->
  dhist (bro_dd (default_jp dx1 jt1 g1)) h s = dhist (bro_dd (default_jp dx2 jt2 g2)) h s.
Proof.
  induction h as [|ev h I]; intros s NE; [reflexivity|]. destruct ev as [hard|x f it|ok]; cbn [dhist].
  - apply I. cbn. destruct hard; exact NE.
  - change (dd_dir (bro_dd (default_jp dx1 jt1 g1)) x f it s) with (bro_dir (default_jp dx1 jt1 g1) x f it s).
    change (dd_dir (bro_dd (default_jp dx2 jt2 g2)) x f it s) with (bro_dir (default_jp dx2 jt2 g2) x f it s).
    assert (E : bro_dir (default_jp dx1 jt1 g1) x f it s = bro_dir (default_jp dx2 jt2 g2) x f it s).
    { unfold bro_dir. cbn [default_jp jp_J]. rewrite NE. reflexivity. }
    rewrite E. destruct (bro_dir (default_jp dx2 jt2 g2) x f it s) as [[d s']| |] eqn:EB; cbn [obind]; try reflexivity. cbn [snd fst].
    rewrite I; [reflexivity|]. unfold bro_dir in EB. cbn [default_jp jp_J jp_set jp_compute] in EB. rewrite NE in EB. cbn [obind negb andb] in EB.
    apply obind_inv in EB. destruct EB as [J [E1 EB]]. apply obind_inv in EB. destruct EB as [lu [_ EB]]. apply obind_inv in EB. destruct EB as [r [_ EB]]. injection EB as _ <-. cbn [b_p].
    apply mat_empty_false. apply mat_empty_false in NE. destruct (b_have s); [|injection E1 as <-; exact NE].
    apply obind_inv in E1. destruct E1 as [q [_ E1]]. eapply broyden_nonempty; eassumption.
  - apply I. exact NE.
Qed.
Lemma fake_never dx1 dx2 jt1 jt2 g1 g2 : forall h (s : bst (smat QcNum)), mat_empty (b_p s) = false ->
  dhist (fake_dd (default_jp dx1 jt1 g1)) h s = dhist (fake_dd (default_jp dx2 jt2 g2)) h s.
Proof.
  induction h as [|ev h I]; intros s NE; [reflexivity|]. destruct ev as [hard|x f it|ok]; cbn [dhist].
  - apply I. cbn. destruct hard; exact NE.
  - change (dd_dir (fake_dd (default_jp dx1 jt1 g1)) x f it s) with (fake_dir (default_jp dx1 jt1 g1) x f it s).
    change (dd_dir (fake_dd (default_jp dx2 jt2 g2)) x f it s) with (fake_dir (default_jp dx2 jt2 g2) x f it s).
    assert (E : fake_dir (default_jp dx1 jt1 g1) x f it s = fake_dir (default_jp dx2 jt2 g2) x f it s).
    { unfold fake_dir. cbn [default_jp jp_J]. rewrite NE. reflexivity. }
    rewrite E. destruct (fake_dir (default_jp dx2 jt2 g2) x f it s) as [[d s']| |] eqn:EB; cbn [obind]; try reflexivity. cbn [snd fst].
    rewrite I; [reflexivity|]. unfold fake_dir in EB. cbn [default_jp jp_J jp_set jp_compute] in EB. rewrite NE in EB. cbn [obind negb andb] in EB.
    apply obind_inv in EB. destruct EB as [J [E1 EB]]. apply obind_inv in EB. destruct EB as [lu [_ EB]]. apply obind_inv in EB. destruct EB as [r [_ EB]]. injection EB as _ <-. cbn [b_p].
    apply mat_empty_false. apply mat_empty_false in NE. destruct (b_have s); [|injection E1 as <-; exact NE].
    apply obind_inv in E1. destruct E1 as [q [_ E1]]. unfold fake_elems in E1. apply obind_inv in E1. destruct E1 as [d' [E1 E2]]. injection E2 as <-. cbn [sdat].
    eapply fake_data_nonempty; eassumption.
  - apply I. exact NE.
Qed.

(** ** Lazy updates: affine systems, and the increments of several steps add up *)
Lemma lazy_delta_cons n e B s y st D : lazy_delta n e B ((s, y) :: st) D = lazy_delta n e B st (fun i j => (D i j + (fake_next n e B s y i j - B i j))%Qc).
Proof. reflexivity. Qed.
Lemma lazy_delta_zero n e B : forall st D, (forall s y, In (s, y) st -> forall i, i < n -> mapply n B s i = y i) ->
  forall i j, i < n -> lazy_delta n e B st D i j = D i j.
Proof.
  induction st as [|[s y] st I]; intros D H i j Hi; [reflexivity|]. rewrite lazy_delta_cons.
  rewrite I; [|intros s0 y0 HI k Hk; exact (H s0 y0 (or_intror HI) k Hk)|exact Hi]. rewrite (fake_exact n e B s y i j (fun i Hi => H s y (or_introl eq_refl) i Hi) Hi). ring.
Qed.
Lemma mapply_one B s i : mapply 1 B s i = (B i O * s O)%Qc.
Proof. unfold mapply. cbn. ring. Qed.
Lemma follows_rest n F : forall pts k p t, length (fst p) = n -> length (snd p) = n -> snd p = F (fst p) -> (forall x, length x = n -> length (F x) = n) ->
  follows n F (number_from k pts ++ t) (Some (fst p)) ->
  apart n p pts /\ (forall s y, In (s, y) (steps p pts) -> exists x x', length x = n /\ length x' = n /\ s = vdiff x x' /\ y = vdiff (F x) (F x')) /\
  (exists prev, follows n F t prev).
Proof.
  induction pts as [|[x f] pts I]; intros k p t L1 L2 EP LF FO; cbn [number_from app] in FO.
  - cbn. repeat split; auto. intros s y []. eauto.
  - cbn [follows] in FO. destruct FO as [Lx [-> [NE FO]]]. destruct (I (S k) (x, F x) t Lx (LF x Lx) eq_refl LF FO) as [AP [ST EX]].
    split; [|split; [|exact EX]].
    + cbn [apart]. split; [exact L1|]. split; [exact L2|]. cbn [fst]. split; [intros E; apply NE; f_equal; auto|exact AP].
    + intros s y H. cbn [steps] in H. destruct H as [H|H]; [|apply ST; exact H]. injection H as <- <-. exists x, (fst p). cbn [fst snd]. rewrite <- EP. auto.
Qed.
Lemma follows_prev n F : forall rs prev, follows n F (runs_events rs) prev -> follows n F (runs_events rs) None.
Proof. intros [|r rs] prev; [trivial|]. intros H. exact H. Qed.
Lemma residuals_app h1 h2 : residuals (h1 ++ h2) = residuals h1 ++ residuals h2.
Proof. induction h1 as [|[hard|x f it|ok] h1 I]; cbn; auto. rewrite I. reflexivity. Qed.
Lemma residuals_number : forall pts k, residuals (number_from k pts) = map snd pts.
Proof. induction pts as [|[x f] pts I]; intros k; cbn; auto. rewrite I. reflexivity. Qed.
Section LazyAff.
Context (n lazy : nat) (A : matrix) (b : nat -> Qc) (F : list Qc -> list Qc) (J0 : list Qc -> entries_).
Hypothesis AF : affine n A b F.
Hypothesis LF : forall x, length x = n -> length (F x) = n.
Hypothesis NS : leading_nonsingular n A.
Hypothesis JA : forall x, length x = n -> forall i j, i < n -> j < n -> mval (J0 x) i j = A i j.
Lemma lazy_affine_runs : forall rs st a, follows n F (runs_events rs) None ->
  (forall B e D, st = Some (B, e, D) -> forall i j, i < n -> j < n -> B i j = A i j /\ D i j = 0%Qc) ->
  exists q, lazy_runs n lazy J0 rs st a q /\ Forall2 (fun m f => (forall i j, i < n -> j < n -> fst m i j = A i j) /\ snd m = f) q (residuals (runs_events rs)).
Proof.
  induction rs as [|r rs I]; intros st a FO HS.
  - exists []. split; constructor.
  - destruct r as [hard [x f] pts rep].
    change (runs_events ({| r_hard := hard; r_first := (x, f); r_rest := pts; r_report := rep |} :: rs)) with (run_events {| r_hard := hard; r_first := (x, f); r_rest := pts; r_report := rep |} ++ runs_events rs) in *.
    unfold run_events in *. cbn [r_hard r_first r_rest r_report] in *. cbn [app follows number_from] in FO. rewrite <- app_assoc in FO.
    destruct FO as [Lx [-> [_ FO]]].
    destruct (follows_rest n F pts 1 (x, F x) _ Lx (LF x Lx) eq_refl LF FO) as [AP [ST [prev FT]]].
    assert (FT' : follows n F (runs_events rs) None).
    { destruct rep as [ok|]; cbn [app follows] in FT; eapply follows_prev; exact FT. }
    set (st1 := if hard then None else st) in *. set (a1 := if hard then RecomputeJ else a) in *.
    assert (EX : exists B e D, lazy_start n J0 x st1 a1 B e D /\ forall i j, i < n -> j < n -> B i j = A i j /\ D i j = 0%Qc).
    { destruct st1 as [[[B e] D]|] eqn:E1.
      - assert (HB : forall i j, i < n -> j < n -> B i j = A i j /\ D i j = 0%Qc).
        { apply (HS B e D). unfold st1 in E1. destruct hard; [discriminate|exact E1]. }
        destruct a1.
        + exists B, e, D. split; [constructor|exact HB].
        + do 3 eexists. split; [constructor|]. intros i j Hi Hj. destruct (HB i j Hi Hj) as [-> ->]. split; [ring|reflexivity].
        + do 3 eexists. split; [constructor|]. intros i j Hi Hj. split; [apply JA; assumption|reflexivity].
      - do 3 eexists. split; [constructor|]. intros i j Hi Hj. split; [apply JA; assumption|reflexivity]. }
    destruct EX as [B [e [D [LS HB]]]].
    assert (DZ : forall i j, i < n -> j < n -> lazy_delta n e B (steps (x, F x) pts) D i j = 0%Qc).
    { intros i j Hi Hj. rewrite lazy_delta_zero; [apply HB; assumption| |exact Hi]. intros s y H k Hk. destruct (ST s y H) as [u [v [Lu [Lv [-> ->]]]]].
      rewrite (mapply_B n B A _ k Hk (fun i j Hi Hj => proj1 (HB i j Hi Hj))). apply (affine_diff n A b F); auto. }
    destruct (I (Some (B, e, lazy_delta n e B (steps (x, F x) pts) D)) (next_use lazy rep (S (length pts)) a1) FT') as [q [R V]].
    { intros B' e' D' E i j Hi Hj. injection E as <- <- <-. split; [apply HB; assumption|apply DZ; assumption]. }
    eexists. split.
    + apply (LRRun n lazy J0 {| r_hard := hard; r_first := (x, F x); r_rest := pts; r_report := rep |} rs st a B e D q); cbn [r_hard r_first r_rest r_report fst]; auto.
      apply (lead_ext n A B); [intros; symmetry; apply HB; assumption|exact NS].
    + cbn [r_first r_rest map snd residuals app number_from]. rewrite !residuals_app, residuals_number.
      assert (RR : residuals match rep with Some b0 => [DReport b0] | None => [] end = []) by (destruct rep; reflexivity). rewrite RR, app_nil_r.
      constructor; [split; [intros; apply HB; assumption|reflexivity]|]. apply Forall2_app; [|exact V].
      clear - HB. induction pts as [|p pts IH]; cbn; constructor; auto. split; [intros; apply HB; assumption|reflexivity].
Qed.
End LazyAff.
Lemma lazy_affine {P} (jp : jprov P) (p : P) keep lazy n A b F (g : vmapping QcNum) dx rs : computes g F n n -> affine n A b F -> dx <> 0%Qc -> solvable_pattern n A -> 0 < n ->
  provides jp n (computed dx None g) keep any_time -> follows n F (runs_events rs) None ->
  exists ds s', dhist (lazy_dd jp lazy) (runs_events rs) (l_new p) = Ret (ds, s') /\ Forall2 (fun f d => newton_like n (A, f) d) (residuals (runs_events rs)) ds.
Proof.
  intros CF AF DX SP Hn PR FO.
  destruct (lazy_affine_runs n lazy A b F (computed dx None g) AF (fun x L => proj2 (proj2 (proj2 CF) x L)) (proj1 SP)
     (fun x L => proj1 (proj2 (affine_good dx g F n A b CF AF DX SP Hn x L))) rs None RecomputeJ FO ltac:(discriminate)) as [q [R V]].
  destruct (lazy_history jp n lazy (computed dx None g) keep PR rs p q R) as [ds [s' [E N]]]. exists ds, s'. split; [exact E|]. eapply forall2_newton; eassumption.
Qed.

(** One equation: every step of slope a adds a - B to the increment. *)
Lemma lazy_overshoot e B a : storedb e 0 0 = true -> forall st D, (forall s y, In (s, y) st -> s O <> 0%Qc /\ y O = (a * s O)%Qc) ->
  lazy_delta 1 e B st D 0 0 = (D O O + qc (Z.of_nat (length st)) 1 * (a - B O O))%Qc.
Proof.
  intros SB. induction st as [|[s y] st I]; intros D H.
  - cbn [length]. change (qc (Z.of_nat 0) 1) with 0%Qc. unfold lazy_delta. cbn [fold_left]. ring.
  - rewrite lazy_delta_cons, I by (intros; apply H; right; assumption). destruct (H s y (or_introl eq_refl)) as [NZ EY].
    unfold fake_next. rewrite SB. unfold broyden_next. rewrite mapply_one, EY.
    assert (NQ : normsq 1 s = (s O * s O)%Qc) by (unfold normsq; cbn; ring). rewrite NQ.
    assert (QS : qc (Z.of_nat (length ((s, y) :: st))) 1 = (1 + qc (Z.of_nat (length st)) 1)%Qc).
    { cbn [length]. rewrite Nat2Z.inj_succ. unfold qc. apply Qc_is_canon. unfold Qcplus, Q2Qc, this. rewrite !Qred_correct. generalize (Z.of_nat (length st)). intros z. unfold Qeq, Qplus. cbn -[Z.mul Z.add]. lia. }
    rewrite QS. field. exact NZ.
Qed.
