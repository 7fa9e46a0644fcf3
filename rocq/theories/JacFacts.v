(** JacFacts.v - proofs about computeJacobian and the trimmers. *)
From Coq Require Import List Arith Bool Lia ZArith QArith Qcanon.
From Verif Require Import Base BaseFacts SMap SpModel SpSpec SpFacts MapModel MapFacts JacModel JacSpec.
Import ListNotations.
Local Open Scope nat_scope.

Section AnyNum.
Context {N : Num}.
Notation T := (nT N).
Notation vec := (list T).

Lemma bump_ok (x : vec) i dx : i < length x -> bump x i dx = Ret (bumped x dx i).
Proof. intros L. unfold bump, bumped. rewrite (rdat_ok _ _ (n0 N)) by assumption. cbn [obind]. apply wrat_ok. assumption. Qed.
Lemma bumped_length (x : vec) dx i : length (bumped x dx i) = length x. Proof. apply upd_length. Qed.

(** One column of computeJacobian. *)
Lemma jac_column_ok n i (f f0 : vec) dx (res : smat N) : fast res = false -> row_major (sdat res) -> n <= length f -> n <= length f0 ->
  (forall j, sfind res (j, i) = None) ->
  exists res', jac_column n i f f0 dx res = Ret res' /\ fast res' = false /\ ssz res' = ssz res /\ row_major (sdat res') /\
   (forall j, j < n -> sfind res' (j, i) = let df := nsub N (nth j f (n0 N)) (nth j f0 (n0 N)) in if neqb N df (n0 N) then None else Some (ndiv N df dx)) /\
   (forall j, n <= j -> sfind res' (j, i) = None) /\
   (forall p, snd p <> i -> sfind res' p = sfind res p).
Proof.
  intros FA RM Lf L0 NO. unfold jac_column.
  destruct (ofor_inv (fun k res' => fast res' = false /\ ssz res' = ssz res /\ row_major (sdat res') /\
     (forall j, j < k -> sfind res' (j, i) = let df := nsub N (nth j f (n0 N)) (nth j f0 (n0 N)) in if neqb N df (n0 N) then None else Some (ndiv N df dx)) /\
     (forall j, k <= j -> sfind res' (j, i) = None) /\ (forall p, snd p <> i -> sfind res' p = sfind res p)) 0 n
     (fun j res0 => a <- rdat f j ;; b <- rdat f0 j ;; (let df := nsub N a b in if neqb N df (n0 N) then Ret res0 else at_upd res0 (j, i) (fun _ => ndiv N df dx))) res)
    as [res' [E P]].
  - lia.
  - repeat split; auto. intros; lia.
  - intros k r Hk [A [B [C [D [F G]]]]]. rewrite (rdat_ok _ _ (n0 N)) by lia. cbn [obind]. rewrite (rdat_ok _ _ (n0 N)) by lia. cbn [obind].
    cbv zeta. destruct (neqb N (nsub N (nth k f (n0 N)) (nth k f0 (n0 N))) (n0 N)) eqn:Z.
    + eexists. split; [reflexivity|]. repeat split; auto.
      * intros j Hj. destruct (Nat.eq_dec j k) as [->|]; [cbv zeta; rewrite Z; apply F; lia|apply D; lia].
      * intros j Hj. apply F. lia.
    + destruct (at_upd_map r (k, i) (fun _ => ndiv N (nsub N (nth k f (n0 N)) (nth k f0 (n0 N))) dx) A C) as [r' [E [A' [B' [C' [D' F']]]]]].
      exists r'. split; [exact E|]. repeat split; auto; try congruence.
      * intros j Hj. destruct (Nat.eq_dec j k) as [->|Dj]; [cbv zeta; rewrite Z; exact D'|]. rewrite F' by congruence. apply D; lia.
      * intros j Hj. rewrite F' by (intros Q; injection Q; lia). apply F; lia.
      * intros p Hp. rewrite F' by (intros ->; apply Hp; reflexivity). auto.
  - exists res'. split; [exact E|]. destruct P as [A [B [C [D [F G]]]]]. repeat split; auto.
Qed.

Lemma computeJacobian_ok dx (g : vmapping N) F n (x0 : vec) : computes g F n n -> length x0 = n ->
  exists J, computeJacobian dx g x0 = Ret (J, x0 :: map (bumped x0 dx) (seq 0 n)) /\
    fast J = false /\ ssz J = (n, n) /\ row_major (sdat J) /\
    (forall r c, r < n -> c < n -> sfind J (r, c) = if neqb N (change F x0 dx r c) (n0 N) then None else Some (quotient F x0 dx r c)) /\
    (forall r c, n <= r \/ n <= c -> sfind J (r, c) = None).
Proof.
  intros [I1 [I2 CF]] L. destruct (CF x0 L) as [E0 L0]. unfold computeJacobian. rewrite E0, I1. cbn [obind].
  destruct (ofor_inv (fun k (st : smat N * list vec) => snd st = x0 :: map (bumped x0 dx) (seq 0 k) /\ fast (fst st) = false /\ ssz (fst st) = (n, n) /\ row_major (sdat (fst st)) /\
     (forall r c, r < n -> c < k -> sfind (fst st) (r, c) = if neqb N (change F x0 dx r c) (n0 N) then None else Some (quotient F x0 dx r c)) /\
     (forall r c, n <= r \/ k <= c -> sfind (fst st) (r, c) = None)) 0 n
     (fun i st => x <- bump x0 i dx ;; f <- mapf g x ;; res <- jac_column n i f (F x0) dx (fst st) ;; Ret (res, snd st ++ [x])) (new_map (n, n), [x0]))
    as [[J lg] [E [P1 P2]]].
  - lia.
  - simpl. repeat split; auto. intros; lia.
  - intros k [r lg] Hk [A [B [C [D [G H]]]]]. cbn [fst snd] in *. rewrite bump_ok by lia. cbn [obind].
    destruct (CF (bumped x0 dx k)) as [Ek Lk]; [rewrite bumped_length; assumption|]. rewrite Ek. cbn [obind].
    destruct (jac_column_ok n k (F (bumped x0 dx k)) (F x0) dx r) as [r' [E [A' [B' [C' [D' [F' G']]]]]]]; [assumption|assumption|rewrite Lk; lia|rewrite L0; lia|intros j; apply H; right; lia|].
    rewrite E. cbn [obind]. eexists. split; [reflexivity|]. cbn [fst snd]. split.
    { rewrite A, seq_S, map_app. reflexivity. }
    repeat split; auto; try congruence.
    + intros a c Ha Hc. destruct (Nat.eq_dec c k) as [->|Dc]; [apply D'; assumption|]. rewrite G' by (simpl; assumption). apply G; lia.
    + intros a c Hac. destruct (Nat.eq_dec c k) as [->|Dc]; [apply F'; destruct Hac; [assumption|lia]|].
      rewrite G' by (simpl; assumption). apply H. destruct Hac; [left; assumption|right; lia].
  - cbn [fst snd] in *. exists J. rewrite E, P1. split; [reflexivity|]. exact P2.
Qed.

(** Building a map-backed matrix from part of the elements of another one keeps exactly that part. *)
Lemma keep_fold (P : key * T -> bool) sz (d : list (key * T)) : row_major d ->
  ofold (fun res e => if P e then at_upd res (fst e) (fun _ => snd e) else Ret res) d (new_map sz) = Ret (mkS false sz (filter P d)).
Proof.
  intros RM.
  assert (G : forall d2 d1, row_major (d1 ++ d2) ->
    ofold (fun res e => if P e then at_upd res (fst e) (fun _ => snd e) else Ret res) d2 (mkS false sz (filter P d1)) = Ret (mkS false sz (filter P (d1 ++ d2)))).
  { induction d2 as [|e d2 IH]; intros d1 R; [rewrite app_nil_r; reflexivity|]. cbn [ofold].
    replace (d1 ++ e :: d2) with ((d1 ++ [e]) ++ d2) in * by (rewrite <- app_assoc; reflexivity).
    assert (FE : filter P (d1 ++ [e]) = filter P d1 ++ (if P e then [e] else [])) by (rewrite filter_app; simpl; destruct (P e); reflexivity).
    destruct (P e) eqn:PE.
    - unfold at_upd. cbn [fast ssz sdat]. rewrite mput_last.
      + cbn [obind]. rewrite <- IH by assumption. rewrite FE. destruct e; reflexivity.
      + intros k v I. apply filter_In in I as [I _].
        assert (B : before k (fst e)).
        { clear -R I. rewrite <- app_assoc in R. simpl in R. induction d1 as [|[k0 v0] d1 IH]; [destruct I|]. simpl in R. destruct R as [R1 R2].
          destruct I as [I|I]; [|auto]. injection I as -> ->. destruct e as [ke ve]. apply (R1 ke ve). apply in_or_app. right. left. reflexivity. }
        apply klt_before. exact B.
    - cbn [obind]. rewrite <- IH by assumption. rewrite FE, app_nil_r. reflexivity. }
  apply (G d []). assumption.
Qed.
Lemma row_major_filter (P : key * T -> bool) d : row_major d -> row_major (filter P d).
Proof.
  induction d as [|[k x] d IH]; simpl; [auto|]. intros [A B]. destruct (P (k, x)); simpl; [|auto]. split; [|auto].
  intros k' x' I. apply filter_In in I as [I _]. eauto.
Qed.
Lemma filter_ext_in' (P Q : key * T -> bool) d : (forall e, In e d -> P e = Q e) -> filter P d = filter Q d.
Proof. apply filter_ext_in. Qed.
Lemma keep_find (P : key * T -> bool) sz d b p x : row_major d ->
  (sfind (mkS false sz (filter P d)) p = Some x <-> sfind (mkS b sz d) p = Some x /\ P (p, x) = true).
Proof.
  intros RM. rewrite sfind_In by (apply row_major_filter; assumption). rewrite (sfind_In (mkS b sz d)) by assumption. cbn [sdat]. apply filter_In.
Qed.

Lemma to_int_small z : (- 2 ^ 31 <= z < 2 ^ 31)%Z -> to_int z = z.
Proof.
  intros H. unfold to_int. destruct (Z.ltb_spec (z mod 2 ^ 32) (2 ^ 31)).
  - destruct (Z_lt_le_dec z 0); [|apply Z.mod_small; lia].
    rewrite <- (Z.mod_unique z (2^32) (-1) (z + 2^32)) in *; lia.
  - destruct (Z_lt_le_dec z 0).
    + rewrite <- (Z.mod_unique z (2^32) (-1) (z + 2^32)); lia.
    + rewrite Z.mod_small in * by lia. lia.
Qed.
Lemma trim_width_ok (width : Z) (J : smat N) : fast J = false -> row_major (sdat J) -> (0 <= width < 2 ^ 31)%Z ->
  (forall r c, stored J r c -> (Z.of_nat r < 2 ^ 31 /\ Z.of_nat c < 2 ^ 31)%Z) ->
  exists J', trim_width width J = Ret J' /\ fast J' = false /\ ssz J' = ssz J /\ row_major (sdat J') /\
    (forall r c x, sfind J' (r, c) = Some x <-> sfind J (r, c) = Some x /\ (width = 0%Z \/ (Z.abs (Z.of_nat r - Z.of_nat c) < width)%Z)) /\
    trim_width width J' = Ret J'.
Proof.
  intros FA RM W B. unfold trim_width. destruct (Z.eqb_spec width 0) as [E|E].
  - exists J. repeat split; auto. intros [A _]; exact A.
  - set (P := fun e : key * T => (int_abs (to_int (Z.of_nat (fst (fst e)) - Z.of_nat (snd (fst e)))) <? to_int width)%Z).
    assert (PS : forall e, In e (sdat J) -> P e = (Z.abs (Z.of_nat (fst (fst e)) - Z.of_nat (snd (fst e))) <? width)%Z).
    { intros [[r c] x] I. unfold P. cbn [fst snd]. destruct (B r c) as [Br Bc]; [exists x; exact I|].
      rewrite !to_int_small by lia. unfold int_abs. destruct (Z.eqb_spec (Z.of_nat r - Z.of_nat c) (- 2 ^ 31)); [lia|reflexivity]. }
    exists (mkS false (ssz J) (filter P (sdat J))).
    pose proof (keep_fold P (ssz J) (sdat J) RM) as K. split; [exact K|].
    split; [reflexivity|]. split; [reflexivity|]. split; [exact (row_major_filter P (sdat J) RM)|]. split.
    + intros r c x. rewrite (keep_find P (ssz J) (sdat J) (fast J) (r, c) x RM). destruct J as [fj sj dj]; cbn [fast ssz sdat] in *.
      split; intros [A Q]; split; auto.
      * right. pose proof A as I. apply sfind_In in I; [|assumption]. apply PS in I. cbn [fst snd] in I. rewrite Q in I. symmetry in I. apply Z.ltb_lt in I. exact I.
      * pose proof A as I. apply sfind_In in I; [|assumption]. apply PS in I. cbn [fst snd] in I. rewrite I. apply Z.ltb_lt. destruct Q; [contradiction|assumption].
    + pose proof (keep_fold P (ssz J) (filter P (sdat J)) (row_major_filter P (sdat J) RM)) as K2. cbn [sdat ssz]. etransitivity; [exact K2|]. f_equal. f_equal.
      clear. induction (sdat J) as [|e d IH]; [reflexivity|]. simpl. destruct (P e) eqn:E; simpl; [rewrite E, IH; reflexivity|assumption].
Qed.
End AnyNum.

(** Affine mappings, exact arithmetic. *)
Lemma affine_change n A b F x0 dx r c : affine n A b F -> length x0 = n -> r < n -> c < n -> change (N:=QcNum) F x0 dx r c = (A r c * dx)%Qc.
Proof.
  intros AF L Hr Hc. unfold change. cbn [nsub QcNum n0].
  rewrite (AF x0 L), (AF (bumped (N:=QcNum) x0 dx c)) by (unfold bumped; rewrite (upd_length (A:=Qc)); assumption).
  change (nT QcNum) with Qc. rewrite !nth_map_seq by assumption.
  assert (E : qsum n (fun k => (A r k * nth k (bumped (N:=QcNum) x0 dx c) 0)%Qc) = (qsum n (fun k => (A r k * nth k x0 0)%Qc) + A r c * dx)%Qc).
  { rewrite (qsum_ext n _ (fun k => (A r k * nth k x0 0 + (if Nat.eqb k c then A r c * dx else 0))%Qc)).
    - rewrite qsum_add. f_equal. rewrite (qsum_single n c); [rewrite Nat.eqb_refl; reflexivity|assumption|].
      intros i _ D. apply Nat.eqb_neq in D. rewrite D. reflexivity.
    - intros k Hk. unfold bumped. destruct (Nat.eqb_spec k c) as [->|D].
      + rewrite (nth_upd_eq (A:=Qc)) by (apply (Nat.lt_le_trans _ n); [exact Hc|apply Nat.eq_le_incl; symmetry; exact L]). cbn [nadd QcNum n0]. change (nT QcNum) with Qc. ring.
      + rewrite (nth_upd_neq (A:=Qc)) by assumption. change (nT QcNum) with Qc. ring. }
  transitivity ((b r + (qsum n (fun k => (A r k * nth k x0 0)%Qc) + A r c * dx)) - (b r + qsum n (fun k => (A r k * nth k x0 0)%Qc)))%Qc; [|ring].
  apply (f_equal2 Qcminus); [|reflexivity]. apply (f_equal2 Qcplus); [reflexivity|]. exact E.
Qed.
Lemma computeJacobian_affine n A b F (g : vmapping QcNum) (x0 : list Qc) (dx : Qc) : computes g F n n -> affine n A b F -> length x0 = n -> dx <> 0%Qc ->
  exists J, computeJacobian (N:=QcNum) dx g x0 = Ret (J, x0 :: map (bumped (N:=QcNum) x0 dx) (seq 0 n)) /\ ssz J = (n, n) /\
    forall r c, r < n -> c < n -> get J (r, c) = A r c /\ (hasIndex J (r, c) = true <-> A r c <> 0%Qc).
Proof.
  intros CF AF L D. destruct (computeJacobian_ok (N:=QcNum) dx g F n x0 CF L) as [J [E [_ [SZ [_ [V _]]]]]].
  exists J. split; [exact E|]. split; [exact SZ|]. intros r c Hr Hc. specialize (V r c Hr Hc).
  unfold get, hasIndex. rewrite V. unfold quotient. rewrite (affine_change n A b F x0 dx r c AF L Hr Hc). cbn [neqb QcNum n0 ndiv].
  destruct (Qceqb (A r c * dx) (Q2Qc 0)) eqn:Z.
  - apply Qceqb_eq in Z. apply Qcmult_eq0 in Z as [Z|Z]; [|contradiction]. split; [symmetry; exact Z|]. split; [discriminate|contradiction].
  - apply Qceqb_neq in Z. split; [change ((A r c * dx / dx)%Qc = A r c); field; assumption|]. split; [|reflexivity]. intros _ E0. apply Z. rewrite E0. apply Qcmult_0_l.
Qed.

(** Threshold trimmer. *)
Definition jmaxf (d : list (key * Qc)) (m : Qc) : Qc := fold_left (fun m e => if Qcltb m (Qcabs (snd e)) then Qcabs (snd e) else m) d m.
Lemma jmaxf_spec d : forall m, (m <= jmaxf d m)%Qc /\ (forall p x, In (p, x) d -> (Qcabs x <= jmaxf d m)%Qc) /\
  (jmaxf d m = m \/ exists p x, In (p, x) d /\ Qcabs x = jmaxf d m).
Proof.
  induction d as [|[p x] d IH]; intros m; simpl.
  - split; [apply Qcle_refl|]. split; [intros ? ? []|left; reflexivity].
  - unfold jmaxf in *. simpl. destruct (Qcltb m (Qcabs x)) eqn:C.
    + apply Qcltb_lt in C. destruct (IH (Qcabs x)) as [A [B D]]. split; [|split].
      * eapply Qcle_trans; [|exact A]. apply Qclt_le_weak. exact C.
      * intros p' x' [E|I]; [injection E as -> ->; exact A|eauto].
      * right. destruct D as [D|[p' [x' [I D]]]]; [exists p, x; auto|exists p', x'; auto].
    + apply Qcltb_ge in C. destruct (IH m) as [A [B D]]. split; [exact A|]. split.
      * intros p' x' [E|I]; [injection E as -> ->; eapply Qcle_trans; eauto|eauto].
      * destruct D as [D|[p' [x' [I D]]]]; [left; exact D|right; exists p', x'; auto].
Qed.
Lemma trim_eq (thr : Qc) (J : smat QcNum) : trim_threshold (N:=QcNum) thr J =
  if Qceqb thr (Q2Qc 0) then Ret J else if Qceqb (jmaxf (sdat J) (Q2Qc 0)) (Q2Qc 0) then Ret J else
  ofold (fun res e => if (fun e : key * Qc => (fst (fst e) =? snd (fst e)) || Qcleb (thr * jmaxf (sdat J) (Q2Qc 0)) (Qcabs (snd e))) e
                      then at_upd (N:=QcNum) res (fst e) (fun _ => snd e) else Ret res) (sdat J) (new_map (N:=QcNum) (ssz J)).
Proof. reflexivity. Qed.
Lemma trim_threshold_ok (thr : Qc) (J : smat QcNum) : fast J = false -> row_major (sdat J) -> (0 <= thr)%Qc ->
  exists J', trim_threshold (N:=QcNum) thr J = Ret J' /\ fast J' = false /\ ssz J' = ssz J /\ row_major (sdat J') /\
    (forall r c x, sfind J' (r, c) = Some x <->
       sfind J (r, c) = Some x /\ (r = c \/ forall p y, sfind J p = Some y -> (thr * Qcabs y <= Qcabs x)%Qc)) /\
    trim_threshold (N:=QcNum) thr J' = Ret J'.
Proof.
  intros FA RM TH.
  assert (ALL : forall r c x, (forall p y, sfind J p = Some y -> (thr * Qcabs y <= Qcabs x)%Qc) ->
     (sfind J (r, c) = Some x <-> sfind J (r, c) = Some x /\ (r = c \/ forall p y, sfind J p = Some y -> (thr * Qcabs y <= Qcabs x)%Qc))) by (intros; tauto).
  destruct (Qceqb thr (Q2Qc 0)) eqn:ET.
  - assert (TT : trim_threshold (N:=QcNum) thr J = Ret J) by (rewrite trim_eq, ET; reflexivity).
    apply Qceqb_eq in ET. exists J. split; [exact TT|]. split; [assumption|]. split; [reflexivity|]. split; [assumption|].
    split; [|exact TT]. intros r c x. split; [intros A; split; [exact A|]|intros [A _]; exact A].
    + right. intros p y _. rewrite ET. replace (Q2Qc 0 * Qcabs y)%Qc with 0%Qc by ring. apply Qcabs_nonneg.
  - destruct (jmaxf_spec (sdat J) (Q2Qc 0)) as [M0 [MA MX]].
    destruct (Qceqb (jmaxf (sdat J) (Q2Qc 0)) (Q2Qc 0)) eqn:EM.
    + assert (TT : trim_threshold (N:=QcNum) thr J = Ret J) by (rewrite trim_eq, ET, EM; reflexivity).
      apply Qceqb_eq in EM. exists J. split; [exact TT|]. split; [assumption|]. split; [reflexivity|]. split; [assumption|].
      split; [|exact TT].
      intros r c x. split; [intros A; split; [exact A|]|intros [A _]; exact A].
      * right. intros p y Fy. apply sfind_In in Fy; [|assumption]. apply MA in Fy. rewrite EM in Fy.
        assert (Z : Qcabs y = 0%Qc) by (apply Qcle_antisym; [exact Fy|apply Qcabs_nonneg]). rewrite Z.
        replace (thr * 0)%Qc with 0%Qc by ring. apply Qcabs_nonneg.
    + pose proof EM as EMb. apply Qceqb_neq in EM. set (jm := jmaxf (sdat J) (Q2Qc 0)) in *.
      set (P := fun e : key * Qc => (fst (fst e) =? snd (fst e)) || Qcleb (thr * jm) (Qcabs (snd e))).
      pose proof (keep_fold (N:=QcNum) P (ssz J) (sdat J) RM) as K.
      exists (mkS (N:=QcNum) false (ssz J) (filter P (sdat J))). split; [rewrite trim_eq, ET; fold jm; rewrite EMb; exact K|].
      split; [reflexivity|]. split; [reflexivity|]. split; [exact (row_major_filter (N:=QcNum) P (sdat J) RM)|].
      assert (MAXIN : exists p x, In (p, x) (sdat J) /\ Qcabs x = jm) by (destruct MX as [MX|MX]; [contradiction|exact MX]).
      destruct MAXIN as [pm [xm [IM AM]]].
      assert (PE : forall r c x, sfind J (r, c) = Some x ->
         (P ((r, c), x) = true <-> (r = c \/ forall p y, sfind J p = Some y -> (thr * Qcabs y <= Qcabs x)%Qc))).
      { intros r c x Fx. unfold P. cbn [fst snd]. rewrite orb_true_iff, Nat.eqb_eq, Qcleb_le. split; (intros [E|L]; [left; exact E|right]).
        - intros p y Fy. apply sfind_In in Fy; [|assumption]. apply MA in Fy.
          eapply Qcle_trans; [|exact L]. rewrite (Qcmult_comm thr), (Qcmult_comm thr). apply Qcmult_le_compat_r; assumption.
        - rewrite <- AM. apply (L pm). apply sfind_In; assumption. }
      split.
      * intros r c x. rewrite (keep_find (N:=QcNum) P (ssz J) (sdat J) (fast J) (r, c) x RM). destruct J as [fj sj dj]; cbn [fast ssz sdat] in *.
        split; intros [A Q]; (split; [exact A|]); apply (PE _ _ _ A); exact Q.
      * (* idempotence *)
        rewrite trim_eq, ET. cbn [sdat ssz]. set (jm2 := jmaxf (filter P (sdat J)) (Q2Qc 0)).
        destruct (jmaxf_spec (filter P (sdat J)) (Q2Qc 0)) as [N0 [NA NX]]. fold jm2 in N0, NA, NX.
        destruct (Qceqb jm2 (Q2Qc 0)) eqn:E2; [reflexivity|].
        set (P2 := fun e : key * Qc => (fst (fst e) =? snd (fst e)) || Qcleb (thr * jm2) (Qcabs (snd e))).
        pose proof (keep_fold (N:=QcNum) P2 (ssz J) (filter P (sdat J)) (row_major_filter (N:=QcNum) P (sdat J) RM)) as K2.
        etransitivity; [exact K2|]. f_equal. f_equal.
        assert (L2 : (jm2 <= jm)%Qc).
        { destruct NX as [->|[p [x [I A]]]]; [exact M0|]. apply filter_In in I as [I _]. rewrite <- A. eapply MA; eauto. }
        assert (PP : forall e, In e (filter P (sdat J)) -> P2 e = true).
        { intros [[r c] x] I. apply filter_In in I as [I Pe]. unfold P in Pe. unfold P2. cbn [fst snd] in *. apply orb_true_iff in Pe as [Pe|Pe]; [rewrite Pe; reflexivity|].
          apply orb_true_iff. right. apply Qcleb_le. apply Qcleb_le in Pe. eapply Qcle_trans; [|exact Pe].
          rewrite (Qcmult_comm thr), (Qcmult_comm thr). apply Qcmult_le_compat_r; assumption. }
        clearbody P2. clear -PP. induction (filter P (sdat J)) as [|e d IH]; [reflexivity|]. simpl. rewrite (PP e) by (left; reflexivity). f_equal. apply IH. intros; apply PP; right; assumption.
Qed.

Lemma trim_threshold_neg (thr : Qc) (J : smat QcNum) : fast J = false -> row_major (sdat J) -> (thr < 0)%Qc -> trim_threshold (N:=QcNum) thr J = Ret J.
Proof.
  intros FA RM TH. rewrite trim_eq. destruct (Qceqb thr (Q2Qc 0)); [reflexivity|]. destruct (jmaxf_spec (sdat J) (Q2Qc 0)) as [M0 _].
  destruct (Qceqb (jmaxf (sdat J) (Q2Qc 0)) (Q2Qc 0)); [reflexivity|]. set (jm := jmaxf (sdat J) (Q2Qc 0)) in *.
  set (P := fun e : key * Qc => (fst (fst e) =? snd (fst e)) || Qcleb (thr * jm) (Qcabs (snd e))).
  pose proof (keep_fold (N:=QcNum) P (ssz J) (sdat J) RM) as K. etransitivity; [exact K|].
  assert (E : filter P (sdat J) = sdat J).
  { assert (PT : forall e, P e = true).
    { intros e. unfold P. apply orb_true_iff. right. apply Qcleb_le. eapply Qcle_trans; [|apply Qcabs_nonneg].
      replace 0%Qc with (0 * jm)%Qc by ring. apply Qcmult_le_compat_r; [apply Qclt_le_weak; exact TH|exact M0]. }
    clearbody P. clear -PT. induction (sdat J) as [|e d IH]; [reflexivity|]. simpl. rewrite PT, IH. reflexivity. }
  destruct J as [fj sj dj]. cbn [fast ssz sdat] in *. subst fj. exact (f_equal (fun d => Ret (mkS (N:=QcNum) false sj d)) E).
Qed.
Lemma trim_threshold_all (thr : Qc) (J : smat QcNum) : fast J = false -> row_major (sdat J) ->
  exists J', trim_threshold (N:=QcNum) thr J = Ret J' /\ fast J' = false /\ ssz J' = ssz J /\ row_major (sdat J') /\
    (forall r c x, sfind J' (r, c) = Some x <->
       sfind J (r, c) = Some x /\ (r = c \/ forall p y, sfind J p = Some y -> (thr * Qcabs y <= Qcabs x)%Qc)) /\
    trim_threshold (N:=QcNum) thr J' = Ret J'.
Proof.
  intros FA RM. destruct (Qclt_le_dec thr 0) as [TH|TH]; [|apply trim_threshold_ok; assumption].
  pose proof (trim_threshold_neg thr J FA RM TH) as E. exists J. split; [exact E|]. split; [assumption|]. split; [reflexivity|]. split; [assumption|].
  split; [|exact E]. intros r c x. split; [|intros [A _]; exact A]. intros A. split; [exact A|]. right. intros p y _.
  eapply Qcle_trans; [|apply Qcabs_nonneg]. replace 0%Qc with (0 * Qcabs y)%Qc by ring. apply Qcmult_le_compat_r; [apply Qclt_le_weak; exact TH|apply Qcabs_nonneg].
Qed.
