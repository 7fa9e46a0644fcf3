(** JacFacts2.v - proofs about the compressed sparse Jacobian, its column groups and the provider. *)
From Coq Require Import List Arith Bool Lia ZArith Permutation.
From Verif Require Import Base BaseFacts SMap SpModel SpSpec SpFacts MapModel JacModel JacSpec JacFacts.
Import ListNotations.
Local Open Scope nat_scope.

Section JF2.
Context {N : Num}.
Notation T := (nT N).
Notation vec := (list T).

Lemma colRows_In (d : list (key * T)) c r pos : In (r, pos) (colRows d c) <-> exists x, nth_error d pos = Some ((r, c), x).
Proof.
  unfold colRows. rewrite in_flat_map.
  assert (C : forall (d : list (key * T)) b q e, In (q, e) (combine (seq b (length d)) d) <-> b <= q /\ nth_error d (q - b) = Some e).
  { clear. induction d as [|a d IH]; intros b q e; simpl.
    - split; [intros []|intros [_ H]; destruct (q - b); discriminate].
    - rewrite IH. split.
      + intros [E|[L E]]; [injection E as <- <-; split; [lia|]; rewrite Nat.sub_diag; reflexivity|].
        split; [lia|]. replace (q - b) with (S (q - S b)) by lia. exact E.
      + intros [L E]. destruct (Nat.eq_dec b q) as [->|D]; [left; rewrite Nat.sub_diag in E; simpl in E; injection E as ->; reflexivity|].
        right. split; [lia|]. replace (q - b) with (S (q - S b)) in E by lia. exact E. }
  split.
  - intros [[q [[rr cc] x]] [I J]]. apply C in I as [_ I]. rewrite Nat.sub_0_r in I. cbn [fst snd] in J.
    destruct (Nat.eqb_spec cc c); [|destruct J]. destruct J as [J|[]]. injection J as <- <-. subst. exists x. exact I.
  - intros [x E]. exists (pos, ((r, c), x)). split; [apply C; split; [lia|]; rewrite Nat.sub_0_r; exact E|].
    cbn [fst snd]. rewrite Nat.eqb_refl. left. reflexivity.
Qed.
Lemma crows_In (d : list (key * T)) c r : In r (crows d c) <-> exists x, In ((r, c), x) d.
Proof.
  unfold crows. rewrite in_map_iff. split.
  - intros [[r' pos] [E I]]. simpl in E. subst. apply colRows_In in I as [x I]. exists x. eapply nth_error_In; eauto.
  - intros [x I]. apply In_nth_error in I as [pos I]. exists (r, pos). split; [reflexivity|]. apply colRows_In. eauto.
Qed.
Lemma intersects_false (d : list (key * T)) aff c : intersects d aff c = false <-> forall r, In r (crows d c) -> ~ In r aff.
Proof.
  unfold intersects. split.
  - intros H r I A. assert (X : existsb (fun r => existsb (Nat.eqb r) aff) (crows d c) = true).
    { apply existsb_exists. exists r. split; [exact I|]. apply existsb_exists. exists r. split; [exact A|apply Nat.eqb_refl]. }
    congruence.
  - intros H. destruct (existsb _ _) eqn:E; [|reflexivity]. apply existsb_exists in E as [r [I E]]. apply existsb_exists in E as [r' [I' E]].
    apply Nat.eqb_eq in E. subst. destruct (H _ I I').
Qed.

(** The grouping *)
Definition disj (d : list (key * T)) (c c' : nat) : Prop := forall r, In r (crows d c) -> ~ In r (crows d c').
Lemma disj_sym d c c' : disj d c c' -> disj d c' c. Proof. unfold disj. firstorder. Qed.
Lemma group_scan_ok (d : list (key * T)) : forall todo aff,
  Permutation (fst (group_scan d aff todo) ++ snd (group_scan d aff todo)) todo /\
  (forall c, In c (fst (group_scan d aff todo)) -> forall r, In r (crows d c) -> ~ In r aff) /\
  ForallOrdPairs (disj d) (fst (group_scan d aff todo)).
Proof.
  induction todo as [|c t IH]; intros aff; simpl; [repeat split; [constructor|intros ? []|constructor]|].
  destruct (intersects d aff c) eqn:E; simpl.
  - destruct (IH aff) as [A [B C]]. repeat split; [|exact B|exact C].
    symmetry. rewrite <- Permutation_middle. constructor. symmetry. exact A.
  - destruct (IH (crows d c ++ aff)) as [A [B C]]. repeat split; [constructor; exact A| |].
    + intros c' [<-|I] r R; [revert r R; apply intersects_false; exact E|]. intros F. apply (B c' I r R). apply in_or_app. right. exact F.
    + constructor; [|exact C]. apply Forall_forall. intros c' I. apply disj_sym. intros r R F. apply (B c' I r R). apply in_or_app. left. exact F.
Qed.
Lemma group_loop_ok (d : list (key * T)) : forall fuel todo, length todo <= fuel ->
  Permutation (concat (group_loop fuel d todo)) todo /\ Forall (ForallOrdPairs (disj d)) (group_loop fuel d todo) /\
  Forall (fun g => g <> []) (group_loop fuel d todo).
Proof.
  induction fuel as [|fu IH]; intros todo L.
  - destruct todo; [|simpl in L; lia]. simpl. repeat split; constructor.
  - destruct todo as [|c t]; [simpl; repeat split; constructor|]. simpl in L.
    destruct (group_scan_ok d t (crows d c)) as [A [B C]]. cbn [group_loop].
    assert (L2 : length (snd (group_scan d (crows d c) t)) <= fu).
    { apply Permutation_length in A. rewrite app_length in A. lia. }
    destruct (IH _ L2) as [P [Q R]]. repeat split.
    + cbn [concat]. change ((c :: fst (group_scan d (crows d c) t)) ++ concat (group_loop fu d (snd (group_scan d (crows d c) t)))) with (c :: (fst (group_scan d (crows d c) t) ++ concat (group_loop fu d (snd (group_scan d (crows d c) t))))).
      constructor. rewrite <- A at 3. apply Permutation_app_head. exact P.
    + constructor; [|exact Q]. constructor; [|exact C]. apply Forall_forall. intros c' I. apply disj_sym. intros r R' F. exact (B c' I r R' F).
    + constructor; [discriminate|exact R].
Qed.
Lemma groups_ok (J : smat N) : Permutation (concat (groups J)) (seq 0 (snd (ssz J))) /\
  (forall g, In g (groups J) -> g <> [] /\ NoDup g /\ (forall c, In c g -> c < snd (ssz J)) /\ forall c c' r, In c g -> In c' g -> c <> c' -> stored J r c -> ~ stored J r c') /\
  length (groups J) <= snd (ssz J).
Proof.
  destruct (group_loop_ok (sdat J) (snd (ssz J)) (seq 0 (snd (ssz J)))) as [A [B C]]; [rewrite seq_length; lia|].
  split; [exact A|]. change (group_loop (snd (ssz J)) (sdat J) (seq 0 (snd (ssz J)))) with (groups J) in *.
  assert (ND : NoDup (concat (groups J))) by (eapply Permutation_NoDup; [symmetry; exact A|apply seq_NoDup]).
  split.
  - intros g I. split; [rewrite Forall_forall in C; exact (C g I)|].
    assert (NG : NoDup g).
    { clear -I ND. induction (groups J) as [|g' gs IH]; [destruct I|]. simpl in ND. destruct I as [->|I].
      - clear -ND. induction g as [|a g IH]; [constructor|]. simpl in ND. inversion ND; subst. constructor; [intros F; apply H1; apply in_or_app; left; exact F|auto].
      - apply IH; [|exact I]. clear -ND. induction g' as [|a g IH]; [exact ND|]. simpl in ND. inversion ND; subst. auto. }
    split; [exact NG|]. split.
    { intros c Ic. assert (X : In c (seq 0 (snd (ssz J)))) by (eapply Permutation_in; [exact A|]; apply in_concat; exists g; auto). apply in_seq in X. lia. }
    rewrite Forall_forall in B. specialize (B g I). intros c c' r Ic Ic' Dc [x Sx] [x' Sx'].
    destruct (ForallOrdPairs_In B c c' Ic Ic') as [E|[D|D]]; [contradiction| |].
    + apply (D r); apply crows_In; eauto.
    + apply (D r); apply crows_In; eauto.
  - apply Permutation_length in A. rewrite seq_length in A. rewrite <- A.
    clear -C. induction (groups J) as [|g gs IH]; [simpl; lia|]. inversion C; subst. simpl. rewrite app_length.
    specialize (IH H2). destruct g; [contradiction|]. simpl. lia.
Qed.

(** Bumping a group of distinct components *)
Lemma bump_group (delta : T) (L : list (nat * list (nat * nat))) : forall x0 : vec, NoDup (map fst L) -> (forall c, In c (map fst L) -> c < length x0) ->
  exists x, ofold (fun x c2r => bump x (fst c2r) delta) L x0 = Ret x /\ length x = length x0 /\
    forall c, nth c x (n0 N) = if in_dec Nat.eq_dec c (map fst L) then nadd N (nth c x0 (n0 N)) delta else nth c x0 (n0 N).
Proof.
  induction L as [|[a l] L IH]; intros x0 ND R.
  - exists x0. repeat split. 
  - cbn [ofold fst]. rewrite bump_ok by (apply R; left; reflexivity). cbn [obind]. simpl in ND. inversion ND as [|? ? NI ND']; subst.
    destruct (IH (bumped x0 delta a) ND') as [x [E [LX V]]].
    { intros c I. rewrite bumped_length. apply R. right. exact I. }
    exists x. split; [exact E|]. split; [rewrite LX; apply bumped_length|]. intros c. rewrite V.
    assert (La : a < length x0) by (apply R; left; reflexivity).
    cbn [map fst]. destruct (in_dec Nat.eq_dec c (map fst L)) as [I|I]; destruct (in_dec Nat.eq_dec c (a :: map fst L)) as [I'|I'].
    + unfold bumped. rewrite nth_upd_neq by (intros ->; contradiction). reflexivity.
    + destruct I'. right. exact I.
    + destruct I' as [<-|I']; [|contradiction]. unfold bumped. rewrite nth_upd_eq by assumption. reflexivity.
    + unfold bumped. rewrite nth_upd_neq by (intros ->; apply I'; left; reflexivity). reflexivity.
Qed.

(** Writing values *)
Lemma nth_error_ext {A} (l l' : list A) : (forall i, nth_error l i = nth_error l' i) -> l = l'.
Proof.
  revert l'. induction l as [|a l IH]; intros [|b l'] H; [reflexivity|discriminate (H 0)|discriminate (H 0)|].
  pose proof (H 0) as H0. simpl in H0. injection H0 as ->. f_equal. apply IH. intros i. exact (H (S i)).
Qed.
Definition good (Q : key -> T) (d : list (key * T)) (pos : nat) : Prop := forall k x, nth_error d pos = Some (k, x) -> x = Q k.
Lemma set_pos_ok Q (d : list (key * T)) pos k : nth_error (map fst d) pos = Some k ->
  exists d', set_pos d pos (Q k) = Ret d' /\ map fst d' = map fst d /\ good Q d' pos /\ forall p, good Q d p -> good Q d' p.
Proof.
  intros E. unfold set_pos. destruct (nth_error d pos) as [[k' x]|] eqn:F.
  - rewrite (map_nth_error fst _ _ F) in E. injection E as E. simpl in E. subst k'. eexists. split; [reflexivity|]. cbn [fst].
    assert (L : pos < length d) by (apply nth_error_Some; congruence).
    split; [|split].
    + apply nth_error_ext. intros i. rewrite !nth_error_map, nth_error_upd.
      destruct (Nat.eqb_spec i pos) as [->|D]; [|reflexivity]. destruct (Nat.ltb_spec pos (length d)); [|lia]. rewrite F. reflexivity.
    + intros k1 x1 H. rewrite nth_error_upd in H. rewrite Nat.eqb_refl in H. destruct (Nat.ltb_spec pos (length d)); [|lia]. injection H as <- <-. reflexivity.
    + intros p G k1 x1 H. rewrite nth_error_upd in H. destruct (Nat.eqb_spec p pos) as [->|D]; [|apply (G _ _ H)].
      destruct (Nat.ltb_spec pos (length d)); [|lia]. injection H as <- <-. reflexivity.
  - exfalso. apply nth_error_None in F. assert (X : nth_error (map fst d) pos = None) by (apply nth_error_None; rewrite map_length; exact F). congruence.
Qed.
Lemma write_rows Q (f f0 : vec) delta c (l : list (nat * nat)) : forall d : list (key * T),
  (forall r pos, In (r, pos) l -> nth_error (map fst d) pos = Some (r, c) /\ r < length f /\ r < length f0 /\
     ndiv N (nsub N (nth r f (n0 N)) (nth r f0 (n0 N))) delta = Q (r, c)) ->
  exists d', ofold (fun d rp => a <- rdat f (fst rp) ;; b <- rdat f0 (fst rp) ;; set_pos d (snd rp) (ndiv N (nsub N a b) delta)) l d = Ret d' /\
    map fst d' = map fst d /\ (forall p, good Q d p -> good Q d' p) /\ (forall r pos, In (r, pos) l -> good Q d' pos).
Proof.
  induction l as [|[r pos] l IH]; intros d H.
  - exists d. repeat split; auto. intros r pos [].
  - destruct (H r pos (or_introl eq_refl)) as [K [L1 [L2 V]]]. cbn [ofold fst snd].
    rewrite (rdat_ok _ _ (n0 N)), (rdat_ok _ _ (n0 N)) by assumption. cbn [obind]. rewrite V.
    destruct (set_pos_ok Q d pos (r, c) K) as [d1 [E1 [M1 [G1 P1]]]]. rewrite E1. cbn [obind].
    destruct (IH d1) as [d' [E [M [P G]]]].
    { intros r' pos' I. rewrite M1. apply H. right. exact I. }
    exists d'. split; [exact E|]. split; [congruence|]. split; [auto|]. intros r' pos' [I|I]; [injection I as <- <-; auto|eauto].
Qed.
Lemma write_group Q (f f0 : vec) delta (d0 : list (key * T)) (G : list nat) : forall d, map fst d = map fst d0 ->
  (forall c r, In c G -> (exists x, In ((r, c), x) d0) -> r < length f /\ r < length f0 /\
     ndiv N (nsub N (nth r f (n0 N)) (nth r f0 (n0 N))) delta = Q (r, c)) ->
  exists d', ofold (fun d c2r => ofold (fun d rp => a <- rdat f (fst rp) ;; b <- rdat f0 (fst rp) ;;
       set_pos d (snd rp) (ndiv N (nsub N a b) delta)) (snd c2r) d) (map (fun c => (c, colRows d0 c)) G) d = Ret d' /\
    map fst d' = map fst d0 /\ (forall p, good Q d p -> good Q d' p) /\
    (forall pos r c x, In c G -> nth_error d0 pos = Some ((r, c), x) -> good Q d' pos).
Proof.
  induction G as [|c G IH]; intros d M H.
  - exists d. repeat split; auto. intros pos r c x [].
  - cbn [map ofold snd]. destruct (write_rows Q f f0 delta c (colRows d0 c) d) as [d1 [E1 [M1 [P1 G1]]]].
    { intros r pos I. apply colRows_In in I as [x I]. rewrite M, (map_nth_error fst _ _ I). split; [reflexivity|].
      apply H; [left; reflexivity|]. exists x. eapply nth_error_In; eauto. }
    rewrite E1. cbn [obind]. destruct (IH d1) as [d' [E [M' [P G']]]]; [congruence|intros c' r I; apply H; right; exact I|].
    exists d'. split; [exact E|]. split; [exact M'|]. split; [auto|].
    intros pos r c' x [<-|I] F; [|eauto]. apply P. eapply G1. apply colRows_In. eauto.
Qed.

Lemma calc_layout_ok (J : smat N) : well_sized J -> calc_layout J = Ret (map (map (fun c => (c, colRows (sdat J) c))) (groups J)).
Proof.
  intros W. unfold calc_layout. replace (forallb _ _) with true; [reflexivity|]. symmetry. apply forallb_forall. intros [[r c] x] I.
  destruct (W r c) as [A B]; [exists x; exact I|]. unfold inside. cbn [fst snd]. apply andb_true_iff. split; apply Nat.ltb_lt; assumption.
Qed.

(** colRows depends only on the keys *)
Lemma colRows_keys (d d' : list (key * T)) c : map fst d = map fst d' -> colRows d c = colRows d' c.
Proof.
  unfold colRows. generalize 0. revert d'. induction d as [|[k x] d IH]; intros [|[k' x'] d'] b E; simpl in *; try discriminate; [reflexivity|].
  injection E as -> E. f_equal. apply IH. exact E.
Qed.
Lemma group_scan_keys (d d' : list (key * T)) : map fst d = map fst d' -> forall todo aff, group_scan d aff todo = group_scan d' aff todo.
Proof.
  intros E. induction todo as [|c t IH]; intros aff; simpl; [reflexivity|]. unfold intersects, crows. rewrite (colRows_keys d d' c E). rewrite !IH. reflexivity.
Qed.
Lemma group_loop_keys (d d' : list (key * T)) : map fst d = map fst d' -> forall fu todo, group_loop fu d todo = group_loop fu d' todo.
Proof.
  intros E. induction fu as [|fu IH]; intros [|c t]; simpl; try reflexivity. unfold crows. rewrite (colRows_keys d d' c E), (group_scan_keys d d' E), IH. reflexivity.
Qed.
Lemma groups_keys (J J' : smat N) : ssz J = ssz J' -> map fst (sdat J) = map fst (sdat J') -> groups J = groups J'.
Proof. intros S E. unfold groups. rewrite S. apply group_loop_keys. exact E. Qed.
Lemma calc_layout_keys (J J' : smat N) : ssz J = ssz J' -> map fst (sdat J) = map fst (sdat J') -> calc_layout J = calc_layout J'.
Proof.
  intros S E. unfold calc_layout. rewrite (groups_keys J J' S E), S.
  assert (F : forallb (fun e => inside (ssz J') (fst e)) (sdat J) = forallb (fun e => inside (ssz J') (fst e)) (sdat J')).
  { revert E. generalize (sdat J') as d', (sdat J) as d. induction d' as [|[k x] d' IH]; intros [|[k' x'] d] E; simpl in *; try discriminate; [reflexivity|].
    injection E as -> E. rewrite (IH d E). reflexivity. }
  rewrite F. destruct (forallb (fun e => inside (ssz J') (fst e)) (sdat J')); [|reflexivity]. f_equal. apply map_ext. intros g. apply map_ext. intros c. f_equal. apply colRows_keys. exact E.
Qed.

(** The calculator.  [R] is whether the mapping respects the pattern; the values are claimed only then. *)
Lemma calculate_gen delta (g : vmapping N) F n m (x0 : vec) (J : smat N) : computes g F n m -> ssz J = (m, n) -> length x0 = n -> well_sized J ->
  exists J' xs, computeSparseJacobian delta g x0 J = Ret (J', x0 :: xs) /\
    fast J' = fast J /\ ssz J' = ssz J /\ map fst (sdat J') = map fst (sdat J) /\
    length xs = length (groups J) /\
    (respects F n J -> forall r c v, In ((r, c), v) (sdat J') -> v = quotient F x0 delta r c).
Proof.
  intros [I1 [I2 CF]] SZ L W. unfold computeSparseJacobian. rewrite calc_layout_ok by assumption. cbn [obind]. unfold calculate.
  destruct (CF x0 L) as [E0 L0]. rewrite E0. cbn [obind].
  destruct (groups_ok J) as [GP [GD _]]. rewrite SZ in GP, GD. cbn [snd] in GP, GD.
  (* the values written by one group, whatever they are *)
  pose (X := fun G : list nat => map (fun c => if in_dec Nat.eq_dec c G then nadd N (nth c x0 (n0 N)) delta else nth c x0 (n0 N)) (seq 0 n)).
  pose (Gof := fun c => match find (fun G => if in_dec Nat.eq_dec c G then true else false) (groups J) with Some G => G | None => [] end).
  pose (Q := fun k : key => ndiv N (nsub N (nth (fst k) (F (X (Gof (snd k)))) (n0 N)) (nth (fst k) (F x0) (n0 N))) delta).
  assert (GOF : forall G c, In G (groups J) -> In c G -> Gof c = G).
  { intros G c IG Ic. unfold Gof. assert (ND : NoDup (concat (groups J))) by (eapply Permutation_NoDup; [symmetry; exact GP|apply seq_NoDup]).
    clear -IG Ic ND. induction (groups J) as [|g0 gs IH]; [destruct IG|]. simpl. destruct (in_dec Nat.eq_dec c g0) as [I|I].
    - destruct IG as [->|IG]; [reflexivity|]. exfalso. simpl in ND. clear -ND I IG Ic.
      induction g0 as [|a g0 IH]; [destruct I|]. simpl in ND. inversion ND; subst. destruct I as [->|I]; [|auto].
      apply H1. apply in_or_app. right. apply in_concat. exists G. auto.
    - destruct IG as [->|IG]; [contradiction|]. apply IH; [exact IG|]. simpl in ND. clear -ND. induction g0; [exact ND|]. simpl in ND. inversion ND; auto. }
  assert (LP : forall Gs d log, (forall G, In G Gs -> In G (groups J)) -> map fst d = map fst (sdat J) ->
    exists d' xs, ofold (fun st grp => calc_group g x0 (F x0) delta grp st) (map (map (fun c => (c, colRows (sdat J) c))) Gs) (d, log) = Ret (d', log ++ xs) /\
      length xs = length Gs /\ map fst d' = map fst (sdat J) /\ (forall p, good Q d p -> good Q d' p) /\
      (forall G pos r c x, In G Gs -> In c G -> nth_error (sdat J) pos = Some ((r, c), x) -> good Q d' pos)).
  { induction Gs as [|G Gs IH]; intros d log SUB M.
    - exists d, []. rewrite app_nil_r. repeat split; auto. intros G pos r c x [].
    - cbn [map ofold]. unfold calc_group at 1. cbn [fst snd].
      destruct (GD G (SUB G (or_introl eq_refl))) as [_ [ND [RG _]]].
      assert (MF : map fst (map (fun c => (c, colRows (sdat J) c)) G) = G) by (rewrite map_map; apply map_id).
      destruct (bump_group delta (map (fun c => (c, colRows (sdat J) c)) G) x0) as [x [EX [LX VX]]]; [rewrite MF; exact ND|rewrite MF, L; exact RG|].
      rewrite EX. cbn [obind]. rewrite MF in VX.
      assert (XE : x = X G).
      { apply (list_ext (n0 N)); [unfold X; rewrite map_length, seq_length; congruence|]. intros i Hi. unfold X. rewrite nth_map_seq by congruence. apply VX. }
      subst x. destruct (CF (X G)) as [EG LG]; [congruence|]. rewrite EG. cbn [obind].
      destruct (write_group Q (F (X G)) (F x0) delta (sdat J) G d M) as [d1 [E1 [M1 [P1 G1]]]].
      { intros c r Ic [v Iv]. assert (Rr : r < m) by (destruct (W r c) as [A _]; [exists v; exact Iv|]; rewrite SZ in A; exact A).
        split; [congruence|]. split; [congruence|]. unfold Q. cbn [fst snd]. rewrite (GOF G c (SUB G (or_introl eq_refl)) Ic). reflexivity. }
      rewrite E1. cbn [obind].
      destruct (IH d1 (log ++ [X G])) as [d' [xs [E [LS [M' [P GG]]]]]]; [intros; apply SUB; right; assumption|exact M1|].
      exists d', (X G :: xs). rewrite E. rewrite <- app_assoc. repeat split; [simpl; congruence|exact M'|auto|].
      intros G' pos r c v [<-|I] Ic Fp; [|eauto]. apply P. eauto. }
  destruct (LP (groups J) (sdat J) [x0]) as [d' [xs [E [LS [M [_ GG]]]]]]; [auto|reflexivity|].
  unfold calc_layout in E. rewrite E. cbn [obind fst snd]. exists (mkS (fast J) (ssz J) d'), xs. repeat split; [exact M|exact LS|].
  intros RS r c v I. apply In_nth_error in I as [pos I]. cbn [sdat] in I.
  assert (K : exists v0, nth_error (sdat J) pos = Some ((r, c), v0)).
  { pose proof (map_nth_error fst pos d' I) as I'. rewrite M, nth_error_map in I'. cbn [fst] in I'.
    destruct (nth_error (sdat J) pos) as [[k v0]|]; [|discriminate]. cbn in I'. injection I' as ->. eauto. }
  destruct K as [v0 K]. assert (ST : stored J r c) by (exists v0; eapply nth_error_In; eauto).
  assert (Cc : c < n) by (destruct (W r c ST) as [_ B]; rewrite SZ in B; exact B).
  assert (CI : In c (concat (groups J))) by (eapply Permutation_in; [symmetry; exact GP|]; apply in_seq; lia).
  apply in_concat in CI as [G [IG Ic]]. rewrite (GG G pos r c v0 IG Ic K _ _ I). unfold Q. cbn [fst snd]. rewrite (GOF G c IG Ic).
  unfold quotient, change. f_equal. f_equal. apply RS.
  - unfold X. rewrite map_length, seq_length. reflexivity.
  - rewrite bumped_length. exact L.
  - intros c' S'. assert (C' : c' < n) by (destruct (W r c' S') as [_ B]; rewrite SZ in B; exact B).
    unfold X. rewrite nth_map_seq by assumption. destruct (Nat.eq_dec c' c) as [->|D].
    + destruct (in_dec Nat.eq_dec c G); [|contradiction]. unfold bumped. rewrite nth_upd_eq by lia. reflexivity.
    + destruct (in_dec Nat.eq_dec c' G) as [I'|I'].
      * exfalso. destruct (GD G IG) as [_ [_ [_ DJ]]]. exact (DJ c' c r I' Ic D S' ST).
      * unfold bumped. rewrite nth_upd_neq by congruence. reflexivity.
Qed.

(** The provider *)
Definition sp_inv (n : nat) (p : sprov N) : Prop :=
  fast (spJ p) = true /\
  (sdat (spJ p) <> [] -> ssz (spJ p) = (n, n) /\ well_sized (spJ p) /\ lay_valid p = true /\ calc_layout (spJ p) = Ret (spLay p)).
Lemma sp_compute_first dx (g : vmapping N) F n (x0 : vec) p : computes g F n n -> length x0 = n -> sdat (spJ p) = [] ->
  exists p', sp_compute dx None g x0 p = Ret (p', x0 :: map (bumped x0 dx) (seq 0 n)) /\ sp_inv n p' /\
    (forall r c, hasIndex (spJ p') (r, c) = true <-> r < n /\ c < n /\ neqb N (change F x0 dx r c) (n0 N) = false) /\
    (forall r c, hasIndex (spJ p') (r, c) = true -> get (spJ p') (r, c) = quotient F x0 dx r c) /\ row_major (sdat (spJ p')).
Proof.
  intros CF L E. unfold sp_compute. rewrite E. destruct (computeJacobian_ok dx g F n x0 CF L) as [J [EJ [FJ [SZ [RM [V NV]]]]]].
  rewrite EJ. cbn [obind fst snd].
  assert (FT : forall p, sfind (to_fast J) p = sfind J p) by (intros q; symmetry; apply sfind_same_data; [assumption|reflexivity]).
  assert (W : well_sized (to_fast J)).
  { intros r c [x I]. assert (Fx : sfind J (r, c) = Some x) by (apply sfind_In; assumption). unfold to_fast. cbn [ssz]. rewrite SZ. cbn [fst snd].
    destruct (le_lt_dec n r); [rewrite NV in Fx by auto; discriminate|]. destruct (le_lt_dec n c); [rewrite NV in Fx by auto; discriminate|]. auto. }
  rewrite (calc_layout_ok _ W). cbn [obind]. eexists. split; [reflexivity|]. cbn [spJ].
  assert (FI : forall r c, hasIndex (to_fast J) (r, c) = true <-> r < n /\ c < n /\ neqb N (change F x0 dx r c) (n0 N) = false).
  { intros r c. unfold hasIndex. rewrite FT. destruct (le_lt_dec n r) as [A|A]; [rewrite NV by auto; split; [discriminate|lia]|].
    destruct (le_lt_dec n c) as [B|B]; [rewrite NV by auto; split; [discriminate|lia]|]. rewrite V by assumption.
    destruct (neqb N (change F x0 dx r c) (n0 N)); split; try discriminate; [intros [_ [_ ?]]; discriminate|auto|reflexivity]. }
  split; [|split; [exact FI|split; [|exact RM]]].
  - split; [reflexivity|]. cbn [spJ spLay lay_valid]. intros _. split; [exact SZ|]. split; [exact W|]. split; [reflexivity|]. apply calc_layout_ok. exact W.
  - intros r c H. apply FI in H as [A [B C]]. unfold get. rewrite FT, V, C by assumption. reflexivity.
Qed.
Lemma sp_compute_next dx (g : vmapping N) F n (x0 : vec) p : computes g F n n -> length x0 = n -> sdat (spJ p) <> [] -> sp_inv n p ->
  exists p' xs, sp_compute dx None g x0 p = Ret (p', x0 :: xs) /\ sp_inv n p' /\ length xs = length (groups (spJ p)) /\
    map fst (sdat (spJ p')) = map fst (sdat (spJ p)) /\
    (respects F n (spJ p) -> forall r c v, In ((r, c), v) (sdat (spJ p')) -> v = quotient F x0 dx r c).
Proof.
  intros CF L E [FA I]. destruct (I E) as [SZ [W [LV CL]]].
  destruct (calculate_gen dx g F n n x0 (spJ p) CF SZ L W) as [J' [xs [E' [FA' [SZ' [K [LX VV]]]]]]].
  unfold computeSparseJacobian in E'. rewrite CL in E'. cbn [obind] in E'.
  exists (mkSP J' (spLay p) true), xs. split.
  { unfold sp_compute. destruct (sdat (spJ p)); [contradiction|]. rewrite LV, E'. reflexivity. }
  split; [|split; [exact LX|split; [exact K|exact VV]]].
  split; [cbn [spJ]; congruence|]. cbn [spJ spLay lay_valid]. intros _. split; [congruence|]. split; [|split; [reflexivity|]].
  - intros r c [x Ix]. rewrite SZ'. apply W. pose proof (in_map fst (sdat J') _ Ix) as Ix'. rewrite K in Ix'. apply in_map_iff in Ix' as [[k y] [Ek Iy]]. simpl in Ek. subst k. exists y. exact Iy.
  - rewrite <- CL. apply calc_layout_keys; assumption.
Qed.
Lemma sp_reach_inv dx n p : sp_reach dx n p -> sp_inv n p.
Proof.
  induction 1 as [n|n n' p H IH|n p g F x0 p' log H IH CF L E].
  - split; [reflexivity|]. intros F. destruct F. reflexivity.
  - split; [reflexivity|]. intros F. destruct F. reflexivity.
  - destruct (list_eq_dec (fun a b => match Nat.eq_dec (a) b with left e => left e | right e => right e end) (map (fun _ => 0) (sdat (spJ p))) []) as [D|D].
    + assert (D' : sdat (spJ p) = []) by (destruct (sdat (spJ p)); [reflexivity|discriminate]).
      destruct (sp_compute_first dx g F n x0 p CF L D') as [p1 [E1 [I1 _]]]. rewrite E1 in E. injection E as <- _. exact I1.
    + assert (D' : sdat (spJ p) <> []) by (intros Z; rewrite Z in D; destruct D; reflexivity).
      destruct (sp_compute_next dx g F n x0 p CF L D' IH) as [p1 [xs [E1 [I1 _]]]]. rewrite E1 in E. injection E as <- _. exact I1.
Qed.
End JF2.

From Coq Require Import QArith Qcanon.
Local Open Scope nat_scope.
Lemma norm_diag_ok (sq : Qc -> Qc) (jd : list Qc) : (forall a, In a jd -> a <> 0%Qc) ->
  exists d, norm_diag (N:=QcNum) sq jd = Ret d /\ length d = length jd /\ forall i, i < length jd -> nth i d 0%Qc = (1 / sq (Qcabs (nth i jd 0)))%Qc.
Proof.
  induction jd as [|a t IH]; intros H.
  - exists []. repeat split. intros i Hi. simpl in Hi. lia.
  - destruct IH as [d [E [L V]]]; [intros b I; apply H; right; exact I|].
    assert (Na : a <> 0%Qc) by (apply H; left; reflexivity).
    simpl. destruct (Qceqb a (Q2Qc 0)) eqn:Z; [apply Qceqb_eq in Z; contradiction|]. rewrite E. eexists. split; [reflexivity|]. split; [simpl; f_equal; exact L|].
    intros [|i] Hi; [reflexivity|]. simpl. apply V. simpl in Hi. lia.
Qed.
Lemma norm_diag_throw (sq : Qc -> Qc) (jd : list Qc) : In 0%Qc jd -> norm_diag (N:=QcNum) sq jd = Throw.
Proof.
  induction jd as [|a t IH]; intros I; [destruct I|]. simpl. destruct (Qceqb a (Q2Qc 0)) eqn:Z; [reflexivity|].
  destruct I as [->|I]; [rewrite (proj2 (Qceqb_eq _ _) eq_refl) in Z; discriminate|]. rewrite (IH I). reflexivity.
Qed.
Lemma normalize_ok n A b F (g : vmapping QcNum) (x0 : list Qc) (dx : Qc) (sq : Qc -> Qc) : computes g F n n -> affine n A b F -> length x0 = n -> dx <> 0%Qc ->
  (forall i, i < n -> (sq (Qcabs (A i i)) * sq (Qcabs (A i i)))%Qc = Qcabs (A i i)) ->
  ((forall i, i < n -> A i i <> 0%Qc) -> exists d, normalize (N:=QcNum) dx sq g x0 = Ret d /\ length d = n /\
     forall i, i < n -> Qcabs (nth i d 0 * A i i * nth i d 0)%Qc = 1%Qc) /\
  ((exists i, i < n /\ A i i = 0%Qc) -> normalize (N:=QcNum) dx sq g x0 = Throw).
Proof.
  intros CF AF L D SQ. destruct (computeJacobian_affine n A b F g x0 dx CF AF L D) as [J [E [SZ V]]].
  unfold normalize. rewrite E. destruct CF as [I1 _]. rewrite I1. cbn [obind fst].
  assert (ME : map (fun i => get J (i, i)) (seq 0 n) = map (fun i => A i i) (seq 0 n)).
  { apply map_ext_in. intros i Ii. apply in_seq in Ii. apply V; lia. }
  rewrite ME. split.
  - intros NZ. destruct (norm_diag_ok sq (map (fun i => A i i) (seq 0 n))) as [d [Ed [Ld Vd]]].
    { intros a I. apply in_map_iff in I as [i [<- Ii]]. apply in_seq in Ii. apply NZ. lia. }
    rewrite map_length, seq_length in Ld, Vd. exists d. split; [exact Ed|]. split; [exact Ld|]. intros i Hi.
    rewrite (Vd i Hi), nth_map_seq by assumption. set (s := sq (Qcabs (A i i))).
    assert (S2 : (s * s)%Qc = Qcabs (A i i)) by (apply SQ; exact Hi).
    assert (Sn : s <> 0%Qc).
    { intros Z. rewrite Z in S2. assert (Z2 : Qcabs (A i i) = 0%Qc) by (rewrite <- S2; ring). exact (NZ i Hi (proj1 (Qcabs_zero_iff _) Z2)). }
    replace (1 / s * A i i * (1 / s))%Qc with (A i i / (s * s))%Qc by (field; exact Sn). rewrite S2.
    destruct (Qclt_le_dec (A i i) 0) as [Ng|Ps].
    + rewrite (Qcabs_neg (A i i)) by (apply Qclt_le_weak; exact Ng). replace (A i i / - A i i)%Qc with (-(1))%Qc by (field; intros Z; apply (NZ i Hi); replace (A i i) with (- - A i i)%Qc by ring; rewrite Z; reflexivity). reflexivity.
    + rewrite (Qcabs_pos (A i i) Ps). replace (A i i / A i i)%Qc with 1%Qc by (field; apply (NZ i Hi)). reflexivity.
  - intros [i [Hi Z]]. apply norm_diag_throw. apply in_map_iff. exists i. split; [exact Z|]. apply in_seq. lia.
Qed.
