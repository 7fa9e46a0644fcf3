(** SpFacts5.v - remaining statements about sparse matrices, from the previous files. *)
From Coq Require Import List Arith Bool Lia QArith Qcanon.
From Verif Require Import Base BaseFacts SMap SpModel SpSpec SpFacts SpFacts2 SpFacts3 SpFacts4.
Import ListNotations.
Local Open Scope nat_scope.

Section AnyNum.
Context {N : Num}.
Notation T := (nT N).
Implicit Types (m : mems N) (e dst src : sexpr N).

Lemma hasIndex_In (a : smat N) p : row_major (sdat a) -> (hasIndex a p = true <-> exists x, In (p, x) (sdat a)).
Proof.
  intros S. unfold hasIndex. destruct (sfind a p) as [x|] eqn:F.
  - split; [intros _; exists x; apply sfind_In; assumption|reflexivity].
  - split; [discriminate|]. intros [x I]. destruct (proj1 (sfind_None a p S) F x I).
Qed.
Lemma fast_write_existing m (id : nat) (p : key) (f : T -> T) :
  mems_ok m -> id < length m -> fast (obj m id) = true -> hasIndex (obj m id) p = true ->
  exists m', sat_upd m (SW id) p f = (m', Ret tt) /\ mems_ok m' /\ others_same m m' id /\
    fast (obj m' id) = true /\ ssz (obj m' id) = ssz (obj m id) /\
    get (obj m' id) p = f (get (obj m id) p) /\
    (forall q, q <> p -> get (obj m' id) q = get (obj m id) q) /\
    (forall q, hasIndex (obj m' id) q = hasIndex (obj m id) q).
Proof.
  intros OK B F H. apply hasIndex_In in H as [x I]; [|apply OK].
  destruct (at_upd_fast (obj m id) p f F (OK id) x I) as [a' [A [B' [C [D [E [G K]]]]]]].
  exists (upd m id a'). unfold sat_upd. simpl. rewrite A. split; [reflexivity|].
  assert (O1 : obj (upd m id a') id = a') by (rewrite obj_upd, Nat.eqb_refl; auto).
  split. { intros j. destruct (Nat.eq_dec j id) as [->|Dj]; [rewrite O1; exact D|rewrite obj_upd_other by assumption; apply OK]. }
  split. { split; [apply upd_length|]. intros j Dj. apply obj_upd_other; assumption. }
  rewrite O1. apply sfind_In in I; [|apply OK]. split; [exact B'|]. split; [exact C|]. split; [|split].
  - unfold get. rewrite E, I. reflexivity.
  - intros q Q. unfold get. rewrite G by assumption. reflexivity.
  - intros q. unfold hasIndex. destruct (keqb2_spec q p) as [->|Q]; [rewrite E, I; reflexivity|rewrite G by assumption; reflexivity].
Qed.
Lemma fast_write_absent m (id : nat) (p : key) (f : T -> T) :
  mems_ok m -> fast (obj m id) = true -> hasIndex (obj m id) p = false -> sat_upd m (SW id) p f = (m, Throw).
Proof.
  intros OK F H. unfold sat_upd. simpl. rewrite at_upd_fast_absent; auto.
  intros x I. assert (hasIndex (obj m id) p = true) by (apply hasIndex_In; [apply OK|eauto]). congruence.
Qed.

Lemma plus_minus m dst src (fuel : nat) :
  mems_ok m -> sbase dst < length m -> writable dst = true -> sbase src <> sbase dst ->
  length (sdat (obj m (sbase src))) < fuel ->
  (fast (obj m (sbase dst)) = true -> forall p x, In (p, x) (siter m src) -> exists y, In (to_base dst p, y) (sdat (obj m (sbase dst)))) ->
  (exists m', spluseq fuel m dst src = Some (m', Ret tt) /\ mems_ok m' /\ others_same m m' (sbase dst) /\
    ssz (obj m' (sbase dst)) = ssz (obj m (sbase dst)) /\
    (forall p x, In (p, x) (siter m src) -> sget m' dst p = nadd N (sget m dst p) x) /\
    (forall q, (forall p x, In (p, x) (siter m src) -> to_base dst p <> q) -> sfind (obj m' (sbase dst)) q = sfind (obj m (sbase dst)) q)) /\
  (exists m', sminuseq fuel m dst src = Some (m', Ret tt) /\ mems_ok m' /\ others_same m m' (sbase dst) /\
    ssz (obj m' (sbase dst)) = ssz (obj m (sbase dst)) /\
    (forall p x, In (p, x) (siter m src) -> sget m' dst p = nsub N (sget m dst p) x) /\
    (forall q, (forall p x, In (p, x) (siter m src) -> to_base dst p <> q) -> sfind (obj m' (sbase dst)) q = sfind (obj m (sbase dst)) q)).
Proof.
  intros OK B W D F P. split; [exact (compound_ok (nadd N) m dst src fuel OK B W D F P)|exact (compound_ok (nsub N) m dst src fuel OK B W D F P)].
Qed.
Lemma plus_outside_pattern m dst src (fuel : nat) :
  mems_ok m -> sbase dst < length m -> sbase src <> sbase dst -> length (sdat (obj m (sbase src))) < fuel ->
  fast (obj m (sbase dst)) = true ->
  (exists p x, In (p, x) (siter m src) /\ forall y, ~ In (to_base dst p, y) (sdat (obj m (sbase dst)))) ->
  (exists m', spluseq fuel m dst src = Some (m', Throw)) /\ (exists m', sminuseq fuel m dst src = Some (m', Throw)).
Proof.
  intros OK B D L F H. split; [exact (compound_fail (nadd N) m dst src fuel OK B D L F H)|exact (compound_fail (nsub N) m dst src fuel OK B D L F H)].
Qed.
Lemma transposed_view m e (r c : nat) :
  sget m (STr e) (r, c) = sget m e (c, r) /\
  (forall x, In ((r, c), x) (siter m (STr e)) <-> In ((c, r), x) (siter m e)).
Proof.
  split; [reflexivity|]. intros x. rewrite siter_STr, in_map_iff. split.
  - intros [[[k1 k2] y] [E I]]. unfold swapk in E; simpl in E. injection E as <- <- <-. exact I.
  - intros I. exists ((c, r), x). auto.
Qed.
Lemma scaled_view m e (k : T) (r c : nat) :
  sget m (SSc e k) (r, c) = nmul N (sget m e (r, c)) k /\ sget_rc m (SSc e k) r c = nmul N (sget_rc m e r c) k /\
  ssize m (SSc e k) = ssize m e /\
  siter m (SSc e k) = map (fun el => (fst el, nmul N (snd el) k)) (siter m e).
Proof. repeat split. apply siter_SSc. Qed.
Lemma view_iteration m e : mems_ok m ->
  NoDup (map fst (siter m e)) /\
  (forall p x, In (p, x) (siter m e) -> sget m e p = x /\ presents e p) /\
  (forall p, presents e p -> hasIndex (obj m (sbase e)) (to_base e p) = true -> In (p, sget m e p) (siter m e)).
Proof.
  intros OK. split; [apply siter_NoDup; assumption|]. split.
  - intros p x I. split; [apply siter_get; assumption|]. apply siter_In in I as [P _]; assumption.
  - intros p P H. apply siter_In; [assumption|]. split; [assumption|]. unfold hasIndex in H. unfold sget, get.
    destruct (sfind (obj m (sbase e)) (to_base e p)) as [y|]; [eauto|discriminate].
Qed.
Lemma block_reads m e (f s p : key) :
  sget m (SBk e f s) p = sget m e (fst p + fst f, snd p + snd f) /\ ssize m (SBk e f s) = s /\
  (forall r c x, In ((r, c), x) (siter m (SBk e f s)) <->
     r < fst s /\ c < snd s /\ In ((r + fst f, c + snd f), x) (siter m e)).
Proof.
  repeat split; try reflexivity; rewrite siter_SBk in *.
  - apply in_flat_map in H as [[k y] [I H]]. unfold blk in H. simpl in H.
    destruct ((fst f <=? fst k) && (fst k <? fst f + fst s) && (snd f <=? snd k) && (snd k <? snd f + snd s)) eqn:C; [|destruct H].
    rewrite !andb_true_iff, !Nat.leb_le, !Nat.ltb_lt in C. destruct H as [H|[]]. injection H as <- <- <-. lia.
  - apply in_flat_map in H as [[k y] [I H]]. unfold blk in H. simpl in H.
    destruct ((fst f <=? fst k) && (fst k <? fst f + fst s) && (snd f <=? snd k) && (snd k <? snd f + snd s)) eqn:C; [|destruct H].
    rewrite !andb_true_iff, !Nat.leb_le, !Nat.ltb_lt in C. destruct H as [H|[]]. injection H as <- <- <-. lia.
  - apply in_flat_map in H as [[k y] [I H]]. unfold blk in H. simpl in H.
    destruct ((fst f <=? fst k) && (fst k <? fst f + fst s) && (snd f <=? snd k) && (snd k <? snd f + snd s)) eqn:C; [|destruct H].
    rewrite !andb_true_iff, !Nat.leb_le, !Nat.ltb_lt in C. destruct H as [H|[]]. injection H as <- <- <-.
    replace (fst k - fst f + fst f) with (fst k) by lia. replace (snd k - snd f + snd f) with (snd k) by lia. destruct k; exact I.
  - intros [H1 [H2 I]]. apply in_flat_map. exists ((r + fst f, c + snd f), x). split; [exact I|]. unfold blk. simpl.
    destruct (Nat.leb_spec (fst f) (r + fst f)), (Nat.ltb_spec (r + fst f) (fst f + fst s)),
      (Nat.leb_spec (snd f) (c + snd f)), (Nat.ltb_spec (c + snd f) (snd f + snd s)); simpl; try lia.
    left. f_equal. rewrite !Nat.add_sub. reflexivity.
Qed.
End AnyNum.

Lemma plus_minus_pointwise (m : mems QcNum) (dst src : sexpr QcNum) (fuel : nat) :
  mems_ok m -> sbase dst < length m -> writable dst = true -> fast (obj m (sbase dst)) = false -> sbase src <> sbase dst ->
  length (sdat (obj m (sbase src))) < fuel ->
  (exists m', spluseq fuel m dst src = Some (m', Ret tt) /\
     forall p, presents src p -> sget m' dst p = (sget m dst p + sget m src p)%Qc) /\
  (exists m', sminuseq fuel m dst src = Some (m', Ret tt) /\
     forall p, presents src p -> sget m' dst p = (sget m dst p - sget m src p)%Qc).
Proof.
  intros OK B W FA D F.
  assert (G : forall op : Qc -> Qc -> Qc, (forall x, op x 0%Qc = x) ->
     forall m', (forall p x, In (p, x) (siter m src) -> sget m' dst p = op (sget m dst p) x) ->
     (forall q, (forall p x, In (p, x) (siter m src) -> to_base dst p <> q) -> sfind (obj m' (sbase dst)) q = sfind (obj m (sbase dst)) q) ->
     forall p, presents src p -> sget m' dst p = op (sget m dst p) (sget m src p)).
  { intros op Z m' V1 V2 p P.
    destruct (sfind (obj m (sbase src)) (to_base src p)) as [y|] eqn:S.
    - assert (I : In (p, sscale src y) (siter m src)) by (apply siter_In; eauto).
      rewrite (V1 _ _ I). f_equal. symmetry. apply siter_get; assumption.
    - assert (NI : forall x, ~ In (p, x) (siter m src)).
      { intros x I. apply siter_In in I as [_ [y [Q _]]]; [congruence|assumption]. }
      destruct (siter_absent m src p OK P NI) as [A _]. rewrite A.
      change (n0 QcNum) with 0%Qc. rewrite sscale_zero, Z. unfold sget, get. rewrite V2; [reflexivity|].
      intros p' x I E. apply to_base_inj' in E. subst p'. exact (NI x I). }
  split.
  - destruct (compound_ok (N:=QcNum) (nadd QcNum) m dst src fuel OK B W D F) as [m' [R [_ [_ [_ [V1 V2]]]]]]; [rewrite FA; discriminate|].
    exists m'. split; [exact R|]. apply (G Qcplus Qcplus_0_r m' V1 V2).
  - destruct (compound_ok (N:=QcNum) (nsub QcNum) m dst src fuel OK B W D F) as [m' [R [_ [_ [_ [V1 V2]]]]]]; [rewrite FA; discriminate|].
    exists m'. split; [exact R|]. apply (G Qcminus ltac:(intros; ring) m' V1 V2).
Qed.
