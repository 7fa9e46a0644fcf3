(** SpFacts3.v - matrix-matrix operations. *)
From Coq Require Import List Arith Bool Lia.
From Verif Require Import Base BaseFacts SMap SpModel SpSpec SpFacts SpFacts2.
Import ListNotations.

Section SpFacts3.
Context {N : Num}.
Notation T := (nT N).
Implicit Types (a : smat N) (d l : list (key * T)) (p q b : key) (e dst src : sexpr N) (m : mems N).

Lemma siter_NoDup m e : mems_ok m -> NoDup (map fst (siter m e)).
Proof. intros OK. rewrite siter_vlist. apply vlist_NoDup. apply OK. Qed.

Lemma writable_scale e x : writable e = true -> sscale e x = x.
Proof. induction e; simpl; auto; discriminate. Qed.

(** += / -= with another matrix *)
Lemma compound_ok (op : T -> T -> T) m dst src fuel : mems_ok m -> sbase dst < length m -> writable dst = true -> sbase src <> sbase dst ->
  length (sdat (obj m (sbase src))) < fuel ->
  (fast (obj m (sbase dst)) = true -> forall p x, In (p, x) (siter m src) -> exists y, In (to_base dst p, y) (sdat (obj m (sbase dst)))) ->
  exists m', rfor fuel src (fun p x m => sat_upd m dst p (fun y => op y x)) None m = Some (m', Ret tt) /\ mems_ok m' /\
    others_same m m' (sbase dst) /\ ssz (obj m' (sbase dst)) = ssz (obj m (sbase dst)) /\
    (forall p x, In (p, x) (siter m src) -> sget m' dst p = op (sget m dst p) x) /\
    (forall q, (forall p x, In (p, x) (siter m src) -> to_base dst p <> q) -> sfind (obj m' (sbase dst)) q = sfind (obj m (sbase dst)) q).
Proof.
  intros OK B W D F PT.
  rewrite rfor_fold; auto.
  2:{ intros p x m0. apply sat_upd_other. assumption. }
  destruct (sfold_upd op (siter m src) m dst OK B (siter_NoDup m src OK) PT) as [m' [R [OK' [OS [FA [SZ [V1 V2]]]]]]].
  exists m'. rewrite R. split; [reflexivity|]. split; [exact OK'|]. split; [exact OS|]. split; [exact SZ|]. split; [|exact V2].
  intros p x I. unfold sget. rewrite !writable_scale by assumption. unfold get at 1. rewrite (V1 p x I). reflexivity.
Qed.
Lemma compound_fail (op : T -> T -> T) m dst src fuel : mems_ok m -> sbase dst < length m -> sbase src <> sbase dst ->
  length (sdat (obj m (sbase src))) < fuel -> fast (obj m (sbase dst)) = true ->
  (exists p x, In (p, x) (siter m src) /\ forall y, ~ In (to_base dst p, y) (sdat (obj m (sbase dst)))) ->
  exists m', rfor fuel src (fun p x m => sat_upd m dst p (fun y => op y x)) None m = Some (m', Throw).
Proof.
  intros OK B D F FA H. rewrite rfor_fold; auto.
  2:{ intros p x m0. apply sat_upd_other. assumption. }
  pose proof (sfold_upd_fail op (siter m src) m dst OK B FA H) as Q.
  destruct sfold as [m' r]. simpl in Q. subst r. eauto.
Qed.

(** assignment and construction *)
Lemma siter_other m m' e : obj m' (sbase e) = obj m (sbase e) -> siter m' e = siter m e.
Proof. unfold siter. intros ->. reflexivity. Qed.

Lemma assign_map m id src fuel : mems_ok m -> id < length m -> fast (obj m id) = false -> sbase src <> id ->
  length (sdat (obj m (sbase src))) < fuel ->
  exists m', sassign fuel m id src = Some (m', Ret tt) /\ mems_ok m' /\ others_same m m' id /\
    fast (obj m' id) = false /\ ssz (obj m' id) = ssize m src /\
    forall p x, sfind (obj m' id) p = Some x <-> In (p, x) (siter m src).
Proof.
  intros OK B FA D F. unfold sassign. rewrite FA. set (m1 := upd m id (mkS false (ssize m src) [])).
  assert (O1 : obj m1 id = mkS false (ssize m src) []) by (unfold m1; rewrite obj_upd, Nat.eqb_refl; auto).
  assert (OO : forall j, j <> id -> obj m1 j = obj m j) by (intros; unfold m1; apply obj_upd_other; assumption).
  assert (OK1 : mems_ok m1).
  { intros j. destruct (Nat.eq_dec j id) as [->|Dj]; [rewrite O1; exact I|rewrite OO by assumption; apply OK]. }
  assert (SI : siter m1 src = siter m src) by (apply siter_other, OO; assumption).
  rewrite rfor_fold; auto.
  2:{ intros p x m0. apply (sat_upd_other m0 (SW id)). assumption. }
  2:{ rewrite OO by assumption. exact F. }
  destruct (sfold_upd (fun _ x => x) (siter m1 src) m1 (SW id) OK1) as [m' [R [OK' [OS [FA' [SZ [V1 V2]]]]]]].
  { simpl. unfold m1. rewrite upd_length. assumption. } { apply siter_NoDup; assumption. }
  { simpl. rewrite O1. discriminate. }
  exists m'. simpl in *. rewrite R. rewrite O1 in *. simpl in *. split; [reflexivity|]. split; [exact OK'|].
  split. { destruct OS as [L1 L2]. split; [rewrite L1; unfold m1; apply upd_length|]. intros j Dj. rewrite L2, OO by assumption. reflexivity. }
  split; [exact FA'|]. split; [exact SZ|]. rewrite SI in *. intros p x. split.
  - intros S. destruct (in_dec (fun u v : key => ltac:(decide equality; apply Nat.eq_dec)) p (map fst (siter m src))) as [I|NI].
    + apply in_map_iff in I as [[p' y] [E I]]. simpl in E; subst p'. rewrite (V1 p y I) in S. injection S as <-. exact I.
    + rewrite V2 in S; [discriminate|]. intros p' y I ->. apply NI. apply in_map_iff. exists (p, y); auto.
  - intros I. apply (V1 p x I).
Qed.

Lemma assign_fast m id src fuel : mems_ok m -> id < length m -> fast (obj m id) = true ->
  exists m', sassign fuel m id src = Some (m', Ret tt) /\ others_same m m' id /\
   obj m' id = mkS true (ssize m src) (siter m src).
Proof.
  intros OK B FA. unfold sassign. rewrite FA. eexists; split; [reflexivity|]. split.
  - split; [apply upd_length|]. intros j D. apply obj_upd_other; assumption.
  - rewrite obj_upd, Nat.eqb_refl; auto.
Qed.
Lemma siter_SW m id : siter m (SW id) = sdat (obj m id).
Proof. unfold siter. simpl. induction (sdat (obj m id)) as [|[k x] t IH]; simpl; [reflexivity|]. f_equal. exact IH. Qed.

Lemma fast_reads_like_map m f id fuel : mems_ok m -> f < length m -> fast (obj m f) = true ->
  exists m', sassign fuel m f (SW id) = Some (m', Ret tt) /\ others_same m m' f /\ fast (obj m' f) = true /\
    ssz (obj m' f) = ssz (obj m id) /\ row_major (sdat (obj m' f)) /\
    forall p, get (obj m' f) p = get (obj m id) p /\ hasIndex (obj m' f) p = hasIndex (obj m id) p.
Proof.
  intros OK B FA. destruct (assign_fast m f (SW id) fuel OK B FA) as [m' [R [OS O]]].
  exists m'. split; [exact R|]. split; [exact OS|]. rewrite O. simpl. rewrite siter_SW.
  split; [reflexivity|]. split; [reflexivity|]. split; [apply OK|]. intros p. unfold get, hasIndex.
  rewrite (sfind_same_data (mkS true (ssz (obj m id)) (sdat (obj m id))) (obj m id) p); [auto|apply OK|reflexivity].
Qed.

(** ** iteration of the views *)
Lemma flat_map_map_opt {A B C} (f : A -> list B) (g : B -> list C) (l : list A) :
  flat_map g (flat_map f l) = flat_map (fun x => flat_map g (f x)) l.
Proof. induction l as [|x l IH]; simpl; [reflexivity|]. rewrite flat_map_app, IH. reflexivity. Qed.

Lemma siter_STr m e : siter m (STr e) = map (fun el => (swapk (fst el), snd el)) (siter m e).
Proof.
  unfold siter. simpl. induction (sdat (obj m (sbase e))) as [|[k x] t IH]; simpl; [reflexivity|].
  rewrite map_app, <- IH. destruct (of_base e k); reflexivity.
Qed.
Lemma siter_SSc m e c : siter m (SSc e c) = map (fun el => (fst el, nmul N (snd el) c)) (siter m e).
Proof.
  unfold siter. simpl. induction (sdat (obj m (sbase e))) as [|[k x] t IH]; simpl; [reflexivity|].
  rewrite map_app, <- IH. destruct (of_base e k); reflexivity.
Qed.
Definition blk (f s : key) (el : key * T) : list (key * T) :=
  if (fst f <=? fst (fst el)) && (fst (fst el) <? fst f + fst s) && (snd f <=? snd (fst el)) && (snd (fst el) <? snd f + snd s)
  then [((fst (fst el) - fst f, snd (fst el) - snd f), snd el)] else [].
Lemma siter_SBk m e f s : siter m (SBk e f s) = flat_map (blk f s) (siter m e).
Proof.
  unfold siter. simpl. rewrite flat_map_map_opt. apply flat_map_ext. intros [k x]. simpl.
  destruct (of_base e k) as [p|]; simpl; [|reflexivity]. rewrite app_nil_r. unfold blk. simpl.
  destruct ((fst f <=? fst p) && (fst p <? fst f + fst s) && (snd f <=? snd p) && (snd p <? snd f + snd s)); reflexivity.
Qed.

(** ** rows *)

Lemma filter_flat_map {A B} (f : A -> list B) (g : B -> bool) (l : list A) :
  filter g (flat_map f l) = flat_map (fun x => filter g (f x)) l.
Proof.
  induction l as [|x l IH]; simpl; [reflexivity|]. rewrite <- IH. clear IH. induction (f x) as [|y t IH]; simpl; [reflexivity|].
  destruct (g y); simpl; f_equal; exact IH.
Qed.
Lemma flat_map_filter {A B} (f : A -> list B) (g : A -> bool) (l : list A) :
  flat_map f (filter g l) = flat_map (fun x => if g x then f x else []) l.
Proof. induction l as [|x l IH]; simpl; [reflexivity|]. destruct (g x); simpl; rewrite IH; reflexivity. Qed.

Lemma srow_ok m e r : row_capable m e = true -> srow m e r = Ret (filter (fun el => Nat.eqb (fst (fst el)) r) (siter m e)).
Proof.
  revert r; induction e as [id|e IH f s|e IH|e IH c]; intros r H; simpl in *.
  - apply negb_true_iff in H. rewrite H. f_equal. rewrite siter_SW. unfold row_range. apply filter_ext. intros [k x]. simpl.
    destruct (Nat.eqb_spec (fst k) r) as [<-|D].
    + assert (kltb k (fst k, 0) = false) as -> by (apply kltb_false; unfold before; simpl; lia).
      simpl. apply Nat.leb_refl.
    + destruct (kltb k (r, 0)) eqn:K; simpl; [reflexivity|]. apply kltb_false in K. unfold before in K; simpl in K.
      destruct (Nat.leb_spec (fst k) r); [lia|reflexivity].
  - rewrite IH by assumption. simpl. f_equal. rewrite siter_SBk, filter_flat_map, flat_map_filter.
    apply flat_map_ext. intros [k x]. unfold blk. simpl.
    destruct ((fst f <=? fst k) && (fst k <? fst f + fst s) && (snd f <=? snd k) && (snd k <? snd f + snd s)) eqn:C; simpl.
    + rewrite !andb_true_iff, !Nat.leb_le, !Nat.ltb_lt in C.
      destruct (Nat.eqb_spec (fst k) (r + fst f)), (Nat.eqb_spec (fst k - fst f) r); try lia; reflexivity.
    + destruct (Nat.eqb (fst k) (r + fst f)); reflexivity.
  - discriminate.
  - rewrite IH by assumption. simpl. f_equal. rewrite siter_SSc. clear. induction (siter m e) as [|[k x] t IH]; simpl; [reflexivity|].
    destruct (Nat.eqb (fst k) r); simpl; rewrite IH; reflexivity.
Qed.

(** ** removing the elements of a block *)
Lemma sbclear_ok m e : mems_ok m -> sbase e < length m -> fast (obj m (sbase e)) = false ->
  exists m', sbclear m e = (m', Ret tt) /\ mems_ok m' /\ others_same m m' (sbase e) /\ fast (obj m' (sbase e)) = false /\
    ssz (obj m' (sbase e)) = ssz (obj m (sbase e)) /\
    (forall p, presents e p -> sfind (obj m' (sbase e)) (to_base e p) = None) /\
    (forall q, (forall p, presents e p -> to_base e p <> q) -> sfind (obj m' (sbase e)) q = sfind (obj m (sbase e)) q).
Proof.
  intros OK B F. unfold sbclear.
  assert (G : forall l m0, mems_ok m0 -> length m0 = length m -> fast (obj m0 (sbase e)) = false ->
    exists m', fold_left (fun r el => match r with
                         | (m, Ret _) => match removeAt (obj m (sbase e)) (to_base e (fst el)) with
                                         | Ret a => (upd m (sbase e) a, Ret tt)
                                         | Throw => (m, Throw) | UB => (m, UB) end
                         | r => r end) l (m0, Ret tt) = (m', Ret tt) /\ mems_ok m' /\ others_same m0 m' (sbase e) /\ fast (obj m' (sbase e)) = false /\
     ssz (obj m' (sbase e)) = ssz (obj m0 (sbase e)) /\
     (forall q, sfind (obj m' (sbase e)) q = if existsb (fun el => keqb2 (to_base e (fst el)) q) l then None else sfind (obj m0 (sbase e)) q)).
  { induction l as [|[p x] l IH]; intros m0 OK0 L0 F0.
    - exists m0. simpl. repeat split; auto.
    - simpl. unfold removeAt at 2. rewrite F0. set (m1 := upd m0 (sbase e) (mkS false (ssz (obj m0 (sbase e))) (mdel KO (to_base e p) (sdat (obj m0 (sbase e)))))).
      assert (O1 : obj m1 (sbase e) = mkS false (ssz (obj m0 (sbase e))) (mdel KO (to_base e p) (sdat (obj m0 (sbase e)))))
        by (unfold m1; rewrite obj_upd, Nat.eqb_refl; [reflexivity|lia]).
      assert (OO : forall j, j <> sbase e -> obj m1 j = obj m0 j) by (intros; unfold m1; apply obj_upd_other; assumption).
      destruct (IH m1) as [m' [R [OK' [OS [F' [SZ V]]]]]].
      { intros j. destruct (Nat.eq_dec j (sbase e)) as [->|D]; [rewrite O1; simpl; apply mdel_row_major, OK0|rewrite OO by assumption; apply OK0]. }
      { unfold m1; rewrite upd_length; exact L0. } { rewrite O1; reflexivity. }
      exists m'. split; [exact R|]. split; [exact OK'|]. split.
      { destruct OS as [L1 L2]. split; [rewrite L1; unfold m1; apply upd_length|]. intros j D. rewrite L2, OO by assumption. reflexivity. }
      split; [exact F'|]. split; [rewrite SZ, O1; reflexivity|].
      intros q. rewrite V, O1. destruct (keqb2_spec (to_base e p) q) as [Q|Q]; simpl.
      + destruct existsb; [reflexivity|]. unfold sfind. simpl. rewrite mfind_del by (apply row_major_sorted, OK0). rewrite keqb_keqb2, Q, keqb2_refl. reflexivity.
      + destruct existsb; [reflexivity|]. unfold sfind. rewrite F0. simpl. rewrite mfind_del by (apply row_major_sorted, OK0).
        rewrite keqb_keqb2. destruct (keqb2_spec q (to_base e p)); [congruence|reflexivity]. }
  destruct (G (siter m e) m OK eq_refl F) as [m' [R [OK' [OS [F' [SZ V]]]]]].
  exists m'. split; [exact R|]. split; [exact OK'|]. split; [exact OS|]. split; [exact F'|]. split; [exact SZ|]. split.
  - intros p P. rewrite V. destruct existsb eqn:E; [reflexivity|].
    destruct (sfind (obj m (sbase e)) (to_base e p)) as [y|] eqn:S; [|reflexivity].
    assert (I : In (p, sscale e y) (siter m e)) by (apply siter_In; eauto).
    assert (existsb (fun el => keqb2 (to_base e (fst el)) (to_base e p)) (siter m e) = true).
    { apply existsb_exists. exists (p, sscale e y). split; [exact I|]. simpl. apply keqb2_refl. }
    congruence.
  - intros q H. rewrite V. destruct existsb eqn:E; [|reflexivity]. apply existsb_exists in E as [[p x] [I K]]. simpl in K.
    destruct (keqb2_spec (to_base e p) q) as [Q|]; [|discriminate]. apply siter_In in I as [P _]; [|assumption].
    destruct (H p P Q).
Qed.

(** assigning to a block of a map matrix from another matrix *)
Lemma sbassign_ok m dst src fuel : mems_ok m -> sbase dst < length m -> fast (obj m (sbase dst)) = false -> writable dst = true ->
  sbase src <> sbase dst -> length (sdat (obj m (sbase src))) < fuel ->
  (forall p x, In (p, x) (siter m src) -> presents dst p) ->
  exists m', sbassign fuel m dst src = Some (m', Ret tt) /\ others_same m m' (sbase dst) /\
    siter m' src = siter m src /\
    (forall p x, presents dst p -> (sfind (obj m' (sbase dst)) (to_base dst p) = Some x <-> In (p, x) (siter m src))) /\
    (forall q, (forall p, presents dst p -> to_base dst p <> q) -> sfind (obj m' (sbase dst)) q = sfind (obj m (sbase dst)) q).
Proof.
  intros OK B FA W D F PR. unfold sbassign.
  destruct (sbclear_ok m dst OK B FA) as [m1 [R1 [OK1 [OS1 [FA1 [SZ1 [C1 C2]]]]]]]. rewrite R1.
  assert (OB : obj m1 (sbase src) = obj m (sbase src)) by (apply OS1; assumption).
  assert (SI : siter m1 src = siter m src) by (apply siter_other; assumption).
  rewrite rfor_fold; auto.
  2:{ intros p x m0. apply sat_upd_other. assumption. }
  2:{ rewrite OB. exact F. }
  destruct (sfold_upd (fun _ x => x) (siter m1 src) m1 dst OK1) as [m' [R [OK' [OS [FA' [SZ [V1 V2]]]]]]].
  { destruct OS1 as [-> _]. assumption. } { apply siter_NoDup; assumption. } { rewrite FA1. discriminate. }
  exists m'. simpl in R. rewrite R. split; [reflexivity|]. split.
  { destruct OS as [L1 L2], OS1 as [L3 L4]. split; [congruence|]. intros j Dj. rewrite L2, L4 by assumption. reflexivity. }
  rewrite SI in *. split. { apply siter_other. destruct OS as [_ L2]. rewrite L2 by assumption. exact OB. }
  split.
  - intros p x P. split.
    + intros S. destruct (in_dec (fun u v : key => ltac:(decide equality; apply Nat.eq_dec)) p (map fst (siter m src))) as [I|NI].
      * apply in_map_iff in I as [[p' y] [E I]]. simpl in E; subst p'. rewrite (V1 p y I) in S. injection S as <-. exact I.
      * rewrite V2 in S; [rewrite C1 in S by assumption; discriminate|].
        intros p' y I Q. apply to_base_inj' in Q. subst p'. apply NI. apply in_map_iff. exists (p, y); auto.
    + intros I. apply (V1 p x I).
  - intros q H. rewrite V2; [apply C2; exact H|]. intros p x I. apply H. eapply PR; exact I.
Qed.
End SpFacts3.
