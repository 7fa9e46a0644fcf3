(** LUFacts2.v - mathematics of the decomposition (functions only) and setMatrix. *)
From Coq Require Import List Arith Lia ZArith QArith Qcanon Bool.
Require Import Verif.Base Verif.BaseFacts Verif.LUModel Verif.LUSpec Verif.LUFacts.
Import ListNotations.

Definition withdiag (L : nat -> nat -> Qc) r c : Qc := if Nat.eqb r c then 1%Qc else L r c.

Section Math.
Variables (A L U : nat -> nat -> Qc) (n : nat).
Hypothesis HLz : forall r c, (r <= c)%nat -> L r c = 0%Qc.
Hypothesis HUz : forall r c, (c < r)%nat -> U r c = 0%Qc.
Hypothesis HE : LUeqs A L U n.
Notation L1 := (withdiag L).

Lemma L1_neq r k : r <> k -> L1 r k = L r k.
Proof. intro H. unfold withdiag. apply Nat.eqb_neq in H. rewrite H. auto. Qed.
Lemma L1_eq r : L1 r r = 1%Qc.
Proof. unfold withdiag. rewrite Nat.eqb_refl. auto. Qed.

Lemma unit_lower_L1 : unit_lower n L1.
Proof.
  intros r c Hr Hc. split; intro H.
  - subst. apply L1_eq.
  - rewrite L1_neq by lia. apply HLz. lia.
Qed.

(** the product entry, under nonzero pivots below min(r,c)+1 when c<r *)
Lemma product_upto m r c : (r < m <= n)%nat -> (c < m)%nat -> ((c < r)%nat -> U c c <> 0%Qc) ->
  qsum m (fun k => L1 r k * U k c)%Qc = A r c.
Proof.
  intros Hr Hc Hp. destruct HE as [E1 E2]. destruct (Nat.le_gt_cases r c) as [H|H].
  - rewrite (qsum_trunc m (S r)) by (try lia; intros k Hk; rewrite L1_neq, HLz by lia; ring).
    simpl. rewrite L1_eq. rewrite (E2 r c) by lia.
    erewrite (qsum_ext r (fun k => L1 r k * U k c)%Qc). 2:{ intros k Hk. rewrite L1_neq by lia. reflexivity. }
    ring.
  - rewrite (qsum_trunc m (S c)) by (try lia; intros k Hk; rewrite HUz by lia; ring).
    simpl. rewrite L1_neq by lia. rewrite (E1 r c) by lia.
    erewrite (qsum_ext c (fun k => L1 r k * U k c)%Qc). 2:{ intros k Hk. rewrite L1_neq by lia. reflexivity. }
    field. apply Hp. auto.
Qed.

Lemma product : (forall c, (c < n)%nat -> U c c <> 0%Qc) -> is_product n L1 U A.
Proof. intros Hp r c Hr Hc. apply product_upto; auto; lia. Qed.

(** back substitution exists *)
Lemma back_subst k : forall b, (forall c, (c < k)%nat -> U c c <> 0%Qc) ->
  exists x : nat -> Qc, (forall r, (r < k)%nat -> qsum k (fun c => U r c * x c)%Qc = b r) /\
                        (forall c, (k <= c)%nat -> x c = 0%Qc).
Proof.
  induction k; intros b Hp.
  - exists (fun _ => 0%Qc). split; auto. intros; lia.
  - destruct (IHk (fun r => b r - U r k * (b k / U k k))%Qc) as (x & Hx & Hz).
    { intros; apply Hp; lia. }
    exists (fun c => if Nat.eqb c k then (b k / U k k)%Qc else x c). split.
    + intros r Hr. simpl. rewrite Nat.eqb_refl.
      erewrite qsum_ext. 2:{ intros i Hi. assert (Hi' : (i =? k)%nat = false) by (apply Nat.eqb_neq; lia).
        rewrite Hi'. reflexivity. }
      destruct (Nat.eq_dec r k) as [->|Hne].
      * rewrite qsum_zero. 2:{ intros i Hi. rewrite HUz by lia. ring. }
        field. apply Hp. lia.
      * rewrite Hx by lia. ring.
    + intros c Hc. assert (Hi' : (c =? k)%nat = false) by (apply Nat.eqb_neq; lia). rewrite Hi'. apply Hz. lia.
Qed.

Lemma mul_assoc_vec m (x : nat -> Qc) r :
  (forall c, (c < m)%nat -> qsum m (fun k => L1 r k * U k c)%Qc = A r c) ->
  qsum m (fun c => A r c * x c)%Qc = qsum m (fun k => L1 r k * qsum m (fun c => U k c * x c))%Qc.
Proof.
  intro H. transitivity (qsum m (fun c => qsum m (fun k => L1 r k * U k c * x c)%Qc)).
  - apply qsum_ext. intros c Hc. rewrite <- H by auto. rewrite <- qsum_scale_r. auto.
  - rewrite qsum_swap. apply qsum_ext. intros k Hk. rewrite <- qsum_scale.
    apply qsum_ext. intros. ring.
Qed.

(** nonzero pivots from nonsingular leading minors *)
Lemma pivots_nonzero : leading_nonsingular n A -> forall c, (c < n)%nat -> U c c <> 0%Qc.
Proof.
  intros NS.
  assert (H : forall m, (m <= n)%nat -> forall c, (c < m)%nat -> U c c <> 0%Qc).
  { induction m; intros Hm c Hc; [lia|].
    destruct (Nat.eq_dec c m) as [->|Hne]; [|apply IHm; lia].
    intro Hz.
    destruct (back_subst m (fun r => - U r m)%Qc) as (x & Hx & Hx0).
    { intros; apply IHm; lia. }
    set (x' := fun c => if Nat.eqb c m then 1%Qc else x c).
    assert (K : x' m = 0%Qc).
    { apply (NS (S m) Hm x'); [|lia].
      intros r Hr. rewrite mul_assoc_vec.
      2:{ intros c Hc'. apply product_upto; try lia. intros Hcr. apply IHm; lia. }
      apply qsum_zero. intros k Hk.
      assert (Ez : qsum (S m) (fun c => U k c * x' c)%Qc = 0%Qc).
      { simpl. unfold x' at 2. rewrite Nat.eqb_refl.
        erewrite qsum_ext. 2:{ intros i Hi. unfold x'.
          assert (Hi' : (i =? m)%nat = false) by (apply Nat.eqb_neq; lia). rewrite Hi'. reflexivity. }
        destruct (Nat.eq_dec k m) as [->|Hkm].
        - rewrite qsum_zero. 2:{ intros i Hi. rewrite HUz by lia. ring. }
          rewrite Hz. ring.
        - rewrite Hx by lia. ring. }
      rewrite Ez. ring. }
    unfold x' in K. rewrite Nat.eqb_refl in K. apply Q_apart_0_1 in K. auto. }
  intros c Hc. apply (H n); auto.
Qed.
End Math.

(** ** setMatrix *)
Lemma setMin_length l i v : length (setMin l i v) = length l.
Proof. apply upd_length. Qed.
Lemma setMax_length l i v : length (setMax l i v) = length l.
Proof. apply upd_length. Qed.
Section Scan.
Context {X : Type}.
Variables (f g : X -> nat).
Lemma fold_setMin_spec e : forall l0,
  length (fold_left (fun p x => setMin p (f x) (g x)) e l0) = length l0 /\
  forall i, (i < length l0)%nat ->
    let v := nn i (fold_left (fun p x => setMin p (f x) (g x)) e l0) in
    (v <= nn i l0)%nat /\ (forall x, In x e -> f x = i -> (v <= g x)%nat) /\
    (v = nn i l0 \/ exists x, In x e /\ f x = i /\ g x = v).
Proof.
  induction e as [|a e IH]; intros l0; simpl.
  - split; auto. intros i Hi. repeat split; auto. intros; tauto.
  - destruct (IH (setMin l0 (f a) (g a))) as [HL H]. rewrite setMin_length in HL.
    split; auto. intros i Hi. destruct (H i) as (H1 & H2 & H3).
    { unfold setMin. rewrite upd_length. auto. }
    set (v := nn i (fold_left (fun p x => setMin p (f x) (g x)) e (setMin l0 (f a) (g a)))) in *.
    unfold setMin in H1, H3. rewrite nth_upd in H1, H3.
    destruct (Nat.eqb_spec i (f a)) as [Ei|Ei].
    + subst i. apply Nat.ltb_lt in Hi. rewrite Hi in H1, H3. repeat split.
      * lia.
      * intros x [->|Hx] Hf; [lia|auto].
      * destruct H3 as [H3|(x & Hx & Hf & Hg)].
        -- destruct (Nat.le_gt_cases (nn (f a) l0) (g a)).
           ++ left. lia.
           ++ right. exists a. repeat split; auto. lia.
        -- right. exists x. auto.
    + repeat split; auto.
      * intros x [->|Hx] Hf; [congruence|auto].
      * destruct H3 as [H3|(x & Hx & Hf & Hg)]; auto. right. exists x. auto.
Qed.
Lemma fold_setMax_spec e : forall l0,
  length (fold_left (fun p x => setMax p (f x) (g x)) e l0) = length l0 /\
  forall i, (i < length l0)%nat ->
    let v := nn i (fold_left (fun p x => setMax p (f x) (g x)) e l0) in
    (nn i l0 <= v)%nat /\ (forall x, In x e -> f x = i -> (g x <= v)%nat) /\
    (v = nn i l0 \/ exists x, In x e /\ f x = i /\ g x = v).
Proof.
  induction e as [|a e IH]; intros l0; simpl.
  - split; auto. intros i Hi. repeat split; auto. intros; tauto.
  - destruct (IH (setMax l0 (f a) (g a))) as [HL H]. rewrite setMax_length in HL.
    split; auto. intros i Hi. destruct (H i) as (H1 & H2 & H3).
    { unfold setMax. rewrite upd_length. auto. }
    set (v := nn i (fold_left (fun p x => setMax p (f x) (g x)) e (setMax l0 (f a) (g a)))) in *.
    unfold setMax in H1, H3. rewrite nth_upd in H1, H3.
    destruct (Nat.eqb_spec i (f a)) as [Ei|Ei].
    + subst i. apply Nat.ltb_lt in Hi. rewrite Hi in H1, H3. repeat split.
      * lia.
      * intros x [->|Hx] Hf; [lia|auto].
      * destruct H3 as [H3|(x & Hx & Hf & Hg)].
        -- destruct (Nat.le_gt_cases (g a) (nn (f a) l0)).
           ++ left. lia.
           ++ right. exists a. repeat split; auto. lia.
        -- right. exists x. auto.
    + repeat split; auto.
      * intros x [->|Hx] Hf; [congruence|auto].
      * destruct H3 as [H3|(x & Hx & Hf & Hg)]; auto. right. exists x. auto.
Qed.
End Scan.

Lemma fold_max_spec {X} (f : X -> nat) (e : list X) : forall a,
  let v := fold_left (fun nr x => Nat.max nr (f x + 1)) e a in
  (a <= v)%nat /\ (forall x, In x e -> (f x < v)%nat) /\ (v = a \/ exists x, In x e /\ v = (f x + 1)%nat).
Proof.
  induction e as [|b e IH]; intros a; simpl.
  - repeat split; auto. intros; tauto.
  - destruct (IH (Nat.max a (f b + 1))) as (H1 & H2 & H3).
    set (v := fold_left (fun nr x => Nat.max nr (f x + 1)) e (Nat.max a (f b + 1))) in *.
    repeat split.
    + lia.
    + intros x [->|Hx]; [lia|auto].
    + destruct H3 as [H3|(x & Hx & Hf)].
      * destruct (Nat.le_gt_cases a (f b)).
        -- right. exists b. split; auto. lia.
        -- left. lia.
      * right. exists x. auto.
Qed.

Lemma nth_repeat' {A} (a d : A) n i : (i < n)%nat -> nth i (repeat a n) d = a.
Proof. revert i; induction n; intros i H; [lia|]. destruct i; simpl; auto. apply IHn. lia. Qed.

(** the number of rows: the least bound of the stored indices *)
Lemma mat_nr_bound e r c v : In ((r, c), v) e -> (r < mat_nr e)%nat.
Proof.
  intro H. destruct (fold_max_spec (fun x : nat*nat*Qc => fst (fst x)) e 0) as (_ & H2 & _).
  apply (H2 _ H).
Qed.
Lemma mat_nc_bound e r c v : In ((r, c), v) e -> (c < mat_nc e)%nat.
Proof.
  intro H. destruct (fold_max_spec (fun x : nat*nat*Qc => snd (fst x)) e 0) as (_ & H2 & _).
  apply (H2 _ H).
Qed.

Lemma scan_p_spec n e : length (scan_p n e) = n /\ forall r, (r < n)%nat ->
  (nn r (scan_p n e) <= n)%nat /\
  (forall c, stored e r c -> (nn r (scan_p n e) <= c)%nat) /\
  (nn r (scan_p n e) = n \/ stored e r (nn r (scan_p n e))).
Proof.
  unfold scan_p.
  destruct (fold_setMin_spec (fun x : nat*nat*Qc => fst (fst x)) (fun x => snd (fst x)) e (repeat n n)) as [HL H].
  rewrite repeat_length in *. split; auto. intros r Hr. destruct (H r Hr) as (H1 & H2 & H3). clear H.
  rewrite (nth_repeat' n 0%nat n r Hr) in H1, H3. repeat split; auto.
  - intros c (v & Hv). apply (H2 _ Hv). auto.
  - destruct H3 as [H3|(((r',c'),v) & Hx & Hf & Hg)]; auto. right. simpl in Hf, Hg. subst r'.
    exists v. rewrite <- Hg. auto.
Qed.
Lemma scan_q_spec n e : length (scan_q n e) = n /\ forall c, (c < n)%nat ->
  (nn c (scan_q n e) <= n)%nat /\
  (forall r, stored e r c -> (nn c (scan_q n e) <= r)%nat) /\
  (nn c (scan_q n e) = n \/ stored e (nn c (scan_q n e)) c).
Proof.
  unfold scan_q.
  destruct (fold_setMin_spec (fun x : nat*nat*Qc => snd (fst x)) (fun x => fst (fst x)) e (repeat n n)) as [HL H].
  rewrite repeat_length in *. split; auto. intros r Hr. destruct (H r Hr) as (H1 & H2 & H3). clear H.
  rewrite (nth_repeat' n 0%nat n r Hr) in H1, H3. repeat split; auto.
  - intros c (v & Hv). apply (H2 _ Hv). auto.
  - destruct H3 as [H3|(((r',c'),v) & Hx & Hf & Hg)]; auto. right. simpl in Hf, Hg. subst c'.
    exists v. rewrite <- Hg. auto.
Qed.
Lemma scan_s_spec n e : length (scan_s n e) = n /\ forall r, (r < n)%nat ->
  (forall c, stored e r c -> (c <= nn r (scan_s n e))%nat) /\
  (nn r (scan_s n e) = 0%nat \/ stored e r (nn r (scan_s n e))).
Proof.
  unfold scan_s.
  destruct (fold_setMax_spec (fun x : nat*nat*Qc => fst (fst x)) (fun x => snd (fst x)) e (repeat 0%nat n)) as [HL H].
  rewrite repeat_length in *. split; auto. intros r Hr. destruct (H r Hr) as (H1 & H2 & H3). clear H.
  rewrite (nth_repeat' 0%nat 0%nat n r Hr) in H1, H3. repeat split; auto.
  - intros c (v & Hv). apply (H2 _ Hv). auto.
  - destruct H3 as [H3|(((r',c'),v) & Hx & Hf & Hg)]; auto. right. simpl in Hf, Hg. subst r'.
    exists v. rewrite <- Hg. auto.
Qed.

Lemma stencil_ok_spec n p q :
  stencil_ok n p q = true <-> forall i, (i < n)%nat -> (nn i p < n /\ nn i q < n /\ nn i p <= i /\ nn i q <= i)%nat.
Proof.
  unfold stencil_ok. rewrite forallb_forall. split; intros H i Hi.
  - specialize (H i). rewrite in_seq in H. specialize (H ltac:(lia)).
    rewrite !andb_true_iff, !Nat.ltb_lt, !Nat.leb_le in H. tauto.
  - apply in_seq in Hi. rewrite !andb_true_iff, !Nat.ltb_lt, !Nat.leb_le. specialize (H i ltac:(lia)). tauto.
Qed.

Lemma addr_from_spec d p : forall i acc,
  length (addr_from i acc d p) = S (length p) /\
  nn 0 (addr_from i acc d p) = acc /\
  forall j, (j < length p)%nat ->
    nn (S j) (addr_from i acc d p) = (nn j (addr_from i acc d p) + (i + j - nn j p) + d)%nat.
Proof.
  induction p as [|pi p IH]; intros i acc; simpl.
  - repeat split; auto. intros; lia.
  - destruct (IH (S i) (acc + (i - pi) + d)%nat) as (H1 & H2 & H3). repeat split; auto.
    intros j Hj. destruct j.
    + rewrite H2. rewrite Nat.add_0_r. auto.
    + rewrite H3 by lia. replace (S i + j)%nat with (i + S j)%nat by lia. auto.
Qed.

(** the layout computed by setMatrix *)
Definition mk_layout (n : nat) (e : entries) : layout :=
  mkLayout (scan_p n e) (scan_q n e) (scan_s n e) (addr 0 (scan_p n e)) (addr 1 (scan_q n e)).

Lemma mk_layout_valid n e :
  (forall r c v, In ((r, c), v) e -> (r < n /\ c < n)%nat) ->
  stencil_ok n (scan_p n e) (scan_q n e) = true -> valid_layout (mk_layout n e) n.
Proof.
  intros HB HS. rewrite stencil_ok_spec in HS.
  destruct (scan_p_spec n e) as [Lp Hp]. destruct (scan_q_spec n e) as [Lq Hq]. destruct (scan_s_spec n e) as [Ls Hs].
  constructor; simpl; auto.
  - unfold addr. destruct (addr_from_spec 0 (scan_p n e) 0 0) as (H & _). rewrite H. auto.
  - unfold addr. destruct (addr_from_spec 1 (scan_q n e) 0 0) as (H & _). rewrite H. auto.
  - intros i Hi. apply HS; auto.
  - intros i Hi. apply HS; auto.
  - intros i Hi. destruct (Hs i Hi) as [_ [H|[v H]]]; [lia|]. apply HB in H. lia.
  - intros i Hi. unfold addr. destruct (addr_from_spec 0 (scan_p n e) 0 0) as (_ & _ & H).
    rewrite H by lia. simpl. lia.
  - intros i Hi. unfold addr. destruct (addr_from_spec 1 (scan_q n e) 0 0) as (_ & _ & H).
    rewrite H by lia. simpl. lia.
Qed.

Lemma stored_inprofile n e r c : valid_layout (mk_layout n e) n -> (r < n)%nat -> (c < n)%nat -> stored e r c ->
  (if Nat.leb r c then inU (mk_layout n e) r c else inL (mk_layout n e) r c) = true.
Proof.
  intros V Hr Hc HS. destruct (scan_p_spec n e) as [Lp Hp]. destruct (scan_q_spec n e) as [Lq Hq].
  destruct (Nat.leb_spec r c).
  - apply inU_spec. simpl. split; auto. apply Hq; auto.
  - apply inL_spec. simpl. split; auto. apply Hp; auto.
Qed.

Lemma mval_In e r c v : distinct_keys e -> In ((r, c), v) e -> mval e r c = v.
Proof.
  unfold distinct_keys. induction e as [|((r',c'),v') e IH]; simpl; intros ND H; [tauto|].
  inversion ND; subst. destruct H as [H|H].
  - inversion H; subst. rewrite !Nat.eqb_refl. auto.
  - destruct (Nat.eqb_spec r' r); destruct (Nat.eqb_spec c' c); simpl; auto.
    subst. exfalso. apply H2. apply (in_map fst) in H. auto.
Qed.
Lemma mval_notin e r c : ~ stored e r c -> mval e r c = 0%Qc.
Proof.
  induction e as [|((r',c'),v') e IH]; simpl; intros H; auto.
  destruct (Nat.eqb_spec r' r); destruct (Nat.eqb_spec c' c); simpl; auto;
    try (apply IH; intros (v & Hv); apply H; exists v; right; auto).
  subst. exfalso. apply H. exists v'. left. auto.
Qed.
Lemma stored_dec e r c : stored e r c \/ ~ stored e r c.
Proof.
  induction e as [|((r',c'),v') e IH].
  - right. intros (v & []).
  - destruct (Nat.eq_dec r' r); [destruct (Nat.eq_dec c' c)|].
    + subst. left. exists v'. left; auto.
    + destruct IH as [(v & H)|H]; [left; exists v; right; auto|right; intros (v & [E|E]); [congruence|apply H; exists v; auto]].
    + destruct IH as [(v & H)|H]; [left; exists v; right; auto|right; intros (v & [E|E]); [congruence|apply H; exists v; auto]].
Qed.

Section Fill.
Variables (y : layout) (n : nat).
Hypothesis V : valid_layout y n.

Lemma fill_ok e : forall l u,
  lenL y n l -> lenU y n u -> distinct_keys e ->
  (forall r c v, In ((r, c), v) e -> (r < n)%nat /\ (c < n)%nat /\
     (if Nat.leb r c then inU y r c else inL y r c) = true) ->
  exists lu', ofold (fill_step y) e (l, u) = Ret lu' /\ lenL y n (fst lu') /\ lenU y n (snd lu') /\
    forall r c, (r < n)%nat -> (c < n)%nat ->
      (stored e r c -> A0 y (fst lu') (snd lu') r c = mval e r c) /\
      (~ stored e r c -> A0 y (fst lu') (snd lu') r c = A0 y l u r c).
Proof.
  induction e as [|((r0,c0),v0) e IH]; intros l u HL HU ND HIn.
  - simpl. exists (l, u). repeat split; auto. intros (v & []).
  - simpl. destruct (HIn r0 c0 v0) as (Hr0 & Hc0 & HP); [left; auto|].
    assert (HS : exists l1 u1, (if Nat.leb r0 c0 then u' <- putU y u r0 c0 v0;; Ret (l, u')
                     else l' <- putL y l r0 c0 v0;; Ret (l', u)) = Ret (l1, u1) /\
                     lenL y n l1 /\ lenU y n u1 /\
                     forall r c, (r < n)%nat -> (c < n)%nat -> A0 y l1 u1 r c = updf (A0 y l u) r0 c0 v0 r c).
    { destruct (Nat.leb_spec r0 c0) as [Hle|Hgt].
      - destruct (putU_ok y n V u r0 c0 v0 HU Hc0 HP) as (u' & E & HU' & H'). rewrite E. simpl.
        exists l, u'. repeat split; auto. intros r c Hr Hc. unfold A0. unfold updf.
        destruct (Nat.leb_spec r c).
        + rewrite H' by auto. reflexivity.
        + destruct (Nat.eqb_spec r r0); destruct (Nat.eqb_spec c c0); simpl; auto. lia.
      - destruct (putL_ok y n V l r0 c0 v0 HL Hr0 HP) as (l' & E & HL' & H'). rewrite E. simpl.
        exists l', u. repeat split; auto. intros r c Hr Hc. unfold A0. unfold updf.
        destruct (Nat.leb_spec r c).
        + destruct (Nat.eqb_spec r r0); destruct (Nat.eqb_spec c c0); simpl; auto. lia.
        + rewrite H' by auto. reflexivity. }
    destruct HS as (l1 & u1 & E & HL1 & HU1 & H1).
    inversion ND; subst.
    destruct (IH l1 u1 HL1 HU1 H3) as (lu' & E' & HL' & HU' & H').
    { intros; eapply HIn; right; eauto. }
    exists lu'. simpl in E |- *. rewrite E. simpl. split; auto. split; auto. split; auto.
    intros r c Hr Hc. destruct (H' r c Hr Hc) as [Ha Hb].
    destruct (Nat.eq_dec r0 r) as [Er|Er]; [destruct (Nat.eq_dec c0 c) as [Ec|Ec]|].
    + subst. split.
      * intros _. rewrite Hb. 2:{ intros (v & Hv). apply H2. apply (in_map fst) in Hv. auto. }
        rewrite H1 by auto. rewrite updf_eq. rewrite !Nat.eqb_refl. auto.
      * intro HN. exfalso. apply HN. exists v0. left; auto.
    + assert (Enc : (c0 =? c)%nat = false) by (apply Nat.eqb_neq; auto). rewrite Enc, andb_false_r. split.
      * intros (v & [Hv|Hv]); [congruence|]. apply Ha. exists v; auto.
      * intros HN. rewrite Hb. rewrite H1, updf_neq by lia; auto. intros (v & Hv). apply HN. exists v. right; auto.
    + assert (Enc : (r0 =? r)%nat = false) by (apply Nat.eqb_neq; auto). rewrite Enc. simpl. split.
      * intros (v & [Hv|Hv]); [congruence|]. apply Ha. exists v; auto.
      * intros HN. rewrite Hb. rewrite H1, updf_neq by lia; auto. intros (v & Hv). apply HN. exists v. right; auto.
Qed.

Lemma A0_zero a b r c : (r < n)%nat -> (c < n)%nat -> A0 y (repeat 0%Qc a) (repeat 0%Qc b) r c = 0%Qc.
Proof.
  intros. unfold A0, AU, AL. destruct (Nat.leb r c).
  - destruct (inU y r c); auto. apply nth_repeat.
  - destruct (inL y r c); auto. apply nth_repeat.
Qed.
End Fill.

(** an object state holding a matrix in profile storage, not yet factorized *)
Definition holds (st : lu) (n : nat) (A : nat -> nat -> Qc) : Prop :=
  valid_layout (ulay st) n /\ lenL (ulay st) n (ul st) /\ lenU (ulay st) n (uu st) /\ ufact st = false /\
  forall r c, (r < n)%nat -> (c < n)%nat -> A0 (ulay st) (ul st) (uu st) r c = A r c.

Lemma acceptable_dims e n : acceptable e n -> mat_nr e = n /\ mat_nc e = n.
Proof.
  intros [HB HI].
  destruct (fold_max_spec (fun x : nat*nat*Qc => fst (fst x)) e 0) as (_ & H2 & H3).
  destruct (fold_max_spec (fun x : nat*nat*Qc => snd (fst x)) e 0) as (_ & K2 & K3).
  fold (mat_nr e) in H2, H3. fold (mat_nc e) in K2, K3.
  assert (Hle : (mat_nr e <= n)%nat).
  { destruct H3 as [->|(((r,c),v) & Hx & ->)]; [lia|]. simpl. destruct (HB r c); [exists v; auto|lia]. }
  assert (Kle : (mat_nc e <= n)%nat).
  { destruct K3 as [->|(((r,c),v) & Hx & ->)]; [lia|]. simpl. destruct (HB r c); [exists v; auto|lia]. }
  destruct n; [split; lia|].
  destruct (HI n ltac:(lia)) as [(c & (v & Hv) & _) (r & (v' & Hv') & _)].
  pose proof (mat_nr_bound _ _ _ _ Hv). pose proof (mat_nc_bound _ _ _ _ Hv'). lia.
Qed.

Lemma acceptable_stencil e n : (forall r c, stored e r c -> (r < n /\ c < n)%nat) ->
  (acceptable e n <-> stencil_ok n (scan_p n e) (scan_q n e) = true).
Proof.
  intro HB. destruct (scan_p_spec n e) as [Lp Hp]. destruct (scan_q_spec n e) as [Lq Hq].
  rewrite stencil_ok_spec. split.
  - intros [_ HI] i Hi. destruct (HI i Hi) as [(c & Hc & Hci) (r & Hr & Hri)].
    pose proof (proj1 (proj2 (Hp i Hi)) c Hc). pose proof (proj1 (proj2 (Hq i Hi)) r Hr). lia.
  - intro H. split; auto. intros i Hi. destruct (H i Hi) as (Ha & Hb & Hc & Hd). split.
    + exists (nn i (scan_p n e)). split; auto. destruct (Hp i Hi) as (_ & _ & [E|E]); auto. lia.
    + exists (nn i (scan_q n e)). split; auto. destruct (Hq i Hi) as (_ & _ & [E|E]); auto. lia.
Qed.

Lemma setMatrix_ok e n : distinct_keys e -> acceptable e n ->
  exists st, setMatrix e = Ret st /\ ulay st = mk_layout n e /\ holds st n (mval e).
Proof.
  intros ND HA. destruct (acceptable_dims e n HA) as [Hnr Hnc].
  pose proof HA as [HB _].
  pose proof (proj1 (acceptable_stencil e n HB) HA) as HS.
  unfold setMatrix. rewrite Hnr, Hnc, Nat.eqb_refl. simpl. rewrite HS. simpl.
  change (mkLayout (scan_p n e) (scan_q n e) (scan_s n e) (addr 0 (scan_p n e)) (addr 1 (scan_q n e)))
    with (mk_layout n e).
  assert (V : valid_layout (mk_layout n e) n).
  { apply mk_layout_valid; auto. intros r c v H. apply HB. exists v; auto. }
  destruct (fill_ok (mk_layout n e) n V e
     (repeat 0%Qc (nn n (addr 0 (scan_p n e)))) (repeat 0%Qc (nn n (addr 1 (scan_q n e))))) as (lu' & E & HL & HU & H); auto.
  - unfold lenL. rewrite repeat_length. auto.
  - unfold lenU. rewrite repeat_length. auto.
  - intros r c v Hv. destruct (HB r c); [exists v; auto|]. split; auto. split; auto.
    apply stored_inprofile; auto. exists v; auto.
  - rewrite E. simpl. eexists. split; [reflexivity|]. split; auto.
    unfold holds. simpl. repeat split; auto; try (apply V).
    intros r c Hr Hc. destruct (H r c Hr Hc) as [Ha Hb].
    destruct (stored_dec e r c) as [Hs|Hs]; [auto|].
    rewrite Hb by auto. rewrite (A0_zero _ n) by auto. symmetry. apply mval_notin; auto.
Qed.

Lemma setMatrix_total e : distinct_keys e ->
  (exists st, setMatrix e = Ret st) \/ setMatrix e = Throw.
Proof.
  intros ND. destruct (Nat.eq_dec (mat_nr e) (mat_nc e)) as [Hd|Hd].
  - assert (HB : forall r c, stored e r c -> (r < mat_nr e /\ c < mat_nr e)%nat).
    { intros r c (v & Hv). split; [eapply mat_nr_bound; eauto|rewrite Hd; eapply mat_nc_bound; eauto]. }
    destruct (stencil_ok (mat_nr e) (scan_p (mat_nr e) e) (scan_q (mat_nr e) e)) eqn:HS.
    + left. apply (acceptable_stencil e _ HB) in HS. destruct (setMatrix_ok e _ ND HS) as (st & E & _). eauto.
    + right. unfold setMatrix. rewrite <- Hd, Nat.eqb_refl. simpl. rewrite HS. auto.
  - right. unfold setMatrix. apply Nat.eqb_neq in Hd. rewrite Hd. auto.
Qed.

Lemma setMatrix_ret_acceptable e st : distinct_keys e -> setMatrix e = Ret st -> acceptable e (mat_nr e).
Proof.
  intros ND HR. unfold setMatrix in HR.
  destruct (Nat.eqb_spec (mat_nr e) (mat_nc e)) as [Hd|Hd]; simpl in HR; [|discriminate].
  assert (HB : forall r c, stored e r c -> (r < mat_nr e /\ c < mat_nr e)%nat).
  { intros r c (v & Hv). split; [eapply mat_nr_bound; eauto|rewrite Hd; eapply mat_nc_bound; eauto]. }
  destruct (stencil_ok (mat_nr e) (scan_p (mat_nr e) e) (scan_q (mat_nr e) e)) eqn:HS; simpl in HR; [|discriminate].
  apply acceptable_stencil; auto.
Qed.
