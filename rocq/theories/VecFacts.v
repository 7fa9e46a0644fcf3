(** VecFacts.v - proofs about the vector model. *)
From Coq Require Import List Arith Bool Lia.
From Verif Require Import Base BaseFacts VecModel VecSpec.
Import ListNotations.

Section VecFacts.
Context {N : Num}.
Notation T := (nT N).
Implicit Types (m : mem N) (e dst src : vexpr N) (l : list T).

Fixpoint vscale e (x : T) : T := match e with VW _ => x | VB e' _ _ => vscale e' x | VS e' k => nmul N (vscale e' x) k end.

Lemma vat_char m e i : vat m e i = match nth_error (vec m (vbase e)) (i + voff e) with Some x => Ret (vscale e x) | None => Throw end.
Proof.
  revert i; induction e as [id|e IH f s|e IH k]; intros i; simpl.
  - unfold rdat; rewrite Nat.add_0_r; reflexivity.
  - rewrite IH. replace (i + f + voff e) with (i + (f + voff e)) by lia. reflexivity.
  - rewrite IH. destruct nth_error; reflexivity.
Qed.
Lemma viter_char m e i : viter N m e i = match nth_error (vec m (vbase e)) (i + voff e) with Some x => Ret (vscale e x) | None => UB end.
Proof.
  revert i; induction e as [id|e IH f s|e IH k]; intros i; simpl.
  - unfold rd; rewrite Nat.add_0_r; reflexivity.
  - rewrite IH. replace (f + i + voff e) with (i + (f + voff e)) by lia. reflexivity.
  - rewrite IH. destruct nth_error; reflexivity.
Qed.
Lemma vstore_char m e i v : assignable e -> vstore N m e i v =
  if i + voff e <? length (vec m (vbase e)) then (upd m (vbase e) (upd (vec m (vbase e)) (i + voff e) v), Ret tt) else (m, Throw).
Proof.
  revert i; induction e as [id|e IH f s|e IH k]; intros i A; simpl in *; try tauto.
  - rewrite Nat.add_0_r; reflexivity.
  - rewrite IH by assumption. replace (i + f + voff e) with (i + (f + voff e)) by lia. reflexivity.
Qed.
Lemma viter_store_char m e i v : assignable e -> viter_store N m e i v =
  if i + voff e <? length (vec m (vbase e)) then (upd m (vbase e) (upd (vec m (vbase e)) (i + voff e) v), Ret tt) else (m, UB).
Proof.
  revert i; induction e as [id|e IH f s|e IH k]; intros i A; simpl in *; try tauto.
  - rewrite Nat.add_0_r; reflexivity.
  - rewrite IH by assumption. replace (f + i + voff e) with (i + (f + voff e)) by lia. reflexivity.
Qed.
Lemma assignable_scale e x : assignable e -> vscale e x = x.
Proof. induction e; simpl; tauto. Qed.

Lemma wf_bound m e : well_formed m e -> voff e + vsize m e <= length (vec m (vbase e)) /\ vbase e < length m.
Proof. induction e as [id|e IH f s|e IH k]; simpl; intros H; [lia|destruct H as [H1 H2]; apply IH in H1; lia|auto]. Qed.

Lemma vec_upd m id j l : id < length m -> vec (upd m id l) j = if Nat.eqb j id then l else vec m j.
Proof.
  intros H. unfold vec. rewrite nth_upd. destruct (Nat.eqb_spec j id) as [->|E]; simpl.
  - apply Nat.ltb_lt in H. rewrite H. reflexivity.
  - reflexivity.
Qed.
Lemma vsize_len m m' e : (forall id, length (vec m' id) = length (vec m id)) -> vsize m' e = vsize m e.
Proof. intros H; induction e; simpl; auto. Qed.

Definition putr l off (g : nat -> T) k : list T := forn k (fun i l => upd l (off + i) (g i)) l.
Lemma putr_len l off g k : length (putr l off g k) = length l.
Proof. unfold putr; induction k as [|k IH]; simpl; [reflexivity|rewrite upd_length; exact IH]. Qed.
Lemma putr_nth l off g k p : off + k <= length l ->
  nth_error (putr l off g k) p = if (off <=? p) && (p <? off + k) then Some (g (p - off)) else nth_error l p.
Proof.
  induction k as [|k IH]; simpl; intros H.
  - destruct (Nat.leb_spec off p), (Nat.ltb_spec p (off + 0)); simpl; try lia; reflexivity.
  - change (putr l off g (S k)) with (upd (putr l off g k) (off + k) (g k)).
    rewrite nth_error_upd. try change (forn k _ l) with (putr l off g k). rewrite putr_len, IH by lia.
    destruct (Nat.eqb_spec p (off + k)) as [->|E].
    + destruct (Nat.ltb_spec (off + k) (length l)); [|lia]. simpl.
      destruct (Nat.leb_spec off (off + k)), (Nat.ltb_spec (off + k) (off + S k)); simpl; try lia.
      f_equal; f_equal; lia.
    + simpl. destruct (Nat.leb_spec off p), (Nat.ltb_spec p (off + k)), (Nat.ltb_spec p (off + S k)); simpl; try lia; reflexivity.
Qed.

Lemma upd_same m id : upd m id (vec m id) = m.
Proof. unfold vec. revert id; induction m as [|a m IH]; intros [|id]; simpl; try reflexivity. f_equal; apply IH. Qed.
Lemma upd_upd {A} (l : list A) i a b : upd (upd l i a) i b = upd l i b.
Proof. revert i; induction l as [|x l IH]; intros [|i]; simpl; f_equal; auto. Qed.

Lemma vloop_run (body : nat -> mem N -> mem N * Outcome unit) (st : nat -> mem N) n :
  (forall i, i < n -> body i (st i) = (st (S i), Ret tt)) -> vloop N body n 0 (st 0) = (st n, Ret tt).
Proof.
  intros H. assert (G : forall c i, i + c = n -> vloop N body c i (st i) = (st n, Ret tt)).
  { induction c as [|c IH]; intros i E; simpl. { replace n with i by lia; reflexivity. }
    rewrite H by lia. apply IH; lia. }
  apply G; lia.
Qed.
Lemma vloop_fail (body : nat -> mem N -> mem N * Outcome unit) (st : nat -> mem N) n k r : k < n ->
  (forall i, i < k -> body i (st i) = (st (S i), Ret tt)) -> body k (st k) = (st k, r) -> (forall u, r <> Ret u) ->
  vloop N body n 0 (st 0) = (st k, r).
Proof.
  intros L H F NR. assert (G : forall c i, i + c = n -> i <= k -> vloop N body c i (st i) = (st k, r)).
  { induction c as [|c IH]; intros i E Li; simpl. { lia. }
    destruct (Nat.eq_dec i k) as [->|D].
    - rewrite F. destruct r as [u| |]; [destruct (NR u eq_refl)|reflexivity|reflexivity].
    - rewrite H by lia. apply IH; lia. }
  apply G; lia.
Qed.

(** memory with elements off .. off+k-1 of dst set to g *)
Definition stk m dst g k : mem N := upd m (vbase dst) (putr (vec m (vbase dst)) (voff dst) g k).
Lemma stk0 m dst g : stk m dst g 0 = m.
Proof. unfold stk; simpl; apply upd_same. Qed.
Lemma vec_stk m dst g k id : well_formed m dst -> vec (stk m dst g k) id =
  if Nat.eqb id (vbase dst) then putr (vec m (vbase dst)) (voff dst) g k else vec m id.
Proof. intros H. unfold stk. apply vec_upd. apply wf_bound in H; lia. Qed.
Lemma stk_store m dst g k : well_formed m dst -> assignable dst -> k < vsize m dst ->
  vstore N (stk m dst g k) dst k (g k) = (stk m dst g (S k), Ret tt).
Proof.
  intros W A L. rewrite vstore_char by assumption. rewrite vec_stk by assumption. rewrite Nat.eqb_refl, putr_len.
  pose proof (wf_bound _ _ W). destruct (Nat.ltb_spec (k + voff dst) (length (vec m (vbase dst)))); [|lia].
  unfold stk at 1. rewrite upd_upd. unfold stk, putr. simpl. rewrite (Nat.add_comm k). reflexivity.
Qed.
Lemma stk_istore m dst g k : well_formed m dst -> assignable dst -> k < vsize m dst ->
  viter_store N (stk m dst g k) dst k (g k) = (stk m dst g (S k), Ret tt).
Proof.
  intros W A L. rewrite viter_store_char by assumption. rewrite vec_stk by assumption. rewrite Nat.eqb_refl, putr_len.
  pose proof (wf_bound _ _ W). destruct (Nat.ltb_spec (k + voff dst) (length (vec m (vbase dst)))); [|lia].
  unfold stk at 1. rewrite upd_upd. unfold stk, putr. simpl. rewrite (Nat.add_comm k). reflexivity.
Qed.
Lemma stk_cell m dst g k id p : well_formed m dst -> k <= vsize m dst ->
  nth_error (vec (stk m dst g k) id) p =
  if Nat.eqb id (vbase dst) && ((voff dst <=? p) && (p <? voff dst + k)) then Some (g (p - voff dst)) else nth_error (vec m id) p.
Proof.
  intros W L. pose proof (wf_bound _ _ W). rewrite vec_stk by assumption. destruct (Nat.eqb_spec id (vbase dst)) as [->|E]; simpl.
  - apply putr_nth; lia.
  - reflexivity.
Qed.
Lemma stk_len m dst g k id : well_formed m dst -> length (vec (stk m dst g k) id) = length (vec m id).
Proof. intros W. rewrite vec_stk by assumption. destruct (Nat.eqb_spec id (vbase dst)) as [->|]; [apply putr_len|reflexivity]. Qed.
Lemma stk_only m dst g : well_formed m dst -> only_changes m (stk m dst g (vsize m dst)) dst.
Proof.
  intros W. split; [unfold stk; apply upd_length|]. split; [intros; apply stk_len; assumption|].
  intros id k H. unfold cell. rewrite stk_cell by auto.
  destruct (Nat.eqb_spec id (vbase dst)); simpl; [|reflexivity].
  destruct (Nat.leb_spec (voff dst) k), (Nat.ltb_spec k (voff dst + vsize m dst)); simpl; try reflexivity; lia.
Qed.
Lemma stk_at m dst g k i : well_formed m dst -> assignable dst -> k <= vsize m dst -> i < k -> vat (stk m dst g k) dst i = Ret (g i).
Proof.
  intros W A L I. rewrite vat_char, stk_cell, Nat.eqb_refl by assumption. simpl.
  destruct (Nat.leb_spec (voff dst) (i + voff dst)), (Nat.ltb_spec (i + voff dst) (voff dst + k)); simpl; try lia.
  rewrite assignable_scale by assumption. do 2 f_equal; lia.
Qed.
Lemma stk_at_rest m dst g k i : well_formed m dst -> k <= vsize m dst -> k <= i -> vat (stk m dst g k) dst i = vat m dst i.
Proof.
  intros W L I. rewrite !vat_char, stk_cell, Nat.eqb_refl by assumption. simpl.
  destruct (Nat.leb_spec (voff dst) (i + voff dst)), (Nat.ltb_spec (i + voff dst) (voff dst + k)); simpl; try lia; reflexivity.
Qed.
Lemma stk_src m dst src g k : well_formed m dst -> k < vsize m dst -> order_safe m dst src ->
  vat (stk m dst g k) src k = vat m src k.
Proof.
  intros W L S. rewrite !vat_char, stk_cell by (assumption || lia).
  destruct (Nat.eqb_spec (vbase src) (vbase dst)) as [E|]; simpl; [|reflexivity].
  destruct (Nat.leb_spec (voff dst) (k + voff src)), (Nat.ltb_spec (k + voff src) (voff dst + k)); simpl; try reflexivity.
  destruct S as [S|S]; [congruence|lia].
Qed.

Definition getd m e i : T := match vat m e i with Ret x => x | _ => n0 N end.

Lemma vat_ok m e i : well_formed m e -> i < vsize m e -> exists x, vat m e i = Ret x.
Proof.
  intros W L. rewrite vat_char. destruct nth_error eqn:E; [eauto|].
  apply nth_error_None in E. pose proof (wf_bound _ _ W); lia.
Qed.

Lemma compound_run (op : T -> T -> T) m dst src k : well_formed m dst -> assignable dst -> order_safe m dst src -> k <= vsize m dst ->
  (forall i, i < k -> exists y, vat m src i = Ret y) ->
  let g := fun i => op (getd m dst i) (getd m src i) in
  forall i, i < k -> vcompound_body N op dst src i (stk m dst g i) = (stk m dst g (S i), Ret tt).
Proof.
  intros W A S L H g i I. unfold vcompound_body. rewrite stk_at_rest by (assumption || lia).
  rewrite stk_src by (assumption || lia).
  destruct (vat_ok m dst i W ltac:(lia)) as [x Ex]. destruct (H i I) as [y Ey]. rewrite Ex, Ey; simpl.
  assert (G : g i = op x y) by (unfold g, getd; rewrite Ex, Ey; reflexivity).
  rewrite <- G. apply stk_store; auto; lia.
Qed.

Lemma compound_ok (op : T -> T -> T) m dst src : well_formed m dst -> assignable dst -> order_safe m dst src ->
  (forall i, i < vsize m dst -> exists y, vat m src i = Ret y) ->
  exists m', vloop N (vcompound_body N op dst src) (vsize m dst) 0 m = (m', Ret tt) /\ only_changes m m' dst /\
    forall i x y, i < vsize m dst -> vat m dst i = Ret x -> vat m src i = Ret y -> vat m' dst i = Ret (op x y).
Proof.
  intros W A S H. set (g := fun i => op (getd m dst i) (getd m src i)).
  exists (stk m dst g (vsize m dst)). split; [|split].
  - rewrite <- (stk0 m dst g) at 2. apply (vloop_run _ (stk m dst g)). intros i I. apply compound_run with (k := vsize m dst); auto.
  - apply stk_only; assumption.
  - intros i x y I Ex Ey. rewrite stk_at by (assumption || lia). unfold g, getd. rewrite Ex, Ey. reflexivity.
Qed.

Lemma vat_whole m id i : vat m (VW id) i = match nth_error (vec m id) i with Some x => Ret x | None => Throw end.
Proof. rewrite vat_char; simpl. rewrite Nat.add_0_r. reflexivity. Qed.

Lemma compound_short (op : T -> T -> T) m dst src k : well_formed m dst -> assignable dst -> order_safe m dst src -> k < vsize m dst ->
  (forall i, i < k -> exists y, vat m src i = Ret y) -> vat m src k = Throw ->
  exists m', vloop N (vcompound_body N op dst src) (vsize m dst) 0 m = (m', Throw) /\ only_changes m m' dst /\
    (forall i x y, i < k -> vat m dst i = Ret x -> vat m src i = Ret y -> vat m' dst i = Ret (op x y)) /\
    (forall i, k <= i -> vat m' dst i = vat m dst i).
Proof.
  intros W A S L H F. set (g := fun i => op (getd m dst i) (getd m src i)).
  exists (stk m dst g k). split; [|split; [|split]].
  - rewrite <- (stk0 m dst g) at 2. apply (vloop_fail _ (stk m dst g)) with (k := k); auto.
    + intros i I. apply compound_run with (k := k); auto; lia.
    + unfold vcompound_body. rewrite stk_at_rest by (assumption || lia). rewrite stk_src by (assumption || lia).
      destruct (vat_ok m dst k W L) as [x Ex]. rewrite Ex, F. reflexivity.
    + discriminate.
  - split; [unfold stk; apply upd_length|]. split; [intros; apply stk_len; assumption|].
    intros id p Hp. unfold cell. rewrite stk_cell by (assumption || lia).
    destruct (Nat.eqb_spec id (vbase dst)); simpl; [|reflexivity].
    destruct (Nat.leb_spec (voff dst) p), (Nat.ltb_spec p (voff dst + k)); simpl; try reflexivity; lia.
  - intros i x y I Ex Ey. rewrite stk_at by (assumption || lia). unfold g, getd. rewrite Ex, Ey. reflexivity.
  - intros i I. apply stk_at_rest; auto; lia.
Qed.

Lemma times_ok m dst (c : T) : well_formed m dst -> assignable dst ->
  exists m', vtimeseq m dst c = (m', Ret tt) /\ only_changes m m' dst /\
    forall i x, i < vsize m dst -> vat m dst i = Ret x -> vat m' dst i = Ret (nmul N x c).
Proof.
  intros W A. set (g := fun i => nmul N (getd m dst i) c).
  exists (stk m dst g (vsize m dst)). split; [|split].
  - unfold vtimeseq. rewrite <- (stk0 m dst g) at 2. apply (vloop_run _ (stk m dst g)). intros i I.
    rewrite stk_at_rest by (assumption || lia). destruct (vat_ok m dst i W I) as [x Ex]. rewrite Ex.
    replace (nmul N x c) with (g i) by (unfold g, getd; rewrite Ex; reflexivity). apply stk_store; auto; lia.
  - apply stk_only; assumption.
  - intros i x I Ex. rewrite stk_at by (assumption || lia). unfold g, getd. rewrite Ex. reflexivity.
Qed.

(** the list of elements of a well-formed view *)
Definition elems m e : list T := map (getd m e) (seq 0 (vsize m e)).
Lemma getd_ok m e i : well_formed m e -> i < vsize m e -> vat m e i = Ret (getd m e i) /\ viter N m e i = Ret (getd m e i).
Proof.
  intros W L. unfold getd. rewrite vat_char, viter_char. destruct nth_error eqn:E; [auto|].
  apply nth_error_None in E. pose proof (wf_bound _ _ W); lia.
Qed.
Lemma nth_error_map_seq {A} (f : nat -> A) n i : i < n -> nth_error (map f (seq 0 n)) i = Some (f i).
Proof.
  intros H. rewrite (nth_error_nth' _ (f 0)) by (rewrite map_length, seq_length; lia).
  f_equal. rewrite nth_map_seq by assumption. reflexivity.
Qed.
Lemma elements_elems m e : well_formed m e -> elements m e (elems m e).
Proof.
  intros W. unfold elements, elems. rewrite map_length, seq_length. split; [reflexivity|]. intros i I.
  rewrite nth_error_map_seq by assumption. apply getd_ok; assumption.
Qed.
Lemma elements_eq m e l : well_formed m e -> elements m e l -> l = elems m e.
Proof.
  intros W [E1 E2]. unfold elems. apply nth_ext with (d := n0 N) (d' := n0 N).
  - rewrite map_length, seq_length; auto.
  - intros i I. rewrite nth_map_seq by lia. specialize (E2 i I).
    rewrite (nth_error_nth' _ (n0 N)) in E2 by assumption. unfold getd. rewrite E2. reflexivity.
Qed.

Lemma vread_ok m e : well_formed m e -> vread m e = Ret (elems m e).
Proof.
  intros W. unfold vread, elems. assert (G : forall c i, i + c <= vsize m e -> vread_ N m e c i = Ret (map (getd m e) (seq i c))).
  { induction c as [|c IH]; intros i H; simpl; [reflexivity|].
    rewrite (proj2 (getd_ok m e i W ltac:(lia))). simpl. rewrite IH by lia. reflexivity. }
  apply G; lia.
Qed.

(** assignment of a view of another vector *)
Lemma vresize_len n l : length (vresize N n l) = n.
Proof. unfold vresize. rewrite app_length, firstn_length, repeat_length. lia. Qed.

Lemma assign_ok m id src : id < length m -> well_formed m src -> vbase src <> id ->
  exists m', vassign m (VW id) src = (m', Ret tt) /\ replaced m m' id (elems m src).
Proof.
  intros I W D. unfold vassign. set (n := vsize m src). set (m1 := upd m id (vresize N n (vec m id))).
  assert (I1 : id < length m1) by (unfold m1; rewrite upd_length; assumption).
  assert (V1 : vec m1 id = vresize N n (vec m id)) by (unfold m1; rewrite vec_upd, Nat.eqb_refl; auto).
  assert (VO : forall j, j <> id -> vec m1 j = vec m j).
  { intros j J. unfold m1. rewrite vec_upd by assumption. destruct (Nat.eqb_spec j id); [contradiction|reflexivity]. }
  assert (W1 : well_formed m1 (VW id)) by exact I1.
  assert (S1 : vsize m1 (VW id) = n) by (simpl; rewrite V1; apply vresize_len).
  set (g := getd m src).
  assert (R : vcopy N m1 (VW id) src n = (stk m1 (VW id) g n, Ret tt)).
  { unfold vcopy. rewrite <- (stk0 m1 (VW id) g) at 1. apply (vloop_run _ (stk m1 (VW id) g)). intros i Hi.
    assert (Q : viter N (stk m1 (VW id) g i) src i = Ret (g i)).
    { rewrite viter_char. rewrite vec_stk by assumption. simpl. destruct (Nat.eqb_spec (vbase src) id); [contradiction|].
      rewrite VO by assumption. rewrite <- viter_char. apply getd_ok; assumption. }
    rewrite Q. apply stk_istore; auto; [exact Logic.I|lia]. }
  fold n in R. cbv zeta. rewrite R. eexists; split; [reflexivity|].
  split; [|split].
  - unfold stk, m1. rewrite !upd_length. reflexivity.
  - rewrite vec_stk by assumption. simpl. rewrite Nat.eqb_refl. rewrite V1.
    apply nth_ext with (d := n0 N) (d' := n0 N).
    + rewrite putr_len, vresize_len. unfold elems. rewrite map_length, seq_length. reflexivity.
    + intros i Hi. rewrite putr_len, vresize_len in Hi. unfold elems. rewrite nth_map_seq by assumption.
      apply nth_error_nth. rewrite putr_nth by (simpl; rewrite vresize_len; lia). simpl.
      destruct (Nat.ltb_spec i n); [|lia]. rewrite Nat.sub_0_r. reflexivity.
  - intros j J. rewrite vec_stk by assumption. simpl. destruct (Nat.eqb_spec j id); [contradiction|]. apply VO; assumption.
Qed.

(** assignment to a block, equal sizes *)
Lemma assign_block m e from s src : well_formed m (VB e from s) -> assignable e -> well_formed m src ->
  vsize m src = s -> order_safe m (VB e from s) src ->
  exists m', vassign m (VB e from s) src = (m', Ret tt) /\ only_changes m m' (VB e from s) /\
    forall i, i < s -> vat m' (VB e from s) i = vat m src i.
Proof.
  intros W A WS SZ OS. unfold vassign. set (dst := VB e from s) in *. set (g := getd m src).
  assert (Ad : assignable dst) by exact A. assert (Sd : vsize m dst = s) by reflexivity.
  exists (stk m dst g (vsize m dst)). split; [|split].
  - unfold vcopy. rewrite SZ, Sd. rewrite <- (stk0 m dst g) at 1. apply (vloop_run _ (stk m dst g)). intros i Hi.
    assert (Q : viter N (stk m dst g i) src i = Ret (g i)).
    { pose proof (stk_src m dst src g i W ltac:(lia) OS) as Q. destruct (getd_ok m src i WS ltac:(lia)) as [Q1 Q2].
      rewrite vat_char in Q. rewrite Q1 in Q. rewrite viter_char. destruct nth_error; [exact Q|discriminate]. }
    rewrite Q. apply stk_istore; auto; lia.
  - apply stk_only; assumption.
  - intros i Hi. rewrite stk_at by (assumption || lia). symmetry. apply getd_ok; auto; lia.
Qed.

(** clone and operator+ / - *)
Lemma vec_app_old m l j : j < length m -> vec (m ++ [l]) j = vec m j.
Proof. intros H. unfold vec. apply app_nth1; assumption. Qed.
Lemma vec_app_new m l : vec (m ++ [l]) (length m) = l.
Proof. unfold vec. rewrite app_nth2 by lia. rewrite Nat.sub_diag. reflexivity. Qed.
Lemma wf_app m l e : well_formed m e -> well_formed (m ++ [l]) e /\ vsize (m ++ [l]) e = vsize m e /\
   vbase e < length m /\ forall i, vat (m ++ [l]) e i = vat m e i.
Proof.
  induction e as [id|e IH f s|e IH k]; simpl; intros W.
  - rewrite app_length; simpl. rewrite vec_app_old by assumption. split; [lia|]. split; [reflexivity|]. split; [assumption|].
    intros i; reflexivity.
  - destruct W as [W L]. destruct (IH W) as [A [B [C D]]]. rewrite B. repeat split; auto.
  - destruct (IH W) as [A [B [C D]]]. repeat split; auto. intros i; rewrite D; reflexivity.
Qed.
Lemma upd_app_last {A} (l : list A) a b : upd (l ++ [a]) (length l) b = l ++ [b].
Proof. induction l as [|x l IH]; simpl; [reflexivity|]. rewrite IH; reflexivity. Qed.

Lemma clone_ok m src : well_formed m src -> vclone m src = (m ++ [elems m src], Ret (length m)).
Proof.
  intros W. unfold vclone. set (n := vsize m src). set (m1 := m ++ [repeat (n0 N) n]). set (id := length m).
  destruct (wf_app m (repeat (n0 N) n) src W) as [W1 [S1 [B1 E1]]]. fold m1 in W1, S1, E1.
  assert (WD : well_formed m1 (VW id)) by (simpl; unfold m1, id; rewrite app_length; simpl; lia).
  assert (VD : vec m1 id = repeat (n0 N) n) by apply vec_app_new.
  set (g := getd m src).
  assert (R : vcopy N m1 (VW id) src n = (stk m1 (VW id) g n, Ret tt)).
  { unfold vcopy. rewrite <- (stk0 m1 (VW id) g) at 1. apply (vloop_run _ (stk m1 (VW id) g)). intros i Hi.
    assert (Q : viter N (stk m1 (VW id) g i) src i = Ret (g i)).
    { rewrite viter_char, vec_stk by assumption. simpl. destruct (Nat.eqb_spec (vbase src) id); [unfold id in *; lia|].
      rewrite <- viter_char. destruct (getd_ok m1 src i W1 ltac:(rewrite S1; exact Hi)) as [Q1 Q2]. rewrite Q2.
      unfold g, getd. rewrite E1. reflexivity. }
    rewrite Q. apply stk_istore; [assumption|exact Logic.I|]. simpl. rewrite VD, repeat_length. assumption. }
  rewrite R. f_equal. unfold stk. simpl. rewrite VD. unfold m1, id. rewrite upd_app_last. f_equal. f_equal.
  apply nth_ext with (d := n0 N) (d' := n0 N).
  - rewrite putr_len, repeat_length. unfold elems. rewrite map_length, seq_length. reflexivity.
  - intros i Hi. rewrite putr_len, repeat_length in Hi. unfold elems. rewrite nth_map_seq by assumption.
    apply nth_error_nth. rewrite putr_nth by (simpl; rewrite repeat_length; lia). simpl.
    destruct (Nat.ltb_spec i n); [|lia]. rewrite Nat.sub_0_r. reflexivity.
Qed.

Lemma sum_ok (op : T -> T -> T) m a b : well_formed m a -> well_formed m b -> vsize m a = vsize m b ->
  vloop N (vcompound_body N op (VW (length m)) b) (vsize (m ++ [elems m a]) (VW (length m))) 0 (m ++ [elems m a]) =
  (m ++ [map (fun p => op (fst p) (snd p)) (combine (elems m a) (elems m b))], Ret tt).
Proof.
  intros WA WB SZ. set (id := length m). set (m1 := m ++ [elems m a]).
  destruct (wf_app m (elems m a) b WB) as [W1 [S1 [B1 E1]]]. fold m1 in W1, S1, E1.
  assert (VD : vec m1 id = elems m a) by apply vec_app_new.
  assert (LA : length (elems m a) = vsize m a) by (unfold elems; rewrite map_length, seq_length; reflexivity).
  assert (LB : length (elems m b) = vsize m b) by (unfold elems; rewrite map_length, seq_length; reflexivity).
  assert (SD : vsize m1 (VW id) = vsize m a) by (simpl; rewrite VD; exact LA).
  assert (WD : well_formed m1 (VW id)) by (simpl; unfold m1, id; rewrite app_length; simpl; lia).
  assert (OS : order_safe m1 (VW id) b) by (left; simpl; unfold id; lia).
  destruct (compound_ok op m1 (VW id) b WD Logic.I OS) as [m' [R [OC V]]].
  { intros i Hi. apply vat_ok; [assumption|]. rewrite S1. rewrite SD in Hi. lia. }
  rewrite R. f_equal. destruct OC as [L1 [L2 L3]].
  assert (LC : length (map (fun p => op (fst p) (snd p)) (combine (elems m a) (elems m b))) = vsize m a).
  { rewrite map_length, combine_length, LA, LB. lia. }
  apply nth_ext with (d := []) (d' := []).
  - rewrite L1. unfold m1. rewrite !app_length. reflexivity.
  - intros j Hj. rewrite L1 in Hj. unfold m1 in Hj. rewrite app_length in Hj. simpl in Hj.
    destruct (Nat.eq_dec j id) as [->|Dj].
    + unfold id at 2. rewrite app_nth2, Nat.sub_diag by lia. simpl.
      apply nth_ext with (d := n0 N) (d' := n0 N).
      * change (length (vec m' id) = length (map (fun p => op (fst p) (snd p)) (combine (elems m a) (elems m b)))).
        rewrite LC, L2, VD. exact LA.
      * intros i Hi. change (i < length (vec m' id)) in Hi. rewrite L2, VD, LA in Hi.
        change (nth i (vec m' id) (n0 N) = nth i (map (fun p => op (fst p) (snd p)) (combine (elems m a) (elems m b))) (n0 N)).
        destruct (getd_ok m a i WA Hi) as [Q1 _]. destruct (getd_ok m b i WB ltac:(lia)) as [Q2 _].
        assert (QA : nth_error (elems m a) i = Some (getd m a i)) by (apply nth_error_map_seq; assumption).
        assert (QB : nth_error (elems m b) i = Some (getd m b i)) by (apply nth_error_map_seq; lia).
        specialize (V i (getd m a i) (getd m b i)). rewrite SD in V.
        assert (V' : vat m' (VW id) i = Ret (op (getd m a i) (getd m b i))).
        { apply V; [assumption|rewrite vat_whole, VD, QA; reflexivity|rewrite E1; exact Q2]. }
        rewrite vat_whole in V'. destruct (nth_error (vec m' id) i) eqn:E; [|discriminate]. injection V' as ->.
        rewrite (nth_error_nth _ _ _ E). symmetry. apply nth_error_nth. rewrite nth_error_map.
        assert (QC : nth_error (combine (elems m a) (elems m b)) i = Some (getd m a i, getd m b i)).
        { rewrite (nth_error_nth' _ (getd m a i, getd m b i)) by (rewrite combine_length; lia). f_equal.
          rewrite combine_nth by lia. f_equal; apply nth_error_nth; assumption. }
        rewrite QC. reflexivity.
    + rewrite app_nth1 by (unfold id in *; lia). change (vec m' j = vec m j).
      rewrite <- (vec_app_old m (elems m a) j) by (unfold id in *; lia). fold m1.
      apply nth_ext with (d := n0 N) (d' := n0 N); [apply L2|]. intros i Hi.
      assert (Q := L3 j i (or_introl Dj)). unfold cell in Q.
      rewrite (nth_error_nth' _ (n0 N)) in Q by assumption. symmetry. apply nth_error_nth. symmetry. exact Q.
Qed.
End VecFacts.
