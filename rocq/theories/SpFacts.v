(** SpFacts.v - proofs about single sparse matrices: order, binary search, histories of edits. *)
From Coq Require Import List Arith Bool Lia.
From Verif Require Import Base BaseFacts SMap SpModel SpSpec.
Import ListNotations.

Lemma klt_before a b : klt KO a b <-> before a b.
Proof.
  unfold klt, KO, before. simpl. unfold pair_cmp. simpl. destruct (Nat.compare_spec (fst a) (fst b)).
  - rewrite Nat.compare_lt_iff. lia.
  - split; [auto|reflexivity].
  - split; [discriminate|lia].
Qed.
Lemma kltb_before a b : kltb a b = true <-> before a b.
Proof. rewrite <- klt_before. unfold kltb, klt. destruct (cmp KO a b); split; congruence. Qed.
Lemma kltb_false a b : kltb a b = false <-> ~ before a b.
Proof. rewrite <- kltb_before. destruct (kltb a b); split; congruence. Qed.
Lemma keqb2_spec a b : reflect (a = b) (keqb2 a b).
Proof.
  unfold keqb2. destruct a as [a1 a2], b as [b1 b2]; simpl.
  destruct (Nat.eqb_spec a1 b1), (Nat.eqb_spec a2 b2); simpl; constructor; congruence.
Qed.
Lemma keqb2_refl a : keqb2 a a = true.
Proof. destruct (keqb2_spec a a); congruence. Qed.
Lemma before_trichotomy a b : before a b \/ a = b \/ before b a.
Proof. destruct a, b; unfold before; simpl. destruct (lt_eq_lt_dec n n1) as [[?|?]|?]; [left; auto| |right; right; auto].
  destruct (lt_eq_lt_dec n0 n2) as [[?|?]|?]; subst; auto. Qed.
Lemma before_irrefl a : ~ before a a. Proof. unfold before; lia. Qed.
Lemma before_trans a b c : before a b -> before b c -> before a c. Proof. unfold before; lia. Qed.

Section SpFacts.
Context {N : Num}.
Notation T := (nT N).
Implicit Types (a : smat N) (d : list (key * T)) (p : key) (h : list (sop N)).

Lemma row_major_sorted d : row_major d <-> msorted KO d.
Proof.
  induction d as [|[k x] t IH]; simpl; [tauto|]. rewrite IH. split; intros [A B]; split; auto; intros k' x' I;
  [apply klt_before|apply klt_before]; eauto.
Qed.
Lemma keqb_keqb2 p q : keqb KO p q = keqb2 p q.
Proof. destruct (keqb_spec KO p q), (keqb2_spec p q); congruence. Qed.

(** ** binary search *)
Lemma row_major_nth d i j ki xi kj xj : row_major d -> i < j ->
  nth_error d i = Some (ki, xi) -> nth_error d j = Some (kj, xj) -> before ki kj.
Proof.
  revert i j; induction d as [|[k x] t IH]; intros i j S L A B; [destruct i; discriminate|].
  destruct S as [S1 S2]. destruct j as [|j]; [lia|]. destruct i as [|i]; simpl in *.
  - injection A as <- <-. apply nth_error_In in B. eauto.
  - eapply (IH i j); eauto; lia.
Qed.
Lemma lower_bound_spec d p : row_major d -> forall fuel first len, len <= fuel -> first + len <= length d ->
  (forall j k x, j < first -> nth_error d j = Some (k, x) -> before k p) ->
  (forall j k x, first + len <= j -> nth_error d j = Some (k, x) -> ~ before k p) ->
  let i := lower_bound_ fuel d first len p in
  (forall j k x, j < i -> nth_error d j = Some (k, x) -> before k p) /\
  (forall j k x, i <= j -> nth_error d j = Some (k, x) -> ~ before k p).
Proof.
  intros S. induction fuel as [|fuel IH]; intros first len Lf Ll A B; simpl.
  { assert (len = 0) by lia. subst. rewrite Nat.add_0_r in B. auto. }
  destruct (Nat.eqb_spec len 0) as [->|Hn]. { rewrite Nat.add_0_r in B. auto. }
  assert (Hh : Nat.div2 len < len) by (apply Nat.lt_div2; lia). set (half := Nat.div2 len) in *.
  destruct (nth_error d (first + half)) as [[k x]|] eqn:E.
  2:{ apply nth_error_None in E. lia. }
  destruct (kltb k p) eqn:K.
  - apply kltb_before in K. apply IH; try lia.
    + intros j k' x' Hj Ej. destruct (Nat.eq_dec j (first + half)) as [->|D]; [rewrite E in Ej; injection Ej as <- <-; exact K|].
      eapply before_trans; [|exact K]. eapply row_major_nth; [exact S| |exact Ej|exact E]. lia.
    + intros j k' x' Hj. apply B. lia.
  - apply kltb_false in K. apply IH; try lia.
    + exact A.
    + intros j k' x' Hj Ej Q. destruct (Nat.eq_dec j (first + half)) as [->|D].
      * rewrite E in Ej. injection Ej as <- <-. contradiction.
      * apply K. eapply before_trans; [|exact Q]. eapply row_major_nth; [exact S| |exact E|exact Ej]. lia.
Qed.

Lemma fast_pos_spec d p i : row_major d -> (fast_pos d p = Some i <-> exists x, nth_error d i = Some (p, x)).
Proof.
  intros S. unfold fast_pos, lower_bound.
  destruct (lower_bound_spec d p S (length d) 0 (length d)) as [A B]; try lia.
  { intros j k x Hj Ej. assert (nth_error d j <> None) by congruence. apply nth_error_Some in H. lia. }
  set (lb := lower_bound_ (length d) d 0 (length d) p) in *.
  split.
  - destruct (nth_error d lb) as [[k x]|] eqn:E; [|discriminate]. destruct (keqb2_spec k p) as [->|]; [|discriminate].
    intros Q; injection Q as <-. eauto.
  - intros [x E]. assert (i = lb) as ->.
    { destruct (lt_eq_lt_dec i lb) as [[L|L]|L]; [|assumption|].
      - destruct (before_irrefl p). eapply A; eauto.
      - exfalso. destruct (nth_error d lb) as [[k y]|] eqn:Elb.
        + assert (~ before k p) by (eapply B; [reflexivity|exact Elb]). apply H. eapply row_major_nth; eauto.
        + apply nth_error_None in Elb. assert (nth_error d i <> None) by congruence. apply nth_error_Some in H. lia. }
    rewrite E, keqb2_refl. reflexivity.
Qed.
Lemma fast_pos_None d p : row_major d -> (fast_pos d p = None <-> forall x, ~ In (p, x) d).
Proof.
  intros S. split.
  - intros H x I. apply In_nth_error in I as [i E]. assert (fast_pos d p = Some i) by (apply fast_pos_spec; eauto). congruence.
  - intros H. destruct (fast_pos d p) eqn:E; [|reflexivity]. apply fast_pos_spec in E as [x E]; [|assumption].
    apply nth_error_In in E. destruct (H x E).
Qed.

Lemma sfind_In a p x : row_major (sdat a) -> (sfind a p = Some x <-> In (p, x) (sdat a)).
Proof.
  intros S. unfold sfind. destruct (fast a).
  - split.
    + destruct (fast_pos (sdat a) p) as [i|] eqn:E; [|discriminate]. apply fast_pos_spec in E as [y E]; [|assumption].
      rewrite E. simpl. intros Q; injection Q as <-. eapply nth_error_In; eauto.
    + intros I. apply In_nth_error in I as [i E]. assert (F : fast_pos (sdat a) p = Some i) by (apply fast_pos_spec; eauto).
      rewrite F, E. reflexivity.
  - apply mfind_In. apply row_major_sorted. exact S.
Qed.
Lemma sfind_None a p : row_major (sdat a) -> (sfind a p = None <-> forall x, ~ In (p, x) (sdat a)).
Proof.
  intros S. destruct (sfind a p) as [x|] eqn:E.
  - split; [discriminate|]. intros H. apply sfind_In in E; [|assumption]. destruct (H x E).
  - split; [|reflexivity]. intros _ x I. apply sfind_In in I; [congruence|assumption].
Qed.
Lemma sfind_same_data a b p : row_major (sdat a) -> sdat a = sdat b -> sfind a p = sfind b p.
Proof.
  intros S E. assert (Sb : row_major (sdat b)) by (rewrite <- E; exact S).
  destruct (sfind b p) as [x|] eqn:F.
  - apply sfind_In; [assumption|]. rewrite E. apply sfind_In; assumption.
  - apply sfind_None; [assumption|]. rewrite E. apply sfind_None; assumption.
Qed.

(** ** at *)
Lemma nth_error_upd_map (A B : Type) (f : A -> B) (l : list A) i v : nth_error l i <> None ->
  (forall x, nth_error l i = Some x -> f x = f v) -> map f (upd l i v) = map f l.
Proof.
  revert i; induction l as [|y l IH]; intros [|i] H Q; simpl in *; try congruence.
  - f_equal. symmetry. auto.
  - f_equal. auto.
Qed.
Lemma row_major_keys d d' : map fst d = map fst d' -> row_major d -> row_major d'.
Proof.
  revert d'; induction d as [|[k x] t IH]; intros [|[k' x'] t'] E S; simpl in *; try discriminate; [exact I|].
  injection E as E1 E2. destruct S as [S1 S2]. subst k'. split; [|eauto].
  intros q y H. assert (H' : In q (map fst t)) by (rewrite E2; apply in_map_iff; exists (q, y); auto).
  apply in_map_iff in H' as [[q' y'] [E3 H']]. simpl in E3; subst q'. eauto.
Qed.

Lemma at_upd_map a p f : fast a = false -> row_major (sdat a) ->
  exists a', at_upd a p f = Ret a' /\ fast a' = false /\ ssz a' = ssz a /\ row_major (sdat a') /\
   sfind a' p = Some (f (get a p)) /\ (forall q, q <> p -> sfind a' q = sfind a q).
Proof.
  intros F S. unfold at_upd. rewrite F. eexists; split; [reflexivity|]. simpl.
  assert (M := proj1 (row_major_sorted _) S).
  repeat split.
  - apply row_major_sorted. apply mput_sorted. exact M.
  - unfold sfind at 1. simpl. rewrite mfind_put by exact M. rewrite keqb_keqb2, keqb2_refl. reflexivity.
  - intros q D. unfold sfind. rewrite F. simpl. rewrite mfind_put by exact M. rewrite keqb_keqb2.
    destruct (keqb2_spec q p); [contradiction|reflexivity].
Qed.
Lemma at_upd_fast a p f : fast a = true -> row_major (sdat a) -> forall x, In (p, x) (sdat a) ->
  exists a', at_upd a p f = Ret a' /\ fast a' = true /\ ssz a' = ssz a /\ row_major (sdat a') /\
   sfind a' p = Some (f x) /\ (forall q, q <> p -> sfind a' q = sfind a q) /\ map fst (sdat a') = map fst (sdat a).
Proof.
  intros F S x I. apply In_nth_error in I as [i E]. unfold at_upd. rewrite F.
  assert (P : fast_pos (sdat a) p = Some i) by (apply fast_pos_spec; eauto). rewrite P, E.
  eexists; split; [reflexivity|]. simpl.
  assert (K : map fst (upd (sdat a) i (p, f x)) = map fst (sdat a)).
  { apply nth_error_upd_map; [congruence|]. intros y Ey. rewrite E in Ey. injection Ey as <-. reflexivity. }
  assert (S' : row_major (upd (sdat a) i (p, f x))) by (eapply row_major_keys; [symmetry; exact K|exact S]).
  assert (L : i < length (sdat a)) by (apply nth_error_Some; congruence).
  assert (NE : forall j, nth_error (upd (sdat a) i (p, f x)) j = if Nat.eqb j i then Some (p, f x) else nth_error (sdat a) j).
  { intros j. rewrite nth_error_upd. destruct (Nat.eqb_spec j i) as [->|]; simpl; [|reflexivity].
    destruct (Nat.ltb_spec i (length (sdat a))); [reflexivity|lia]. }
  repeat split; auto.
  - apply sfind_In; [exact S'|]. apply nth_error_In with (n := i). simpl. rewrite NE, Nat.eqb_refl. reflexivity.
  - intros q D. destruct (sfind a q) as [y|] eqn:Q.
    + apply sfind_In in Q; [|assumption]. apply sfind_In; [exact S'|]. apply In_nth_error in Q as [j Ej].
      apply nth_error_In with (n := j). simpl. rewrite NE. destruct (Nat.eqb_spec j i) as [->|]; [|exact Ej].
      rewrite E in Ej. congruence.
    + apply sfind_None; [exact S'|]. intros y Iy. simpl in Iy. apply In_nth_error in Iy as [j Ej]. rewrite NE in Ej.
      destruct (Nat.eqb_spec j i); [congruence|]. apply nth_error_In in Ej.
      destruct (proj1 (sfind_None a q S) Q y Ej).
Qed.
Lemma at_upd_fast_absent a p f : fast a = true -> row_major (sdat a) -> (forall x, ~ In (p, x) (sdat a)) -> at_upd a p f = Throw.
Proof. intros F S H. unfold at_upd. rewrite F. apply fast_pos_None in H; [|assumption]. rewrite H. reflexivity. Qed.

(** both storages at once *)
Lemma at_upd_ok a p f : row_major (sdat a) -> (fast a = true -> exists x, In (p, x) (sdat a)) ->
  exists a', at_upd a p f = Ret a' /\ fast a' = fast a /\ ssz a' = ssz a /\ row_major (sdat a') /\
   sfind a' p = Some (f (get a p)) /\ (forall q, q <> p -> sfind a' q = sfind a q).
Proof.
  intros S H. destruct (fast a) eqn:F.
  - destruct (H eq_refl) as [x I]. destruct (at_upd_fast a p f F S x I) as [a' [A [B [C [D [E [G _]]]]]]].
    exists a'. repeat split; auto. rewrite E. f_equal. unfold get. apply sfind_In in I; [|assumption]. rewrite I. reflexivity.
  - destruct (at_upd_map a p f F S) as [a' [A [B [C [D [E G]]]]]]. exists a'. repeat split; auto.
Qed.

(** ** histories *)
Lemma mdel_row_major p d : row_major d -> row_major (mdel KO p d).
Proof. rewrite !row_major_sorted. apply mdel_sorted. Qed.

Lemma srun1_inv p a o : fast a = false -> row_major (sdat a) ->
  let a' := srun1 a o in fast a' = false /\ row_major (sdat a') /\
  (ssz a', sfind a' p) = pos_step p (ssz a, sfind a p) o.
Proof.
  intros F S. assert (M := proj1 (row_major_sorted _) S). destruct o as [q f|q|s| |]; simpl.
  - destruct (at_upd_map a q f F S) as [a' [A [B [C [D [E G]]]]]]. rewrite A. repeat split; auto.
    rewrite C. destruct (keqb2_spec q p) as [->|Dq].
    + rewrite E. unfold get. reflexivity.
    + rewrite G by congruence. reflexivity.
  - unfold removeAt. rewrite F. simpl. repeat split; [apply mdel_row_major; exact S|].
    unfold sfind. rewrite F. simpl. rewrite mfind_del by exact M. rewrite keqb_keqb2.
    destruct (keqb2_spec p q) as [D|D], (keqb2_spec q p) as [E|E]; try congruence; reflexivity.
  - unfold resize. destruct (keqb2_spec (ssz a) s) as [E|E]; simpl; [auto|]. rewrite F. simpl. repeat split.
    + apply row_major_sorted. apply mfilter_sorted. exact M.
    + unfold sfind. rewrite F. simpl. unfold resizeData. f_equal.
      change ((fst p <? fst s) && (snd p <? snd s)) with (inside s p).
      destruct (inside s p) eqn:I.
      * destruct (mfind KO p (sdat a)) as [x|] eqn:Q.
        -- apply mfind_In; [apply mfilter_sorted; exact M|]. apply filter_In. split; [|exact I]. apply (proj1 (mfind_In KO _ _ _ M)). exact Q.
        -- apply mfind_None; [apply mfilter_sorted; exact M|]. intros x Hx. apply filter_In in Hx as [Hx _].
           apply (proj1 (mfind_None KO _ _ M) Q x Hx).
      * apply mfind_None; [apply mfilter_sorted; exact M|]. intros x Hx. apply filter_In in Hx as [_ Hx]. simpl in Hx. congruence.
  - unfold clear. rewrite F. simpl. repeat split.
  - unfold makeZero. rewrite F. simpl. repeat split.
    + apply row_major_keys with (d := sdat a); [|exact S]. rewrite map_map. reflexivity.
    + f_equal. unfold sfind. rewrite F. simpl.
      pose proof (mfind_map KO (fun (_ : key) (_ : T) => n0 N) (sdat a) p) as Q. simpl in Q. rewrite Q.
      destruct (mfind KO p (sdat a)); reflexivity.
Qed.

Lemma srun_inv s0 h p : let a := srun s0 h in fast a = false /\ row_major (sdat a) /\ (ssz a, sfind a p) = pos_history s0 h p.
Proof.
  unfold srun, pos_history.
  assert (G : forall h a st, fast a = false -> row_major (sdat a) -> (ssz a, sfind a p) = st ->
    let a' := fold_left srun1 h a in fast a' = false /\ row_major (sdat a') /\ (ssz a', sfind a' p) = fold_left (pos_step p) h st).
  { clear h. induction h as [|o h IH]; intros a st F S E; simpl; [auto|].
    destruct (srun1_inv p a o F S) as [A [B C]]. apply IH; auto. rewrite C, E. reflexivity. }
  apply G; [reflexivity|exact I|reflexivity].
Qed.

Lemma history_reads s0 h p :
  get (srun s0 h) p = match snd (pos_history s0 h p) with Some x => x | None => n0 N end /\
  hasIndex (srun s0 h) p = match snd (pos_history s0 h p) with Some _ => true | None => false end /\
  ssz (srun s0 h) = fst (pos_history s0 h p).
Proof. destruct (srun_inv s0 h p) as [_ [_ E]]. rewrite <- E. repeat split. Qed.

Lemma pos_alone p h : (forall o, In o h -> leaves_alone p o) -> forall st, snd (fold_left (pos_step p) h st) = snd st.
Proof.
  induction h as [|o h IH]; intros H st; simpl; [reflexivity|]. rewrite IH by (intros; apply H; right; assumption).
  specialize (H o (or_introl eq_refl)). destruct st as [sz cur]. destruct o as [q f|q|s| |]; simpl in *; try contradiction.
  - destruct (keqb2_spec q p); [contradiction|reflexivity].
  - destruct (keqb2_spec q p); [contradiction|reflexivity].
  - destruct (keqb2 sz s); [reflexivity|]. destruct (Nat.ltb_spec (fst p) (fst s)), (Nat.ltb_spec (snd p) (snd s)); simpl; try lia. reflexivity.
Qed.
Lemma last_write s0 h1 h2 p (v : T) : (forall o, In o h2 -> leaves_alone p o) ->
  get (srun s0 (h1 ++ OpUpd p (fun _ => v) :: h2)) p = v /\ hasIndex (srun s0 (h1 ++ OpUpd p (fun _ => v) :: h2)) p = true.
Proof.
  intros H. destruct (history_reads s0 (h1 ++ OpUpd p (fun _ => v) :: h2) p) as [A [B _]]. rewrite A, B.
  unfold pos_history. rewrite fold_left_app. simpl. rewrite pos_alone by assumption.
  destruct (fold_left (pos_step p) h1 (s0, None)) as [sz cur]. simpl. rewrite keqb2_refl. auto.
Qed.
Lemma pos_size p h : forall st, fst (fold_left (pos_step p) h st) =
  fold_left (fun s o => match o with OpResize s' => s' | _ => s end) h (fst st).
Proof.
  induction h as [|o h IH]; intros [sz cur]; simpl; [reflexivity|]. rewrite IH. f_equal.
  destruct o as [q f|q|s| |]; simpl; try reflexivity; try (destruct (keqb2 q p); reflexivity).
  destruct (keqb2_spec sz s) as [->|]; reflexivity.
Qed.
Lemma removed_reads_zero s0 h1 h2 p o : (forall o', In o' h2 -> leaves_alone p o') ->
  (o = OpRemove p \/ o = OpClear \/
   exists s, o = OpResize s /\ s <> fold_left (fun s o => match o with OpResize s' => s' | _ => s end) h1 s0 /\
             ~ (fst p < fst s /\ snd p < snd s)) ->
  get (srun s0 (h1 ++ o :: h2)) p = n0 N /\ hasIndex (srun s0 (h1 ++ o :: h2)) p = false.
Proof.
  intros H K. destruct (history_reads s0 (h1 ++ o :: h2) p) as [A [B _]]. rewrite A, B.
  unfold pos_history. rewrite fold_left_app. simpl. rewrite pos_alone by assumption.
  pose proof (pos_size p h1 (s0, None)) as Z. simpl in Z.
  destruct (fold_left (pos_step p) h1 (s0, None)) as [sz cur]. simpl in Z.
  destruct K as [->|[->|[s [-> [K1 K2]]]]]; simpl.
  - rewrite keqb2_refl. auto.
  - auto.
  - destruct (keqb2_spec sz s) as [E|E]; [congruence|].
    destruct (Nat.ltb_spec (fst p) (fst s)), (Nat.ltb_spec (snd p) (snd s)); simpl; try tauto.
Qed.
Lemma never_written s0 h p : (forall q f, In (OpUpd q f) h -> q <> p) ->
  get (srun s0 h) p = n0 N /\ hasIndex (srun s0 h) p = false.
Proof.
  intros H. destruct (history_reads s0 h p) as [A [B _]]. rewrite A, B. unfold pos_history.
  assert (G : forall h, (forall q f, In (OpUpd q f) h -> q <> p) -> forall sz, snd (fold_left (pos_step p) h (sz, None)) = None).
  { clear. induction h as [|o h IH]; intros H sz; simpl; [reflexivity|].
    assert (H' : forall q f, In (OpUpd q f) h -> q <> p) by (intros q f I; eapply H; right; exact I).
    destruct o as [q f|q|s| |]; simpl.
    - destruct (keqb2_spec q p) as [E|]; [destruct (H q f (or_introl eq_refl) E)|auto].
    - destruct (keqb2 q p); auto.
    - destruct (keqb2 sz s); auto. destruct ((fst p <? fst s) && (snd p <? snd s)); auto.
    - auto.
    - auto. }
  rewrite G by assumption. auto.
Qed.
Lemma iteration s0 h : row_major (sdat (srun s0 h)) /\
  forall p x, In (p, x) (sdat (srun s0 h)) <-> snd (pos_history s0 h p) = Some x.
Proof.
  destruct (srun_inv s0 h (0, 0)) as [_ [S _]]. split; [exact S|]. intros p x.
  destruct (srun_inv s0 h p) as [_ [_ E]]. rewrite <- E. simpl. symmetry. apply sfind_In. exact S.
Qed.
End SpFacts.
