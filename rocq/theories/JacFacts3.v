(** JacFacts3.v - the remaining lemmas closing PropJac.v. *)
From Coq Require Import List Arith Bool Lia Permutation.
From Verif Require Import Base BaseFacts SMap SpModel SpSpec SpFacts MapModel JacModel JacSpec JacFacts JacFacts2.
Import ListNotations.
Local Open Scope nat_scope.
Section JF3.
Context {N : Num}.
Notation T := (nT N).
Notation vec := (list T).
Lemma calculate_respects (delta : T) (g : vmapping N) (F : vec -> vec) (n m : nat) (x0 : vec) (J : smat N) :
  computes g F n m -> ssz J = (m, n) -> length x0 = n -> well_sized J -> respects F n J ->
  exists J' xs, computeSparseJacobian delta g x0 J = Ret (J', x0 :: xs) /\
    fast J' = fast J /\ ssz J' = ssz J /\ map fst (sdat J') = map fst (sdat J) /\
    length xs = length (groups J) /\
    forall r c v, In ((r, c), v) (sdat J') -> v = quotient F x0 delta r c.
Proof.
  intros CF SZ L W RS. destruct (calculate_gen delta g F n m x0 J CF SZ L W) as [J' [xs [E [A [B [C [D V]]]]]]].
  exists J', xs. repeat split; auto.
Qed.
Lemma calculate_count (delta : T) (g : vmapping N) (F : vec -> vec) (n m : nat) (x0 : vec) (J J0 : smat N) (lay : layout) :
  computes g F n m -> ssz J = (m, n) -> length x0 = n -> well_sized J ->
  ssz J0 = ssz J -> map fst (sdat J0) = map fst (sdat J) -> calc_layout J0 = Ret lay ->
  exists J' log, calculate delta lay g x0 J = Ret (J', log) /\ length log = evaluationsRequired lay /\ evaluationsRequired lay <= n + 1.
Proof.
  intros CF SZ L W SZ0 K CL. destruct (calculate_gen delta g F n m x0 J CF SZ L W) as [J' [xs [E [A [B [C [D V]]]]]]].
  unfold computeSparseJacobian in E. rewrite <- (calc_layout_keys J0 J SZ0 K), CL in E. cbn [obind] in E.
  exists J', (x0 :: xs). split; [exact E|].
  rewrite (calc_layout_keys J0 J SZ0 K), (calc_layout_ok J W) in CL. injection CL as <-. unfold evaluationsRequired. rewrite map_length. cbn [length]. rewrite D.
  destruct (groups_ok J) as [_ [_ LE]]. rewrite SZ in LE. cbn [snd] in LE. lia.
Qed.
Lemma groups_partition (J : smat N) : Permutation (concat (groups J)) (seq 0 (snd (ssz J))).
Proof. apply groups_ok. Qed.
Lemma groups_orthogonal (J : smat N) (G : list nat) (c c' r : nat) :
  In G (groups J) -> In c G -> In c' G -> c <> c' -> stored J r c -> ~ stored J r c'.
Proof. intros I. destruct (groups_ok J) as [_ [H _]]. destruct (H G I) as [_ [_ [_ O]]]. apply O. Qed.
Lemma groups_count (J : smat N) : (forall G, In G (groups J) -> G <> []) /\ length (groups J) <= snd (ssz J).
Proof. destruct (groups_ok J) as [_ [H L]]. split; [intros G I; apply (H G I)|exact L]. Qed.

Lemma group_scan_max (d : list (key * T)) : forall todo aff c', In c' (snd (group_scan d aff todo)) ->
  exists r, In r (crows d c') /\ (In r aff \/ exists c, In c (fst (group_scan d aff todo)) /\ In r (crows d c)).
Proof.
  induction todo as [|a t IH]; intros aff c' I; [destruct I|]. simpl in I |- *. destruct (intersects d aff a) eqn:E; cbn [fst snd] in I |- *.
  - destruct I as [<-|I]; [|apply IH; exact I].
    unfold intersects in E. apply existsb_exists in E as [r [Ir E]]. apply existsb_exists in E as [r' [Ir' E]]. apply Nat.eqb_eq in E. subst r'.
    exists r. auto.
  - destruct (IH _ _ I) as [r [Ir [A|[c [Ic Irc]]]]].
    + exists r. split; [exact Ir|]. apply in_app_or in A as [A|A]; [right; exists a; split; [left; reflexivity|exact A]|left; exact A].
    + exists r. split; [exact Ir|]. right. exists c. split; [right; exact Ic|exact Irc].
Qed.
Lemma group_loop_max (d : list (key * T)) : forall fu todo, length todo <= fu -> forall i j G G' c',
  nth_error (group_loop fu d todo) i = Some G -> nth_error (group_loop fu d todo) j = Some G' -> i < j -> In c' G' ->
  exists c r, In c G /\ In r (crows d c) /\ In r (crows d c').
Proof.
  induction fu as [|fu IH]; intros todo L i j G G' c' Hi Hj Lt I.
  - destruct todo; [|simpl in L; lia]. destruct i; discriminate.
  - destruct todo as [|a t]; [destruct i; discriminate|]. cbn [group_loop] in Hi, Hj. simpl in L.
    destruct (group_scan_ok d t (crows d a)) as [P _].
    assert (L2 : length (snd (group_scan d (crows d a) t)) <= fu).
    { apply Permutation_length in P. rewrite app_length in P. lia. }
    destruct j as [|j]; [lia|]. cbn [nth_error] in Hj. destruct i as [|i].
    + cbn [nth_error] in Hi. injection Hi as <-.
      assert (Ic : In c' (snd (group_scan d (crows d a) t))).
      { destruct (group_loop_ok d fu _ L2) as [P2 _]. eapply Permutation_in; [exact P2|]. apply in_concat. exists G'. split; [eapply nth_error_In; eauto|exact I]. }
      destruct (group_scan_max d t (crows d a) c' Ic) as [r [Ir [A|[c [Icc Irc]]]]].
      * exists a, r. split; [left; reflexivity|auto].
      * exists c, r. split; [right; exact Icc|auto].
    + cbn [nth_error] in Hi. eapply (IH _ L2 i j); eauto. lia.
Qed.
Lemma groups_maximal (J : smat N) (i j : nat) (G G' : list nat) (c' : nat) :
  nth_error (groups J) i = Some G -> nth_error (groups J) j = Some G' -> i < j -> In c' G' ->
  exists c r, In c G /\ stored J r c /\ stored J r c'.
Proof.
  intros Hi Hj Lt I. assert (LE : length (seq 0 (snd (ssz J))) <= snd (ssz J)) by (rewrite seq_length; lia).
  destruct (group_loop_max (sdat J) (snd (ssz J)) (seq 0 (snd (ssz J))) LE i j G G' c' Hi Hj Lt I) as [c [r [A [B C]]]].
  exists c, r. split; [exact A|]. split; apply crows_In; assumption.
Qed.
Lemma sp_first (dx : T) (n : nat) (p : sprov N) (g : vmapping N) (F : vec -> vec) (x0 : vec) :
  sp_reach dx n p -> computes g F n n -> length x0 = n -> sdat (spJ p) = [] ->
  exists p', sp_compute dx None g x0 p = Ret (p', x0 :: map (bumped x0 dx) (seq 0 n)) /\
    (forall r c, hasIndex (spJ p') (r, c) = true <-> r < n /\ c < n /\ neqb N (change F x0 dx r c) (n0 N) = false) /\
    (forall r c, hasIndex (spJ p') (r, c) = true -> get (spJ p') (r, c) = quotient F x0 dx r c).
Proof. intros _ CF L E. destruct (sp_compute_first dx g F n x0 p CF L E) as [p' [A [_ [B [C _]]]]]. exists p'. auto. Qed.
Lemma sp_later (dx : T) (n : nat) (p : sprov N) (g : vmapping N) (F : vec -> vec) (x0 : vec) :
  sp_reach dx n p -> computes g F n n -> length x0 = n -> sdat (spJ p) <> [] ->
  exists p' xs, sp_compute dx None g x0 p = Ret (p', x0 :: xs) /\ length xs = length (groups (spJ p)) /\
    map fst (sdat (spJ p')) = map fst (sdat (spJ p)) /\
    (respects F n (spJ p) -> forall r c v, In ((r, c), v) (sdat (spJ p')) -> v = quotient F x0 dx r c).
Proof.
  intros R CF L E. destruct (sp_compute_next dx g F n x0 p CF L E (sp_reach_inv dx n p R)) as [p' [xs [A [_ [B [C D]]]]]]. exists p', xs. auto.
Qed.
End JF3.
