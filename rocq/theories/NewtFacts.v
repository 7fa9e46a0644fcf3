(** NewtFacts.v - proofs about the line search and the iteration performer. *)
From Coq Require Import List Arith Bool QArith Qcanon Lia Qfield.
From Verif Require Import Base BaseFacts SMap SpModel MapModel JacModel JacSpec VecModel VOps LUModel NewtModel NewtSpec.
Import ListNotations.
Local Open Scope nat_scope.

Lemma obind_inv {A B} (o : Outcome A) (f : A -> Outcome B) b : obind o f = Ret b -> exists a, o = Ret a /\ f a = Ret b.
Proof. destruct o; simpl; intros E; try discriminate. eauto. Qed.
Ltac binv E := let a := fresh "r" in let H := fresh "E" in apply obind_inv in E; destruct E as [a [H E]].

Section LS.
Context {N : Num}.
Notation T := (nT N).
Notation vec := (list T).
Lemma lzip_length op (a b c : vec) : lzip op a b = Ret c -> length c = length a.
Proof.
  revert b c. induction a as [|x a I]; intros b c; simpl; [intros E; inversion E; reflexivity|].
  destruct b as [|y b]; [discriminate|]. intros E. binv E. inversion E. simpl. f_equal. eauto.
Qed.
Lemma lzip_ok op (a b : vec) : length a <= length b -> lzip op a b = Ret (map (fun i => op (nth i a (n0 N)) (nth i b (n0 N))) (seq 0 (length a))).
Proof.
  revert b. induction a as [|x a I]; intros b L; [reflexivity|]. destruct b as [|y b]; [simpl in L; lia|].
  simpl in L |- *. rewrite I by lia. simpl. rewrite <- seq_shift, map_map. reflexivity.
Qed.
Lemma lzip_throw op (a b : vec) : length b < length a -> lzip op a b = Throw.
Proof. revert b. induction a as [|x a I]; intros b L; simpl in *; [lia|]. destruct b; [reflexivity|]. simpl in L. rewrite I by lia. reflexivity. Qed.
Lemma lzip_inv op (a b c : vec) : lzip op a b = Ret c -> length a <= length b.
Proof. intros E. destruct (le_lt_dec (length a) (length b)); [assumption|]. rewrite lzip_throw in E by assumption. discriminate. Qed.
Lemma lscale_length (a : vec) k : length (lscale a k) = length a. Proof. apply map_length. Qed.

Context (lit : ls_lit N) (g : vmapping N) (dir x0 f0 : vec).
Hypothesis O : ls_order lit.
Definition good_entry (e : T * T) : Prop := exists f, residual_at g dir x0 (fst e) f /\ snd e = ratio f f0.
(** Loop invariant: the state holds the initial data, or the best trial. *)
Definition ls_ok (res : vec) (a0 : T) (st : ls_st N) : Prop :=
  (forall e, In e (ls_log st) -> good_entry e /\ nltb N (snd e) (ls_best st) = false) /\
  ((ls_best st = n1 N /\ ls_alpha st = a0 /\ ls_res st = res) \/
   (In (ls_alpha st, ls_best st) (ls_log st) /\ improves (ls_alpha st, ls_best st) /\ residual_at g dir x0 (ls_alpha st) (ls_res st))).
Lemma ls_loop_inv res a0 : forall k alpha st st' brk, ls_loop lit g dir x0 (lnorm2 f0) k alpha st = Ret (st', brk) -> ls_ok res a0 st ->
  nltb N (ls_best st) (l_eta lit) = false ->
  ls_ok res a0 st' /\ exists m new, ls_log st' = ls_log st ++ new /\ map fst new = map (halved lit alpha) (seq 0 m) /\ m <= k /\
    (brk = false -> m = k /\ forall e, In e new -> nltb N (snd e) (l_eta lit) = false) /\
    (brk = true -> exists pre e, new = pre ++ [e] /\ nltb N (snd e) (l_eta lit) = true /\ improves (ls_alpha st', ls_best st') /\
       (forall e', In e' pre -> nltb N (snd e') (l_eta lit) = false)).
Proof.
  destruct O as [TR [IR [_ [_ [E1 TE]]]]].
  induction k as [|k I]; intros alpha st st' brk E OK NE; simpl in E.
  { inversion E; subst. split; [assumption|]. exists 0, []. rewrite app_nil_r. repeat split; auto. intros ? []. discriminate. }
  binv E. binv E. set (r1 := ndiv N (lnorm2 r0) (lnorm2 f0)) in *.
  assert (G : good_entry (alpha, r1)) by (exists r0; split; [exists r; auto|reflexivity]).
  assert (RA : residual_at g dir x0 alpha r0) by (exists r; auto).
  set (st1 := if nltb N r1 (ls_best st) then mkLS r1 alpha r0 (ls_log st ++ [(alpha, r1)]) else mkLS (ls_best st) (ls_alpha st) (ls_res st) (ls_log st ++ [(alpha, r1)])) in *.
  assert (LG : ls_log st1 = ls_log st ++ [(alpha, r1)]) by (unfold st1; destruct (nltb N r1 (ls_best st)); reflexivity).
  assert (HB : forall b, nltb N b (ls_best st1) = true -> nltb N b (ls_best st) = true).
  { intros b. unfold st1. destruct (nltb N r1 (ls_best st)) eqn:X2; simpl; intros; eauto. }
  destruct OK as [O1 O2].
  assert (BL : ls_best st = n1 N \/ nltb N (ls_best st) (n1 N) = true) by (destruct O2 as [[B _]|[_ [B _]]]; auto).
  assert (NEr : nltb N (ls_best st1) (l_eta lit) = nltb N r1 (l_eta lit)).
  { unfold st1. destruct (nltb N r1 (ls_best st)) eqn:X2; simpl; auto.
    destruct (nltb N r1 (l_eta lit)) eqn:X3; [|assumption]. rewrite (TE _ _ X3 BL NE) in X2. discriminate. }
  assert (OK1 : ls_ok res a0 st1).
  { split.
    - rewrite LG. intros e I'. apply in_app_iff in I'. destruct I' as [I'|[I'|[]]].
      + destruct (O1 e I') as [A B]. split; [assumption|]. destruct (nltb N (snd e) (ls_best st1)) eqn:X; [|reflexivity]. apply HB in X. congruence.
      + subst e. split; [assumption|]. simpl. unfold st1. destruct (nltb N r1 (ls_best st)) eqn:X2; simpl; [apply IR|assumption].
    - unfold st1. destruct (nltb N r1 (ls_best st)) eqn:X2; simpl.
      + right. repeat split; auto. apply in_app_iff; simpl; auto.
        unfold improves; simpl. destruct BL as [B|B]; [rewrite <- B; assumption|]. eapply TR; eauto.
      + destruct O2 as [B|[B [C D]]]; [auto|]. right. repeat split; auto. apply in_app_iff; auto. }
  destruct (nltb N (ls_best st1) (l_eta lit)) eqn:X.
  - inversion E; subst st' brk. split; [assumption|]. exists 1, [(alpha, r1)]. repeat split; auto; try lia; try discriminate.
    intros _. exists [], (alpha, r1). repeat split; auto; [|intros ? []].
    destruct OK1 as [_ [[B _]|[_ [B _]]]]; [|assumption]. rewrite B in X. congruence.
  - destruct (I _ _ _ _ E OK1 X) as [OK2 [m [new [L [Mp [Le [F1 F2]]]]]]]. split; [assumption|].
    exists (S m), ((alpha, r1) :: new). rewrite L, LG, <- app_assoc. split; [reflexivity|]. split.
    { simpl. f_equal. rewrite Mp, <- seq_shift, map_map. apply map_ext. intros j. clear. induction j as [|j J]; [reflexivity|]. cbn [halved] in *. rewrite J. reflexivity. }
    split; [lia|]. split.
    + intros Eb. destruct (F1 Eb) as [A B]. split; [lia|]. intros e [H|H]; [subst e; simpl; congruence|auto].
    + intros Eb. destruct (F2 Eb) as [pre [e [A [B [C D]]]]]. exists ((alpha, r1) :: pre), e. rewrite A. repeat split; auto.
      intros e' [H|H]; [subst e'; simpl; congruence|auto].
Qed.
Lemma lineSearch_ok max res alpha res' log : lineSearch lit max g dir x0 f0 res = Ret (alpha, res', log) ->
  exists fw bw nf nb, log = fw ++ bw /\ map fst fw = map (halved lit (n1 N)) (seq 0 nf) /\ map fst bw = map (halved lit (l_m1 lit)) (seq 0 nb) /\
    nf <= max /\ nb <= max /\
    (forall a r, In (a, r) log -> exists f, residual_at g dir x0 a f /\ r = ratio f f0) /\
    (0 < nb -> nf = max /\ forall e, In e fw -> ~ improves e) /\
    (nf < max -> exists pre e, fw = pre ++ [e] /\ nltb N (snd e) (l_eta lit) = true) /\
    (0 < nb < max -> exists pre e, bw = pre ++ [e] /\ nltb N (snd e) (l_eta lit) = true) /\
    (forall pre e suf, log = pre ++ e :: suf -> nltb N (snd e) (l_eta lit) = true -> suf = []) /\
    ((alpha = n0 N /\ res' = res /\ nf = max /\ nb = max /\ forall e, In e log -> ~ improves e) \/
     (exists r, In (alpha, r) log /\ improves (alpha, r) /\ residual_at g dir x0 alpha res' /\ forall e, In e log -> nltb N (snd e) r = false)).
Proof.
  unfold lineSearch. intros E. pose proof O as O'. destruct O as [TR [IR [L1 [L2 [E1 TE]]]]].
  binv E. destruct r as [st1 brk1].
  destruct (ls_loop_inv res (n1 N) _ _ _ _ _ E0) as [OK1 [nf [fw [Lg [Mf [Lf [F1 F2]]]]]]].
  { split; [intros ? []|left; auto]. } { assumption. }
  simpl in Lg. destruct OK1 as [O1 O2].
  assert (NI : ls_best st1 = n1 N -> forall e, In e fw -> ~ improves e).
  { intros B e I H. rewrite <- Lg in I. destruct (O1 e I) as [_ Q]. rewrite B in Q. unfold improves in H. congruence. }
  assert (GE : forall l : list (T * T), (forall e, In e l -> good_entry e) -> forall a r, In (a, r) l -> exists f, residual_at g dir x0 a f /\ r = ratio f f0).
  { intros l H a r I. destruct (H _ I) as [f [A B]]. exists f. auto. }
  assert (SPL : forall (l pre suf : list (T * T)) x, l = pre ++ x :: suf -> nltb N (snd x) (l_eta lit) = true ->
     (forall l0 e, l = l0 ++ [e] -> (forall e', In e' l0 -> nltb N (snd e') (l_eta lit) = false) -> suf = [])).
  { intros l pre suf x A B l0 e C D. rewrite A in C. destruct (@exists_last _ (x :: suf) ltac:(discriminate)) as [l' [y Q]].
    rewrite Q, app_assoc in C. apply app_inj_tail in C. destruct C as [C _]. destruct l' as [|z l']; [inversion Q; reflexivity|].
    simpl in Q. inversion Q; subst z. rewrite <- C in D. rewrite (D x) in B; [discriminate|]. apply in_app_iff. simpl. auto. }
  destruct (negb brk1 && neqb N (ls_best st1) (n1 N)) eqn:C1.
  - apply andb_true_iff in C1. destruct C1 as [C1 C2]. apply negb_true_iff in C1. subst brk1. destruct (F1 eq_refl) as [Ef Fne].
    assert (B1 : ls_best st1 = n1 N /\ ls_alpha st1 = n1 N /\ ls_res st1 = res).
    { destruct O2 as [B|[_ [B _]]]; [assumption|]. unfold improves in B; simpl in B. apply L1 in B. congruence. }
    destruct B1 as [B1 [_ B3]].
    binv E. destruct r as [st2 brk2].
    destruct (ls_loop_inv res (l_m1 lit) _ _ _ _ _ E2) as [OK2 [nb [bw [Lg2 [Mb [Lb [G1 G2]]]]]]].
    { split; [intros e I; simpl in I |- *; rewrite B1; destruct (O1 e I); rewrite <- B1; auto|left; simpl; auto]. }
    { simpl. rewrite B1. assumption. }
    simpl in Lg2. rewrite Lg in Lg2. destruct OK2 as [P1 P2].
    assert (ES : (if negb brk2 && neqb N (ls_best st2) (n1 N) then n0 N else ls_alpha st2) = alpha /\ ls_res st2 = res' /\ ls_log st2 = log)
      by (inversion E; auto). clear E. destruct ES as [Ea [Er El]].
    rewrite Lg2 in El. subst log. exists fw, bw, nf, nb. repeat split; auto.
    + apply GE. intros e I. apply P1. rewrite Lg2. assumption.
    + lia.
    + intros [A B]. destruct brk2; [|destruct (G1 eq_refl); lia]. destruct (G2 eq_refl) as [pre [e [Q1 [Q2 _]]]]. eauto.
    + intros pre e suf Q1 Q2. destruct brk2.
      * destruct (G2 eq_refl) as [p2 [e2 [R1 [R2 [_ R3]]]]]. apply (SPL _ _ _ _ Q1 Q2 (fw ++ p2) e2). rewrite R1, app_assoc. reflexivity.
        intros e' I. apply in_app_iff in I. destruct I; auto.
      * destruct (G1 eq_refl) as [_ R]. assert (I : In e (fw ++ bw)) by (rewrite Q1; apply in_app_iff; simpl; auto).
        apply in_app_iff in I. destruct I as [I|I]; [rewrite (Fne _ I) in Q2|rewrite (R _ I) in Q2]; discriminate.
    + destruct P2 as [[Q1 [Q2 Q3]]|[Q1 [Q2 Q3]]].
      * left. assert (brk2 = false). { destruct brk2; [|reflexivity]. destruct (G2 eq_refl) as [? [? [_ [_ [H _]]]]]. unfold improves in H. simpl in H. rewrite Q1 in H. rewrite IR in H. discriminate. }
        subst brk2. rewrite Q1, L2 in Ea. simpl in Ea. destruct (G1 eq_refl). subst. repeat split; auto; try congruence.
        intros e I H1. rewrite <- Lg2 in I. destruct (P1 e I) as [_ Z]. rewrite Q1 in Z. unfold improves in H1. congruence.
      * right. unfold improves in Q2. simpl in Q2. rewrite (L1 _ Q2), andb_false_r in Ea. subst alpha res'. exists (ls_best st2). rewrite <- Lg2. repeat split; auto. intros e I. apply P1, I.
  - assert (ES : ls_alpha st1 = alpha /\ ls_res st1 = res' /\ ls_log st1 = log) by (inversion E; auto). clear E. destruct ES as [Ea [Er El]].
    assert (IM : In (ls_alpha st1, ls_best st1) (ls_log st1) /\ improves (ls_alpha st1, ls_best st1) /\ residual_at g dir x0 (ls_alpha st1) (ls_res st1)).
    { destruct O2 as [[B1 [B2 B3]]|B]; [|assumption]. exfalso. rewrite B1, L2, andb_true_r in C1. destruct brk1; [|discriminate].
      destruct (F2 eq_refl) as [? [? [_ [_ [H _]]]]]. unfold improves in H. simpl in H. rewrite B1, IR in H. discriminate. }
    rewrite Lg in El. subst log. exists fw, [], nf, 0. rewrite app_nil_r. repeat split; auto; try lia.
    + apply GE. intros e I. apply O1. rewrite Lg. assumption.
    + intros A. destruct brk1; [|destruct (F1 eq_refl); lia]. destruct (F2 eq_refl) as [pre [e [Q1 [Q2 _]]]]. eauto.
    + intros pre e suf Q1 Q2. destruct brk1.
      * destruct (F2 eq_refl) as [p2 [e2 [R1 [R2 [_ R3]]]]]. apply (SPL _ _ _ _ Q1 Q2 p2 e2); auto.
      * destruct (F1 eq_refl) as [_ R]. assert (I : In e fw) by (rewrite Q1; apply in_app_iff; simpl; auto). rewrite (R _ I) in Q2. discriminate.
    + right. destruct IM as [A [B C]]. subst alpha res'. exists (ls_best st1). rewrite <- Lg. repeat split; auto. intros e I. apply O1, I.
Qed.
End LS.
