(** MoreFacts3.v - reading and writing trees of parameters; default configuration; trimmed Jacobians of the providers; empty observer lists; outputs. *)
From Coq Require Import List Arith Bool ZArith QArith Qcanon String Lia.
Require Import Verif.Base Verif.BaseFacts Verif.SMap Verif.ObsModel Verif.ObsSpec Verif.ObsFacts Verif.CfgModel Verif.CfgSpec Verif.CfgFacts Verif.More3Spec.
Import ListNotations.

Lemma proper_sorted r : proper r -> msorted TOstr r. Proof. intros H. inversion H. assumption. Qed.
Lemma proper_nested r a s r' : proper r -> In (a, PV s (Some r')) r -> proper r'.
Proof. intros H I. inversion H as [? ? N]. exact (N a s r' I). Qed.
Lemma holds_nil r v : ~ holds r [] v. Proof. intros H. inversion H. Qed.
Lemma read_iff : forall p r v, proper r -> (tvalue r p = Ret v <-> holds r p v).
Proof.
  induction p as [|a p I]; intros r v PR; [split; [discriminate|intros H; destruct (holds_nil _ _ H)]|]. pose proof (proper_sorted r PR) as SR. cbn [tvalue]. split.
  - destruct (mfind TOstr a r) as [[s n]|] eqn:E; [|discriminate]. apply (mfind_In TOstr) in E; [|exact SR]. destruct p as [|b p].
    + intros [= <-]. apply holds_here. exact E.
    + destruct n as [r'|]; [|discriminate]. intros H. apply (holds_below r a s r'); [exact E|]. apply (I r' v (proper_nested _ _ _ _ PR E)). exact H.
  - intros H. inversion H as [r0 a0 v0 IN|r0 a0 s r' p0 v0 IN HB]; subst; apply (mfind_In TOstr) in IN; try exact SR; rewrite IN.
    + destruct v. reflexivity.
    + destruct p as [|b p]; [destruct (holds_nil _ _ HB)|]. apply (I r' v); [|exact HB]. apply (mfind_In TOstr) in IN; [|exact SR]. exact (proper_nested _ _ _ _ PR IN).
Qed.
Lemma tvalue_noub : forall p r, tvalue r p <> UB.
Proof.
  induction p as [|a p I]; intros r; cbn [tvalue]; [discriminate|]. destruct (mfind TOstr a r) as [[s n]|]; [|discriminate]. destruct p as [|b p]; [discriminate|]. destruct n as [r'|]; [apply I|discriminate].
Qed.
Lemma read_throws p r : proper r -> (tvalue r p = Throw <-> forall v, ~ holds r p v).
Proof.
  intros PR. split.
  - intros E v H. apply (read_iff p r v PR) in H. congruence.
  - intros H. destruct (tvalue r p) as [v| |] eqn:E; [|reflexivity|destruct (tvalue_noub _ _ E)]. apply (read_iff p r v PR) in E. destruct (H v E).
Qed.
(** what an assignment does *)
Lemma assign_is : forall p r v, proper r ->
  (forall t, tassign r p v = Ret t -> msorted TOstr t) /\ tassign r p v <> UB /\ (tassign r p v = Throw <-> forall u, ~ holds r p u).
Proof.
  induction p as [|a p I]; intros r v PR; pose proof (proper_sorted r PR) as SR; cbn [tassign].
  - split; [discriminate|]. split; [discriminate|]. split; [|reflexivity]. intros _ u. apply holds_nil.
  - destruct (mfind TOstr a r) as [[s n]|] eqn:E.
    + pose proof E as IN. apply (mfind_In TOstr) in IN; [|exact SR]. destruct p as [|b p].
      * split; [intros t [= <-]; apply mput_sorted; exact SR|]. split; [discriminate|]. split; [discriminate|]. intros H. destruct (H (PV s n) (holds_here _ _ _ IN)).
      * destruct n as [r'|].
        -- destruct (I r' v (proper_nested _ _ _ _ PR IN)) as (_ & NU & TH). destruct (tassign r' (b :: p) v) as [t'| |] eqn:ET; cbn [obind].
           ++ split; [intros t [= <-]; apply mput_sorted; exact SR|]. split; [discriminate|]. split; [discriminate|]. intros H. assert (X : @Ret params t' = Throw); [|discriminate X].
              apply TH. intros u HU. apply (H u). exact (holds_below _ _ _ _ _ _ IN HU).
           ++ split; [discriminate|]. split; [discriminate|]. split; [|reflexivity]. intros _ u H. inversion H as [|r0 a0 s0 r0' p0 v0 IN' HB]; subst.
              apply (mfind_In TOstr) in IN'; [|exact SR]. rewrite E in IN'. injection IN' as <- <-. destruct (proj1 TH eq_refl u HB).
           ++ destruct (NU eq_refl).
        -- split; [discriminate|]. split; [discriminate|]. split; [|reflexivity]. intros _ u H. inversion H as [|r0 a0 s0 r0' p0 v0 IN' HB]; subst.
           apply (mfind_In TOstr) in IN'; [|exact SR]. rewrite E in IN'. discriminate IN'.
    + split; [discriminate|]. split; [discriminate|]. split; [|reflexivity]. intros _ u H. inversion H as [r0 a0 v0 IN'|r0 a0 s0 r0' p0 v0 IN' HB]; subst; apply (mfind_In TOstr) in IN'; try exact SR; rewrite E in IN'; discriminate IN'.
Qed.
Lemma assign_noub p r v : proper r -> tassign r p v <> UB. Proof. intros PR. apply (assign_is p r v PR). Qed.
Lemma in_put a v (r : params) b u : msorted TOstr r -> (In (b, u) (mput TOstr a v r) <-> (b = a /\ u = v) \/ (b <> a /\ In (b, u) r)).
Proof.
  intros SR. rewrite <- (mfind_In TOstr) by (apply mput_sorted; exact SR). rewrite mfind_put by exact SR. destruct (keqb_spec TOstr b a) as [<-|NE].
  - split; [intros [= <-]; left; auto|]. intros [[_ ->]|[K _]]; [reflexivity|destruct (K eq_refl)].
  - rewrite (mfind_In TOstr) by exact SR. split; [auto|]. intros [[K _]|[_ K]]; [destruct (NE K)|exact K].
Qed.
Lemma assign_spec : forall p r v t, proper r -> tassign r p v = Ret t ->
  (forall q u, holds t q u -> ~ below p q -> ~ below q p -> holds r q u) /\
  (forall q u, holds r q u -> ~ below p q -> ~ below q p -> holds t q u) /\
  holds t p v /\
  (forall u, holds t p u -> u = v) /\
  (forall e u, e <> [] -> (holds t (p ++ e) u <-> exists s n, v = PV s (Some n) /\ holds n e u)) /\
  (forall q e s, p = q ++ e -> e <> [] -> ((exists n, holds t q (PV s n)) <-> exists n, holds r q (PV s n))) /\
  ((forall s n, v = PV s (Some n) -> proper n) -> proper t).
Proof.
  induction p as [|a p I]; intros r v t PR E; [discriminate E|]. pose proof (proper_sorted r PR) as SR. cbn [tassign] in E. destruct (mfind TOstr a r) as [[s n]|] eqn:EF; [|discriminate E].
  pose proof EF as IN. apply (mfind_In TOstr) in IN; [|exact SR]. destruct p as [|b p].
  - injection E as <-. assert (HP : forall c u, In (c, u) (mput TOstr a v r) <-> (c = a /\ u = v) \/ (c <> a /\ In (c, u) r)) by (intros; apply in_put; exact SR).
    assert (NB : forall c q, ~ below [a] (c :: q) -> c <> a) by (intros c q H <-; apply H; exists q; reflexivity).
    split; [|split; [|split; [|split; [|split; [|split]]]]].
    + intros q u H N1 _. inversion H as [r0 c w K|r0 c s0 r0' p0 w K HB]; subst; apply HP in K; destruct K as [[-> _]|[_ K]]; try (destruct (NB _ _ N1 eq_refl)); [apply holds_here; exact K|exact (holds_below _ _ _ _ _ _ K HB)].
    + intros q u H N1 _. inversion H as [r0 c w K|r0 c s0 r0' p0 w K HB]; subst; pose proof (NB _ _ N1) as NE; [apply holds_here; apply HP; auto|apply (holds_below _ c s0 r0'); [apply HP; auto|exact HB]].
    + apply holds_here. apply HP. auto.
    + intros u H. inversion H as [r0 c w K|r0 c s0 r0' p0 w K HB]; subst; [|destruct (holds_nil _ _ HB)]. apply HP in K. destruct K as [[_ K]|[K _]]; [exact K|destruct (K eq_refl)].
    + intros e u NE. cbn [app]. split.
      * intros H. inversion H as [r0 c w K|r0 c s0 r0' p0 w K HB]; subst; [destruct (NE eq_refl)|]. apply HP in K. destruct K as [[_ K]|[K _]]; [|destruct (K eq_refl)]. exists s0, r0'. auto.
      * intros (s0 & n0 & -> & HB). apply (holds_below _ a s0 n0); [apply HP; auto|exact HB].
    + intros q e s0 EQ NE. destruct q as [|c q].
      * split; intros (n0 & H); destruct (holds_nil _ _ H).
      * cbn [app] in EQ. injection EQ as <- EQ. destruct q; [|discriminate EQ]. cbn [app] in EQ. congruence.
    + intros PV'. constructor; [apply mput_sorted; exact SR|]. intros c s0 r0 K. apply HP in K. destruct K as [[_ K]|[_ K]]; [exact (PV' s0 r0 (eq_sym K))|exact (proper_nested _ _ _ _ PR K)].
  - destruct n as [r'|]; [|discriminate E]. pose proof (proper_nested _ _ _ _ PR IN) as PR'. destruct (tassign r' (b :: p) v) as [t'| |] eqn:ET; try discriminate E. cbn [obind] in E. injection E as <-.
    destruct (I r' v t' PR' ET) as (A1 & A2 & A3 & A4 & A5 & A6 & A7). set (p' := b :: p) in *.
    assert (HP : forall c u, In (c, u) (mput TOstr a (PV s (Some t')) r) <-> (c = a /\ u = PV s (Some t')) \/ (c <> a /\ In (c, u) r)) by (intros; apply in_put; exact SR).
    assert (ONE : forall u, In (a, u) r -> u = PV s (Some r')) by (intros u K; apply (mfind_In TOstr) in K; [congruence|exact SR]).
    assert (BL : forall q, below p' q -> below (a :: p') (a :: q)) by (intros q (e & ->); exists e; reflexivity).
    assert (BR : forall q, below q p' -> below (a :: q) (a :: p')) by (intros q (e & EE); exists e; rewrite EE; reflexivity).
    split; [|split; [|split; [|split; [|split; [|split]]]]].
    + intros q u H N1 N2. inversion H as [r0 c w K|r0 c s0 r0' p0 w K HB]; subst; apply HP in K.
      * destruct K as [[-> _]|[_ K]]; [|apply holds_here; exact K]. destruct N2. exists p'. reflexivity.
      * destruct K as [[-> K]|[_ K]]; [|exact (holds_below _ _ _ _ _ _ K HB)]. injection K as -> ->. apply (holds_below _ a s r'); [exact IN|]. apply A1; [exact HB|intros X; exact (N1 (BL _ X))|intros X; exact (N2 (BR _ X))].
    + intros q u H N1 N2. inversion H as [r0 c w K|r0 c s0 r0' p0 w K HB]; subst.
      * destruct (string_dec c a) as [->|NE]; [|apply holds_here; apply HP; auto]. destruct N2. exists p'. reflexivity.
      * destruct (string_dec c a) as [->|NE]; [|apply (holds_below _ c s0 r0'); [apply HP; auto|exact HB]]. pose proof (ONE _ K) as X. injection X as -> ->.
        apply (holds_below _ a s t'); [apply HP; auto|]. apply A2; [exact HB|intros X; exact (N1 (BL _ X))|intros X; exact (N2 (BR _ X))].
    + apply (holds_below _ a s t'); [apply HP; auto|exact A3].
    + intros u H. inversion H as [|r0 c s0 r0' p0 w K HB]; subst. apply HP in K. destruct K as [[_ K]|[K _]]; [|destruct (K eq_refl)]. injection K as -> ->. exact (A4 u HB).
    + intros e u NE. rewrite <- (A5 e u NE). cbn [app]. split.
      * intros H. inversion H as [r0 c w K|r0 c s0 r0' p0 w K HB]; subst. apply HP in K. destruct K as [[_ K]|[K _]]; [|destruct (K eq_refl)]. injection K as -> ->. exact HB.
      * intros HB. apply (holds_below _ a s t'); [apply HP; auto|exact HB].
    + intros q e s0 EQ NE. destruct q as [|c q]; [split; intros (n0 & H); destruct (holds_nil _ _ H)|]. cbn [app] in EQ. injection EQ as <- EQ. destruct q as [|d q].
      * split; intros (n0 & H); inversion H as [r0 c w K|r0 c s1 r0' p0 w K HB]; subst; try (destruct (holds_nil _ _ HB)).
        -- apply HP in K. destruct K as [[_ K]|[K _]]; [|destruct (K eq_refl)]. injection K as -> _. exists (Some r'). apply holds_here. exact IN.
        -- pose proof (ONE _ K) as X. injection X as -> _. exists (Some t'). apply holds_here. apply HP. auto.
      * specialize (A6 (d :: q) e s0 EQ NE). split; intros (n0 & H); inversion H as [r0 c w K|r0 c s1 r0' p0 w K HB]; subst.
        -- apply HP in K. destruct K as [[_ K]|[K _]]; [|destruct (K eq_refl)]. injection K as -> ->. destruct (proj1 A6 (ex_intro _ n0 HB)) as (n1 & H1). exists n1. exact (holds_below _ _ _ _ _ _ IN H1).
        -- pose proof (ONE _ K) as X. injection X as -> ->. destruct (proj2 A6 (ex_intro _ n0 HB)) as (n1 & H1). exists n1. apply (holds_below _ a s t'); [apply HP; auto|exact H1].
    + intros PV'. constructor; [apply mput_sorted; exact SR|]. intros c s0 r0 K. apply HP in K. destruct K as [[_ K]|[_ K]]; [injection K as _ ->; exact (A7 PV')|exact (proper_nested _ _ _ _ PR K)].
Qed.
Section Config.
Variable P : provider.
Theorem config_read : forall (c : cfg P) s p, coherent P c s -> proper (pparams P s) ->
  (forall v, snd (cstep P c (ORead p)) = ARead (Ret v) <-> holds (pparams P s) p v) /\
  (snd (cstep P c (ORead p)) = ARead Throw <-> forall v, ~ holds (pparams P s) p v).
Proof.
  intros c s p CO PR. destruct (step_coherent P c s (ORead p) CO I) as (E & _); [cbn; auto|]. rewrite E. cbn [dstep snd]. split; [intros v; rewrite <- (read_iff p _ v PR)|rewrite <- (read_throws p _ PR)]; split; congruence.
Qed.
Theorem config_help : forall (c : cfg P) s p, coherent P c s -> proper (phelp P s) ->
  (forall x n, holds (phelp P s) p (PV x n) -> x <> EmptyString -> snd (cstep P c (OHelp p)) = AHelp (Ret x)) /\
  ((forall x n, holds (phelp P s) p (PV x n) -> x = EmptyString) -> snd (cstep P c (OHelp p)) = AHelp (Ret "No help is available"%string)).
Proof.
  intros c s p CO PR. destruct (step_coherent P c s (OHelp p) CO I) as (E & _); [cbn; auto|]. rewrite E. cbn [dstep snd]. unfold help_text. split.
  - intros x n H NE. apply (read_iff p _ _ PR) in H. rewrite H. apply String.eqb_neq in NE. rewrite NE. reflexivity.
  - intros H. destruct (tvalue (phelp P s) p) as [[x n]| |] eqn:ET; try reflexivity. apply (read_iff p _ _ PR) in ET. rewrite (H x n ET). reflexivity.
Qed.
Theorem config_write : forall (c : cfg P) s p v, coherent P c s -> proper (pparams P s) ->
  ((forall u, ~ holds (pparams P s) p u) -> snd (cstep P c (OWrite p v)) = AWrite Throw /\ coherent P (fst (cstep P c (OWrite p v))) s) /\
  ((exists u, holds (pparams P s) p u) -> exists t,
     snd (cstep P c (OWrite p v)) = AWrite (if snd (psetp P s t) then Ret tt else Throw) /\ current P (fst (cstep P c (OWrite p v))) = Some (fst (psetp P s t)) /\
     holds t p v /\ (forall u, holds t p u -> u = v) /\
     (forall e u, e <> [] -> (holds t (p ++ e) u <-> exists x n, v = PV x (Some n) /\ holds n e u)) /\
     (forall q e x, p = q ++ e -> e <> [] -> ((exists n, holds t q (PV x n)) <-> exists n, holds (pparams P s) q (PV x n))) /\
     (forall q u, ~ below p q -> ~ below q p -> (holds t q u <-> holds (pparams P s) q u)) /\
     ((forall x n, v = PV x (Some n) -> proper n) -> proper t)).
Proof.
  intros c s p v CO PR. destruct (assign_is p (pparams P s) v PR) as (_ & NU & TH). split.
  - intros H. assert (ET : tassign (pparams P s) p v = Throw) by (apply TH; exact H). destruct (step_coherent P c s (OWrite p v) CO I) as (E & C2); [cbn; rewrite ET; auto|]. cbn [dstep] in E, C2. rewrite ET in E, C2. split; [exact E|exact C2].
  - intros (u & H). destruct (tassign (pparams P s) p v) as [t| |] eqn:ET; [|destruct (proj1 TH eq_refl u H)|destruct (NU eq_refl)]. exists t.
    destruct (assign_spec p (pparams P s) v t PR ET) as (A1 & A2 & A3 & A4 & A5 & A6 & A7). destruct (snd (psetp P s t)) eqn:SP.
    + destruct (step_coherent P c s (OWrite p v) CO I) as (E & C2); [cbn; rewrite ET; auto|]. cbn [dstep] in E, C2. rewrite ET in E, C2. cbn [fst snd] in E, C2. rewrite SP in E. split; [exact E|]. split; [exact (proj1 C2)|].
      split; [exact A3|]. split; [exact A4|]. split; [exact A5|]. split; [exact A6|]. split; [|exact A7]. intros q w N1 N2. split; intros K; [apply A1|apply A2]; assumption.
    + destruct (rejected_state P c s p v t CO ET SP) as (E & _ & _ & C2). cbn [cstep fst snd]. rewrite E. split; [reflexivity|]. split; [unfold current; rewrite C2; reflexivity|].
      split; [exact A3|]. split; [exact A4|]. split; [exact A5|]. split; [exact A6|]. split; [|exact A7]. intros q w N1 N2. split; intros K; [apply A1|apply A2]; assumption.
Qed.
(** a default-constructed configuration, without component *)
Theorem config_default : forall p v,
  snd (cstep P (cfg_default P) (ORead p)) = ARead Throw /\ snd (cstep P (cfg_default P) (OWrite p v)) = AWrite Throw /\
  snd (cstep P (cfg_default P) (OHelp p)) = AHelp (Ret "No help is available"%string) /\
  fst (cstep P (cfg_default P) (ORead p)) = cfg_default P /\ fst (cstep P (cfg_default P) (OWrite p v)) = cfg_default P /\ fst (cstep P (cfg_default P) (OHelp p)) = cfg_default P.
Proof. intros [|a p] v; repeat split. Qed.
End Config.
(** observers *)
Theorem empty_iff : forall (T : Type) ops (m : elements T) tr, history ops = Ret (m, tr) -> (empty m = true <-> live tr = []).
Proof. intros T ops m tr H. destruct (history_ok ops m tr H) as (_ & E). rewrite <- E. destruct m; split; (reflexivity || discriminate). Qed.
