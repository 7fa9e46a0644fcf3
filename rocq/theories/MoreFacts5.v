(** MoreFacts5.v - further facts: flags and resets of the event controller, repeated attempts of the Newton solver, texts that are not numbers, the first failure of a Rosenbrock solver. *)
From Coq Require Import List Arith Bool Lia ZArith QArith Qcanon String.
From Verif Require Import Base BaseFacts VecModel VOps SMap SpModel MapModel JacModel LUSpec LUModel NewtModel NewtSpec PropNewt RkModel RkSpec StepModel EvModel EvSpec EvFacts PropEv RosModel RosSpec LexModel ParModel UtilModel InitModel InitSpec PropInit CjSpec.
Import ListNotations.
Local Open Scope nat_scope.
Lemma recompute_bit fl : recomputed fl = Z.testbit fl 2.
Proof.
  unfold recomputed. destruct (Z.eqb_spec (Z.land fl 4) 0) as [E|E]; cbn [negb].
  - assert (B : Z.testbit (Z.land fl 4) 2 = false) by (rewrite E; apply Z.bits_0). rewrite Z.land_spec in B. change (Z.testbit 4 2) with true in B. rewrite andb_true_r in B. auto.
  - destruct (Z.testbit fl 2) eqn:B; [reflexivity|]. exfalso. apply E. apply Z.bits_inj'. intros k Hk. rewrite Z.bits_0, Z.land_spec. destruct (Z.eq_dec k 2) as [->|D]; [rewrite B; reflexivity|].
    change 4%Z with (2 ^ 2)%Z. rewrite Z.pow2_bits_false by lia. apply andb_false_r.
Qed.
Lemma linear_reset P (m : evrhs QcNum P) nz p x1 t1 c z : 0 < nz -> zfCount m = nz -> List.length (zfFlags m) = nz -> zeroFunctions m p t1 x1 = Ret z -> List.length z = nz ->
  exists c', ev_start (linear_events m) x1 t1 (ev_reset (linear_events m) (c, p)) = Ret (c', p) /\ sized m c' nz /\ c_zf1 c' = z /\ c_t1 c' = t1 /\
    (consistent m c' nz <-> forall i, i < nz -> near_side (nth i (zfFlags m) 0%Z) (nth i z 0%Qc)).
Proof. intros A B C D E. destruct (C33_reset P m nz p x1 t1 c z A B C D E) as (c' & Q & K). exists c'. cbn [linear_events ev_start ev_reset fst snd]. rewrite Q. auto. Qed.
Lemma diff_step f t x0 f0 j k : difference f t x0 f0 j k = ((cmp_ (value (f t (upd x0 k (cmp_ x0 k + qc 1 1000000)%Qc))) j - cmp_ f0 j) / qc 1 1000000)%Qc.
Proof. reflexivity. Qed.
Lemma const_again dx jt g lit mt limit p p' log : nrun (plain_comps (const_dd dx jt g) lit mt g) limit p = Ret (p', log, NLimit) -> exists l1 l2, log = l1 ++ EvGuess (p_x p) :: l2.
Proof.
  intros E. destruct (C27_calls _ _ _ _ _ _ _ _ E) as (s0 & E0 & _ & G & H). destruct (guesses log) eqn:GL.
  - destruct (H eq_refl eq_refl) as (l1 & s1 & _ & _ & HF). discriminate HF.
  - destruct G as [G|(l1 & l2 & s1 & EL & _)]; [discriminate G|]. injection E0 as <-. exists l1, l2. exact EL.
Qed.
Lemma simple_once dx jt g lit mt limit p p' log st : nrun (plain_comps (simple_dd dx jt g) lit mt g) limit p = Ret (p', log, st) -> guesses log = [].
Proof. intros E. destruct (C27_calls _ _ _ _ _ _ _ _ E) as (s0 & E0 & _ & [G|(l1 & l2 & s1 & _ & _ & _ & HT)] & _); [exact G|discriminate HT]. Qed.
Lemma to_double_number real (stod : string -> Outcome real) v x : to_double stod v = Ret x -> IsNumber (c_str (v_text v)) = true.
Proof. unfold to_double. destruct (IsNumber (c_str (v_text v))); [reflexivity|discriminate]. Qed.
Lemma load_numbers real (stod : string -> Outcome real) ps : forall x i x', load_vars stod ps i x = (x', Ret tt) -> List.length x' = List.length x /\ forall j v, j < List.length x -> mfind TOstr (is_name (i + j)) ps = Some v -> IsNumber (c_str (v_text v)) = true.
Proof.
  induction x as [|a x IH]; intros i x' E; cbn [load_vars] in E. { injection E as <-. split; [reflexivity|]. intros j v H. cbn in H. lia. }
  destruct (maybe_load stod ps (is_name i) a) as [w| |] eqn:EM; try discriminate E. destruct (load_vars stod ps (i + 1) x) as [t' r] eqn:EL. injection E as <- ->. destruct (IH _ _ EL) as (L & K). split; [cbn; rewrite L; reflexivity|].
  intros [|j] v H F.
  - rewrite Nat.add_0_r in F. unfold maybe_load in EM. rewrite F in EM. exact (to_double_number _ _ _ _ EM).
  - apply (K j v); [cbn in H; lia|]. replace (i + 1 + j) with (i + S j) by lia. exact F.
Qed.
Lemma set_numbers real (zero : real) (stod : string -> Outcome real) ps s s' : is_set zero stod ps s = (s', Ret tt) ->
  forall v, mfind TOstr "time"%string ps = Some v \/ (exists i, i < List.length (is_x s') /\ mfind TOstr (is_name i) ps = Some v) -> IsNumber (c_str (v_text v)) = true.
Proof.
  unfold is_set. match goal with |- match ?o with _ => _ end = _ -> _ => destruct o as [x| |] end; try discriminate. destruct (maybe_load stod ps "time" (is_time s)) as [t| |] eqn:EM; try discriminate.
  destruct (load_vars stod ps 0 x) as [x' r] eqn:EL. intros E. injection E as <- ->. destruct (load_numbers _ _ _ _ _ _ EL) as (L & K). intros v [F|(i & Hi & F)].
  - unfold maybe_load in EM. rewrite F in EM. exact (to_double_number _ _ _ _ EM).
  - cbn [is_x] in Hi. apply (K i v); [lia|exact F].
Qed.
Lemma soft_after {W} (ev : events QcNum W) (c c' : rcfg W) (w : W) (h t t' : Qc) (x x' f0 : list Qc) (fuel : nat) : rc_rhs c w t x = Throw -> 0 < fuel -> rc_rhs c' w t' x' = Ret f0 -> List.length f0 = rc_n c ->
  snd (sw_set c' t' x' true (fst (fst (sw_step ev c fuel (fst (sw_set c t x false (q_setStep h (q_new w)))))))) = Ret tt.
Proof.
  intros TH FU RF LF. destruct fuel as [|fuel]; [lia|]. unfold sw_step. cbn [sw_loop]. unfold sw_attempt, q_init. cbn [sw_set fst q_setStep q_new q_k q_w q_t q_x q_h q_f0 q_ros Nat.eqb orb]. rewrite TH. cbn [rfail qfail fst]. unfold sw_set. cbn [q_w q_f0]. rewrite RF. cbn [rfail].
  assert (LV : List.length (RosModel.vresize (rc_n c) []) = rc_n c) by (unfold RosModel.vresize, RosModel.zeros; rewrite app_length, firstn_nil, repeat_length; cbn; lia). rewrite LV, LF, Nat.ltb_irrefl. reflexivity.
Qed.
