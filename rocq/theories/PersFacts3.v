(** PersFacts3.v - proofs for C76: what is saved is restored. *)
From Coq Require Import List Arith Bool ZArith String Lia.
From Verif Require Import Base SMap FacModel FacSpec ParModel ParFacts CfgModel InitModel InitSpec InitFacts PersModel PersSpec PersFacts PersFacts2.
Import ListNotations.
Local Open Scope string_scope.
Local Open Scope list_scope.

Lemma id_nonempty c i : interface_of c = Some i -> library_id c <> "".
Proof. destruct c; simpl; discriminate. Qed.
Lemma no_kx c : c <> InitSpecified -> forall n k, In (n, k) (schema c) -> k <> KX.
Proof. intros H n k I. destruct c; try congruence; cbn in I; repeat (destruct I as [I|I]; [injection I as _ <-; discriminate|]); destruct I. Qed.
Section F.
Context {real : Type} (zero : real) (lit : Z -> Z -> real) (fmt : real -> string) (stod : string -> Outcome real).
Notation comp := (@comp real).
Notation fields := (@fields real).
Notation fval := (@fval real).
Notation to_value := (to_value fmt).
Notation save := (save fmt).
Notation enc := (enc fmt).
Notation save_list := (save_list fmt).
Notation from_value := (from_value zero lit stod).
Notation decoders := (decoders zero lit stod).
Notation load_fields := (load_fields stod).
Notation setParameters := (setParameters zero lit stod).
Notation valid := (valid fmt stod).
Notation valid_fields := (valid_fields fmt stod).
Notation valid_value := (valid_value fmt stod).
Notation convert := (convert stod).
Notation make := (make zero lit).

Definition restores (t : comp) : Prop :=
  valid t -> forall r, knows_library r -> exists ps, save r t = Ret ps /\
  forall r' fs0, knows_library r' -> shaped (class_of t) fs0 -> not_longer (Comp (class_of t) fs0) t -> setParameters r' ps (Comp (class_of t) fs0) = (t, Ret tt).
Lemma value_ok t i : restores t -> valid t -> interface_of (class_of t) = Some i -> forall r, knows_library r ->
  exists v, to_value r (Some t) = Ret v /\ text_of v = library_id (class_of t) /\ forall r', knows_library r' -> from_value r' v i = Ret (Some t).
Proof.
  intros IH V I r K. destruct (K _ _ I) as [_ E]. unfold PersModel.to_value. rewrite E. pose proof (id_nonempty _ _ I) as NE.
  destruct (has_parameters (class_of t)) eqn:HP.
  - destruct (IH V r K) as (ps & E1 & L). rewrite E1. cbn [obind]. eexists. split; [reflexivity|]. split; [reflexivity|]. intros r' K'.
    cbn [PersModel.from_value]. destruct (String.eqb_spec (library_id (class_of t)) "") as [Q|_]; [congruence|]. destruct (K' _ _ I) as [-> _].
    destruct (make_ok zero lit r' (class_of t) K') as (fs & -> & S & S0). cbn [obind]. rewrite HP.
    change (map (fun kv : string * pval => (fst kv, (text_of (snd kv), from_value r' (snd kv)))) ps) with (decoders r' ps).
    change (finished (setParameters r' ps (Comp (class_of t) fs)) = Ret (Some t)). rewrite L; [reflexivity|exact K'|exact S|].
    destruct t as [c tf]. cbn [class_of fields_of] in *. unfold not_longer. cbn [fields_of].
    destruct (fget "state" fs) as [v|] eqn:F; [|exact Logic.I]. destruct v as [| | | | |x]; try exact Logic.I.
    destruct (fget "state" tf) as [w|]; [|exact Logic.I]. destruct w as [| | | | |y]; try exact Logic.I.
    assert (x = []); [|subst; simpl; lia]. destruct c; try (rewrite S0 in F by (reflexivity || discriminate); cbn in F; first [discriminate F | injection F as <-; reflexivity]);
      exfalso; clear -S F; unfold shaped in S; cbn in S; repeat match goal with Q : Forall2 _ (_ :: _) _ |- _ => inversion Q as [|? (?, ?) ? ? (? & ?)]; clear Q; subst | Q : Forall2 _ [] _ |- _ => inversion Q; clear Q; subst end; cbn [fst snd] in *; subst; cbn in F; discriminate F.
  - eexists. split; [reflexivity|]. split; [reflexivity|]. intros r' K'. cbn [PersModel.from_value]. destruct (String.eqb_spec (library_id (class_of t)) "") as [Q|_]; [congruence|]. destruct (K' _ _ I) as [-> _].
    destruct (make_ok zero lit r' (class_of t) K') as (fs & -> & S & _). cbn [obind]. f_equal. f_equal. destruct t as [c tf]. cbn [class_of] in *.
    inversion V as [? ? VF _]; subst. destruct c; try discriminate HP; inversion VF; inversion S; reflexivity.
Qed.
Lemma field_ok k v : part_ok restores v -> valid_value k v -> k <> KX -> forall r, knows_library r ->
  exists w, enc r v = Ret w /\ forall r', knows_library r' -> convert k (text_of w, from_value r' w) = Ret v.
Proof.
  intros P V NX r K. destruct V as [x S|z Z1|b|s|l s I|i|i t I V|x L S]; cbn [PersFacts2.enc].
  - eexists. split; [reflexivity|]. intros r' K'. cbn [PersModel.convert text_of leaf_value fst v_text]. unfold survives in S. cbn [Value_double v_text] in *. unfold Value_double in S. cbn [v_text]. rewrite S. reflexivity.
  - eexists. split; [reflexivity|]. intros r' K'. cbn [PersModel.convert text_of leaf_value fst v_text]. change (mkV (v_text (Value_unsigned z)) None) with (Value_unsigned z). rewrite unsigned_round_trip by exact Z1. reflexivity.
  - eexists. split; [reflexivity|]. intros r' K'. cbn [PersModel.convert text_of leaf_value fst v_text]. change (mkV (v_text (Value_bool b)) None) with (Value_bool b). rewrite bool_round_trip. reflexivity.
  - eexists. split; reflexivity.
  - eexists. split; [reflexivity|]. intros r' K'. cbn [PersModel.convert text_of fst]. assert (X : existsb (String.eqb s) l = true) by (apply existsb_exists; exists s; split; [exact I|apply String.eqb_refl]). now rewrite X.
  - eexists. split; [reflexivity|]. reflexivity.
  - destruct (value_ok t i P V I r K) as (w & E & _ & L). exists w. split; [exact E|]. intros r' K'. cbn [PersModel.convert snd]. rewrite (L r' K'). reflexivity.
  - congruence.
Qed.
(** ** all fields of a valid object *)
Lemma saved_ok r c fs : knows_library r -> Forall (fun nf => part_ok restores (snd nf)) fs -> valid_fields (schema c) fs -> (forall n k, In (n, k) (schema c) -> k <> KX) ->
  exists ps, save_list r c fs fs [] = Ret ps /\
    (forall r', knows_library r' -> forall n k v, In ((n, k), (n, v)) (combine (schema c) fs) -> shown c fs n = true -> exists d, mfind TOstr n (decoders r' ps) = Some d /\ convert k d = Ret v) /\
    (forall r' n, shown c fs n = false -> mfind TOstr n (decoders r' ps) = None).
Proof.
  intros K P V NX.
  assert (A : forall sch fs, Forall (fun nf => part_ok restores (snd nf)) fs -> valid_fields sch fs -> (forall n k, In (n, k) sch -> k <> KX) -> forall n k v, In ((n, k), (n, v)) (combine sch fs) -> exists w, enc r v = Ret w /\ forall r', knows_library r' -> convert k (text_of w, from_value r' w) = Ret v).
  { clear -K. intros sch fs P V. induction V as [|n k v sch fs V0 V IH]; intros NX n' k' v' []; inversion P; subst.
    - injection H as <- <- _ <-. eapply field_ok; eauto. apply NX with n. now left.
    - eapply IH; eauto. intros; eapply NX; right; eauto. }
  assert (B : forall sch fs n v, valid_fields sch fs -> In (n, v) fs -> exists k, In ((n, k), (n, v)) (combine sch fs)).
  { clear. intros sch fs n v V. induction V as [|n0 k v0 sch fs V0 V IH]; intros []; [injection H as -> ->; exists k; now left|]. destruct (IH H) as (k' & I). exists k'. now right. }
  destruct (save_list_ok fmt r c fs fs []) as (ps & E & S & F & G).
  - exact Logic.I.
  - rewrite (valid_names fmt stod _ _ V). apply schema_nodup.
  - intros n v I _. destruct (B _ _ n v V I) as (k & I'). destruct (A _ _ P V NX n k v I') as (w & Ew & _). eauto.
  - exists ps. split; [exact E|]. split.
    + intros r' K' n k v I SH. destruct (A _ _ P V NX n k v I) as (w & Ew & L). exists (text_of w, from_value r' w). split; [|apply L, K'].
      apply decoders_find. eapply F; eauto. apply in_combine_r in I. exact I.
    + intros r' n SH. apply decoders_none. rewrite G; [reflexivity|auto].
Qed.
(** ** specified initial states *)
Lemma init_leaves (s : istate) : Forall (fun kv => snd kv = mkV (v_text (snd kv)) None) (is_params fmt s).
Proof.
  assert (PUT : forall n v m, v = mkV (v_text v) None -> Forall (fun kv : string * pvalue => snd kv = mkV (v_text (snd kv)) None) m -> Forall (fun kv => snd kv = mkV (v_text (snd kv)) None) (mput TOstr n v m)).
  { intros n v m E M. apply Forall_forall. intros (n', v') H. apply mput_In in H. destruct H as [[-> ->]|H]; [exact E|]. rewrite Forall_forall in M. apply (M _ H). }
  unfold is_params. assert (X : forall x i m, Forall (fun kv : string * pvalue => snd kv = mkV (v_text (snd kv)) None) m -> Forall (fun kv => snd kv = mkV (v_text (snd kv)) None) (put_vars fmt i x m)).
  { induction x as [|v x IH]; intros i m M; cbn [put_vars]; [exact M|]. apply IH, PUT; [reflexivity|exact M]. }
  apply X, PUT; [reflexivity|]. apply PUT; [reflexivity|constructor].
Qed.
Lemma init_back r s : map (fun kv : string * decoder => (fst kv, mkV (fst (snd kv)) None)) (decoders r (map (fun kv => (fst kv, leaf_value (snd kv))) (is_params fmt s))) = is_params fmt s.
Proof.
  unfold PersModel.decoders. rewrite !map_map. pose proof (init_leaves s) as H. induction H as [|(n, v) m E H IH]; [reflexivity|]. cbn [map fst snd leaf_value text_of] in *. rewrite IH, <- E. reflexivity.
Qed.
Lemma combine_in (sch : list (string * kind)) (fs : fields) (R : string -> kind -> fval -> Prop) : valid_fields sch fs -> (forall n k v, In ((n, k), (n, v)) (combine sch fs) -> R n k v) -> Forall2 (fun nk nv => fst nk = fst nv /\ R (fst nk) (snd nk) (snd nv)) sch fs.
Proof. intros V. induction V as [|n k v sch fs V0 V IH]; intros H; constructor; [split; [reflexivity|apply H; now left]|]. apply IH. intros; apply H; now right. Qed.
Lemma shaped_names c (fs : fields) : shaped c fs -> map fst fs = map fst (schema c).
Proof. unfold shaped. intros H. induction H as [|(n, k) (m, v) sch fs (E & _) H IH]; [reflexivity|]. cbn [map fst] in *. now rewrite E, IH. Qed.
Lemma regul_null (t : comp) : interface_of (class_of t) = Some IRegularization -> False.
Proof. destruct t as [c ?]. destruct c; discriminate. Qed.
(** ** the three ways to load *)
Lemma restore_plain c fs : plain c = true -> Forall (fun nf => part_ok restores (snd nf)) fs -> restores (Comp c fs).
Proof.
  intros PL P V r K. inversion V as [? ? VF R]; subst. assert (NI : c <> InitSpecified) by (intros ->; discriminate).
  destruct (saved_ok r c fs K P VF (no_kx c NI)) as (ps & E & F & _). exists ps. split.
  - rewrite save_unfold by exact NI. assert (D : save_defined c fs = true) by (destruct c; try discriminate PL; reflexivity). rewrite D. exact E.
  - intros r' fs0 K' S _. cbn [class_of] in *. unfold PersModel.setParameters, load.
    assert (X : load_fields c (schema c) (decoders r' ps) fs0 = (fs, Ret tt)).
    { apply (load_gen stod c _ (fun f n => looked_plain c f n PL) (schema c) fs [] fs0).
      - apply shaped_names, S.
      - apply (combine_in (schema c) fs (fun n k v => exists d, mfind TOstr n (decoders r' ps) = Some d /\ convert k d = Ret v) VF).
        intros n k v I. apply (F r' K' n k v I). destruct c; try discriminate PL; reflexivity.
      - intros pre n v suf Q. apply (set_ok fmt stod c fs PL VF R pre n v suf Q). }
    destruct c; try discriminate PL; rewrite X; reflexivity.
Qed.
Lemma restore_init fs : restores (Comp InitSpecified fs).
Proof.
  intros V r K. inversion V as [? ? VF R]; subst. cbn [schema] in VF.
  inversion VF as [|? ? v1 ? ? V1 VF1]; subst. inversion VF1 as [|? ? v2 ? ? V2 VF2]; subst. inversion VF2; subst. inversion V1 as [t St| | | | | | |]; subst. inversion V2 as [| | | | | | |x Lx Sx]; subst.
  exists (init_values fmt [("time", FD t); ("state", FX x)]). split; [reflexivity|]. intros r' fs0 K' S NL. cbn [class_of] in *.
  unfold shaped in S. cbn [schema] in S. inversion S as [|? (n1, w1) ? ? (E1 & T1) S1]; subst. inversion S1 as [|? (n2, w2) ? ? (E2 & T2) S2]; subst. inversion S2; subst. cbn [fst snd] in *. subst n1 n2.
  destruct w1 as [t0| | | | |]; try contradiction. destruct w2 as [| | | | |x0]; try contradiction. cbn in NL.
  unfold PersModel.setParameters, load, load_init. cbn [init_values]. rewrite init_back. rewrite (round_trip zero fmt stod (mkIst t x) (mkIst t0 x0)); auto.
Qed.
Definition has (ds : list (string * decoder)) (n : string) (k : kind) (v : fval) : Prop := exists d, mfind TOstr n ds = Some d /\ convert k d = Ret v.
Lemma load_step c n k sch ds fs v fs' : looked_at c fs n = true -> has ds n k v -> set_field c n v fs = Ret fs' -> load_fields c ((n, k) :: sch) ds fs = load_fields c sch ds fs'.
Proof. intros H1 (d & H2 & H3) H4. cbn [PersModel.load_fields]. now rewrite H1, H2, H3; cbn [obind]; rewrite H4. Qed.
Lemma load_absent c n k sch ds fs : mfind TOstr n ds = None -> load_fields c ((n, k) :: sch) ds fs = load_fields c sch ds fs.
Proof. intros H. cbn [PersModel.load_fields]. rewrite H. now destruct (looked_at c fs n). Qed.
Lemma newton_full ds a1 a2 a3 a4 a5 a6 a7 a8 o1 z o4 o5 j o7 e :
  has ds "itperf" (KC IIteration) (FC (Some o1)) -> has ds "regularizer" (KC IRegularization) (FC None) -> has ds "max_iterations" KU (FU z) -> has ds "ddir" (KC IDirection) (FC (Some o4)) ->
  has ds "jacobian" (KC IJacobian) (FC (Some o5)) -> has ds "jtrim" (KC ITrimmer) (FC j) -> has ds "linsearch" (KC ILineSearch) (FC (Some o7)) -> has ds "err" (KC IError) (FC e) ->
  load_fields NewtonSolver (schema NewtonSolver) ds [("itperf", a1); ("regularizer", a2); ("max_iterations", a3); ("ddir", a4); ("jacobian", a5); ("jtrim", a6); ("linsearch", a7); ("err", a8)] =
  ([("itperf", FC (Some o1)); ("regularizer", FC None); ("max_iterations", FU z); ("ddir", FC (Some o4)); ("jacobian", FC (Some o5)); ("jtrim", FC j); ("linsearch", FC (Some o7)); ("err", FC e)], Ret tt).
Proof. intros. unfold schema. repeat (etransitivity; [eapply load_step; [reflexivity|eassumption|reflexivity]|]). reflexivity. Qed.
Lemma newton_nodir ds a1 a2 a3 a4 a5 a6 a7 a8 o1 z o7 e :
  has ds "itperf" (KC IIteration) (FC (Some o1)) -> has ds "regularizer" (KC IRegularization) (FC None) -> has ds "max_iterations" KU (FU z) -> has ds "ddir" (KC IDirection) (FC None) ->
  mfind TOstr "jacobian" ds = None -> mfind TOstr "jtrim" ds = None -> has ds "linsearch" (KC ILineSearch) (FC (Some o7)) -> has ds "err" (KC IError) (FC e) ->
  load_fields NewtonSolver (schema NewtonSolver) ds [("itperf", a1); ("regularizer", a2); ("max_iterations", a3); ("ddir", a4); ("jacobian", a5); ("jtrim", a6); ("linsearch", a7); ("err", a8)] =
  ([("itperf", FC (Some o1)); ("regularizer", FC None); ("max_iterations", FU z); ("ddir", FC None); ("jacobian", FC None); ("jtrim", FC None); ("linsearch", FC (Some o7)); ("err", FC e)], Ret tt).
Proof. intros. unfold schema. repeat (etransitivity; [first [eapply load_step; [reflexivity|eassumption|reflexivity]|eapply load_absent; eassumption]|]). reflexivity. Qed.
Lemma newton_none ds a1 a2 a3 a4 a5 a6 a7 a8 z :
  has ds "itperf" (KC IIteration) (FC None) -> has ds "regularizer" (KC IRegularization) (FC None) -> has ds "max_iterations" KU (FU z) -> mfind TOstr "ddir" ds = None ->
  mfind TOstr "jacobian" ds = None -> mfind TOstr "jtrim" ds = None -> mfind TOstr "linsearch" ds = None -> mfind TOstr "err" ds = None ->
  load_fields NewtonSolver (schema NewtonSolver) ds [("itperf", a1); ("regularizer", a2); ("max_iterations", a3); ("ddir", a4); ("jacobian", a5); ("jtrim", a6); ("linsearch", a7); ("err", a8)] =
  ([("itperf", FC None); ("regularizer", FC None); ("max_iterations", FU z); ("ddir", FC None); ("jacobian", FC None); ("jtrim", FC None); ("linsearch", FC None); ("err", FC None)], Ret tt).
Proof. intros. unfold schema. repeat (etransitivity; [first [eapply load_step; [reflexivity|eassumption|reflexivity]|eapply load_absent; eassumption]|]). reflexivity. Qed.
Lemma comp_field i v : valid_value (KC i) v -> exists o, v = FC o.
Proof. intros H. inversion H; subst; eauto. Qed.
Lemma shaped_newton fs : shaped NewtonSolver fs -> exists a1 a2 a3 a4 a5 a6 a7 a8 : fval, fs = [("itperf", a1); ("regularizer", a2); ("max_iterations", a3); ("ddir", a4); ("jacobian", a5); ("jtrim", a6); ("linsearch", a7); ("err", a8)].
Proof.
  intros S. apply shaped_names in S. do 8 (destruct fs as [|(?, ?) fs]; [discriminate S|]; cbn in S; injection S as -> S). destruct fs; [|discriminate S]. repeat eexists.
Qed.
Lemma valid_newton fs : valid_fields (schema NewtonSolver) fs -> exists o1 z o4 o5 o6 o7 o8, fs = [("itperf", FC o1); ("regularizer", FC None); ("max_iterations", FU z); ("ddir", FC o4); ("jacobian", FC o5); ("jtrim", FC o6); ("linsearch", FC o7); ("err", FC o8)].
Proof.
  intros V. cbn [schema] in V. inversion V as [|? ? v1 ? ? W1 V1]; subst. inversion V1 as [|? ? v2 ? ? W2 V2]; subst. inversion V2 as [|? ? v3 ? ? W3 V3]; subst. inversion V3 as [|? ? v4 ? ? W4 V4]; subst.
  inversion V4 as [|? ? v5 ? ? W5 V5]; subst. inversion V5 as [|? ? v6 ? ? W6 V6]; subst. inversion V6 as [|? ? v7 ? ? W7 V7]; subst. inversion V7 as [|? ? v8 ? ? W8 V8]; subst. inversion V8; subst.
  destruct (comp_field _ _ W1) as (o1 & ->), (comp_field _ _ W4) as (o4 & ->), (comp_field _ _ W5) as (o5 & ->), (comp_field _ _ W6) as (o6 & ->), (comp_field _ _ W7) as (o7 & ->), (comp_field _ _ W8) as (o8 & ->).
  inversion W2 as [| | | | | |? t I _|]; subst; [|destruct (regul_null t I)]. inversion W3 as [|z Z3| | | | | |]; subst. repeat eexists.
Qed.
Lemma restore_newton fs : Forall (fun nf => part_ok restores (snd nf)) fs -> restores (Comp NewtonSolver fs).
Proof.
  intros P V r K. inversion V as [? ? VF R]; subst. assert (NI : NewtonSolver <> InitSpecified) by discriminate.
  destruct (saved_ok r NewtonSolver fs K P VF (no_kx _ NI)) as (ps & E & F & G).
  destruct (valid_newton fs VF) as (o1 & z & o4 & o5 & o6 & o7 & o8 & ->). clear P V VF. unfold rules in R. cbn [is_null fget String.eqb Ascii.eqb Bool.eqb] in R. destruct R as (R1 & R2 & R3 & R4).
  exists ps. split.
  - rewrite save_unfold by exact NI. destruct o4, o5; try (discriminate R3); cbn; rewrite ?orb_true_r; try exact E; destruct o1; exact E.
  - intros r' fs0 K' S _. cbn [class_of] in *. destruct (shaped_newton fs0 S) as (a1 & a2 & a3 & a4 & a5 & a6 & a7 & a8 & ->). specialize (F r' K'). specialize (G r').
    unfold PersModel.setParameters, load. change (forall n k v, In ((n, k), (n, v)) (combine (schema NewtonSolver) [("itperf", FC o1); ("regularizer", FC None); ("max_iterations", FU z); ("ddir", FC o4); ("jacobian", FC o5); ("jtrim", FC o6); ("linsearch", FC o7); ("err", FC o8)]) ->
      shown NewtonSolver [("itperf", FC o1); ("regularizer", FC None); ("max_iterations", FU z); ("ddir", FC o4); ("jacobian", FC o5); ("jtrim", FC o6); ("linsearch", FC o7); ("err", FC o8)] n = true -> has (decoders r' ps) n k v) in F.
    destruct o1 as [t1|].
    + specialize (R2 eq_refl). destruct o7 as [t7|]; [|discriminate R2]. destruct o4 as [t4|], o5 as [t5|]; try discriminate R3.
      * rewrite (newton_full _ a1 a2 a3 a4 a5 a6 a7 a8 t1 z t4 t5 o6 t7 o8); [reflexivity|..]; apply F; (reflexivity || (cbn [schema combine In]; tauto)).
      * specialize (R4 eq_refl). destruct o6; [discriminate R4|].
        rewrite (newton_nodir _ a1 a2 a3 a4 a5 a6 a7 a8 t1 z t7 o8); [reflexivity|..]; first [apply F; (reflexivity || (cbn [schema combine In]; tauto)) | apply G; reflexivity].
    + destruct (R1 eq_refl) as (Q1 & Q2 & Q3). destruct o4; [discriminate Q1|]. destruct o7; [discriminate Q2|]. destruct o8; [discriminate Q3|]. destruct o5; [discriminate R3|]. specialize (R4 eq_refl). destruct o6; [discriminate R4|].
      rewrite (newton_none _ a1 a2 a3 a4 a5 a6 a7 a8 z); [reflexivity|..]; first [apply F; (reflexivity || (cbn [schema combine In]; tauto)) | apply G; reflexivity].
Qed.
Lemma restore_all t : restores t.
Proof.
  induction t as [c fs P] using comp_ind'. destruct (plain c) eqn:PL; [now apply restore_plain|]. destruct c; try discriminate PL; [now apply restore_newton|apply restore_init].
Qed.
(** * Theorems *)
Theorem restore r r' t : knows_library r -> knows_library r' -> valid t -> exists ps, save r t = Ret ps /\
  forall fs0, shaped (class_of t) fs0 -> not_longer (Comp (class_of t) fs0) t -> setParameters r' ps (Comp (class_of t) fs0) = (t, Ret tt).
Proof. intros K K' V. destruct (restore_all t V r K) as (ps & E & F). exists ps. split; [exact E|]. intros. now apply F. Qed.
Theorem round_trip_tree r r' t i : knows_library r -> knows_library r' -> valid t -> interface_of (class_of t) = Some i ->
  exists v, to_value r (Some t) = Ret v /\ text_of v = library_id (class_of t) /\ from_value r' v i = Ret (Some t).
Proof. intros K K' V I. destruct (value_ok t i (restore_all t) V I r K) as (v & E1 & E2 & E3). exists v. auto. Qed.
End F.
