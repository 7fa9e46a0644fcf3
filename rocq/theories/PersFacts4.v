(** PersFacts4.v - proofs for C76: fresh objects, parameters not given, order of registration, undefined behaviour. *)
From Coq Require Import List Arith Bool ZArith String Lia Permutation.
From Verif Require Import Base SMap FacModel FacSpec FacFacts LexModel ParModel ParFacts CfgModel InitModel InitSpec InitFacts PersModel PersSpec PersFacts PersFacts2 PersFacts3.
Import ListNotations.
Local Open Scope string_scope.
Local Open Scope list_scope.

(** * Registration in any order *)
Lemma registered_anyhow nm h : good_naming nm -> Permutation h (registrations nm) -> exists st, runs_library nm h st.
Proof.
  intros G P. pose proof G as (N1 & N2 & N3 & N4 & N5).
  assert (A : forall o, In o h -> exists c j, interface_of c = Some j /\ o = OReg (n_iface nm j) (n_impl nm c) (library_id c)).
  { intros o H. apply (Permutation_in o P) in H. unfold registrations in H. apply in_flat_map in H. destruct H as (c & _ & H). destruct (interface_of c) as [j|] eqn:E; [|destruct H]. destruct H as [<-|[]]. eauto. }
  assert (GN : good_names h).
  { split; [|split; [|split]].
    - intros i x id H. destruct (A _ H) as (c & j & _ & E). injection E as -> -> _. auto.
    - intros i id H. destruct (A _ H) as (c & j & _ & E). discriminate E.
    - intros i H. destruct (A _ H) as (c & j & _ & E). discriminate E.
    - intros x H. destruct (A _ H) as (c & j & _ & E). discriminate E. }
  assert (MI : forall i, mentions_iface h i -> exists j, i = n_iface nm j).
  { intros i [(x & id & H)|[(id & H)|H]]; destruct (A _ H) as (c & j & _ & E); try discriminate E. injection E as -> _ _. eauto. }
  assert (MC : forall x, mentions_impl h x -> exists c, x = n_impl nm c).
  { intros x [(i & id & H)|H]; destruct (A _ H) as (c & j & _ & E); try discriminate E. injection E as _ -> _. eauto. }
  assert (D : disjoint_names h) by (intros i x H1 H2; destruct (MI i H1) as (j & ->), (MC x H2) as (c & ->); apply N5).
  assert (Q1 : forall i, ok_query h (n_iface nm i)) by (intros i; split; [auto|intros x H; destruct (MC x H) as (c & ->); apply N5]).
  assert (Q2 : forall c, ok_class h (n_impl nm c)) by (intros c; split; [auto|intros i H; destruct (MI i H) as (j & ->); apply N5]).
  destruct (frun_ok h (fun _ => False) (fun _ => False) GN D) as (_ & st & E & _); try tauto.
  exists st. repeat (split; [assumption|]). split; [|exact E]. split.
  - intros o H. apply (Permutation_in o (Permutation_sym P) H).
  - intros i x id H _. apply (Permutation_in _ P H).
Qed.
Lemma typed_ok nm h st : runs_library nm h st -> well_typed (process nm st).
Proof.
  intros L i s c H. unfold process in H. cbn [r_new] in H. destruct (answers nm h st L) as [A _]. specialize (A i s).
  destruct (last_reg (n_iface nm i) s h) as [x|] eqn:E; [|rewrite A in H; discriminate]. destruct A as (st' & A). rewrite A in H. cbn [snd] in H.
  destruct L as (N & _ & _ & _ & _ & (_ & L2) & _). unfold class_named in H. apply find_some in H. destruct H as [_ H]. unfold impl_same in H. apply andb_prop in H. destruct H as [H1 H2]. apply String.eqb_eq in H1, H2.
  assert (X : n_impl nm c = x) by (destruct (n_impl nm c), x; simpl in *; congruence). subst x.
  apply last_reg_in in E. apply L2 in E; [|right; eauto]. apply registered_inv in E. destruct E as (d & j & Hd & Ei & Ed & _).
  destruct N as (_ & _ & I1 & I2 & _). apply I1 in Ei. apply I2 in Ed. now subst.
Qed.

Lemma unsigned_no_ub v : to_unsigned v <> UB.
Proof. unfold to_unsigned. destruct (IsIntegerNumber _); [|discriminate]. unfold stoul. destruct (scan_int _) as [(b, z)|]; [|discriminate]. destruct (ULONG_MOD <=? z)%Z; discriminate. Qed.
Lemma int_no_ub v : to_int v <> UB.
Proof. unfold to_int. destruct (IsIntegerNumber _); [|discriminate]. unfold stoi. destruct (scan_int _) as [(b, z)|]; [|discriminate]. repeat match goal with |- context [if ?b then _ else _] => destruct b end; discriminate. Qed.
Lemma bool_no_ub v : to_bool v <> UB.
Proof. unfold to_bool. repeat match goal with |- context [if ?b then _ else _] => destruct b end; discriminate. Qed.

Section F.
Context {real : Type} (zero : real) (lit : Z -> Z -> real) (fmt : real -> string) (stod : string -> Outcome real).
Notation comp := (@comp real).
Notation fields := (@fields real).
Notation fval := (@fval real).
Notation from_value := (from_value zero lit stod).
Notation decoders := (decoders zero lit stod).
Notation load_fields := (load_fields stod).
Notation setParameters := (setParameters zero lit stod).
Notation valid := (valid fmt stod).
Notation convert := (convert stod).
Notation make := (make zero lit).

(** * Fresh objects *)
Lemma fresh_valid r c t : knows_library r -> (forall a b, survives fmt stod (lit a b)) -> survives fmt stod zero -> make r c = Ret t -> class_of t = c /\ valid t.
Proof.
  intros K S Z. unfold PersModel.make.
  assert (Kn : r_new r INorm "inf" = Some NormInf) by (apply (K NormInf INorm eq_refl)).
  assert (Ks : r_new r IStepSize "simple" = Some StepSizeSimple) by (apply (K StepSizeSimple IStepSize eq_refl)).
  assert (Ke : r_new r IEvent "linear" = Some EventLinear) by (apply (K EventLinear IEvent eq_refl)).
  assert (Ka : r_new r INewton "newton" = Some NewtonSolver) by (apply (K NewtonSolver INewton eq_refl)).
  assert (U : forall z, (0 <=? z)%Z && (z <? 4294967296)%Z = true -> valid_value fmt stod KU (FU z)) by (intros z H; apply andb_prop in H; destruct H as [H1 H2]; apply Z.leb_le in H1; apply Z.ltb_lt in H2; constructor; lia).
  destruct c; cbn [make_plain parts add_parts]; unfold make_part; rewrite ?Kn, ?Ks, ?Ke, ?Ka; cbn [obind]; intros H; injection H as <-; (split; [reflexivity|]).
  all: repeat match goal with
    | |- PersSpec.valid _ _ _ => constructor
    | |- PersSpec.valid_fields _ _ _ _ => constructor
    | |- PersSpec.valid_value _ _ KU _ => apply U; reflexivity
    | |- PersSpec.valid_value _ _ KD _ => constructor; auto
    | |- PersSpec.valid_value _ _ KB _ => constructor
    | |- PersSpec.valid_value _ _ KT _ => constructor
    | |- PersSpec.valid_value _ _ (KE _) _ => constructor; simpl; tauto
    | |- PersSpec.valid_value _ _ KX _ => constructor; [simpl; lia|intros ? []]
    | |- PersSpec.valid_value _ _ (KC _) _ => constructor
    | |- interface_of _ = _ => reflexivity
    | |- rules _ _ => cbn; intuition discriminate
    end.
Qed.
(** * Parameters that are not given *)
Lemma fget_fput_other n m (v : fval) fs : n <> m -> fget n (fput m v fs) = fget n fs.
Proof. intros H. induction fs as [|(k, w) fs IH]; [reflexivity|]. cbn [fput]. destruct (String.eqb_spec m k) as [->|N]; cbn [fget]; [destruct (String.eqb_spec n k); [congruence|reflexivity]|]. now rewrite IH. Qed.
Lemma set_field_plain c n v (fs fs' : fields) : c <> NewtonSolver -> set_field c n v fs = Ret fs' -> fs' = fput n v fs.
Proof. intros H. unfold set_field. destruct c; try congruence; repeat match goal with |- context [if ?b then _ else _] => destruct b end; intros E; try discriminate E; now injection E as <-. Qed.
Lemma load_absent_fields c ds n : c <> NewtonSolver -> forall sch fs fs' o, mfind TOstr n ds = None -> load_fields c sch ds fs = (fs', o) -> fget n fs' = fget n fs.
Proof.
  intros HC. induction sch as [|(m, k) sch IH]; intros fs fs' o A L; cbn [PersModel.load_fields] in L; [now injection L as <- _|].
  destruct (looked_at c fs m); [|eauto]. destruct (mfind TOstr m ds) as [d|] eqn:E; [|eauto]. destruct (convert k d) as [v| |]; cbn [obind] in L; try (now injection L as <- _).
  destruct (set_field c m v fs) as [fs1| |] eqn:SF; try (now injection L as <- _). apply IH in L; [|exact A]. rewrite L. apply set_field_plain in SF; [|exact HC]. subst fs1. apply fget_fput_other. intros ->. congruence.
Qed.
Theorem untouched r c ps n (fs : fields) : c <> NewtonSolver -> c <> InitSpecified -> mfind TOstr n ps = None -> fget n (fields_of (fst (setParameters r ps (Comp c fs)))) = fget n fs.
Proof.
  intros H1 H2 A. unfold PersModel.setParameters, load. destruct (load_fields c (schema c) (decoders r ps) fs) as [fs' o] eqn:E.
  assert (X : fget n fs' = fget n fs) by (eapply load_absent_fields; eauto; now apply decoders_none). destruct c; try congruence; exact X.
Qed.
Lemma load_same_fields c ds ds' : forall sch fs, (forall n k, In (n, k) sch -> mfind TOstr n ds = mfind TOstr n ds') -> load_fields c sch ds fs = load_fields c sch ds' fs.
Proof.
  induction sch as [|(m, k) sch IH]; intros fs H; [reflexivity|]. cbn [PersModel.load_fields]. rewrite (H m k (or_introl eq_refl)).
  assert (H' : forall n k, In (n, k) sch -> mfind TOstr n ds = mfind TOstr n ds') by (intros; eapply H; right; eauto).
  destruct (looked_at c fs m); [|now apply IH]. destruct (mfind TOstr m ds'); [|now apply IH]. destruct (v <- convert k d ;; set_field c m v fs); try reflexivity. now apply IH.
Qed.
Theorem unknown_names r c ps ps' (fs : fields) : c <> InitSpecified -> (forall n, In n (names_of c) -> mfind TOstr n ps = mfind TOstr n ps') -> setParameters r ps (Comp c fs) = setParameters r ps' (Comp c fs).
Proof.
  intros H A. unfold PersModel.setParameters, load. assert (X : load_fields c (schema c) (decoders r ps) fs = load_fields c (schema c) (decoders r ps') fs).
  { apply load_same_fields. intros n k I. assert (E : mfind TOstr n ps = mfind TOstr n ps') by (apply A; unfold names_of; apply in_map_iff; exists (n, k); auto).
    destruct (mfind TOstr n ps) as [w|] eqn:E1; [rewrite (decoders_find zero lit stod r ps n w E1), (decoders_find zero lit stod r ps' n w (eq_sym E)); reflexivity|rewrite (decoders_none zero lit stod r ps n E1), (decoders_none zero lit stod r ps' n (eq_sym E)); reflexivity]. }
  rewrite X. destruct c; try congruence; reflexivity.
Qed.
(** * Errors *)
Theorem bad_type r s nested i : s <> "" -> r_new r i s = None -> from_value r (PV s nested) i = Throw.
Proof. intros H E. cbn [PersModel.from_value]. destruct (String.eqb_spec s ""); [congruence|]. now rewrite E. Qed.
(** an exception inside a component's parameters ends the call; the parameters read before it keep their new values, the others their old ones *)
Lemma load_app c ds sch1 : forall sch2 fs, load_fields c (sch1 ++ sch2) ds fs = match load_fields c sch1 ds fs with (fs', Ret _) => load_fields c sch2 ds fs' | (fs', Throw) => (fs', Throw) | (fs', UB) => (fs', UB) end.
Proof.
  induction sch1 as [|(m, k) sch1 IH]; intros sch2 fs; [reflexivity|]. cbn [app PersModel.load_fields]. destruct (looked_at c fs m); [|apply IH]. destruct (mfind TOstr m ds); [|apply IH].
  destruct (v <- convert k d ;; set_field c m v fs); [apply IH|reflexivity|reflexivity].
Qed.
(** * Undefined behaviour *)
Lemma load_inv c ds (Inv : fields -> Prop) : forall sch fs,
  (forall n k d, In (n, k) sch -> mfind TOstr n ds = Some d -> convert k d <> UB) ->
  (forall n k d v fs, In (n, k) sch -> mfind TOstr n ds = Some d -> convert k d = Ret v -> Inv fs -> looked_at c fs n = true -> exists fs', set_field c n v fs = Ret fs' /\ Inv fs') ->
  Inv fs -> snd (load_fields c sch ds fs) <> UB /\ Inv (fst (load_fields c sch ds fs)).
Proof.
  induction sch as [|(m, k) sch IH]; intros fs H1 H2 I; [now split|]. cbn [PersModel.load_fields].
  assert (IH' : forall fs, Inv fs -> snd (load_fields c sch ds fs) <> UB /\ Inv (fst (load_fields c sch ds fs))) by (intros; apply IH; auto; intros; [eapply H1|eapply H2]; eauto; right; eauto).
  destruct (looked_at c fs m) eqn:LA; [|auto]. destruct (mfind TOstr m ds) as [d|] eqn:E; [|auto]. pose proof (H1 m k d (or_introl eq_refl) E) as NU.
  destruct (convert k d) as [v| |] eqn:C; cbn [obind]; [|cbn [snd fst]; split; [discriminate|exact I]|congruence].
  destruct (H2 m k d v fs (or_introl eq_refl) E C I LA) as (fs' & -> & I'). auto.
Qed.
(** a new iteration performer has no parts *)
Theorem performer_resets r v o a1 a2 a3 a4 a5 a6 a7 a8 : from_value r v IIteration = Ret o ->
  setParameters r [("itperf", v)] (Comp NewtonSolver [("itperf", a1); ("regularizer", a2); ("max_iterations", a3); ("ddir", a4); ("jacobian", a5); ("jtrim", a6); ("linsearch", a7); ("err", a8)]) =
  (Comp NewtonSolver [("itperf", FC o); ("regularizer", a2); ("max_iterations", a3); ("ddir", FC None); ("jacobian", FC None); ("jtrim", FC None); ("linsearch", FC None); ("err", FC None)], Ret tt).
Proof.
  intros E. unfold PersModel.setParameters, load. assert (H : has stod (decoders r [("itperf", v)]) "itperf" (KC IIteration) (FC o)).
  { exists (text_of v, from_value r v). split; [reflexivity|]. cbn [PersModel.convert snd]. now rewrite E. }
  cbn [schema]. erewrite load_step; [|reflexivity|exact H|reflexivity]. rewrite !load_absent by reflexivity. reflexivity.
Qed.
Theorem lost r r' t v i : r_id r (class_of t) = "" -> to_value fmt r (Some t) = Ret v -> from_value r' v i = Ret None.
Proof. intros E. unfold to_value. rewrite E. destruct (has_parameters (class_of t)); [destruct (save fmt r t); cbn [obind]; try discriminate|]; intros H; injection H as <-; reflexivity. Qed.
Hypothesis stod_defined : forall s, stod s <> UB.
Lemma convert_defined k d : (forall i, snd d i <> UB) -> convert k d <> UB.
Proof.
  intros H. destruct k; cbn [PersModel.convert].
  - unfold to_double. destruct (IsNumber _); [|discriminate]. cbn [v_text]. destruct (stod (fst d)) eqn:E; cbn [obind]; try discriminate. exfalso. eapply stod_defined; eauto.
  - destruct (to_unsigned (mkV (fst d) None)) eqn:E; cbn [obind]; try discriminate. exfalso. eapply unsigned_no_ub; eauto.
  - destruct (to_bool (mkV (fst d) None)) eqn:E; cbn [obind]; try discriminate. exfalso. eapply bool_no_ub; eauto.
  - discriminate.
  - destruct (existsb _ _); discriminate.
  - specialize (H i). destruct (snd d i); cbn [obind]; [discriminate|discriminate|congruence].
  - discriminate.
Qed.
(** ** complete parameter trees never run into a null pointer *)
Variable r : registry.
Hypothesis K : knows_library r.
Hypothesis T : well_typed r.
Definition fine (v : pval) : Prop := forall i, from_value r v i <> UB /\
  (forall t, from_value r v i = Ret (Some t) -> interface_of (class_of t) = Some i /\ (class_of t = NewtonSolver -> takes_mapping (Some (FC (Some t))) = true)) /\
  (from_value r v i = Ret None -> text_of v = "").
Definition ready (fs : fields) : bool := is_null "itperf" fs || (negb (is_null "ddir" fs) && negb (is_null "linsearch" fs)).
Lemma is_null_other n m (v : fval) fs : n <> m -> is_null n (fput m v fs) = is_null n fs.
Proof. intros H. unfold is_null. now rewrite fget_fput_other. Qed.
Lemma is_null_put n (t : comp) fs : In n (map fst fs) -> is_null n (fput n (FC (Some t)) fs) = false.
Proof.
  unfold is_null. induction fs as [|(k, w) fs IH]; intros []; cbn [fput fst] in *.
  - subst. rewrite String.eqb_refl. cbn [fget]. now rewrite String.eqb_refl.
  - destruct (String.eqb_spec n k) as [->|N]; cbn [fget]; [now rewrite String.eqb_refl|]. destruct (String.eqb_spec n k); [congruence|]. now apply IH.
Qed.
Lemma fput_names n (v : fval) fs : map fst (fput n v fs) = map fst fs.
Proof. induction fs as [|(k, w) fs IH]; [reflexivity|]. cbn [fput]. destruct (String.eqb n k); cbn [map fst]; congruence. Qed.
Section Set_.
Variable ps : params.
Hypothesis F : forall n v, mfind TOstr n ps = Some v -> fine v.
Hypothesis C : forall n v, mfind TOstr n ps = Some v -> In n ["enorm"; "linsearch"; "algsolver"; "ddir"] -> text_of v <> "".
Hypothesis C' : mfind TOstr "itperf" ps <> None -> given "ddir" ps /\ given "linsearch" ps.
Notation ds := (decoders r ps).
Lemma dec_inv n d : mfind TOstr n ds = Some d -> exists v, mfind TOstr n ps = Some v /\ d = (text_of v, from_value r v).
Proof. intros H. destruct (mfind TOstr n ps) as [v|] eqn:E; [|rewrite (decoders_none zero lit stod r ps n E) in H; discriminate]. rewrite (decoders_find zero lit stod r ps n v E) in H. injection H as <-. eauto. Qed.
Lemma conv_defined n k d : mfind TOstr n ds = Some d -> convert k d <> UB.
Proof. intros H. destruct (dec_inv n d H) as (v & E & ->). apply convert_defined. intros i. cbn [snd]. apply (F n v E). Qed.
Lemma nonnull n i d v : In n ["enorm"; "linsearch"; "algsolver"; "ddir"] -> mfind TOstr n ds = Some d -> convert (KC i) d = Ret v -> exists t, v = FC (Some t) /\ interface_of (class_of t) = Some i /\ (class_of t = NewtonSolver -> takes_mapping (Some (FC (Some t))) = true).
Proof.
  intros I H E. destruct (dec_inv n d H) as (w & Ew & ->). cbn [PersModel.convert snd] in E. destruct (F n w Ew i) as (_ & F2 & F3). destruct (from_value r w i) as [o| |]; try discriminate E. cbn [obind] in E. injection E as <-.
  destruct o as [t|]; [exists t; split; [reflexivity|now apply F2]|]. exfalso. apply (C n w Ew I). now apply F3.
Qed.
Lemma given_dec n : given n ps -> exists w, mfind TOstr n ps = Some w /\ mfind TOstr n ds = Some (text_of w, from_value r w).
Proof. intros (w & E & _). exists w. split; [exact E|]. now apply decoders_find. Qed.
Lemma enorm_kind c k : In ("enorm", k) (schema c) -> k = KC INorm.
Proof. intros H. destruct c; cbn in H; repeat (destruct H as [H|H]; [first [discriminate H|injection H as <-; reflexivity]|]); destruct H. Qed.
Lemma simple_load c fs : c <> NewtonSolver -> c <> SolverImplicitEuler -> snd (load_fields c (schema c) ds fs) <> UB.
Proof.
  intros H1 H2. apply (load_inv c ds (fun _ => True)); [intros; eapply conv_defined; eauto| |exact Logic.I].
  intros n k d v fs' I E CV _ _. assert (X : (if String.eqb n "enorm" then (if match v with FC None => true | _ => false end then UB else Ret (fput n v fs')) else Ret (fput n v fs')) = Ret (fput n v fs')).
  { destruct (String.eqb_spec n "enorm") as [->|]; [|reflexivity]. rewrite (enorm_kind c k I) in CV. destruct (nonnull "enorm" INorm d v) as (t & -> & _); cbn; auto. }
  exists (fput n v fs'). split; [|exact Logic.I]. unfold set_field. destruct c; try congruence; exact X.
Qed.
Lemma euler_load fs : takes_mapping (fget "algsolver" fs) = true -> snd (load_fields SolverImplicitEuler (schema SolverImplicitEuler) ds fs) <> UB.
Proof.
  intros H. apply (load_inv SolverImplicitEuler ds (fun fs => takes_mapping (fget "algsolver" fs) = true)); [intros; eapply conv_defined; eauto| |exact H].
  clear fs H. intros n k d v fs I E CV H _. unfold set_field. destruct (String.eqb_spec n "algsolver") as [->|NA].
  - assert (k = KC INewton) by (cbn in I; repeat (destruct I as [I|I]; [first [discriminate I|injection I as <-; reflexivity]|]); destruct I). subst k.
    destruct (nonnull "algsolver" INewton d v) as (t & -> & IT & TM); cbn; auto. assert (CT : class_of t = NewtonSolver) by (destruct t as [c ?]; destruct c; try discriminate IT; reflexivity).
    specialize (TM CT). cbn [takes_mapping] in TM. rewrite TM. eexists. split; [reflexivity|].
    destruct (fget "algsolver" fs) as [w|] eqn:G; [|discriminate H]. clear -TM G. assert (X : fget "algsolver" (fput "algsolver" (FC (Some t)) fs) = Some (FC (Some t))).
    { induction fs as [|(m, x) fs IH]; [discriminate|]. cbn [fget fput] in *. destruct (String.eqb "algsolver" m) eqn:Q; cbn [fget]; rewrite Q; auto. }
    rewrite X. exact TM.
  - destruct (String.eqb n "reorder"); [rewrite H|]; (eexists; split; [reflexivity|]; rewrite fget_fput_other; auto).
Qed.
(** Newton's solver *)
Lemma newton_load fs : map fst fs = names_of NewtonSolver -> ready fs = true -> is_null "itperf" fs = false ->
  snd (load_fields NewtonSolver (schema NewtonSolver) ds fs) <> UB /\ (snd (load_fields NewtonSolver (schema NewtonSolver) ds fs) = Ret tt -> ready (fst (load_fields NewtonSolver (schema NewtonSolver) ds fs)) = true).
Proof.
  intros NM RD NI.
  assert (STEP : forall n k sch fs, snd (load_fields NewtonSolver ((n, k) :: sch) ds fs) = Throw \/
     load_fields NewtonSolver ((n, k) :: sch) ds fs = load_fields NewtonSolver sch ds fs /\ (looked_at NewtonSolver fs n = false \/ mfind TOstr n ds = None) \/
     exists d v, mfind TOstr n ds = Some d /\ looked_at NewtonSolver fs n = true /\ convert k d = Ret v /\ (forall fs', set_field NewtonSolver n v fs = Ret fs' -> load_fields NewtonSolver ((n, k) :: sch) ds fs = load_fields NewtonSolver sch ds fs')).
  { intros n k sch f. cbn [PersModel.load_fields]. destruct (looked_at NewtonSolver f n); [|right; left; auto]. destruct (mfind TOstr n ds) as [d|] eqn:E; [|right; left; auto].
    pose proof (conv_defined n k d E) as NU. destruct (convert k d) as [v| |] eqn:EC; [|now left|congruence]. right. right. exists d, v. split; [reflexivity|]. split; [reflexivity|]. split; [exact EC|]. cbn [obind]. intros fs' ->. reflexivity. }
  assert (NF : forall f : fields, map fst f = names_of NewtonSolver -> forall n, In n (names_of NewtonSolver) -> In n (map fst f)) by (intros f ->; auto).
  set (Good := fun X : fields * Outcome unit => snd X <> UB /\ (snd X = Ret tt -> ready (fst X) = true)).
  change (Good (load_fields NewtonSolver (schema NewtonSolver) ds fs)).
  assert (THR : forall X, snd X = Throw -> Good X) by (intros X E; split; rewrite E; discriminate).
  (* err *)
  assert (G8 : forall f, ready f = true -> Good (load_fields NewtonSolver [("err", KC IError)] ds f)).
  { intros f R. destruct (STEP "err" (KC IError) [] f) as [E|[[E _]|(d & v & E1 & E2 & E3 & E4)]]; [now apply THR|rewrite E; split; [discriminate|auto]|].
    rewrite (E4 _ eq_refl). split; [discriminate|]. intros _. cbn [fst PersModel.load_fields]. unfold ready. rewrite !is_null_other by discriminate. exact R. }
  (* linsearch *)
  assert (G7 : forall f, map fst f = names_of NewtonSolver -> (is_null "itperf" f = false -> is_null "ddir" f = false /\ (is_null "linsearch" f = false \/ mfind TOstr "linsearch" ps <> None)) -> Good (load_fields NewtonSolver [("linsearch", KC ILineSearch); ("err", KC IError)] ds f)).
  { intros f N R. destruct (STEP "linsearch" (KC ILineSearch) [("err", KC IError)] f) as [E|[[E Q]|(d & v & E1 & E2 & E3 & E4)]]; [now apply THR|rewrite E; apply G8|].
    - unfold ready. destruct (is_null "itperf" f) eqn:IP; [reflexivity|]. destruct (R eq_refl) as [R1 [R2|R2]]; rewrite R1; [rewrite R2; reflexivity|]. exfalso. destruct Q as [Q|Q].
      + unfold looked_at, shown in Q. cbn in Q. rewrite IP in Q. discriminate.
      + destruct (mfind TOstr "linsearch" ps) as [w|] eqn:X; [|congruence]. rewrite (decoders_find zero lit stod r ps _ w X) in Q. discriminate.
    - destruct (nonnull "linsearch" ILineSearch d v) as (t & -> & _); [cbn; auto|exact E1|exact E3|]. rewrite (E4 _ eq_refl). apply G8. unfold ready.
      rewrite is_null_put by (apply NF; [exact N|cbn; tauto]). rewrite !is_null_other by discriminate. destruct (is_null "itperf" f) eqn:IP; [reflexivity|]. destruct (R eq_refl) as [-> _]. reflexivity. }
  (* jtrim, jacobian *)
  assert (G6 : forall f, map fst f = names_of NewtonSolver -> (is_null "itperf" f = false -> is_null "ddir" f = false /\ (is_null "linsearch" f = false \/ mfind TOstr "linsearch" ps <> None)) -> Good (load_fields NewtonSolver [("jtrim", KC ITrimmer); ("linsearch", KC ILineSearch); ("err", KC IError)] ds f)).
  { intros f N R. destruct (STEP "jtrim" (KC ITrimmer) [("linsearch", KC ILineSearch); ("err", KC IError)] f) as [E|[[E Q]|(d & v & E1 & E2 & E3 & E4)]]; [now apply THR|rewrite E; now apply G7|].
    rewrite (E4 _ eq_refl). apply G7; [now rewrite fput_names|]. rewrite !is_null_other by discriminate. exact R. }
  assert (G5 : forall f, map fst f = names_of NewtonSolver -> (is_null "itperf" f = false -> is_null "ddir" f = false /\ (is_null "linsearch" f = false \/ mfind TOstr "linsearch" ps <> None)) -> Good (load_fields NewtonSolver [("jacobian", KC IJacobian); ("jtrim", KC ITrimmer); ("linsearch", KC ILineSearch); ("err", KC IError)] ds f)).
  { intros f N R. destruct (STEP "jacobian" (KC IJacobian) [("jtrim", KC ITrimmer); ("linsearch", KC ILineSearch); ("err", KC IError)] f) as [E|[[E Q]|(d & v & E1 & E2 & E3 & E4)]]; [now apply THR|rewrite E; now apply G6|].
    rewrite (E4 _ eq_refl). cbn [fold_left]. apply G6; [now rewrite !fput_names|]. rewrite !is_null_other by discriminate. exact R. }
  (* ddir *)
  assert (G4 : forall f, map fst f = names_of NewtonSolver -> (is_null "itperf" f = false -> (is_null "ddir" f = false \/ mfind TOstr "ddir" ps <> None) /\ (is_null "linsearch" f = false \/ mfind TOstr "linsearch" ps <> None)) ->
     Good (load_fields NewtonSolver [("ddir", KC IDirection); ("jacobian", KC IJacobian); ("jtrim", KC ITrimmer); ("linsearch", KC ILineSearch); ("err", KC IError)] ds f)).
  { intros f N R. destruct (STEP "ddir" (KC IDirection) [("jacobian", KC IJacobian); ("jtrim", KC ITrimmer); ("linsearch", KC ILineSearch); ("err", KC IError)] f) as [E|[[E Q]|(d & v & E1 & E2 & E3 & E4)]]; [now apply THR|rewrite E; apply G5; [exact N|]|].
    - intros IP. destruct (R IP) as [R1 R2]. split; [|exact R2]. destruct R1 as [R1|R1]; [exact R1|]. exfalso. destruct Q as [Q|Q].
      + unfold looked_at, shown in Q. cbn in Q. rewrite IP in Q. discriminate.
      + destruct (mfind TOstr "ddir" ps) as [w|] eqn:X; [|congruence]. rewrite (decoders_find zero lit stod r ps _ w X) in Q. discriminate.
    - destruct (nonnull "ddir" IDirection d v) as (t & -> & _); [cbn; auto|exact E1|exact E3|]. rewrite (E4 _ eq_refl). cbn [fold_left]. apply G5; [now rewrite !fput_names|].
      rewrite (is_null_other "itperf"), (is_null_other "itperf"), (is_null_other "itperf"), (is_null_other "linsearch"), (is_null_other "linsearch"), (is_null_other "linsearch"), (is_null_other "ddir"), (is_null_other "ddir") by discriminate.
      intros IP. split; [|apply R, IP]. apply is_null_put. apply NF; [exact N|cbn; tauto]. }
  (* max_iterations, regularizer *)
  assert (G3 : forall f, map fst f = names_of NewtonSolver -> (is_null "itperf" f = false -> (is_null "ddir" f = false \/ mfind TOstr "ddir" ps <> None) /\ (is_null "linsearch" f = false \/ mfind TOstr "linsearch" ps <> None)) ->
     Good (load_fields NewtonSolver [("max_iterations", KU); ("ddir", KC IDirection); ("jacobian", KC IJacobian); ("jtrim", KC ITrimmer); ("linsearch", KC ILineSearch); ("err", KC IError)] ds f)).
  { intros f N R. destruct (STEP "max_iterations" KU [("ddir", KC IDirection); ("jacobian", KC IJacobian); ("jtrim", KC ITrimmer); ("linsearch", KC ILineSearch); ("err", KC IError)] f) as [E|[[E Q]|(d & v & E1 & E2 & E3 & E4)]]; [now apply THR|rewrite E; now apply G4|].
    rewrite (E4 _ eq_refl). apply G4; [now rewrite fput_names|]. rewrite !is_null_other by discriminate. exact R. }
  assert (G2 : forall f, map fst f = names_of NewtonSolver -> (is_null "itperf" f = false -> (is_null "ddir" f = false \/ mfind TOstr "ddir" ps <> None) /\ (is_null "linsearch" f = false \/ mfind TOstr "linsearch" ps <> None)) ->
     Good (load_fields NewtonSolver [("regularizer", KC IRegularization); ("max_iterations", KU); ("ddir", KC IDirection); ("jacobian", KC IJacobian); ("jtrim", KC ITrimmer); ("linsearch", KC ILineSearch); ("err", KC IError)] ds f)).
  { intros f N R. destruct (STEP "regularizer" (KC IRegularization) [("max_iterations", KU); ("ddir", KC IDirection); ("jacobian", KC IJacobian); ("jtrim", KC ITrimmer); ("linsearch", KC ILineSearch); ("err", KC IError)] f) as [E|[[E Q]|(d & v & E1 & E2 & E3 & E4)]]; [now apply THR|rewrite E; now apply G3|].
    rewrite (E4 _ eq_refl). apply G3; [now rewrite fput_names|]. rewrite !is_null_other by discriminate. exact R. }
  (* itperf *)
  cbn [schema]. destruct (STEP "itperf" (KC IIteration) [("regularizer", KC IRegularization); ("max_iterations", KU); ("ddir", KC IDirection); ("jacobian", KC IJacobian); ("jtrim", KC ITrimmer); ("linsearch", KC ILineSearch); ("err", KC IError)] fs) as [E|[[E Q]|(d & v & E1 & E2 & E3 & E4)]]; [now apply THR|rewrite E; apply G2; [exact NM|]|].
  - intros _. unfold ready in RD. rewrite NI in RD. cbn in RD. apply andb_prop in RD. destruct RD as [D1 D2]. apply negb_true_iff in D1, D2. auto.
  - rewrite (E4 _ eq_refl). cbn [fold_left]. apply G2; [now rewrite !fput_names|]. intros _. destruct (dec_inv _ _ E1) as (w & Ew & _).
    destruct C' as ((w1 & X1 & _) & (w2 & X2 & _)); [congruence|]. rewrite X1, X2. split; right; discriminate.
Qed.
End Set_.
(** specified initial states *)
Lemma to_double_defined v : to_double stod v <> UB.
Proof. unfold to_double. destruct (IsNumber _); [apply stod_defined|discriminate]. Qed.
Lemma load_vars_defined ps x : forall i, snd (load_vars stod ps i x) <> UB.
Proof.
  induction x as [|v x IH]; intros i; cbn [load_vars]; [discriminate|]. unfold maybe_load. destruct (mfind TOstr (is_name i) ps) as [w|].
  - pose proof (to_double_defined w) as D. destruct (to_double stod w); [|discriminate|congruence]. specialize (IH (i + 1)). destruct (load_vars stod ps (i + 1) x). exact IH.
  - specialize (IH (i + 1)). destruct (load_vars stod ps (i + 1) x). exact IH.
Qed.
Lemma init_load ds t : snd (load_init zero stod ds [("time", FD t); ("state", FX [])]) <> UB.
Proof.
  unfold load_init. set (ps := map (fun kv : string * decoder => (fst kv, mkV (fst (snd kv)) None)) ds). assert (X : snd (is_set zero stod ps (mkIst t [])) <> UB).
  { unfold is_set. cbn [is_x is_time]. assert (Y : match mfind TOstr "size" ps with Some v => z <- to_int v ;; is_resize zero z [] | None => Ret [] end <> UB).
    { destruct (mfind TOstr "size" ps) as [v|]; [|discriminate]. pose proof (int_no_ub v) as D. destruct (to_int v) as [z| |]; cbn [obind]; [|discriminate|congruence]. unfold is_resize. destruct (z <? 0)%Z; [discriminate|]. cbn [List.length]. destruct (Z.to_nat z =? 0)%nat; [discriminate|]. cbn [Nat.ltb Nat.leb]. discriminate. }
    destruct (match mfind TOstr "size" ps with Some v => z <- to_int v ;; is_resize zero z [] | None => Ret [] end) as [x| |]; [|discriminate|congruence].
    unfold maybe_load. destruct (mfind TOstr "time" ps) as [w|].
    - pose proof (to_double_defined w) as D. destruct (to_double stod w); [|discriminate|congruence]. pose proof (load_vars_defined ps x 0) as L. destruct (load_vars stod ps 0 x). exact L.
    - pose proof (load_vars_defined ps x 0) as L. destruct (load_vars stod ps 0 x). exact L. }
  change (snd (let (s, o) := is_set zero stod ps (mkIst t []) in ([("time", FD (is_time s)); ("state", FX (is_x s))], o)) <> UB). destruct (is_set zero stod ps (mkIst t [])). exact X.
Qed.
Lemma newton_made : exists fs, make_plain zero lit NewtonSolver = Comp NewtonSolver fs /\ map fst fs = names_of NewtonSolver /\ ready fs = true /\ is_null "itperf" fs = false.
Proof. eexists. split; [reflexivity|]. repeat split. Qed.
Lemma load_class ds c (fs : fields) : class_of (fst (load zero stod ds (Comp c fs))) = c.
Proof. unfold load. destruct c; try (destruct (load_fields _ _ ds fs); reflexivity). destruct (load_init zero stod ds fs). reflexivity. Qed.
Lemma fine_set ps : (forall n v, mfind TOstr n ps = Some v -> fine v) -> (forall n v, mfind TOstr n ps = Some v -> In n ["enorm"; "linsearch"; "algsolver"; "ddir"] -> text_of v <> "") -> (mfind TOstr "itperf" ps <> None -> given "ddir" ps /\ given "linsearch" ps) ->
  forall c t0, make r c = Ret t0 -> snd (setParameters r ps t0) <> UB /\ (forall t, finished (setParameters r ps t0) = Ret (Some t) -> class_of t = c /\ (c = NewtonSolver -> takes_mapping (Some (FC (Some t))) = true)).
Proof.
  intros F C C' c t0 M.
  assert (CT : class_of t0 = c). { destruct (make_ok zero lit r c K) as (fs & E & _). rewrite E in M. now injection M as <-. }
  destruct t0 as [c0 fs]. cbn [class_of] in CT. subst c0.
  assert (CL : forall t, finished (setParameters r ps (Comp c fs)) = Ret (Some t) -> class_of t = c).
  { intros t H. unfold finished in H. pose proof (load_class (decoders r ps) c fs) as Q. unfold PersModel.setParameters in *. destruct (load zero stod (decoders r ps) (Comp c fs)) as [t1 [u| |]]; cbn [fst snd] in *; try discriminate H. injection H as <-. exact Q. }
  assert (S : c <> NewtonSolver -> c <> SolverImplicitEuler -> c <> InitSpecified -> snd (setParameters r ps (Comp c fs)) <> UB).
  { intros H1 H2 H3. unfold PersModel.setParameters, load. pose proof (simple_load ps F C c fs H1 H2) as Q. destruct (load_fields c (schema c) (decoders r ps) fs). destruct c; try congruence; exact Q. }
  assert (X : {c = NewtonSolver} + {c = SolverImplicitEuler} + {c = InitSpecified} + {c <> NewtonSolver /\ c <> SolverImplicitEuler /\ c <> InitSpecified}).
  { destruct c; try (right; repeat split; discriminate); left; [left; right|left; left|right]; reflexivity. }
  destruct X as [[[->| ->]| ->]|(H1 & H2 & H3)].
  - destruct newton_made as (fs' & E & E1 & E2 & E3). unfold PersModel.make in M. rewrite E in M. cbn [parts add_parts obind] in M. injection M as <-.
    destruct (newton_load ps F C C' fs' E1 E2 E3) as [N1 N2]. unfold PersModel.setParameters, load in *. destruct (load_fields NewtonSolver (schema NewtonSolver) (decoders r ps) fs') as [f o]. cbn [fst snd] in *. split; [exact N1|].
    intros t H. split; [now apply CL|]. intros _. unfold finished in H. cbn [snd fst] in H. destruct o as [[]| |]; try discriminate H. injection H as <-. cbn [takes_mapping]. now apply N2.
  - split; [|intros t H; split; [now apply CL|discriminate]]. unfold PersModel.make in M. cbn [make_plain parts add_parts] in M. unfold make_part in M.
    assert (Ka : r_new r INewton "newton" = Some NewtonSolver) by (apply (K NewtonSolver INewton eq_refl)). assert (Ke : r_new r IEvent "linear" = Some EventLinear) by (apply (K EventLinear IEvent eq_refl)).
    rewrite Ka in M. cbn [obind] in M. rewrite Ke in M. cbn [obind] in M. injection M as <-.
    unfold PersModel.setParameters, load. match goal with |- context [load_fields SolverImplicitEuler ?s ?d ?f] => pose proof (euler_load ps F C f eq_refl) as Q; destruct (load_fields SolverImplicitEuler s d f) end. exact Q.
  - split; [|intros t H; split; [now apply CL|discriminate]]. unfold PersModel.make in M. cbn [make_plain parts add_parts obind fresh] in M. injection M as <-.
    unfold PersModel.setParameters, load. pose proof (init_load (decoders r ps) zero) as Q. destruct (load_init zero stod (decoders r ps) [("time", FD zero); ("state", FX [])]). exact Q.
  - split; [auto|]. intros t H. split; [now apply CL|]. congruence.
Qed.
Lemma made_newton t : make r NewtonSolver = Ret t -> takes_mapping (Some (FC (Some t))) = true.
Proof. unfold PersModel.make. cbn. intros H. injection H as <-. reflexivity. Qed.
Lemma fine_leaf s : fine (PV s None).
Proof.
  intros i. cbn [PersModel.from_value]. destruct (String.eqb_spec s "") as [->|N]; [repeat split; try discriminate; reflexivity|].
  destruct (r_new r i s) as [c|] eqn:E; [|repeat split; discriminate]. destruct (make_ok zero lit r c K) as (fs & M & _). rewrite M. cbn [obind]. split; [discriminate|]. split; [|discriminate].
  intros t H. injection H as <-. cbn [class_of]. split; [now apply T with s|]. intros ->. now apply made_newton.
Qed.
Lemma fine_tree s ps : (forall n v, mfind TOstr n ps = Some v -> fine v) -> (forall n v, mfind TOstr n ps = Some v -> In n ["enorm"; "linsearch"; "algsolver"; "ddir"] -> text_of v <> "") -> (mfind TOstr "itperf" ps <> None -> given "ddir" ps /\ given "linsearch" ps) -> fine (PV s (Some ps)).
Proof.
  intros F C C' i. cbn [PersModel.from_value]. destruct (String.eqb_spec s "") as [->|N]; [repeat split; try discriminate; reflexivity|].
  destruct (r_new r i s) as [c|] eqn:E; [|repeat split; discriminate]. destruct (make_ok zero lit r c K) as (fs & M & _). rewrite M. cbn [obind].
  change (map (fun kv : string * pval => (fst kv, (text_of (snd kv), from_value r (snd kv)))) ps) with (decoders r ps).
  destruct (has_parameters c) eqn:HP.
  - change (load zero stod (decoders r ps) (Comp c fs)) with (setParameters r ps (Comp c fs)). destruct (fine_set ps F C C' c _ M) as [U R].
    split; [|split].
    + unfold finished. destruct (snd (setParameters r ps (Comp c fs))); [discriminate|discriminate|congruence].
    + intros t H. destruct (R t H) as [R1 R2]. rewrite R1. split; [now apply T with s|]. exact R2.
    + unfold finished. destruct (snd (setParameters r ps (Comp c fs))); discriminate.
  - split; [discriminate|]. split; [|discriminate]. intros t H. injection H as <-. cbn [class_of]. split; [now apply T with s|]. intros ->. now apply made_newton.
Qed.
Lemma complete_fine v : complete v -> fine v.
Proof.
  revert v. fix REC 1. intros [s [ps|]]; [|intros _; apply fine_leaf]. intros H. 
  assert (X : complete_set ps /\ (mfind TOstr "itperf" ps <> None -> given "ddir" ps /\ given "linsearch" ps)) by (inversion H; subst; auto). destruct X as [CS CI].
  assert (Y : forall n v, mfind TOstr n ps = Some v -> fine v /\ (In n ["enorm"; "linsearch"; "algsolver"; "ddir"] -> text_of v <> "")).
  { clear H CI. induction ps as [|(m, w) ps IH]; [discriminate|]. assert (Z : complete w /\ (In m ["enorm"; "linsearch"; "algsolver"; "ddir"] -> text_of w <> "") /\ complete_set ps) by (inversion CS; subst; auto). destruct Z as (Z1 & Z2 & Z3).
    pose proof (REC w Z1) as FW. intros n v E. cbn [mfind] in E. destruct (cmp TOstr n m) eqn:Q; [|discriminate|now apply IH]. injection E as <-. apply (cmp_eq TOstr) in Q. subst. auto. }
  apply fine_tree; [intros n v E; apply (Y n v E)|intros n v E; apply (Y n v E)|exact CI].
Qed.
Theorem no_ub v i : complete v -> from_value r v i <> UB.
Proof. intros H. apply (complete_fine v H). Qed.
End F.
