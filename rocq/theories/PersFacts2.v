(** PersFacts2.v - proofs for C76: saving and loading. *)
From Coq Require Import List Arith Bool ZArith String Lia.
From Verif Require Import Base SMap FacModel FacSpec ParModel ParFacts CfgModel InitModel InitSpec InitFacts PersModel PersSpec PersFacts.
Import ListNotations.
Local Open Scope string_scope.
Local Open Scope list_scope.

Section Ind.
Context {real : Type}.
Variable P : @comp real -> Prop.
Definition part_ok (v : @fval real) : Prop := match v with FC (Some t) => P t | _ => True end.
Hypothesis H : forall c fs, Forall (fun nf => part_ok (snd nf)) fs -> P (Comp c fs).
Fixpoint comp_ind' (t : comp) : P t :=
  match t with
  | Comp c fs => H c fs ((fix go (l : fields) : Forall (fun nf => part_ok (snd nf)) l :=
      match l with
      | [] => Forall_nil _
      | (n, v) :: l' => Forall_cons (n, v) (match v as v return part_ok v with FC (Some t') => comp_ind' t' | _ => I end) (go l')
      end) fs)
  end.
End Ind.

Lemma schema_nodup c : NoDup (map fst (schema c)).
Proof. destruct c; cbn; repeat constructor; simpl; intuition discriminate. Qed.
Section F.
Context {real : Type} (zero : real) (lit : Z -> Z -> real) (fmt : real -> string) (stod : string -> Outcome real).
Notation comp := (@comp real).
Notation fields := (@fields real).
Notation fval := (@fval real).
Notation to_value := (to_value fmt).
Notation save := (save fmt).
Notation from_value := (from_value zero lit stod).
Notation decoders := (decoders zero lit stod).
Notation load_fields := (load_fields stod).
Notation setParameters := (setParameters zero lit stod).
Notation valid := (valid fmt stod).
Notation valid_fields := (valid_fields fmt stod).
Notation valid_value := (valid_value fmt stod).
Notation convert := (convert stod).
Notation make := (make zero lit).

(** * Saving *)
Definition enc (r : registry) (v : fval) : Outcome pval :=
  match v with
  | FD x => Ret (leaf_value (Value_double fmt x))
  | FU z => Ret (leaf_value (Value_unsigned z))
  | FB b => Ret (leaf_value (Value_bool b))
  | FT s => Ret (PV s None)
  | FX _ => Ret (PV "" None)
  | FC o => to_value r o
  end.
Fixpoint save_list (r : registry) (c : cls) (fs0 l : fields) (acc : params) : Outcome params :=
  match l with
  | [] => Ret acc
  | (n, v) :: l' => if shown c fs0 n then w <- enc r v ;; save_list r c fs0 l' (mput TOstr n w acc) else save_list r c fs0 l' acc
  end.
Lemma save_unfold r c fs : c <> InitSpecified -> save r (Comp c fs) = if save_defined c fs then save_list r c fs fs [] else UB.
Proof.
  intros H. assert (E : forall l acc, (fix go (l : fields) (acc : params) : Outcome params :=
             match l with
             | [] => Ret acc
             | (n, v) :: l' =>
                 if shown c fs n then
                   w <- match v with
                        | FD x => Ret (leaf_value (Value_double fmt x))
                        | FU z => Ret (leaf_value (Value_unsigned z))
                        | FB b => Ret (leaf_value (Value_bool b))
                        | FT s => Ret (PV s None)
                        | FX _ => Ret (PV "" None)
                        | FC None => Ret (PV "" None)
                        | FC (Some t') => if has_parameters (class_of t') then ps <- save r t' ;; Ret (PV (r_id r (class_of t')) (Some ps)) else Ret (PV (r_id r (class_of t')) None)
                        end ;;
                   go l' (mput TOstr n w acc)
                 else go l' acc
             end) l acc = save_list r c fs l acc).
  { induction l as [|(n, v) l IH]; intros acc; [reflexivity|]. cbn [save_list]. destruct (shown c fs n); [|apply IH].
    destruct v as [x|z|b|s|[t|]|x]; cbn [enc PersModel.to_value]; try (cbn [obind]; apply IH).
    destruct (has_parameters (class_of t)); [|cbn [obind]; apply IH]. destruct (save r t); cbn [obind]; auto. }
  destruct c; try congruence; cbn [PersModel.save]; rewrite E; reflexivity.
Qed.
Lemma save_list_ok r c fs0 : forall l acc, msorted TOstr acc -> NoDup (map fst l) -> (forall n v, In (n, v) l -> shown c fs0 n = true -> exists w, enc r v = Ret w) ->
  exists ps, save_list r c fs0 l acc = Ret ps /\ msorted TOstr ps /\
    (forall n v w, In (n, v) l -> shown c fs0 n = true -> enc r v = Ret w -> mfind TOstr n ps = Some w) /\
    (forall n, (forall v, In (n, v) l -> shown c fs0 n = false) -> mfind TOstr n ps = mfind TOstr n acc).
Proof.
  induction l as [|(n, v) l IH]; intros acc S N E.
  - exists acc. split; [reflexivity|]. split; [exact S|]. split; [intros ? ? ? []|reflexivity].
  - inversion N as [|? ? N1 N2]; subst. cbn [save_list]. destruct (shown c fs0 n) eqn:SH.
    + destruct (E n v (or_introl eq_refl) SH) as (w & Ew). rewrite Ew. cbn [obind].
      destruct (IH (mput TOstr n w acc)) as (ps & E1 & S1 & F1 & G1); [apply mput_sorted, S|exact N2|intros; eapply E; eauto; right; eauto|].
      exists ps. split; [exact E1|]. split; [exact S1|]. split.
      * intros n' v' w' [Q|Q] SH' E'; [|eapply F1; eauto]. injection Q as <- <-. rewrite G1.
        -- rewrite mfind_put by exact S. rewrite keqb_refl. congruence.
        -- intros v0 Hin. exfalso. apply N1. apply in_map_iff. exists (n, v0). auto.
      * intros n' Hn'. rewrite G1; [|intros; apply Hn' with v0; right; auto]. rewrite mfind_put by exact S. rewrite keqb_neq; [reflexivity|].
        intros ->. specialize (Hn' v (or_introl eq_refl)). congruence.
    + destruct (IH acc S N2) as (ps & E1 & S1 & F1 & G1); [intros; eapply E; eauto; right; eauto|]. exists ps. split; [exact E1|]. split; [exact S1|]. split.
      * intros n' v' w' [Q|Q] SH' E'; [injection Q as <- <-; congruence|eapply F1; eauto].
      * intros n' Hn'. apply G1. intros v0 Hin. apply (Hn' v0). now right.
Qed.
(** * Names *)
Lemma valid_names sch fs : valid_fields sch fs -> map fst fs = map fst sch.
Proof. intros H. induction H as [|n k v sch fs V H IH]; [reflexivity|]. simpl. now rewrite IH. Qed.
Lemma decoders_find r ps n w : mfind TOstr n ps = Some w -> mfind TOstr n (decoders r ps) = Some (text_of w, from_value r w).
Proof. unfold PersModel.decoders. intros H. induction ps as [|(m, v) ps IH]; [discriminate|]. cbn [map mfind fst snd] in *. destruct (cmp TOstr n m); [injection H as ->; reflexivity|discriminate|auto]. Qed.
Lemma decoders_none r ps n : mfind TOstr n ps = None -> mfind TOstr n (decoders r ps) = None.
Proof. unfold PersModel.decoders. intros H. induction ps as [|(m, v) ps IH]; [reflexivity|]. cbn [map mfind fst snd] in *. destruct (cmp TOstr n m); [discriminate|reflexivity|auto]. Qed.
(** * Loading in order *)
Lemma fput_mid pre n v w suf : ~ In n (map fst pre) -> fput n v (pre ++ (n, w) :: suf) = (pre ++ (n, v) :: suf : fields).
Proof.
  induction pre as [|(m, x) pre IH]; intros H; cbn [app fput].
  - now rewrite String.eqb_refl.
  - destruct (String.eqb_spec n m) as [->|]; [exfalso; apply H; now left|]. rewrite IH; [reflexivity|]. intros Q. apply H. now right.
Qed.
Lemma load_gen c ds : (forall (fs : fields) n, looked_at c fs n = true) -> forall sch tgt pre fs0,
  map fst fs0 = map fst sch ->
  Forall2 (fun nk nv => fst nk = fst nv /\ exists d, mfind TOstr (fst nk) ds = Some d /\ convert (snd nk) d = Ret (snd nv)) sch tgt ->
  (forall pre' n v suf, pre ++ tgt = pre' ++ (n, v) :: suf -> forall w suf', set_field c n v (pre' ++ (n, w) :: suf') = Ret (pre' ++ (n, v) :: suf')) ->
  load_fields c sch ds (pre ++ fs0) = (pre ++ tgt, Ret tt).
Proof.
  intros LA. induction sch as [|(n, k) sch IH]; intros tgt pre fs0 N F S.
  - inversion F; subst. destruct fs0; [reflexivity|discriminate].
  - inversion F as [|? (n', v) ? tgt' (E1 & d & E2 & E3) F']; subst. cbn [fst snd] in *. subst n'.
    destruct fs0 as [|(m, w) fs0]; [discriminate|]. cbn [map fst] in N. injection N as -> N.
    cbn [PersModel.load_fields]. rewrite LA, E2, E3. cbn [obind].
    rewrite (S pre n v tgt' eq_refl). 
    replace (pre ++ (n, v) :: fs0) with ((pre ++ [(n, v)]) ++ fs0) by (now rewrite <- app_assoc).
    replace (pre ++ (n, v) :: tgt') with ((pre ++ [(n, v)]) ++ tgt') by (now rewrite <- app_assoc).
    apply IH; [exact N|exact F'|]. intros pre' n' v' suf Q. apply S with suf. rewrite <- Q. now rewrite <- app_assoc.
Qed.
(** ** which setters only store *)
Definition plain (c : cls) : bool := match c with NewtonSolver | InitSpecified => false | _ => true end.
Lemma looked_plain c (fs : fields) n : plain c = true -> looked_at c fs n = true.
Proof. destruct c; simpl; try discriminate; reflexivity. Qed.
Lemma fget_app pre n (v : fval) suf : ~ In n (map fst pre) -> fget n (pre ++ (n, v) :: suf) = Some v.
Proof. induction pre as [|(m, x) pre IH]; intros H; cbn [app fget]; [now rewrite String.eqb_refl|]. destruct (String.eqb_spec n m) as [->|]; [exfalso; apply H; now left|]. apply IH. intros Q. apply H. now right. Qed.
Lemma null_mid pre n v (suf : fields) : ~ In n (map fst pre) -> is_null n (pre ++ (n, v) :: suf) = match v with FC (Some _) => false | _ => true end.
Proof. intros H. unfold is_null. now rewrite fget_app. Qed.
Lemma mapping_ok fs v : valid_fields (schema SolverImplicitEuler) fs -> rules SolverImplicitEuler fs -> fget "algsolver" fs = Some v -> takes_mapping (Some v) = true.
Proof.
  intros V R E. cbn in R. rewrite E in R. destruct v as [| | | |[t|]|]; try contradiction.
  assert (VT : valid t /\ interface_of (class_of t) = Some INewton).
  { inversion V as [|? ? ? ? ? V1 V']; subst. inversion V' as [|? ? ? ? ? V2 V'']; subst. inversion V'' as [|? ? ? ? ? V3 V3']; subst. cbn in E. injection E as ->. inversion V3; subst. auto. }
  destruct VT as [VT IT]. destruct t as [c tf]. cbn in IT. destruct c; try discriminate IT. inversion VT as [? ? VF RR]; subst. cbn in RR. destruct RR as (R1 & R2 & _). cbn [fields_of] in R.
  cbn. destruct (is_null "itperf" tf); [reflexivity|]. rewrite (R2 eq_refl), (R eq_refl). reflexivity.
Qed.
Lemma nodup_mid pre (n : string) (v : fval) suf : NoDup (map fst (pre ++ (n, v) :: suf)) -> ~ In n (map fst pre).
Proof. rewrite map_app. cbn [map fst]. intros H Q. apply NoDup_remove_2 in H. apply H, in_or_app. now left. Qed.
Lemma set_ok c fs : plain c = true -> valid_fields (schema c) fs -> rules c fs -> forall pre n v suf, fs = pre ++ (n, v) :: suf -> forall w suf', set_field c n v (pre ++ (n, w) :: suf') = Ret (pre ++ (n, v) :: suf').
Proof.
  intros PL V R pre n v suf E w suf'. assert (N : NoDup (map fst fs)) by (rewrite (valid_names _ _ V); apply schema_nodup).
  assert (NI : ~ In n (map fst pre)) by (rewrite E in N; eapply nodup_mid; exact N).
  assert (K : In (n, v) fs) by (rewrite E; apply in_or_app; right; now left).
  assert (EN : is_null "enorm" fs = false -> n = "enorm" -> match v with FC None => true | _ => false end = false).
  { intros H ->. subst fs. rewrite null_mid in H by exact NI. destruct v as [| | | |[|]|]; try discriminate; reflexivity. }
  assert (NE : n = "enorm" -> In "enorm" (map fst (schema c))).
  { intros ->. rewrite <- (valid_names _ _ V). apply in_map_iff. eexists; split; [|exact K]. reflexivity. }
  assert (ST : (String.eqb n "enorm" = true -> match v with FC None => true | _ => false end = false) -> (if String.eqb n "enorm" then (if match v with FC None => true | _ => false end then UB else Ret (fput n v (pre ++ (n, w) :: suf'))) else Ret (fput n v (pre ++ (n, w) :: suf'))) = Ret (pre ++ (n, v) :: suf')).
  { intros Q. rewrite fput_mid by exact NI. destruct (String.eqb n "enorm"); [rewrite (Q eq_refl)|]; reflexivity. }
  destruct c; try discriminate PL; cbn [set_field]; try (apply ST; intros Q; apply String.eqb_eq in Q; first [exact (EN R Q) | exfalso; apply NE in Q; cbn in Q; intuition discriminate]).
  rewrite fput_mid by exact NI. destruct (String.eqb_spec n "algsolver") as [->|NA].
  - rewrite (mapping_ok fs v V R); [reflexivity|]. subst fs. now rewrite fget_app.
  - destruct (String.eqb_spec n "reorder") as [->|NR]; [|reflexivity].
    assert (G : exists x, fget "algsolver" (pre ++ ("reorder", w) :: suf') = Some x /\ fget "algsolver" fs = Some x).
    { pose proof (valid_names _ _ V) as VN. rewrite E in VN. rewrite E.
      do 3 (destruct pre as [|(?, ?) pre]; [cbn in VN; discriminate VN|]; cbn in VN; injection VN as -> VN). cbn. eauto. }
    destruct G as (x & G1 & G2). rewrite G1, (mapping_ok fs x V R G2). reflexivity.
Qed.
(** * Fresh objects *)
Lemma plain_shaped c : shaped c (fresh zero lit c).
Proof. destruct c; repeat constructor. Qed.
Lemma fput_shaped sch n v : forall fs, Forall2 (fun nk nf => fst nk = fst nf /\ kind_fits (snd nk) (snd nf)) sch fs -> (forall k, In (n, k) sch -> kind_fits k v) ->
  Forall2 (fun nk nf => fst nk = fst nf /\ kind_fits (snd nk) (snd nf)) sch (fput n v fs : fields).
Proof.
  intros fs H. induction H as [|(m, k) (m', w) sch fs (E & F) H IH]; intros K; [constructor|]. cbn [fst snd] in *. subst m'. cbn [fput].
  destruct (String.eqb_spec n m) as [->|].
  - constructor; [|exact H]. split; [reflexivity|]. apply K. now left.
  - constructor; [now split|]. apply IH. intros k' Q. apply K. now right.
Qed.
Lemma make_plain_shaped c : exists fs, make_plain zero lit c = Comp c fs /\ shaped c fs /\ (c <> NewtonSolver -> fs = fresh zero lit c).
Proof. destruct c; try (eexists; split; [reflexivity|split; [apply plain_shaped|reflexivity]]). eexists; split; [reflexivity|]. split; [repeat constructor|congruence]. Qed.
Lemma make_ok r c : knows_library r -> exists fs, make r c = Ret (Comp c fs) /\ shaped c fs /\ (parts c = [] -> c <> NewtonSolver -> fs = fresh zero lit c).
Proof.
  intros K. destruct (make_plain_shaped c) as (fs & E & S & S0). unfold PersModel.make. rewrite E.
  assert (A : forall ps fs, (forall n i id, In (n, i, id) ps -> exists d, interface_of d = Some i /\ library_id d = id) -> (forall n i id k, In (n, i, id) ps -> In (n, k) (schema c) -> k = KC i) -> shaped c fs -> exists fs', add_parts zero lit r ps fs = Ret fs' /\ shaped c fs' /\ (ps = [] -> fs' = fs)).
  { induction ps as [|((n, i), id) ps IH]; intros gs H1 H2 H3.
    - exists gs. auto.
    - cbn [add_parts]. destruct (H1 n i id (or_introl eq_refl)) as (d & Hd & <-). unfold make_part. destruct (K d i Hd) as [-> _]. cbn [obind].
      destruct (IH (fput n (FC (Some (make_plain zero lit d))) gs)) as (fs' & F1 & F2 & F3).
      + intros; eapply H1; right; eauto.
      + intros; eapply H2; eauto; right; eauto.
      + apply fput_shaped; [exact H3|]. intros k Q. rewrite (H2 n i (library_id d) k); [exact I|now left|exact Q].
      + exists fs'. split; [exact F1|]. split; [exact F2|]. discriminate. }
  destruct (A (parts c) fs) as (fs' & F1 & F2 & F3).
  - intros n i id H. destruct c; cbn in H; repeat (destruct H as [H|H]; [injection H as <- <- <-;
      first [exists EventLinear; split; reflexivity | exists NormInf; split; reflexivity | exists StepSizeSimple; split; reflexivity | exists NewtonSolver; split; reflexivity]|]); destruct H.
  - intros n i id k H1 H2. destruct c; cbn in H1; repeat (destruct H1 as [H1|H1]; [injection H1 as <- <- <-; cbn in H2; repeat (destruct H2 as [H2|H2]; [first [discriminate H2 | injection H2 as <-; reflexivity]|]); destruct H2|]); destruct H1.
  - exact S.
  - exists fs'. rewrite F1. cbn [obind]. split; [reflexivity|]. split; [exact F2|]. intros Q1 Q2. rewrite (F3 Q1). auto.
Qed.
End F.
