(** MoreFacts.v - further facts about sparse matrices, mappings, output and helpers (C02, C05, C18, C20, C48, C49, C50, C53). *)
From Coq Require Import List Arith Bool Lia ZArith QArith Qcanon String Ascii.
From Verif Require Import Base BaseFacts SMap SpModel SpSpec SpFacts SpFacts2 SpFacts3 SpFacts4 MapModel MapSpec MapFacts ParModel ParSpec ParFacts UtilModel RkModel OutModel OutSpec.
Import ListNotations.
Local Open Scope nat_scope.

Section Sp.
Context {N : Num}.
Notation T := (nT N).
Lemma size_fold (d : list (key * T)) (s : key) :
  let r := fold_left (fun s e => (Nat.max (fst s) (fst (fst e) + 1), Nat.max (snd s) (snd (fst e) + 1))) d s in
  (fst s <= fst r /\ snd s <= snd r) /\ (forall p x, In (p, x) d -> fst p < fst r /\ snd p < snd r) /\
  (forall R C, fst s <= R -> snd s <= C -> (forall p x, In (p, x) d -> fst p < R /\ snd p < C) -> fst r <= R /\ snd r <= C).
Proof.
  revert s. induction d as [|[q y] d IH]; intros s; cbn.
  - split; [auto|]. split; [intros p x []|auto].
  - match goal with |- context [fold_left _ d ?s'] => specialize (IH s') end. cbn in IH. destruct IH as (A & B & C). split; [lia|]. split.
    + intros p x [E|I]; [injection E as <- <-; lia|eauto].
    + intros R K H1 H2 H. apply C; try (pose proof (H q y (or_introl eq_refl)); lia). intros p x I. apply (H p x). right. exact I.
Qed.
Lemma size_from_data (a : smat N) : (forall p x, In (p, x) (sdat a) -> fst p < fst (sizeFromData a) /\ snd p < snd (sizeFromData a)) /\
  (forall R C, (forall p x, In (p, x) (sdat a) -> fst p < R /\ snd p < C) -> fst (sizeFromData a) <= R /\ snd (sizeFromData a) <= C).
Proof. destruct (size_fold (sdat a) (0, 0)) as (_ & B & C). split; [exact B|]. intros R K H. apply C; cbn; auto with arith. Qed.
Lemma scaled_identity (n : nat) (k : T) : exists a, scaledIdentity n k = Ret a /\ fast a = false /\ ssz a = (n, n) /\ row_major (sdat a) /\
  (forall i, i < n -> get a (i, i) = nadd N (n0 N) k) /\ (forall r c, r <> c \/ n <= r -> hasIndex a (r, c) = false).
Proof.
  unfold scaledIdentity. destruct (addScaledIdentity_ok (new_map (n, n)) k) as (a & R & F & S & M & D & O); [exact I|discriminate|].
  exists a. split; [exact R|]. split; [exact F|]. split; [exact S|]. split; [exact M|]. split.
  - intros i H. rewrite D by exact H. reflexivity.
  - intros r c H. unfold hasIndex. rewrite O by exact H. reflexivity.
Qed.
Lemma obj_app1 (m : mems N) (x : smat N) j : j <> List.length m -> obj (m ++ [x]) j = obj m j.
Proof.
  intros D. unfold obj. destruct (Nat.ltb_spec j (List.length m)) as [L|L]; [apply app_nth1; exact L|].
  rewrite !nth_overflow; auto. rewrite app_length. cbn. lia.
Qed.
Lemma construct_ok (m : mems N) (src : sexpr N) (fuel : nat) : mems_ok m -> sbase src < List.length m -> List.length (sdat (obj m (sbase src))) < fuel ->
  exists m', sconstruct fuel m false src = Some (m', Ret tt) /\ mems_ok m' /\ List.length m' = S (List.length m) /\ (forall j, j < List.length m -> obj m' j = obj m j) /\
    fast (obj m' (List.length m)) = false /\ ssz (obj m' (List.length m)) = ssize m src /\
    forall p x, sfind (obj m' (List.length m)) p = Some x <-> In (p, x) (siter m src).
Proof.
  intros OK B F. unfold sconstruct. set (m1 := m ++ [mkS false (ssize m src) []]). set (id := List.length m).
  assert (O1 : obj m1 id = mkS false (ssize m src) []) by (unfold obj, m1, id; rewrite app_nth2, Nat.sub_diag by auto; reflexivity).
  assert (OO : forall j, j <> id -> obj m1 j = obj m j) by (intros; apply obj_app1; assumption).
  assert (L1 : List.length m1 = S id) by (unfold m1; rewrite app_length; cbn; unfold id; lia).
  assert (OK1 : mems_ok m1).
  { intros j. destruct (Nat.eq_dec j id) as [->|Dj]; [rewrite O1; exact I|rewrite OO by assumption; apply OK]. }
  assert (D : sbase src <> id) by (unfold id; lia).
  assert (SI : siter m1 src = siter m src) by (apply siter_other, OO; assumption).
  rewrite rfor_fold; auto.
  2:{ intros p x m0. apply (sat_upd_other m0 (SW id)). assumption. }
  2:{ rewrite OO by assumption. exact F. }
  destruct (sfold_upd (fun _ x => x) (siter m1 src) m1 (SW id) OK1) as [m' [R [OK' [OS [FA' [SZ [V1 V2]]]]]]].
  { simpl. rewrite L1. auto. } { apply siter_NoDup; assumption. }
  { simpl. rewrite O1. discriminate. }
  exists m'. simpl in *. rewrite R. rewrite O1 in *. simpl in *. split; [reflexivity|]. split; [exact OK'|].
  destruct OS as [L2 L3]. split; [congruence|]. split; [intros j J; rewrite L3, OO by (unfold id; lia); reflexivity|].
  split; [exact FA'|]. split; [exact SZ|]. rewrite SI in *. intros p x. split.
  - intros S. destruct (in_dec (fun u v : key => ltac:(decide equality; apply Nat.eq_dec)) p (map fst (siter m src))) as [I|NI].
    + apply in_map_iff in I as [[p' y] [E I]]. simpl in E; subst p'. rewrite (V1 p y I) in S. injection S as <-. exact I.
    + rewrite V2 in S; [discriminate|]. intros p' y I ->. apply NI. apply in_map_iff. exists (p, y); auto.
  - intros I. apply (V1 p x I).
Qed.
Lemma narrow_short (o : narrowing N) (x : list T) :
  (List.length x < List.length (disIn o) -> narrowInput o x = Throw) /\ (List.length x < List.length (disOut o) -> narrowOutput o x = Throw).
Proof.
  unfold narrowInput, narrowOutput, reduce. split; intros H.
  - destruct (disIn o) as [|a l]; [cbn in H; lia|]. rewrite (proj2 (Nat.ltb_lt _ _) H). reflexivity.
  - destruct (disOut o) as [|a l]; [cbn in H; lia|]. rewrite (proj2 (Nat.ltb_lt _ _) H). reflexivity.
Qed.
End Sp.
Lemma inverse_mapping (dv x : list Qc) : List.length x = List.length dv ->
  exists y, inv_map (N:=QcNum) dv x = Ret y /\ List.length y = List.length x /\ (forall i, i < List.length x -> nth i y 0%Qc = (nth i x 0 / nth i dv 0)%Qc) /\
    exists z, inv_unmap (N:=QcNum) dv x = Ret z /\ List.length z = List.length x /\ (forall i, i < List.length x -> nth i z 0%Qc = (nth i x 0 * nth i dv 0)%Qc).
Proof.
  intros L. destruct (diag_ok (N:=QcNum) (ndiv QcNum) 0%Qc dv x L) as (y & A & B & C). destruct (diag_ok (N:=QcNum) (nmul QcNum) 0%Qc dv x L) as (z & D & E & F).
  exists y. split; [exact A|]. split; [exact B|]. split; [exact C|]. exists z. auto.
Qed.
Lemma inverse_undoes (dv x : list Qc) : List.length x = List.length dv -> (forall b, In b dv -> b <> 0%Qc) ->
  (y <- diag_map (N:=QcNum) dv x ;; inv_map (N:=QcNum) dv y) = Ret x /\ (y <- inv_map (N:=QcNum) dv x ;; diag_map (N:=QcNum) dv y) = Ret x.
Proof. intros L Z. split; [apply (proj2 (diag_roundtrip dv) Z); exact L|apply diag_unmap_map; assumption]. Qed.
Lemma line_ok (n : Z) (o : obs) : let l := line_of n o in let a := ob_a o in
  gl_n l = n /\ gl_t l = ob_t o /\ gl_h l = pa_h a /\ gl_err l = pa_err a /\ gl_accepted l = pa_accepted a /\ gl_changed l = pa_changed a /\ gl_trunc l = pa_trunc a /\
  (forall i c, gl_cause l = Some (i, c) <-> pa_trunc a = true /\ pa_izf a = Some i /\
     (((0 < pa_type a)%Z /\ c = "+"%char) \/ ((pa_type a < 0)%Z /\ c = "-"%char) \/ (pa_type a = 0%Z /\ c = "?"%char))).
Proof.
  cbn. repeat (split; [reflexivity|]). intros i c. unfold sign_char. destruct (pa_trunc (ob_a o)); [|split; [discriminate|intros (E & _); discriminate]].
  destruct (pa_izf (ob_a o)) as [j|]; [|split; [discriminate|intros (_ & E & _); discriminate]]. split.
  - intros E. injection E as <- <-. split; [reflexivity|]. split; [reflexivity|]. destruct (Z.ltb_spec 0 (pa_type (ob_a o))); [auto|]. destruct (Z.ltb_spec (pa_type (ob_a o)) 0); [auto|]. right; right. split; [lia|reflexivity].
  - intros (_ & E & C). injection E as <-. do 2 f_equal. destruct (Z.ltb_spec 0 (pa_type (ob_a o))), (Z.ltb_spec (pa_type (ob_a o)) 0); destruct C as [[? ->]|[[? ->]|[? ->]]]; try reflexivity; lia.
Qed.
Lemma as_int_ok i : (0 <= i < 4294967296)%Z -> exists z, denotes (FormatInt i) z /\ (-2147483648 <= z <= 2147483647)%Z /\ (z = i \/ z = i - 4294967296)%Z.
Proof.
  intros H. exists (as_int i). split; [apply to_string_Z_denotes|]. unfold as_int, INT_MAX, UINT_MOD. destruct (Z.ltb_spec 2147483647 i); lia.
Qed.
Lemma header_names (n2 : nat) (idx : list nat) : (forall i, In i idx -> (Z.of_nat i <= 2147483647)%Z) ->
  Forall2 (fun i s => exists c t, s = String c t /\
     denotes t (Z.of_nat (if (n2 =? 0) || (i <? n2) then i else if i <? 2 * n2 then i - n2 else i - 2 * n2)) /\
     c = (if (n2 =? 0) || (i <? n2) then "x"%char else if i <? 2 * n2 then "v"%char else "z"%char)) idx (sol_header n2 idx).
Proof.
  intros H. unfold sol_header. induction idx as [|i l IH]; cbn [map]; constructor; [|apply IH; intros; apply H; right; assumption].
  assert (D : forall j, j <= i -> denotes (FormatInt (Z.of_nat j)) (Z.of_nat j)).
  { intros j J. specialize (H i (or_introl eq_refl)). destruct (as_int_ok (Z.of_nat j)) as (z & A & B & C); [lia|]. assert (z = Z.of_nat j) by lia. subst z. exact A. }
  unfold col_name. destruct ((n2 =? 0) || (i <? n2)); [eexists _, _; split; [reflexivity|]; split; [apply D; lia|reflexivity]|].
  destruct (i <? 2 * n2); (eexists _, _; split; [reflexivity|]; split; [apply D; lia|reflexivity]).
Qed.
Lemma sgn_ok (x : Q) : ((0 <= x)%Q -> Sgn x = 1%Z) /\ ((x < 0)%Q -> Sgn x = (-1)%Z).
Proof.
  unfold Sgn. destruct (Qle_bool 0 x) eqn:E; split; intros H; try reflexivity; exfalso.
  - apply Qle_bool_iff in E. apply (Qlt_not_le _ _ H E).
  - apply Qle_bool_iff in H. congruence.
Qed.
