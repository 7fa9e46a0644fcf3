(** InitFacts.v - proofs for C51. *)
From Coq Require Import List Arith Bool ZArith QArith Qabs Qpower Lia Lqa String Ascii.
From Verif Require Import Base BaseFacts SMap LexModel ParModel ParFacts UtilModel UtilFacts3 InitModel InitSpec.
Import ListNotations.
Local Open Scope nat_scope.
Local Notation length := List.length (only parsing).

Lemma name_inj i j : (Z.of_nat i <= INT_MAX)%Z -> (Z.of_nat j <= INT_MAX)%Z -> is_name i = is_name j -> i = j.
Proof.
  intros A B E. unfold is_name in E. injection E as E. unfold FormatInt, as_int in E. rewrite (proj2 (Z.ltb_ge _ _) A), (proj2 (Z.ltb_ge _ _) B) in E.
  pose proof (to_string_Z_denotes (Z.of_nat i)) as D1. pose proof (to_string_Z_denotes (Z.of_nat j)) as D2. rewrite E in D1. pose proof (denotes_fun _ _ _ D1 D2). lia.
Qed.
Lemma name_other i : is_name i <> "size"%string /\ is_name i <> "time"%string.
Proof. unfold is_name. split; discriminate. Qed.
Lemma keqb_refl (k : string) : keqb TOstr k k = true. Proof. destruct (keqb_spec TOstr k k); [reflexivity|congruence]. Qed.
Lemma keqb_neq (k k' : string) : k <> k' -> keqb TOstr k k' = false. Proof. intros H. destruct (keqb_spec TOstr k k'); [congruence|reflexivity]. Qed.
Section Facts.
Context {real : Type} (zero : real) (fmt : real -> string) (stod : string -> Outcome real).
Lemma put_vars_sorted x : forall i ps, msorted TOstr ps -> msorted TOstr (put_vars fmt i x ps).
Proof. induction x as [|v x IH]; intros i ps H; [exact H|]. cbn [put_vars]. apply IH, mput_sorted, H. Qed.
Lemma put_vars_find x : forall i ps k, msorted TOstr ps -> (Z.of_nat (i + length x) <= INT_MAX + 1)%Z ->
  (forall j, j < length x -> mfind TOstr (is_name (i + j)) (put_vars fmt i x ps) = Some (Value_double fmt (nth j x zero))) /\
  ((forall j, j < length x -> k <> is_name (i + j)) -> mfind TOstr k (put_vars fmt i x ps) = mfind TOstr k ps).
Proof.
  induction x as [|v x IH]; intros i ps k H L; [split; [intros j J; cbn in J; lia|reflexivity]|]. cbn [put_vars length] in *. pose proof (mput_sorted TOstr ps (is_name i) (Value_double fmt v) H) as H'.
  destruct (IH (i + 1) _ k H' ltac:(lia)) as [IH1 IH2]. split.
  - intros [|j] J.
    + destruct (IH (i + 1) _ (is_name (i + 0)) H' ltac:(lia)) as [_ IH3]. rewrite IH3.
      * rewrite mfind_put by exact H. rewrite Nat.add_0_r, keqb_refl. reflexivity.
      * intros j Hj E. apply name_inj in E; lia.
    + replace (i + Datatypes.S j) with (i + 1 + j) by lia. cbn [nth]. apply IH1. lia.
  - intros NE. rewrite IH2; [|intros j Hj; specialize (NE (Datatypes.S j) ltac:(lia)); replace (i + 1 + j) with (i + Datatypes.S j) by lia; exact NE]. rewrite mfind_put by exact H. rewrite keqb_neq; [reflexivity|]. specialize (NE 0 ltac:(lia)). rewrite Nat.add_0_r in NE. exact NE.
Qed.
Lemma params_sorted s : msorted TOstr (is_params fmt s).
Proof. apply put_vars_sorted, mput_sorted, mput_sorted. exact I. Qed.
Lemma params_find s : (Z.of_nat (length (is_x s)) <= INT_MAX)%Z ->
  mfind TOstr "size"%string (is_params fmt s) = Some (Value_int (Z.of_nat (length (is_x s)))) /\ mfind TOstr "time"%string (is_params fmt s) = Some (Value_double fmt (is_time s)) /\
  (forall i, i < length (is_x s) -> mfind TOstr (is_name i) (is_params fmt s) = Some (Value_double fmt (nth i (is_x s) zero))).
Proof.
  intros L. assert (S1 : msorted TOstr (mput TOstr "size"%string (Value_int (Z.of_nat (length (is_x s)))) [])) by (apply mput_sorted; exact I). assert (S2 := mput_sorted TOstr _ "time"%string (Value_double fmt (is_time s)) S1).
  unfold is_params. split; [|split].
  - destruct (put_vars_find (is_x s) 0 _ "size"%string S2 ltac:(lia)) as [_ F]. rewrite F by (intros j Hj E; destruct (name_other (0 + j)) as [N _]; congruence). rewrite mfind_put by exact S1. reflexivity.
  - destruct (put_vars_find (is_x s) 0 _ "time"%string S2 ltac:(lia)) as [_ F]. rewrite F by (intros j Hj E; destruct (name_other (0 + j)) as [_ N]; congruence). rewrite mfind_put by exact S1. reflexivity.
  - intros i Hi. destruct (put_vars_find (is_x s) 0 _ "time"%string S2 ltac:(lia)) as [F _]. apply (F i Hi).
Qed.
(** loading *)
Lemma load_ok ps x : forall i x', load_vars stod ps i x = (x', Ret tt) <-> length x' = length x /\ forall j, j < length x -> loaded stod ps (is_name (i + j)) (nth j x zero) (nth j x' zero).
Proof.
  induction x as [|v x IH]; intros i x'; cbn [load_vars].
  - split; [intros E; injection E as <-; split; [reflexivity|cbn; lia]|]. intros [L _]. destruct x'; [reflexivity|discriminate L].
  - unfold maybe_load. split.
    + intros E. destruct (match mfind TOstr (is_name i) ps with Some v0 => to_double stod v0 | None => Ret v end) as [w| |] eqn:M; [|discriminate E|discriminate E].
      destruct (load_vars stod ps (i + 1) x) as [t' r] eqn:LV. injection E as <- ->. destruct (proj1 (IH (i + 1) t') LV) as [L A]. split; [cbn; lia|]. intros [|j] J; cbn [nth].
      * rewrite Nat.add_0_r. unfold loaded. destruct (mfind TOstr (is_name i) ps); [exact M|injection M as ->; reflexivity].
      * replace (i + Datatypes.S j) with (i + 1 + j) by lia. apply A. cbn in J. lia.
    + intros [L A]. destruct x' as [|w x']; [discriminate L|]. cbn in L. pose proof (A 0 ltac:(cbn; lia)) as A0. rewrite Nat.add_0_r in A0. cbn [nth] in A0. unfold loaded in A0.
      assert (M : match mfind TOstr (is_name i) ps with Some v0 => to_double stod v0 | None => Ret v end = Ret w) by (destruct (mfind TOstr (is_name i) ps); [exact A0|rewrite A0; reflexivity]). rewrite M.
      rewrite (proj2 (IH (i + 1) x')); [reflexivity|]. split; [lia|]. intros j J. specialize (A (Datatypes.S j) ltac:(cbn; lia)). replace (i + 1 + j) with (i + Datatypes.S j) by lia. exact A.
Qed.
Lemma resize_ok z x y : is_resize zero z x = Ret y <-> (0 <= z)%Z /\ length x <= Z.to_nat z /\ y = x ++ repeat zero (Z.to_nat z - length x).
Proof.
  unfold is_resize. destruct (Z.ltb_spec z 0); [split; [discriminate|lia]|]. destruct (Nat.eqb_spec (Z.to_nat z) (length x)) as [E|N].
  - rewrite E, Nat.sub_diag. cbn [repeat]. rewrite app_nil_r. split; [intros E2; injection E2 as <-; repeat split; lia|intros (_ & _ & ->); reflexivity].
  - destruct (Nat.ltb_spec (Z.to_nat z) (length x)); [split; [discriminate|lia]|]. split; [intros E2; injection E2 as <-; repeat split; lia|intros (_ & _ & ->); reflexivity].
Qed.
(** what setParameters does *)
Theorem set_ok ps s s' : is_set zero stod ps s = (s', Ret tt) <->
  exists n, length (is_x s) <= n /\ wanted ps (length (is_x s)) n /\ length (is_x s') = n /\ loaded stod ps "time"%string (is_time s) (is_time s') /\
  forall i, i < n -> loaded stod ps (is_name i) (nth i (is_x s) zero) (nth i (is_x s') zero).
Proof.
  unfold is_set, wanted. split.
  - intros E. destruct (match mfind TOstr "size"%string ps with None => Ret (is_x s) | Some v => z <- to_int v ;; is_resize zero z (is_x s) end) as [x| |] eqn:SZ; [|discriminate E|discriminate E].
    destruct (maybe_load stod ps "time"%string (is_time s)) as [t| |] eqn:TM; [|discriminate E|discriminate E]. destruct (load_vars stod ps 0 x) as [x' r] eqn:LV. injection E as <- ->. apply load_ok in LV as [L A]. cbn [is_time is_x].
    assert (X : exists n, length (is_x s) <= n /\ match mfind TOstr "size"%string ps with None => n = length (is_x s) | Some v => to_int v = Ret (Z.of_nat n) end /\ x = is_x s ++ repeat zero (n - length (is_x s))).
    { destruct (mfind TOstr "size"%string ps) as [v|]; [|injection SZ as <-; exists (length (is_x s)); rewrite Nat.sub_diag; cbn [repeat]; rewrite app_nil_r; repeat split; lia]. destruct (to_int v) as [z| |]; cbn [obind] in SZ; try discriminate SZ. apply resize_ok in SZ as (Z0 & Z1 & ->). exists (Z.to_nat z). rewrite Z2Nat.id by exact Z0. repeat split; lia. }
    destruct X as (n & N0 & N1 & ->). rewrite app_length, repeat_length in *. replace (length (is_x s) + (n - length (is_x s))) with n in * by lia. exists n. split; [exact N0|]. split; [exact N1|]. split; [exact L|]. split.
    + unfold loaded. unfold maybe_load in TM. destruct (mfind TOstr "time"%string ps); [exact TM|injection TM as ->; reflexivity].
    + intros i Hi. specialize (A i Hi). cbn [Nat.add] in A. destruct (Nat.lt_ge_cases i (length (is_x s))) as [G|G]; [rewrite app_nth1 in A by exact G; exact A|]. rewrite app_nth2 in A by exact G. rewrite nth_repeat in A. rewrite (nth_overflow (is_x s)) by exact G. exact A.
  - intros (n & N0 & N1 & L & TM & A).
    assert (SZ : match mfind TOstr "size"%string ps with None => Ret (is_x s) | Some v => z <- to_int v ;; is_resize zero z (is_x s) end = Ret (is_x s ++ repeat zero (n - length (is_x s)))).
    { destruct (mfind TOstr "size"%string ps) as [v|]; [|subst n; rewrite Nat.sub_diag; cbn [repeat]; rewrite app_nil_r; reflexivity]. rewrite N1. cbn [obind]. apply resize_ok. rewrite Nat2Z.id. repeat split; lia. }
    rewrite SZ. assert (T : maybe_load stod ps "time"%string (is_time s) = Ret (is_time s')) by (unfold maybe_load; unfold loaded in TM; destruct (mfind TOstr "time"%string ps); [exact TM|rewrite TM; reflexivity]). rewrite T.
    rewrite (proj2 (load_ok ps (is_x s ++ repeat zero (n - length (is_x s))) 0 (is_x s'))); [destruct s'; reflexivity|]. rewrite app_length, repeat_length. replace (length (is_x s) + (n - length (is_x s))) with n by lia. split; [exact L|].
    intros i Hi. specialize (A i Hi). cbn [Nat.add]. destruct (Nat.lt_ge_cases i (length (is_x s))) as [G|G]; [rewrite app_nth1 by exact G; exact A|]. rewrite app_nth2 by exact G. rewrite nth_repeat. rewrite (nth_overflow (is_x s)) in A by exact G. exact A.
Qed.
Theorem round_trip s s0 : (Z.of_nat (length (is_x s)) <= INT_MAX)%Z -> length (is_x s0) <= length (is_x s) -> survives fmt stod (is_time s) -> (forall v, In v (is_x s) -> survives fmt stod v) -> is_set zero stod (is_params fmt s) s0 = (s, Ret tt).
Proof.
  intros L L0 T A. destruct (params_find s L) as (P1 & P2 & P3). apply set_ok. exists (length (is_x s)). split; [exact L0|]. split; [unfold wanted; rewrite P1; apply int_round_trip; unfold INT_MIN; lia|]. split; [reflexivity|]. split; [unfold loaded; rewrite P2; exact T|].
  intros i Hi. unfold loaded. rewrite (P3 i Hi). apply A. apply nth_In. exact Hi.
Qed.
Theorem round_trip_conv s s0 : (Z.of_nat (length (is_x s)) <= INT_MAX)%Z -> is_set zero stod (is_params fmt s) s0 = (s, Ret tt) -> length (is_x s0) <= length (is_x s) /\ survives fmt stod (is_time s) /\ forall v, In v (is_x s) -> survives fmt stod v.
Proof.
  intros L E. destruct (params_find s L) as (P1 & P2 & P3). apply set_ok in E as (n & N0 & N1 & N2 & N3 & N4). subst n. split; [exact N0|]. split; [unfold loaded in N3; rewrite P2 in N3; exact N3|]. intros v IN. apply (In_nth _ _ zero) in IN as (i & Hi & <-). specialize (N4 i Hi). unfold loaded in N4. rewrite (P3 i Hi) in N4. exact N4.
Qed.
Lemma load_same ps ps' x : forall i, (forall j, j < length x -> mfind TOstr (is_name (i + j)) ps = mfind TOstr (is_name (i + j)) ps') -> load_vars stod ps i x = load_vars stod ps' i x.
Proof.
  induction x as [|v x IH]; intros i H; [reflexivity|]. cbn [load_vars]. unfold maybe_load. pose proof (H 0 ltac:(cbn; lia)) as H0. rewrite Nat.add_0_r in H0. rewrite H0. destruct (match mfind TOstr (is_name i) ps' with Some v0 => to_double stod v0 | None => Ret v end); [|reflexivity|reflexivity].
  rewrite (IH (i + 1)); [reflexivity|]. intros j Hj. replace (i + 1 + j) with (i + Datatypes.S j) by lia. apply H. cbn. lia.
Qed.
Theorem set_same ps ps' s n : same_for n ps ps' -> wanted ps (length (is_x s)) n -> is_set zero stod ps s = is_set zero stod ps' s.
Proof.
  intros (A & B & C) Wn. unfold is_set. unfold wanted in Wn. rewrite <- A. unfold maybe_load at 1 2. rewrite <- B.
  destruct (mfind TOstr "size"%string ps) as [v|].
  - rewrite Wn. cbn [obind]. unfold is_resize. destruct (Z.of_nat n <? 0)%Z; [reflexivity|]. rewrite Nat2Z.id. destruct (Nat.eqb_spec n (length (is_x s))) as [E|E].
    + fold (maybe_load stod ps "time"%string (is_time s)). destruct (maybe_load stod ps "time"%string (is_time s)); [|reflexivity|reflexivity]. rewrite (load_same ps ps' (is_x s) 0); [reflexivity|]. intros j Hj. apply C. lia.
    + destruct (Nat.ltb_spec n (length (is_x s))); [reflexivity|]. fold (maybe_load stod ps "time"%string (is_time s)). destruct (maybe_load stod ps "time"%string (is_time s)); [|reflexivity|reflexivity]. rewrite (load_same ps ps' (is_x s ++ repeat zero (n - length (is_x s))) 0); [reflexivity|]. intros j Hj. apply C. rewrite app_length, repeat_length in Hj. lia.
  - fold (maybe_load stod ps "time"%string (is_time s)). destruct (maybe_load stod ps "time"%string (is_time s)); [|reflexivity|reflexivity]. rewrite (load_same ps ps' (is_x s) 0); [reflexivity|]. intros j Hj. apply C. lia.
Qed.
Theorem set_sizes ps s v z : mfind TOstr "size"%string ps = Some v -> to_int v = Ret z ->
  ((z < 0)%Z -> is_set zero stod ps s = (s, Throw)) /\ ((0 <= z < Z.of_nat (length (is_x s)))%Z -> is_set zero stod ps s = (s, UB)).
Proof.
  intros A B. unfold is_set. rewrite A, B. cbn [obind]. unfold is_resize. split; intros H.
  - rewrite (proj2 (Z.ltb_lt _ _) H). reflexivity.
  - rewrite (proj2 (Z.ltb_ge _ _)) by lia. destruct (Nat.eqb_spec (Z.to_nat z) (length (is_x s))); [lia|]. rewrite (proj2 (Nat.ltb_lt _ _)) by lia. reflexivity.
Qed.
End Facts.
(** * numbers *)
Lemma abs_tri a b c : (Qabs (a - c) <= Qabs (a - b) + Qabs (b - c))%Q.
Proof. assert (E : (a - c == (a - b) + (b - c))%Q) by ring. rewrite E. apply Qabs_triangle. Qed.
Lemma abs_sym a b : (Qabs (a - b) == Qabs (b - a))%Q.
Proof. rewrite <- (Qabs_opp (b - a)). assert (E : (a - b == - (b - a))%Q) by ring. rewrite E. reflexivity. Qed.
Theorem survive16 x u d0 d y : bin53 x -> (forall z, bin53 z -> ~ (z == x)%Q -> (u <= Qabs (z - x))%Q) -> dec16 d0 -> (Qabs (d0 - x) * 2 < u)%Q -> nearest dec16 x d -> nearest bin53 d y -> (y == x)%Q.
Proof.
  intros BX GAP D0 CL [D1 D2] [Y1 Y2]. destruct (Qeq_dec y x) as [E|N]; [exact E|]. exfalso. specialize (GAP y Y1 N). specialize (D2 d0 D0). specialize (Y2 x BX). pose proof (abs_tri y d x) as T. rewrite (abs_sym x d) in Y2. lra.
Qed.
(** 3/10 is the nearest 16-digit decimal of every number closer than half a unit of the 16th digit *)
Lemma pow10_pos k : (0 < (10 # 1) ^ k)%Q. Proof. apply Qpower_0_lt. reflexivity. Qed.
Lemma near3 x : (Qabs ((3 # 10) - x) * 2 < (10 # 1) ^ (-16))%Q -> nearest dec16 x (3 # 10).
Proof.
  intros C. split; [exists 3%Z, (-1)%Z; split; [reflexivity|vm_compute; reflexivity]|]. intros d (m & k & M & E). destruct (Qlt_le_dec (Qabs (d - x)) (Qabs ((3 # 10) - x))) as [L|L]; [|exact L]. exfalso.
  assert (T : (Qabs (d - (3 # 10)) < (10 # 1) ^ (-16))%Q). { pose proof (abs_tri d x (3 # 10)) as T. rewrite (abs_sym x (3 # 10)) in T. lra. }
  assert (P16 : ((10 # 1) ^ (-16) == 1 # 10000000000000000)%Q) by (vm_compute; reflexivity).
  assert (DL : (2 # 10 < d)%Q). { apply Qabs_Qlt_condition in T as [T1 T2]. rewrite P16 in T1. lra. }
  assert (K : (-16 <= k)%Z).
  { destruct (Z_lt_le_dec k (-16)) as [LT|GE]; [|exact GE]. exfalso. assert (PK : ((10 # 1) ^ k <= (10 # 1) ^ (-17))%Q) by (apply Qpower_le_compat_l; [lia|discriminate]).
    assert (MB : (inject_Z m <= inject_Z (10 ^ 16))%Q) by (rewrite <- Zle_Qle; lia). pose proof (pow10_pos k) as PP.
    assert (U : (d <= inject_Z (10 ^ 16) * (10 # 1) ^ (-17))%Q). { rewrite E. apply Qle_trans with (inject_Z (10 ^ 16) * (10 # 1) ^ k)%Q; [apply Qmult_le_compat_r; [exact MB|lra]|]. rewrite !(Qmult_comm (inject_Z (10 ^ 16))). apply Qmult_le_compat_r; [exact PK|vm_compute; discriminate]. }
    assert (V : (inject_Z (10 ^ 16) * (10 # 1) ^ (-17) == 1 # 10)%Q) by (vm_compute; reflexivity). rewrite V in U. lra. }
  assert (E2 : (d == inject_Z (m * 10 ^ (k + 16)) * (10 # 1) ^ (-16))%Q).
  { rewrite E, inject_Z_mult. assert (Z10 : (inject_Z (10 ^ (k + 16)) == (10 # 1) ^ (k + 16))%Q) by (change (10 # 1) with (inject_Z 10); apply Zpower_Qpower; lia). rewrite Z10. rewrite Qpower_plus by discriminate. assert (ONE : ((10 # 1) ^ 16 * (10 # 1) ^ (-16) == 1)%Q) by (vm_compute; reflexivity).
    setoid_replace (inject_Z m * ((10 # 1) ^ k * (10 # 1) ^ 16) * (10 # 1) ^ (-16))%Q with (inject_Z m * (10 # 1) ^ k * ((10 # 1) ^ 16 * (10 # 1) ^ (-16)))%Q by ring. rewrite ONE. ring. }
  set (M2 := (m * 10 ^ (k + 16))%Z) in *. assert (EQ : (d - (3 # 10) == inject_Z (M2 - 3000000000000000) * (10 # 1) ^ (-16))%Q).
  { rewrite E2. unfold Z.sub. rewrite inject_Z_plus. assert (R : (inject_Z (- 3000000000000000) * (10 # 1) ^ (-16) == - (3 # 10))%Q) by (vm_compute; reflexivity). rewrite Qmult_plus_distr_l, R. ring. }
  assert (Z0 : M2 = 3000000000000000%Z).
  { rewrite EQ, Qabs_Qmult in T. rewrite (Qabs_pos ((10 # 1) ^ (-16))) in T by (vm_compute; discriminate). destruct (Z.eq_dec M2 3000000000000000) as [Z|N]; [exact Z|]. exfalso.
    assert (A1 : (1 <= Qabs (inject_Z (M2 - 3000000000000000)))%Q). { change (Qabs (inject_Z (M2 - 3000000000000000))) with (inject_Z (Z.abs (M2 - 3000000000000000))). change 1%Q with (inject_Z 1). rewrite <- Zle_Qle. lia. }
    rewrite P16 in T. lra. }
  assert (D3 : (d == 3 # 10)%Q). { rewrite E2, Z0. vm_compute. reflexivity. } rewrite D3 in L. lra.
Qed.
