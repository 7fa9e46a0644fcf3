(** ExInit.v - concrete cases for C51. *)
From Coq Require Import List Arith Bool ZArith QArith Qabs Qpower Lia Lqa String Ascii.
From Verif Require Import Base SMap LexModel ParModel UtilModel InitModel InitSpec InitFacts.
Import ListNotations.
Local Open Scope nat_scope.
Local Notation length := List.length (only parsing).

(** integers as the numbers *)
Definition zfmt (z : Z) : string := to_string_Z z.
Definition zread (s : string) : Outcome Z := stoi s.
Definition st3 : istate := mkIst (-5)%Z [7; -8; 1234567]%Z.
Example C51_survives_example : forall v, In v (is_time st3 :: is_x st3) -> survives zfmt zread v.
Proof. intros v [<-|[<-|[<-|[<-|[]]]]]; vm_compute; reflexivity. Qed.
Example C51_round_trip_example : is_set 0%Z zread (is_params zfmt st3) (mkIst 99%Z [1; 2]%Z) = (st3, Ret tt) /\ is_params zfmt st3 = [("size"%string, mkV "3" None); ("time"%string, mkV "-5" None); ("x0"%string, mkV "7" None); ("x1"%string, mkV "-8" None); ("x2"%string, mkV "1234567" None)].
Proof. split; vm_compute; reflexivity. Qed.
(** enlarged to four, only x1 and x3 given *)
Example C51_set_example : is_set 0%Z zread [("size"%string, mkV "4" None); ("x1"%string, mkV "20" None); ("x3"%string, mkV "40" None); ("x7"%string, mkV "70" None)] (mkIst 9%Z [1; 2]%Z) = (mkIst 9%Z [1; 20; 0; 40]%Z, Ret tt). Proof. vm_compute. reflexivity. Qed.
Example C51_other_names_example : same_for 2 [("x1"%string, mkV "20" None)] [("x1"%string, mkV "20" None); ("x2"%string, mkV "abc" None)] /\ wanted [("x1"%string, mkV "20" None)] 2 2.
Proof. split; [|reflexivity]. split; [reflexivity|]. split; [reflexivity|]. intros [|[|i]] H; [reflexivity|reflexivity|lia]. Qed.
(** C51: the saved parameters of a shorter state cannot be set into a longer one. *)
Theorem C51_shrink_refuted : exists s s0 : istate, is_set 0%Z zread (is_params zfmt s) s0 = (s0, UB) /\ forall v, In v (is_time s :: is_x s) -> survives zfmt zread v.
Proof. exists (mkIst 1%Z [2]%Z), (mkIst 1%Z [2; 3]%Z). split; [vm_compute; reflexivity|]. intros v [<-|[<-|[]]]; vm_compute; reflexivity. Qed.
(** C51: an exception leaves the components before the offending one changed. *)
Theorem C51_all_or_nothing_refuted : exists ps (s s' : istate), is_set 0%Z zread ps s = (s', Throw) /\ s' <> s.
Proof. exists [("x0"%string, mkV "5" None); ("x1"%string, mkV "abc" None)], (mkIst 1%Z [2; 3]%Z). eexists. split; [vm_compute; reflexivity|]. discriminate. Qed.
(** C51: two different numbers (0.3 and 0.1 + 0.2 as doubles) with the same 16 digits: no reader restores both. *)
Theorem C51_sixteen_digits_refuted : exists x1 x2 d, bin53 x1 /\ bin53 x2 /\ ~ (x1 == x2)%Q /\ nearest dec16 x1 d /\ nearest dec16 x2 d /\ forall y, (y == x1)%Q -> ~ (y == x2)%Q.
Proof.
  exists (5404319552844596 # 18014398509481984)%Q, (5404319552844595 # 18014398509481984)%Q, (3 # 10)%Q.
  assert (N : ~ (5404319552844596 # 18014398509481984 == 5404319552844595 # 18014398509481984)%Q) by (intros H; vm_compute in H; discriminate H).
  split; [exists 5404319552844596%Z, (-54)%Z; split; [vm_compute; discriminate|vm_compute; reflexivity]|]. split; [exists 5404319552844595%Z, (-54)%Z; split; [vm_compute; discriminate|vm_compute; reflexivity]|].
  split; [exact N|]. split; [apply near3; vm_compute; reflexivity|]. split; [apply near3; vm_compute; reflexivity|]. intros y A B. rewrite A in B. exact (N B).
Qed.
(** C51: 1/2 is printed as 0.5 and restored: hypotheses with d0 = 1/2, u = 2^-54. *)
Lemma bin53_gap z : bin53 z -> ~ (z == 1 # 2)%Q -> ((2 # 1) ^ (-54) <= Qabs (z - (1 # 2)))%Q.
Proof.
  intros (m & k & M & E) N. destruct (Qlt_le_dec (Qabs (z - (1 # 2))) ((2 # 1) ^ (-54))) as [L|L]; [|exact L]. exfalso.
  assert (P54 : ((2 # 1) ^ (-54) == 1 # 18014398509481984)%Q) by (vm_compute; reflexivity). pose proof L as L'. apply Qabs_Qlt_condition in L' as [L1 L2]. rewrite P54 in L1, L2.
  assert (K : (-54 <= k)%Z).
  { destruct (Z_lt_le_dec k (-54)) as [LT|GE]; [|exact GE]. exfalso. assert (PK : ((2 # 1) ^ k <= (2 # 1) ^ (-55))%Q) by (apply Qpower_le_compat_l; [lia|discriminate]). assert (PP : (0 < (2 # 1) ^ k)%Q) by (apply Qpower_0_lt; reflexivity).
    assert (MB : (inject_Z m <= inject_Z (2 ^ 53))%Q) by (rewrite <- Zle_Qle; lia).
    assert (U : (z <= inject_Z (2 ^ 53) * (2 # 1) ^ (-55))%Q). { rewrite E. apply Qle_trans with (inject_Z (2 ^ 53) * (2 # 1) ^ k)%Q; [apply Qmult_le_compat_r; [exact MB|lra]|]. rewrite !(Qmult_comm (inject_Z (2 ^ 53))). apply Qmult_le_compat_r; [exact PK|vm_compute; discriminate]. }
    assert (V : (inject_Z (2 ^ 53) * (2 # 1) ^ (-55) == 1 # 4)%Q) by (vm_compute; reflexivity). rewrite V in U. lra. }
  assert (E2 : (z == inject_Z (m * 2 ^ (k + 54)) * (2 # 1) ^ (-54))%Q).
  { rewrite E, inject_Z_mult. assert (Z2 : (inject_Z (2 ^ (k + 54)) == (2 # 1) ^ (k + 54))%Q) by (change (2 # 1) with (inject_Z 2); apply Zpower_Qpower; lia). rewrite Z2. rewrite Qpower_plus by discriminate. assert (ONE : ((2 # 1) ^ 54 * (2 # 1) ^ (-54) == 1)%Q) by (vm_compute; reflexivity).
    setoid_replace (inject_Z m * ((2 # 1) ^ k * (2 # 1) ^ 54) * (2 # 1) ^ (-54))%Q with (inject_Z m * (2 # 1) ^ k * ((2 # 1) ^ 54 * (2 # 1) ^ (-54)))%Q by ring. rewrite ONE. ring. }
  set (M2 := (m * 2 ^ (k + 54))%Z) in *. assert (EQ : (z - (1 # 2) == inject_Z (M2 - 9007199254740992) * (2 # 1) ^ (-54))%Q).
  { rewrite E2. unfold Z.sub. rewrite inject_Z_plus. assert (R : (inject_Z (- 9007199254740992) * (2 # 1) ^ (-54) == - (1 # 2))%Q) by (vm_compute; reflexivity). rewrite Qmult_plus_distr_l, R. ring. }
  rewrite EQ, Qabs_Qmult in L. rewrite (Qabs_pos ((2 # 1) ^ (-54))) in L by (vm_compute; discriminate). destruct (Z.eq_dec M2 9007199254740992) as [Z|NZ]; [apply N; rewrite E2, Z; vm_compute; reflexivity|].
  assert (A1 : (1 <= Qabs (inject_Z (M2 - 9007199254740992)))%Q). { change (Qabs (inject_Z (M2 - 9007199254740992))) with (inject_Z (Z.abs (M2 - 9007199254740992))). change 1%Q with (inject_Z 1). rewrite <- Zle_Qle. lia. }
  rewrite P54 in L. lra.
Qed.
Example C51_numbers_example : bin53 (1 # 2) /\ (forall z, bin53 z -> ~ (z == 1 # 2)%Q -> ((2 # 1) ^ (-54) <= Qabs (z - (1 # 2)))%Q) /\ dec16 (1 # 2) /\ (Qabs ((1 # 2) - (1 # 2)) * 2 < (2 # 1) ^ (-54))%Q.
Proof. split; [exists 1%Z, (-1)%Z; split; [vm_compute; discriminate|reflexivity]|]. split; [exact bin53_gap|]. split; [exists 5%Z, (-1)%Z; split; [reflexivity|vm_compute; reflexivity]|]. vm_compute. reflexivity. Qed.
