(** OutFacts2.v - proofs for C49. *)
From Coq Require Import List Arith Bool ZArith QArith Qcanon Lia String Sorted.
From Verif Require Import Base BaseFacts LexSpec SpModel RkModel ParModel ParSpec ParFacts UtilModel UtilSpec UtilFacts3 OutModel OutSpec.
Import ListNotations.
Local Open Scope nat_scope.
Local Notation length := List.length (only parsing).

Lemma twice_small L : (Z.of_nat L < 2147483648)%Z -> twice L = (2 * Z.of_nat L)%Z.
Proof. intros H. unfold twice. apply Z.mod_small. unfold UINT_MOD. lia. Qed.
(** no jump: from i on to the end *)
Lemma loop_tail L n b fuel : forall i, n - i < fuel -> (i <= n) -> (L < i \/ (Z.of_nat n <= twice L)%Z) -> add_loop fuel L n b i = Some (seq (b + i) (n - i)).
Proof.
  induction fuel as [|f IH]; intros i F I C; [lia|]. cbn [add_loop]. destruct (Nat.ltb_spec i n) as [H|H].
  - replace ((i =? L) && (twice L <? Z.of_nat n)%Z) with false.
    + rewrite IH by lia. replace (n - i) with (S (n - (i + 1))) by lia. cbn [seq]. f_equal. f_equal. f_equal. lia.
    + symmetry. apply andb_false_iff. destruct C as [C|C]; [left; apply Nat.eqb_neq; lia|right; apply Z.ltb_ge; exact C].
  - replace (n - i) with 0 by lia. reflexivity.
Qed.
Lemma loop_head L n b fuel : forall i, (twice L < Z.of_nat n)%Z -> 2 * L < n -> i <= L -> (L - i) + 1 + L < fuel -> add_loop fuel L n b i = Some (seq (b + i) (L - i) ++ seq (b + n - L) L).
Proof.
  induction fuel as [|f IH]; intros i T N I F; [lia|]. cbn [add_loop]. rewrite (proj2 (Nat.ltb_lt i n)) by lia. destruct (Nat.eqb_spec i L) as [->|NE].
  - rewrite (proj2 (Z.ltb_lt _ _) T). cbn [andb]. rewrite Nat.sub_diag. cbn [seq app]. destruct L as [|L].
    + rewrite Nat.sub_0_r. rewrite loop_tail by lia. rewrite Nat.sub_diag. reflexivity.
    + rewrite loop_tail by lia. f_equal. f_equal; lia.
  - cbn [andb]. rewrite IH by lia. replace (L - i) with (S (L - (i + 1))) by lia. cbn [seq app]. replace (b + (i + 1)) with (S (b + i)) by lia. reflexivity.
Qed.
Lemma add_ok L b e : (Z.of_nat L < 2147483648)%Z -> addIndices L b e = Some (abbreviated L b (e - b)).
Proof.
  intros H. unfold addIndices, abbreviated. pose proof (twice_small L H) as T. destruct (Nat.leb_spec (e - b) (2 * L)) as [G|G].
  - rewrite loop_tail by lia. rewrite Nat.add_0_r, Nat.sub_0_r. reflexivity.
  - rewrite loop_head by lia. rewrite Nat.add_0_r, Nat.sub_0_r. reflexivity.
Qed.
Lemma sol_ok L n n2 : (Z.of_nat L < 2147483648)%Z -> 2 * n2 <= n ->
  sol_indices L n n2 = Some (if n2 =? 0 then abbreviated L 0 n else abbreviated L 0 n2 ++ abbreviated L n2 n2 ++ abbreviated L (2 * n2) (n - 2 * n2)).
Proof.
  intros H G. unfold sol_indices. rewrite !add_ok by exact H. cbn [oapp]. rewrite !Nat.sub_0_r. replace (2 * n2 - n2) with n2 by lia. destruct (n2 =? 0); reflexivity.
Qed.
(** strictly increasing, within the group *)
Lemma seq_sorted b n : StronglySorted lt (seq b n).
Proof. revert b. induction n as [|n IH]; intros b; cbn; constructor; [apply IH|]. apply Forall_forall. intros x H. apply in_seq in H. lia. Qed.
Lemma sorted_app (l m : list nat) : StronglySorted lt l -> StronglySorted lt m -> (forall x y, In x l -> In y m -> x < y) -> StronglySorted lt (l ++ m).
Proof.
  intros SL SM C. induction l as [|a l IH]; [exact SM|]. inversion SL as [|? ? S F]; subst. cbn. constructor; [apply IH; [exact S|intros x y X Y; apply C; [right; exact X|exact Y]]|].
  apply Forall_app. split; [exact F|]. apply Forall_forall. intros y Y. apply C; [left; reflexivity|exact Y].
Qed.
Lemma abbr_in L b n i : In i (abbreviated L b n) <-> b <= i < b + n /\ (n <= 2 * L \/ i < b + L \/ b + n <= i + L).
Proof.
  unfold abbreviated. destruct (Nat.leb_spec n (2 * L)) as [G|G]; [rewrite in_seq; lia|]. rewrite in_app_iff, !in_seq. lia.
Qed.
Lemma abbr_sorted L b n : StronglySorted lt (abbreviated L b n).
Proof. unfold abbreviated. destruct (Nat.leb_spec n (2 * L)) as [G|G]; [apply seq_sorted|]. apply sorted_app; try apply seq_sorted. intros x y X Y. apply in_seq in X, Y. lia. Qed.
Lemma abbr_len L b n : length (abbreviated L b n) = Nat.min n (2 * L).
Proof. unfold abbreviated. destruct (Nat.leb_spec n (2 * L)) as [G|G]; rewrite ?app_length, ?seq_length; lia. Qed.
Lemma sol_sorted L n n2 idx : (Z.of_nat L < 2147483648)%Z -> 2 * n2 <= n -> sol_indices L n n2 = Some idx -> StronglySorted lt idx /\ (forall i, In i idx -> i < n).
Proof.
  intros H G E. rewrite sol_ok in E by assumption. injection E as <-. destruct (n2 =? 0).
  - split; [apply abbr_sorted|]. intros i I. apply abbr_in in I. lia.
  - split.
    + apply sorted_app; [apply abbr_sorted|apply sorted_app; [apply abbr_sorted|apply abbr_sorted|]|].
      * intros x y X Y. apply abbr_in in X, Y. lia.
      * intros x y X Y. apply in_app_iff in Y. apply abbr_in in X. destruct Y as [Y|Y]; apply abbr_in in Y; lia.
    + intros i I. rewrite !in_app_iff in I. destruct I as [I|[I|I]]; apply abbr_in in I; lia.
Qed.
(** names *)
Lemma format_inj i j : (Z.of_nat i <= INT_MAX)%Z -> (Z.of_nat j <= INT_MAX)%Z -> FormatInt (Z.of_nat i) = FormatInt (Z.of_nat j) -> i = j.
Proof.
  intros I J E. destruct (format_len (Z.of_nat i) ltac:(lia)) as [A _]. destruct (format_len (Z.of_nat j) ltac:(lia)) as [B _]. rewrite A, B in E. destruct (to_string_N_ok (Z.to_N (Z.of_nat i))) as (_ & _ & VI). destruct (to_string_N_ok (Z.to_N (Z.of_nat j))) as (_ & _ & VJ).
  rewrite E, VJ in VI. lia.
Qed.
Lemma name_inj n n2 i j : (Z.of_nat n <= INT_MAX)%Z -> i < n -> j < n -> col_name n2 i = col_name n2 j -> i = j.
Proof.
  intros N I J. unfold col_name. destruct (Nat.eqb_spec n2 0) as [Z|Z]; cbn [orb].
  - intros E. injection E as E. apply format_inj in E; lia.
  - destruct (Nat.ltb_spec i n2), (Nat.ltb_spec j n2), (Nat.ltb_spec i (2 * n2)), (Nat.ltb_spec j (2 * n2)); try lia; intros E; try discriminate E; injection E as E; apply format_inj in E; lia.
Qed.
Lemma nodup_map {A B} (f : A -> B) l : NoDup l -> (forall x y, In x l -> In y l -> f x = f y -> x = y) -> NoDup (map f l).
Proof.
  induction l as [|a l IH]; intros D I; [constructor|]. inversion D as [|? ? NI D']; subst. cbn. constructor.
  - intros H. apply in_map_iff in H as (x & E & X). assert (x = a) by (apply I; [right; exact X|left; reflexivity|exact E]). congruence.
  - apply IH; [exact D'|]. intros x y X Y. apply I; right; assumption.
Qed.
Lemma sorted_nodup l : StronglySorted lt l -> NoDup l.
Proof. induction 1 as [|a l S IH F]; constructor; [|exact IH]. intros H. rewrite Forall_forall in F. specialize (F a H). lia. Qed.
Lemma header_ok L n n2 idx : (Z.of_nat L < 2147483648)%Z -> (Z.of_nat n <= 2147483647)%Z -> 2 * n2 <= n -> sol_indices L n n2 = Some idx -> NoDup (sol_header n2 idx) /\ length (sol_header n2 idx) = length idx.
Proof.
  intros H HN G E. destruct (sol_sorted L n n2 idx H G E) as [S B]. split; [|apply map_length]. apply nodup_map; [apply sorted_nodup; exact S|]. intros x y X Y. apply (name_inj n); [exact HN|apply B; exact X|apply B; exact Y].
Qed.
(** toString *)
Lemma ts_tail L n fuel : forall i, n - i < fuel -> (i <= n) -> (L < i \/ (Z.of_nat n <= twice L)%Z) -> ts_loop fuel L n i = Some (map Some (seq i (n - i))) /\ sep_loop fuel L n i = Some (map (fun k => 0 <? k) (seq i (n - i))).
Proof.
  induction fuel as [|f IH]; intros i F I C; [lia|]. cbn [ts_loop sep_loop]. destruct (Nat.ltb_spec i n) as [H|H].
  - replace ((i =? L) && (twice L <? Z.of_nat n)%Z) with false.
    + destruct (IH (i + 1)) as [-> ->]; try lia. replace (n - i) with (S (n - (i + 1))) by lia. cbn [seq map]. replace (i + 1) with (S i) by lia. split; reflexivity.
    + symmetry. apply andb_false_iff. destruct C as [C|C]; [left; apply Nat.eqb_neq; lia|right; apply Z.ltb_ge; exact C].
  - replace (n - i) with 0 by lia. split; reflexivity.
Qed.
Lemma ts_head L n fuel : forall i, (twice L < Z.of_nat n)%Z -> 2 * L < n -> i <= L -> (L - i) + 1 + L < fuel ->
  ts_loop fuel L n i = Some (map Some (seq i (L - i)) ++ None :: map Some (seq (n - L) L)) /\ sep_loop fuel L n i = Some (map (fun k => 0 <? k) (seq i (L - i)) ++ (0 <? L) :: map (fun k => 0 <? k) (seq (n - L) L)).
Proof.
  induction fuel as [|f IH]; intros i T N I F; [lia|]. cbn [ts_loop sep_loop]. rewrite (proj2 (Nat.ltb_lt i n)) by lia. destruct (Nat.eqb_spec i L) as [->|NE].
  - rewrite (proj2 (Z.ltb_lt _ _) T). cbn [andb]. rewrite Nat.sub_diag. cbn [seq map app]. destruct (ts_tail L n f (n - L)) as [-> ->]; try lia. replace (n - (n - L)) with L by lia. split; reflexivity.
  - cbn [andb]. destruct (IH (i + 1)) as [-> ->]; try lia. replace (L - i) with (S (L - (i + 1))) by lia. cbn [seq map app]. replace (i + 1) with (S i) by lia. split; reflexivity.
Qed.
Lemma sep_seq b n : 0 < b -> map (fun k => 0 <? k) (seq b n) = repeat true n.
Proof. revert b. induction n as [|n IH]; intros b H; [reflexivity|]. cbn [seq map repeat]. rewrite IH by lia. f_equal. apply Nat.ltb_lt. exact H. Qed.
Lemma sep_seq0 n : map (fun k => 0 <? k) (seq 0 n) = match n with 0 => [] | S m => false :: repeat true m end.
Proof. destruct n as [|n]; [reflexivity|]. cbn [seq map]. rewrite sep_seq by lia. reflexivity. Qed.
Lemma rep_join k m : repeat true k ++ true :: repeat true m = repeat true (k + S m).
Proof. induction k as [|k IH]; [reflexivity|]. cbn. rewrite IH. reflexivity. Qed.
Lemma ts_ok L n : (Z.of_nat L < 2147483648)%Z -> exists items, toString_items L n = Some items /\
  items = (if n <=? 2 * L then map Some (seq 0 n) else map Some (seq 0 L) ++ None :: map Some (seq (n - L) L)) /\
  toString_seps L n = Some (match length items with 0 => [] | S m => false :: repeat true m end).
Proof.
  intros H. unfold toString_items, toString_seps. pose proof (twice_small L H) as T. destruct (Nat.leb_spec n (2 * L)) as [G|G].
  - destruct (ts_tail L n (n + 2) 0) as [-> ->]; try lia. rewrite Nat.sub_0_r. eexists. split; [reflexivity|]. split; [reflexivity|]. rewrite map_length, seq_length, sep_seq0. reflexivity.
  - destruct (ts_head L n (n + 2) 0) as [-> ->]; try lia. rewrite Nat.sub_0_r. eexists. split; [reflexivity|]. split; [reflexivity|]. rewrite app_length. cbn [List.length]. rewrite !map_length, !seq_length, sep_seq0, (sep_seq (n - L)) by lia.
    destruct L as [|L]; [reflexivity|]. cbn [Nat.ltb Nat.leb app Nat.add]. rewrite rep_join. reflexivity.
Qed.
Lemma ts_whole L n fuel : forall i, n - i < fuel -> i <= n -> n <= L -> ts_loop fuel L n i = Some (map Some (seq i (n - i))).
Proof.
  induction fuel as [|f IH]; intros i F I C; [lia|]. cbn [ts_loop]. destruct (Nat.ltb_spec i n) as [H|H].
  - rewrite (proj2 (Nat.eqb_neq i L)) by lia. cbn [andb]. rewrite IH by lia. replace (n - i) with (S (n - (i + 1))) by lia. cbn [seq map]. replace (i + 1) with (S i) by lia. reflexivity.
  - replace (n - i) with 0 by lia. reflexivity.
Qed.
Lemma ts_default L n : n <= L -> toString_items L n = Some (map Some (seq 0 n)).
Proof. intros H. unfold toString_items. rewrite ts_whole by lia. rewrite Nat.sub_0_r. reflexivity. Qed.
(** columns *)
Lemma cc_row_ok ivar cols : (forall c, In c cols -> ivar < length (snd c)) -> cc_row ivar cols = Ret (map (fun c => nth ivar (snd c) 0%Qc) cols).
Proof.
  induction cols as [|[t x] r IH]; intros H; [reflexivity|]. cbn [cc_row map snd]. rewrite (rdat_ok x ivar 0%Qc) by (apply (H (t, x)); left; reflexivity). cbn [obind]. rewrite IH by (intros c C; apply H; right; exact C). reflexivity.
Qed.
Lemma cc_lines_ok n ids cols : (Z.of_nat n <= 2147483648)%Z -> length ids = n -> (forall c, In c cols -> length (snd c) = n) -> forall ivars, (forall i, In i ivars -> i < n) ->
  exists q, cc_lines n ids cols ivars = Ret q /\ map (fun l => fst (fst l)) q = ivars /\ map snd q = map (fun i => map (fun c => nth i (snd c) 0%Qc) cols) ivars /\
    forall l, In l q -> varNameByIndex (Z.of_nat n) ids (fst (fst l)) = Ret (snd (fst l)).
Proof.
  intros HN HI HC. induction ivars as [|i r IH]; intros HV.
  - exists []. split; [reflexivity|]. split; [reflexivity|]. split; [reflexivity|]. intros l [].
  - destruct IH as (q & E & A & B & C); [intros k K; apply HV; right; exact K|]. cbn [cc_lines]. unfold cc_line. assert (I : i < n) by (apply HV; left; reflexivity).
    destruct (names_ok (Z.of_nat n) ids i i HN ltac:(rewrite HI; reflexivity) ltac:(lia) ltac:(lia)) as (s & _ & E1 & _). rewrite E1. cbn [obind]. rewrite cc_row_ok by (intros c Q; rewrite (HC c Q); exact I). cbn [obind]. rewrite E. cbn [obind].
    eexists. split; [reflexivity|]. split; [cbn; rewrite A; reflexivity|]. split; [cbn; rewrite B; reflexivity|]. intros l [<-|L]; [exact E1|apply C; exact L].
Qed.
Lemma cc_write_ok n ids s : (Z.of_nat n <= 2147483648)%Z -> length ids = n -> (forall c, In c (cc_cols s) -> length (snd c) = n) ->
  exists q, cc_write n ids s = Ret (map fst (cc_cols s), q) /\ map (fun l => fst (fst l)) q = seq 0 n /\ map snd q = map (fun i => map (fun c => nth i (snd c) 0%Qc) (cc_cols s)) (seq 0 n) /\
    forall l, In l q -> varNameByIndex (Z.of_nat n) ids (fst (fst l)) = Ret (snd (fst l)).
Proof.
  intros HN HI HC. unfold cc_write. destruct (cc_lines_ok n ids (cc_cols s) HN HI HC (seq 0 n)) as (q & E & A & B & C); [intros i I; apply in_seq in I; lia|]. rewrite E. cbn [obind]. exists q. split; [reflexivity|]. split; [exact A|]. split; [exact B|exact C].
Qed.
