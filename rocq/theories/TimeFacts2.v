(** TimeFacts2.v - proofs for C77: time spans as text, gathering statistics. *)
From Coq Require Import List Arith Bool ZArith Znumtheory QArith Lia String Ascii.
From Verif Require Import Base BaseFacts SMap ParModel LexModel LexSpec ParSpec ParFacts UtilModel UtilSpec UtilFacts3 TimeModel TimeSpec.
Import ListNotations.
Local Open Scope Z_scope.

Lemma fill0_zeros n s : fill0 n s = (zeros n ++ s)%string.
Proof. induction n as [|n IH]; cbn; [reflexivity|]. rewrite IH. reflexivity. Qed.
Lemma utext_ok z : 0 <= z -> is_digits (utext z) /\ utext z <> ""%string /\ numeral (utext z) = z.
Proof. intros H. unfold utext. destruct (to_string_N_ok (Z.to_N z)) as (A & B & C). rewrite Z2N.id in C by exact H. auto. Qed.
Lemma utext_len w : forall m, forallb (fun z => Nat.leb (String.length (utext (Z.of_nat z))) w) (seq 0 m) = true -> forall z, 0 <= z < Z.of_nat m -> (String.length (utext z) <= w)%nat.
Proof.
  intros m H z Z. rewrite forallb_forall in H. specialize (H (Z.to_nat z)). rewrite Z2Nat.id in H by lia. apply Nat.leb_le. apply H. apply in_seq. lia.
Qed.
Lemma short2 z : 0 <= z < 60 -> (String.length (utext z) <= 2)%nat. Proof. apply (utext_len 2 60). vm_compute. reflexivity. Qed.
Lemma short3 z : 0 <= z < 1000 -> (String.length (utext z) <= 3)%nat. Proof. apply (utext_len 3 1000). vm_compute. reflexivity. Qed.
Lemma padded_ok w z : 0 <= z -> (String.length (utext z) <= w)%nat -> digits_of w (padded w z) z.
Proof.
  intros Z L. destruct (utext_ok z Z) as (D & _ & V). unfold padded. rewrite fill0_zeros. split; [apply zeros_digits; exact D|]. split; [rewrite length_app, zeros_len; lia|]. rewrite zeros_numeral. exact V.
Qed.
Lemma seconds_left sec : ((sec - (60 * ((60 * ((sec / 3600) mod UINT_MOD) + (sec / 60) mod 60) mod UINT_MOD)) mod UINT_MOD) mod ULONG_MOD) mod UINT_MOD = sec mod 60.
Proof.
  assert (E : forall a, (a mod ULONG_MOD) mod UINT_MOD = a mod UINT_MOD).
  { intros a. symmetry. apply Zmod_div_mod; [reflexivity|reflexivity|]. exists UINT_MOD. reflexivity. }
  rewrite E. set (h := sec / 3600). set (m := (sec / 60) mod 60).
  assert (M : forall a, exists q, a mod UINT_MOD = a + q * UINT_MOD) by (intros a; exists (- (a / UINT_MOD)); rewrite Z.mod_eq by discriminate; lia).
  destruct (M h) as (q1 & E1). rewrite E1. destruct (M (60 * (h + q1 * UINT_MOD) + m)) as (q2 & E2). rewrite E2. destruct (M (60 * (60 * (h + q1 * UINT_MOD) + m + q2 * UINT_MOD))) as (q3 & E3). rewrite E3.
  replace (sec - _) with (sec mod 60 + (- (3600 * q1) - 60 * q2 - q3) * UINT_MOD).
  - rewrite Z_mod_plus_full. apply Z.mod_small. pose proof (Z.mod_pos_bound sec 60 ltac:(lia)). unfold UINT_MOD. lia.
  - assert (sec = 3600 * h + 60 * m + sec mod 60); [|lia]. unfold h, m. change 3600 with (60 * 60) at 2. rewrite <- Z.div_div by lia. pose proof (Z.div_mod sec 60 ltac:(lia)). pose proof (Z.div_mod (sec / 60) 60 ltac:(lia)). lia.
Qed.
Lemma span_sec sec : 0 <= sec < 2 ^ 64 -> clock_text (FormatTimeSpanSec sec) ((sec / 3600) mod 2 ^ 32) (sec / 60 mod 60) (sec mod 60).
Proof.
  intros H. unfold FormatTimeSpanSec. rewrite seconds_left. pose proof (Z.mod_pos_bound (sec / 60) 60 ltac:(lia)). pose proof (Z.mod_pos_bound sec 60 ltac:(lia)).
  pose proof (Z.mod_pos_bound (sec / 3600) (2 ^ 32) ltac:(reflexivity)) as B. change UINT_MOD with (2 ^ 32). set (h := (sec / 3600) mod 2 ^ 32) in *.
  exists (utext h), (padded 2 (sec / 60 mod 60)), (padded 2 (sec mod 60)). split; [reflexivity|]. split.
  - destruct (utext_ok h ltac:(lia)) as (D & N & V). exists ""%string, (utext h). split; [reflexivity|]. split; [left; reflexivity|]. split; [exact D|]. split; [exact N|]. cbn [String.eqb]. symmetry. exact V.
  - split; [reflexivity|]. split; [apply padded_ok; [lia|apply short2; lia]|]. split; [apply padded_ok; [lia|apply short2; lia]|]. lia.
Qed.
Lemma span_msec msec : 0 <= msec < 2 ^ 64 -> exists s ds, FormatTimeSpanMsec msec = (s ++ "." ++ ds)%string /\ digits_of 3 ds (msec mod 1000) /\
  clock_text s ((msec / 3600000) mod 2 ^ 32) (msec / 60000 mod 60) (msec / 1000 mod 60).
Proof.
  intros H. unfold FormatTimeSpanMsec. exists (FormatTimeSpanSec (msec / 1000)), (padded 3 (msec mod 1000)). split; [reflexivity|]. pose proof (Z.mod_pos_bound msec 1000 ltac:(lia)). split; [apply padded_ok; [lia|apply short3; lia]|].
  assert (L : 0 <= msec / 1000 < 2 ^ 64) by (split; [apply Z.div_pos; lia|apply Z.div_lt_upper_bound; lia]). pose proof (span_sec _ L) as C. rewrite !Z.div_div in C by lia. exact C.
Qed.
Lemma span_value sec : 0 <= sec < 3600 * 2 ^ 32 -> sec = 3600 * ((sec / 3600) mod 2 ^ 32) + 60 * (sec / 60 mod 60) + sec mod 60.
Proof.
  intros H. rewrite (Z.mod_small (sec / 3600)) by (split; [apply Z.div_pos; lia|apply Z.div_lt_upper_bound; lia]). change 3600 with (60 * 60). rewrite <- Z.div_div by lia.
  pose proof (Z.div_mod sec 60 ltac:(lia)). pose proof (Z.div_mod (sec / 60) 60 ltac:(lia)). lia.
Qed.
(** cutting a text at its colons *)
Lemma append_inj a : forall b c d, String.length a = String.length c -> (a ++ b)%string = (c ++ d)%string -> a = c /\ b = d.
Proof.
  induction a as [|x a IH]; intros b [|y c] d L E; cbn in *; try discriminate L; [auto|]. injection E as <- E. injection L as L. destruct (IH b c d L E) as (-> & ->). auto.
Qed.
Lemma clock_text_inj s h m c h' m' c' : clock_text s h m c -> clock_text s h' m' c' -> h = h' /\ m = m' /\ c = c'.
Proof.
  intros (hs & ms & ss & E & D & _ & (_ & L1 & V1) & (_ & L2 & V2) & _) (hs' & ms' & ss' & E' & D' & _ & (_ & L1' & V1') & (_ & L2' & V2') & _). rewrite E in E'.
  assert (L : String.length hs = String.length hs').
  { apply (f_equal String.length) in E'. rewrite !length_app in E'. lia. }
  apply append_inj in E' as (<- & E'); [|exact L]. injection E' as E'. apply append_inj in E' as (<- & E'); [|congruence]. injection E' as <-. split; [|split; congruence].
  apply (denotes_fun hs); assumption.
Qed.
Lemma span_sec_inj a b : 0 <= a < 3600 * 2 ^ 32 -> 0 <= b < 3600 * 2 ^ 32 -> FormatTimeSpanSec a = FormatTimeSpanSec b -> a = b.
Proof.
  intros A B E. pose proof (span_sec a ltac:(lia)) as CA. pose proof (span_sec b ltac:(lia)) as CB. rewrite E in CA. destruct (clock_text_inj _ _ _ _ _ _ _ CA CB) as (H1 & H2 & H3).
  rewrite (span_value a A), (span_value b B). lia.
Qed.
Lemma span_msec_inj a b : 0 <= a < 3600000 * 2 ^ 32 -> 0 <= b < 3600000 * 2 ^ 32 -> FormatTimeSpanMsec a = FormatTimeSpanMsec b -> a = b.
Proof.
  intros A B E. pose proof (Z.div_mod a 1000 ltac:(lia)) as DA. pose proof (Z.div_mod b 1000 ltac:(lia)) as DB. pose proof (Z.mod_pos_bound a 1000 ltac:(lia)) as MA. pose proof (Z.mod_pos_bound b 1000 ltac:(lia)) as MB.
  assert (PA : digits_of 3 (padded 3 (a mod 1000)) (a mod 1000)) by (apply padded_ok; [lia|apply short3; lia]). assert (PB : digits_of 3 (padded 3 (b mod 1000)) (b mod 1000)) by (apply padded_ok; [lia|apply short3; lia]).
  unfold FormatTimeSpanMsec in E. apply append_inj in E as (E & F).
  - injection F as F. apply span_sec_inj in E; [|split; [apply Z.div_pos; lia|apply Z.div_lt_upper_bound; lia] ..]. destruct PA as (_ & _ & PA), PB as (_ & _ & PB). rewrite F in PA. lia.
  - apply (f_equal String.length) in E. rewrite !length_app in E. destruct PA as (_ & PA & _), PB as (_ & PB & _). lia.
Qed.
(** gathering *)
Lemma gather_one_ok items : forall r, msorted TOstr r -> 
  (NoDup (map fst items) -> (forall k v, In (k, v) items -> mfind TOstr k r = None) -> exists r', gather_one items r = Ret r' /\ msorted TOstr r' /\ forall k, mfind TOstr k r' = match find (fun p => String.eqb (fst p) k) items with Some p => Some (snd p) | None => mfind TOstr k r end) /\
  (~ (NoDup (map fst items) /\ forall k v, In (k, v) items -> mfind TOstr k r = None) -> gather_one items r = Throw).
Proof.
  induction items as [|[k v] items IH]; intros r S; cbn [gather_one map fst].
  - split; [intros _ _; exists r; cbn; auto|]. intros H. exfalso. apply H. split; [constructor|]. intros k v [].
  - destruct (mfind TOstr k r) as [w|] eqn:F.
    + split; [|auto]. intros _ H. rewrite (H k v (or_introl eq_refl)) in F. discriminate.
    + assert (S' := mput_sorted TOstr r k v S). destruct (IH _ S') as (A & B). split.
      * intros D H. inversion D as [|? ? NI D']; subst. destruct (A D') as (r' & G & SR & Q).
        { intros k' v' I. rewrite mfind_put by exact S. destruct (keqb_spec TOstr k' k) as [->|NE]; [|apply (H k' v'); right; exact I]. exfalso. apply NI. apply in_map_iff. exists (k, v'). auto. }
        exists r'. split; [exact G|]. split; [exact SR|]. intros k'. rewrite Q. cbn [find fst]. destruct (String.eqb_spec k k') as [->|NE].
        -- destruct (find _ items) as [p|] eqn:FI; [|rewrite mfind_put by exact S; destruct (keqb_spec TOstr k' k'); [reflexivity|congruence]].
           apply find_some in FI as (I & E). apply String.eqb_eq in E. exfalso. apply NI. apply in_map_iff. exists p. auto.
        -- destruct (find _ items); [reflexivity|]. rewrite mfind_put by exact S. destruct (keqb_spec TOstr k' k); [congruence|reflexivity].
      * intros H. apply B. intros (D & N). apply H. split.
        -- constructor; [|exact D]. intros I. apply in_map_iff in I as ([k' v'] & E & I). cbn in E. subst k'. specialize (N k v' I). rewrite mfind_put in N by exact S. destruct (keqb_spec TOstr k k); [discriminate|congruence].
        -- intros k' v' [E|I]; [injection E as <- <-; exact F|]. specialize (N k' v' I). rewrite mfind_put in N by exact S. destruct (keqb_spec TOstr k' k); [discriminate|exact N].
Qed.
Lemma gather_concat cs : forall r, gather cs r = gather_one (List.concat cs) r.
Proof.
  assert (A : forall a b r, gather_one (a ++ b) r = (r' <- gather_one a r ;; gather_one b r')).
  { induction a as [|[k v] a IH]; intros b r; cbn; [reflexivity|]. destruct (mfind TOstr k r); [reflexivity|]. apply IH. }
  induction cs as [|c cs IH]; intros r; cbn; [reflexivity|]. rewrite A. destruct (gather_one c r); cbn; [apply IH| |]; reflexivity.
Qed.
Lemma nodup_value (l : ts_map) k v w : NoDup (map fst l) -> In (k, v) l -> In (k, w) l -> v = w.
Proof.
  induction l as [|[k' v'] l IH]; intros D A B; [destruct A|]. cbn in *. inversion D as [|? ? NI D']; subst. destruct A as [A|A], B as [B|B].
  - congruence.
  - injection A as -> ->. exfalso. apply NI. apply in_map_iff. exists (k, w). auto.
  - injection B as -> ->. exfalso. apply NI. apply in_map_iff. exists (k, v). auto.
  - auto.
Qed.
Lemma solver_stats cs : 
  (NoDup (map fst (List.concat cs)) -> exists r, solverTimingStats cs = Ret r /\ msorted TOstr r /\ forall k v, mfind TOstr k r = Some v <-> In (k, v) (List.concat cs)) /\
  (~ NoDup (map fst (List.concat cs)) -> solverTimingStats cs = Throw).
Proof.
  unfold solverTimingStats. rewrite gather_concat. destruct (gather_one_ok (List.concat cs) [] I) as (A & B). split.
  - intros D. destruct (A D) as (r & E & S & Q); [reflexivity|]. exists r. split; [exact E|]. split; [exact S|]. intros k v. rewrite Q. split.
    + destruct (find _ _) as [p|] eqn:F; [|discriminate]. intros H. injection H as <-. apply find_some in F as (I & K). apply String.eqb_eq in K. subst k. destruct p. exact I.
    + intros H. destruct (find _ _) as [p|] eqn:F.
      * apply find_some in F as (I & K). apply String.eqb_eq in K. subst k. destruct p as [k w]. cbn in *. f_equal. exact (nodup_value _ _ _ _ D I H).
      * exfalso. apply (find_none _ _ F) in H. cbn in H. rewrite String.eqb_refl in H. discriminate.
  - intros H. apply B. tauto.
Qed.
