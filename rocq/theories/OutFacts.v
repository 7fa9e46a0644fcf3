(** OutFacts.v - proofs for C48, C61. *)
From Coq Require Import List Arith Bool ZArith QArith Qcanon Lia Lqa.
From Verif Require Import Base BaseFacts SpModel RkModel ParModel NewtFacts UtilModel UtilSpec OutModel OutSpec.
Import ListNotations.
Local Open Scope nat_scope.

Lemma scaled_le (u w T a b : Qc) : (0 < T)%Qc -> (u * T = a)%Qc -> (w * T = b)%Qc -> (u + 1 <= w)%Qc <-> (a + T <= b)%Qc.
Proof.
  intros P <- <-. split; intros H.
  - qcnra.
  - destruct (Qclt_le_dec w (u + 1)) as [G|G]; [|exact G]. exfalso. qcnra.
Qed.
Lemma oN_pos t f d : (0 < th_T d)%Qc -> fst (outputNow t f d) = f || Qcleb (th_rep d + th_T d) t.
Proof.
  intros P. unfold outputNow. cbn [fst]. destruct f; [reflexivity|]. cbn [orb]. assert (E : Qcleb (th_T d) 0 = false) by (apply Qcleb_gt; exact P). rewrite E. cbn [orb].
  assert (Z : th_T d <> 0%Qc) by (intros Z; rewrite Z in P; exact (Qclt_not_eq _ _ P eq_refl)).
  apply eq_true_iff_eq. rewrite !Qcleb_le. rewrite (scaled_le _ _ (th_T d) (th_rep d - th_start d) (t - th_start d) P) by (field; exact Z). split; intros H; qclra.
Qed.
Lemma oN_all t f d : (th_T d <= 0)%Qc -> fst (outputNow t f d) = true.
Proof. intros P. unfold outputNow. cbn [fst]. apply Qcleb_le in P. rewrite P, orb_true_r. reflexivity. Qed.
Lemma oN_next t f d : snd (outputNow t f d) = if fst (outputNow t f d) then mkThin (th_T d) (th_start d) t else d.
Proof. reflexivity. Qed.
Lemma oN_T t f d : th_T (snd (outputNow t f d)) = th_T d.
Proof. rewrite oN_next. destruct (fst _); reflexivity. Qed.
Lemma decide_cons t f r d : decide ((t, f) :: r) d = fst (outputNow t f d) :: decide r (snd (outputNow t f d)).
Proof. cbn [decide]. destruct (outputNow t f d); reflexivity. Qed.
Lemma decide_len calls : forall d, length (decide calls d) = length calls.
Proof. induction calls as [|[t f] r IH]; intros d; [reflexivity|]. rewrite decide_cons. cbn. rewrite IH. reflexivity. Qed.
Lemma decide_all calls d : (th_T d <= 0)%Qc -> decide calls d = repeat true (length calls).
Proof.
  revert d. induction calls as [|[t f] r IH]; intros d P; [reflexivity|]. rewrite decide_cons. cbn [length repeat]. rewrite IH by (rewrite oN_T; exact P). rewrite oN_all by exact P. reflexivity.
Qed.

(** the decision, from any state *)
Lemma decision_gen calls : forall d j, (0 < th_T d)%Qc -> j < length calls ->
  (printed (decide calls d) j <-> forced calls j = true \/
     (forall i, last_before (decide calls d) i j -> (time_of calls i + th_T d <= time_of calls j)%Qc) /\
     ((forall i, i < j -> ~ printed (decide calls d) i) -> (th_rep d + th_T d <= time_of calls j)%Qc)).
Proof.
  induction calls as [|[t f] r IH]; intros d j P HJ; [cbn in HJ; lia|]. rewrite decide_cons. pose proof (oN_pos t f d P) as E. pose proof (oN_next t f d) as NX. set (b := fst (outputNow t f d)) in *. set (d' := snd (outputNow t f d)) in *.
  assert (PT : th_T d' = th_T d) by apply oN_T. clearbody b d'. destruct j as [|j].
  - unfold printed, forced, time_of. cbn [nth fst snd]. rewrite E, orb_true_iff, Qcleb_le. split.
    + intros [H|H]; [left; exact H|right]. split; [intros i (C & _); lia|intros _; exact H].
    + intros [H|[_ H]]; [left; exact H|right]. apply H. intros i C. lia.
  - cbn in HJ. assert (P' : (0 < th_T d')%Qc) by (rewrite PT; exact P). specialize (IH d' j P' ltac:(lia)). rewrite PT in IH.
    change (printed (b :: decide r d') (S j)) with (printed (decide r d') j). change (forced ((t, f) :: r) (S j)) with (forced r j). change (time_of ((t, f) :: r) (S j)) with (time_of r j). rewrite IH. clear IH.
    apply or_iff_compat_l. split; intros [A B].
    + split.
      * intros [|i] (L1 & L2 & L3).
        -- unfold printed in L2. cbn in L2. change (time_of ((t, f) :: r) 0) with t. assert (R : th_rep d' = t) by (rewrite NX, L2; reflexivity). rewrite <- R. apply B.
           intros i H. apply (L3 (S i)). lia.
        -- change (time_of ((t, f) :: r) (S i)) with (time_of r i). apply A. split; [lia|]. split; [exact L2|]. intros k H. apply (L3 (S k)). lia.
      * intros N. assert (BF : b = false) by (destruct b; [exfalso; apply (N 0); [lia|reflexivity]|reflexivity]). rewrite BF in NX. rewrite NX in B. apply B. intros i H. rewrite <- NX. apply (N (S i)). lia.
    + split.
      * intros i (L1 & L2 & L3). change (time_of r i) with (time_of ((t, f) :: r) (S i)). apply A. split; [lia|]. split; [exact L2|]. intros [|k] H; [lia|]. apply L3. lia.
      * intros N. destruct b.
        -- rewrite NX. cbn [th_rep]. change t with (time_of ((t, f) :: r) 0). apply A. split; [lia|]. split; [reflexivity|]. intros [|k] H; [lia|]. apply N. lia.
        -- rewrite NX. apply B. intros [|i] H; [discriminate|]. apply N. lia.
Qed.
Lemma decision T start calls j : (0 < T)%Qc -> (forall i, i < length calls -> (start <= time_of calls i)%Qc) -> j < length calls ->
  (printed (decide calls (th_new T start)) j <-> forced calls j = true \/ forall i, last_before (decide calls (th_new T start)) i j -> (time_of calls i + T <= time_of calls j)%Qc).
Proof.
  intros P G HJ. rewrite (decision_gen calls (th_new T start) j P HJ). apply or_iff_compat_l. split; [intros [A _]; exact A|intros A]. split; [exact A|]. intros _. cbn. specialize (G j HJ). qclra.
Qed.
Lemma last_exists flags j : {i | last_before flags i j} + {forall i, i < j -> ~ printed flags i}.
Proof.
  induction j as [|j IH]; [right; lia|]. destruct (nth j flags false) eqn:E.
  - left. exists j. split; [lia|]. split; [exact E|lia].
  - destruct IH as [(i & A & B & C)|N].
    + left. exists i. split; [lia|]. split; [exact B|]. intros k H. destruct (Nat.eq_dec k j) as [->|]; [unfold printed; rewrite E; discriminate|apply C; lia].
    + right. intros i H. destruct (Nat.eq_dec i j) as [->|]; [unfold printed; rewrite E; discriminate|apply N; lia].
Qed.
Lemma all_printed T start calls j : (T <= 0)%Qc -> j < length calls -> printed (decide calls (th_new T start)) j.
Proof. intros P H. unfold printed. rewrite decide_all by exact P. apply (proj2 (nth_error_nth' _ false)) || idtac. rewrite (nth_indep _ false true) by (rewrite repeat_length; exact H). apply nth_repeat. Qed.
Lemma spacing T start calls i j : (0 < T)%Qc -> (forall k, k < length calls -> (start <= time_of calls k)%Qc) -> monotone calls -> i < j < length calls ->
  printed (decide calls (th_new T start)) i -> printed (decide calls (th_new T start)) j -> forced calls j = false -> (time_of calls i + T <= time_of calls j)%Qc.
Proof.
  intros P G M [IJ HJ] PI PJ F. apply (decision T start calls j P G HJ) in PJ. destruct PJ as [PJ|PJ]; [congruence|].
  destruct (last_exists (decide calls (th_new T start)) j) as [(k & LB)|N]; [|exfalso; exact (N i IJ PI)]. specialize (PJ k LB). destruct LB as (A & B & C).
  destruct (Nat.le_gt_cases i k) as [L|L]; [|exfalso; exact (C i ltac:(lia) PI)]. pose proof (M i k ltac:(lia)). qclra.
Qed.
Lemma gap T start calls i j H : (0 < T)%Qc -> (forall k, k < length calls -> (start <= time_of calls k)%Qc) ->
  (forall k, S k < length calls -> (time_of calls (S k) <= time_of calls k + H)%Qc) -> last_before (decide calls (th_new T start)) i j -> j < length calls ->
  (time_of calls j < time_of calls i + T + H)%Qc.
Proof.
  intros P G S (IJ & PI & N) HJ. destruct j as [|j]; [lia|]. pose proof (S j HJ) as HS. destruct (Nat.eq_dec i j) as [->|NE]; [qclra|].
  assert (NP : ~ printed (decide calls (th_new T start)) j) by (apply N; lia). rewrite (decision T start calls j P G ltac:(lia)) in NP.
  destruct (Qclt_le_dec (time_of calls j) (time_of calls i + T)) as [L|L]; [qclra|]. exfalso. apply NP. right. intros k (K1 & K2 & K3).
  assert (k = i) as ->; [|exact L]. destruct (Nat.lt_trichotomy k i) as [Q|[Q|Q]]; [exfalso; apply (K3 i); [lia|exact PI]|exact Q|exfalso; apply (N k); [lia|exact K2]].
Qed.

(** number of unforced outputs *)
Lemma natQ_S n : natQ (S n) = (natQ n + 1)%Qc.
Proof. unfold natQ. apply Qc_is_canon. rewrite this_plus. cbn [this Q2Qc]. rewrite !Qred_correct. rewrite Nat2Z.inj_succ, <- Z.add_1_r, inject_Z_plus. reflexivity. Qed.
Lemma count_gen ts : forall d b, (0 < th_T d)%Qc -> (forall i j, i <= j < length ts -> (nth i ts 0 <= nth j ts 0)%Qc) -> (forall t, In t ts -> (t <= b)%Qc) -> (th_rep d <= b)%Qc ->
  (natQ (length (select (decide (plain ts) d) ts)) * th_T d <= b - th_rep d)%Qc.
Proof.
  induction ts as [|t ts IH]; intros d b P M B R.
  - cbn [plain map decide select length]. replace (natQ 0) with 0%Qc by reflexivity. rewrite Qcmult_0_l. qclra.
  - unfold plain. cbn [map]. fold (plain ts). rewrite decide_cons. cbn [select]. pose proof (oN_pos t false d P) as E. rewrite orb_false_l in E. rewrite oN_next.
    assert (M' : forall i j, i <= j < length ts -> (nth i ts 0 <= nth j ts 0)%Qc) by (intros i j H; apply (M (S i) (S j)); cbn; lia).
    destruct (fst (outputNow t false d)) eqn:F.
    + symmetry in E. apply Qcleb_le in E. cbn [length]. rewrite natQ_S.
      assert (I := IH (mkThin (th_T d) (th_start d) t) b P M' (fun u H => B u (or_intror H)) (B t (or_introl eq_refl))). cbn [th_T th_rep] in I.
      replace ((natQ (length (select (decide (plain ts) (mkThin (th_T d) (th_start d) t)) ts)) + 1) * th_T d)%Qc with (natQ (length (select (decide (plain ts) (mkThin (th_T d) (th_start d) t)) ts)) * th_T d + th_T d)%Qc by ring. qclra.
    + apply IH; [exact P|exact M'|intros u H; apply B; right; exact H|exact R].
Qed.
Lemma count T start ts b : (0 < T)%Qc -> (forall i j, i <= j < length ts -> (nth i ts 0 <= nth j ts 0)%Qc) -> (forall t, In t ts -> (start <= t <= b)%Qc) -> ts <> [] ->
  (natQ (length (select (decide (plain ts) (th_new T start)) ts)) * T <= b - start + T)%Qc.
Proof.
  intros P M B NE. destruct ts as [|t ts]; [congruence|]. unfold plain. cbn [map]. fold (plain ts). rewrite decide_cons. cbn [select]. pose proof (oN_pos t false (th_new T start) P) as E. rewrite orb_false_l in E. rewrite oN_next.
  destruct (B t (or_introl eq_refl)) as [B1 B2].
  assert (F : fst (outputNow t false (th_new T start)) = true) by (rewrite E; apply Qcleb_le; cbn; qclra). rewrite F. cbn [length]. rewrite natQ_S. cbn [th_new th_T th_start].
  assert (I := count_gen ts (mkThin T start t) b P (fun i j H => M (S i) (S j) ltac:(cbn; lia)) (fun u H => proj2 (B u (or_intror H))) B2). cbn [th_T th_rep] in I.
  set (m := natQ _) in *. replace ((m + 1) * T)%Qc with (m * T + T)%Qc by ring. qclra.
Qed.

(** * the consoles *)
Lemma gcon_run l : forall s, (0 <= gc_n s)%Z -> (gc_n s + Z.of_nat (length l) < UINT_MOD)%Z ->
  gc_lines (fold_left gcon_after l s) = gc_lines s ++ map (fun p => line_of (fst p) (snd p)) (select (decide (map (fun o => (ob_t o, pa_trunc (ob_a o))) l) (gc_thin s)) (numbered (gc_n s + 1) l)) /\
  gc_n (fold_left gcon_after l s) = (gc_n s + Z.of_nat (length l))%Z.
Proof.
  induction l as [|o l IH]; intros s N1 N2; [cbn; rewrite app_nil_r; split; [reflexivity|lia]|]. cbn [fold_left]. 
  assert (E : gcon_after s o = mkGcon (snd (outputNow (ob_t o) (pa_trunc (ob_a o)) (gc_thin s))) (gc_n s + 1)
     (if fst (outputNow (ob_t o) (pa_trunc (ob_a o)) (gc_thin s)) then gc_lines s ++ [line_of (gc_n s + 1) o] else gc_lines s)).
  { unfold gcon_after, inc. cbn [length] in N2. rewrite Z.mod_small by lia. destruct (outputNow _ _ _). reflexivity. }
  destruct (IH (gcon_after s o)) as [A B]; rewrite ?E; cbn [gc_n gc_lines gc_thin length] in *; try lia. rewrite E in A, B. cbn [gc_n gc_lines gc_thin] in A, B. rewrite A, B. clear A B. split; [|lia].
  cbn [map]. rewrite decide_cons. cbn [numbered select]. destruct (fst (outputNow _ _ _)); cbn [map fst snd]; [rewrite <- app_assoc; reflexivity|reflexivity].
Qed.
Lemma gcon_ok T t0 l : (Z.of_nat (length l) < UINT_MOD)%Z ->
  gc_lines (fold_left gcon_after l (gcon_new T t0)) = map (fun p => line_of (fst p) (snd p)) (select (decide (map (fun o => (ob_t o, pa_trunc (ob_a o))) l) (th_new T t0)) (numbered 1 l)).
Proof. intros H. apply (gcon_run l (gcon_new T t0)); cbn; lia. Qed.
Lemma pick_ok idx x : (forall i, In i idx -> i < length x) -> pick idx x = Ret (map (fun i => nth i x 0%Qc) idx).
Proof.
  induction idx as [|i r IH]; intros H; [reflexivity|]. cbn [pick map]. rewrite (rdat_ok x i 0%Qc) by (apply H; left; reflexivity). cbn [obind]. rewrite IH by (intros k K; apply H; right; exact K). reflexivity.
Qed.
Lemma scon_gen idx l : forall s, sc_idx s = idx -> (forall o, In o l -> forall i, In i idx -> i < length (ob_x o)) ->
  exists s', scon_run l s = Ret s' /\ sc_idx s' = idx /\ sc_rows s' = sc_rows s ++ map (fun o => (ob_t o, map (fun i => nth i (ob_x o) 0%Qc) idx)) (select (decide (plain (map ob_t (accepted l))) (sc_thin s)) (accepted l)).
Proof.
  induction l as [|o l IH]; intros s I H.
  - exists s. split; [reflexivity|]. split; [exact I|]. cbn. rewrite app_nil_r. reflexivity.
  - assert (H' : forall o, In o l -> forall i, In i idx -> i < length (ob_x o)) by (intros p Q; apply H; right; exact Q). cbn [scon_run accepted filter]. unfold scon_after. fold (accepted l). destruct (pa_accepted (ob_a o)).
    + unfold plain. cbn [map]. fold (plain (map ob_t (accepted l))). rewrite decide_cons. cbn [select]. destruct (outputNow (ob_t o) false (sc_thin s)) as [b d] eqn:EO. cbn [fst snd]. destruct b.
      * unfold scon_write. cbn [sc_idx sc_thin sc_rows]. rewrite I, pick_ok by (apply H; left; reflexivity). cbn [obind].
        destruct (IH (mkScon d idx (sc_rows s ++ [(ob_t o, map (fun i => nth i (ob_x o) 0%Qc) idx)])) eq_refl H') as (s' & A & B & C). exists s'. split; [exact A|]. split; [exact B|]. rewrite C. cbn [sc_rows sc_thin map]. rewrite <- app_assoc. reflexivity.
      * cbn [obind]. destruct (IH (mkScon d (sc_idx s) (sc_rows s)) I H') as (s' & A & B & C). exists s'. split; [exact A|]. split; [exact B|]. exact C.
    + cbn [obind]. apply IH; assumption.
Qed.
Lemma scon_ok T t0 x0 idx l : (forall i, In i idx -> i < length x0) -> (forall o, In o l -> forall i, In i idx -> i < length (ob_x o)) ->
  exists s, (s0 <- scon_new T t0 x0 idx ;; scon_run l s0) = Ret s /\
    sc_rows s = (t0, map (fun i => nth i x0 0%Qc) idx) :: map (fun o => (ob_t o, map (fun i => nth i (ob_x o) 0%Qc) idx)) (select (decide (plain (map ob_t (accepted l))) (th_new T t0)) (accepted l)).
Proof.
  intros H0 H. unfold scon_new, scon_write. cbn [sc_idx sc_thin sc_rows]. rewrite pick_ok by exact H0. cbn [obind app].
  destruct (scon_gen idx l (mkScon (th_new T t0) idx [(t0, map (fun i => nth i x0 0%Qc) idx)]) eq_refl H) as (s & A & B & C). exists s. split; [exact A|exact C].
Qed.
Lemma cc_gen mx l : forall s, length (cc_cols s) <= mx -> cc_cols (fold_left (fun s o => cc_accum mx (fst o) (snd o) s) l s) =
  firstn mx (cc_cols s ++ select (decide (plain (map fst l)) (cc_thin s)) l).
Proof.
  induction l as [|[t x] l IH]; intros s H.
  - cbn. rewrite app_nil_r, firstn_all2 by exact H. reflexivity.
  - cbn [fold_left fst snd]. unfold plain. cbn [map fst]. fold (plain (map fst l)). rewrite decide_cons. cbn [select]. remember (cc_accum mx t x s) as s1 eqn:ES. unfold cc_accum in ES. destruct (Nat.leb_spec mx (length (cc_cols s))) as [G|G].
    + rewrite ES, IH by exact H. rewrite !firstn_app. replace (mx - length (cc_cols s)) with 0 by lia. reflexivity.
    + destruct (outputNow t false (cc_thin s)) as [b d]. cbn [fst snd]. rewrite ES. destruct b; rewrite IH by (cbn [cc_cols]; rewrite ?app_length; cbn; lia); cbn [cc_cols cc_thin]; [rewrite <- app_assoc|]; reflexivity.
Qed.
Lemma cc_filter mx l : forall s, fold_left (cc_after mx) l s = fold_left (fun s o => cc_accum mx (fst o) (snd o) s) (map (fun o => (ob_t o, ob_x o)) (accepted l)) s.
Proof. induction l as [|o l IH]; intros s; [reflexivity|]. cbn [fold_left accepted filter]. fold (accepted l). rewrite IH. unfold cc_after. destruct (pa_accepted (ob_a o)); reflexivity. Qed.
Lemma cc_ok mx T t0 x0 l : let all := (t0, x0) :: map (fun o => (ob_t o, ob_x o)) (accepted l) in
  cc_cols (fold_left (cc_after mx) l (cc_new mx T t0 x0)) = firstn mx (select (decide (plain (map fst all)) (th_new T t0)) all).
Proof.
  intros all. rewrite cc_filter. change (fold_left _ _ (cc_new mx T t0 x0)) with (fold_left (fun s o => cc_accum mx (fst o) (snd o) s) all (mkCcon (th_new T t0) [])). rewrite cc_gen by (cbn; lia). reflexivity.
Qed.
Lemma stat_gen l : forall s, (0 <= st_steps s)%Z -> (0 <= st_rej s)%Z -> (0 <= st_chg s)%Z -> (0 <= st_trunc s)%Z ->
  (st_steps s + Z.of_nat (length l) < UINT_MOD)%Z -> (st_rej s + Z.of_nat (length l) < UINT_MOD)%Z -> (st_chg s + Z.of_nat (length l) < UINT_MOD)%Z -> (st_trunc s + Z.of_nat (length l) < UINT_MOD)%Z ->
  fold_left stat_after l s = mkStat (st_steps s + Z.of_nat (length l)) (st_rej s + number (fun o => negb (pa_accepted (ob_a o))) l) (st_chg s + number (fun o => pa_changed (ob_a o)) l)
     (st_trunc s + number (fun o => pa_trunc (ob_a o)) l) (st_sum s + sum_h (accepted l))%Qc.
Proof.
  induction l as [|o l IH]; intros s A1 A2 A3 A4 B1 B2 B3 B4.
  - cbn. rewrite !Z.add_0_r, Qcplus_0_r. destruct s; reflexivity.
  - cbn [length] in *. cbn [fold_left]. unfold number, sum_h, accepted in *. rewrite IH; clear IH; unfold stat_after, inc; cbn [st_steps st_rej st_chg st_trunc st_sum filter map qsuml];
      destruct (pa_accepted (ob_a o)), (pa_changed (ob_a o)), (pa_trunc (ob_a o)); cbn [negb length map qsuml]; rewrite ?Z.mod_small by lia; try lia; f_equal; try lia; try ring.
Qed.
Lemma stat_ok l : (Z.of_nat (length l) < UINT_MOD)%Z -> fold_left stat_after l stat_new =
  mkStat (Z.of_nat (length l)) (number (fun o => negb (pa_accepted (ob_a o))) l) (number (fun o => pa_changed (ob_a o)) l) (number (fun o => pa_trunc (ob_a o)) l) (sum_h (accepted l)).
Proof. intros H. rewrite stat_gen; cbn [stat_new st_steps st_rej st_chg st_trunc st_sum]; try lia. rewrite !Z.add_0_l, Qcplus_0_l. reflexivity. Qed.
Lemma number_split p l : (number p l + number (fun o => negb (p o)) l = Z.of_nat (length l))%Z.
Proof. unfold number. induction l as [|o l IH]; [reflexivity|]. cbn [filter]. destruct (p o); cbn [negb length]; lia. Qed.
Lemma stat_avg l : (Z.of_nat (length l) < UINT_MOD)%Z -> stat_average (fold_left stat_after l stat_new) = (sum_h (accepted l) / natQ (length (accepted l)))%Qc.
Proof.
  intros H. rewrite stat_ok by exact H. unfold stat_average. cbn [st_sum st_steps st_rej]. pose proof (number_split (fun o => pa_accepted (ob_a o)) l) as S. cbn in S.
  replace (Z.of_nat (length l) - number (fun o => negb (pa_accepted (ob_a o))) l)%Z with (number (fun o => pa_accepted (ob_a o)) l) by lia.
  rewrite Z.mod_small; [reflexivity|]. unfold number in *. lia.
Qed.
Lemma last_default {A} (b c : A) l : forall a, last (a :: l) b = last (a :: l) c.
Proof. induction l as [|d l IH]; intros a; [reflexivity|]. change (last (d :: l) b = last (d :: l) c). apply IH. Qed.
Lemma last_cons {A} (a b : A) l : last (a :: l) b = last l a.
Proof. destruct l as [|c l]; [reflexivity|]. change (last (c :: l) b = last (c :: l) a). apply last_default. Qed.
Lemma adv_sum l : forall t0, advances t0 l -> (sum_h (accepted l) = last_time t0 l - t0)%Qc.
Proof.
  induction l as [|o l IH]; intros t0 A; [cbn; unfold last_time; cbn; ring|]. destruct A as [E A]. unfold last_time. cbn [map]. rewrite last_cons. fold (last_time (ob_t o) l). unfold accepted. cbn [filter]. fold (accepted l). specialize (IH (ob_t o) A). unfold sum_h in *. destruct (pa_accepted (ob_a o)).
  - cbn [map qsuml]. rewrite IH, E. ring.
  - rewrite IH, E. reflexivity.
Qed.
Lemma adv_avg t0 l : (Z.of_nat (length l) < UINT_MOD)%Z -> advances t0 l -> accepted l <> [] -> (stat_average (fold_left stat_after l stat_new) * natQ (length (accepted l)) = last_time t0 l - t0)%Qc.
Proof.
  intros H A N. rewrite stat_avg by exact H. rewrite (adv_sum l t0 A). field. destruct (accepted l) as [|o r]; [congruence|]. cbn [length]. rewrite natQ_S.
  assert (P : (0 <= natQ (length r))%Qc). { unfold natQ, Qcle. cbn [this Q2Qc]. rewrite !Qred_correct. change 0%Q with (inject_Z 0). rewrite <- Zle_Qle. lia. }
  intros Z. assert (X : (0 < natQ (length r) + 1)%Qc) by qclra. rewrite Z in X. exact (Qclt_not_eq _ _ X eq_refl).
Qed.
