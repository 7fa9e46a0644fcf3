(** RkFacts4.v - checking the order conditions over all rooted trees of bounded order. *)
From Coq Require Import List Arith Lia Bool ZArith QArith Qcanon.
From Verif Require Import Base BaseFacts VecModel VOps RkModel RkSpec.
Import ListNotations.
Local Open Scope nat_scope.

Definition forder (l : list tree) : nat := fold_right (fun c r => order c + r) 0 l.
Definition fdens (l : list tree) : nat := fold_right (fun c r => density c * r) 1 l.
Lemma order_Node l : order (Node l) = S (forder l).
Proof. reflexivity. Qed.
Lemma density_Node l : density (Node l) = S (forder l) * fdens l.
Proof.
  reflexivity.
Qed.

Definition fweight (co : coeffs QcNum) (l : list tree) (i : nat) : Qc :=
  fold_right (fun c r => qsum i (fun j => A_ co i j * stage_weight co c j) * r)%Qc 1%Qc l.
Lemma stage_weight_Node co l i : stage_weight co (Node l) i = fweight co l i.
Proof. reflexivity. Qed.

(** The computation is generic in the arithmetic K; [rel k x] says that k represents the number x. *)
Section Check.
Context {K : Type} (kz ko : K) (kadd kmul : K -> K -> K) (rel : K -> Qc -> Prop).
Hypothesis Rz : rel kz 0%Qc.
Hypothesis Ro : rel ko 1%Qc.
Hypothesis Radd : forall a b x y, rel a x -> rel b y -> rel (kadd a b) (x + y)%Qc.
Hypothesis Rmul : forall a b x y, rel a x -> rel b y -> rel (kmul a b) (x * y)%Qc.
Context (co : coeffs QcNum) (stages ix : nat) (ka : list (list K)) (kb : list K).
Hypothesis Ra : forall i j, j < i < stages -> rel (nth j (nth i ka []) kz) (A_ co i j).
Hypothesis Rb : forall i, i < stages -> rel (nth i kb kz) (B_ co stages ix i).

Fixpoint ksum (n : nat) (f : nat -> K) : K := match n with O => kz | S m => kadd (ksum m f) (f m) end.
Lemma ksum_rel n f g : (forall i, i < n -> rel (f i) (g i)) -> rel (ksum n f) (qsum n g).
Proof. induction n as [|n I]; intros H; [exact Rz|]. simpl. apply Radd; [apply I; intros; apply H; lia|apply H; lia]. Qed.

(** children, density, stage weights of the tree with these children, and the weights multiplied by the matrix *)
Definition fdata : Type := (list tree * nat * list K * list K)%type.
Definition fd_ch (d : fdata) := fst (fst (fst d)).
Definition fd_den (d : fdata) := snd (fst (fst d)).
Definition fd_w (d : fdata) := snd (fst d).
Definition fd_aw (d : fdata) := snd d.
Definition amul (v : list K) : list K := map (fun i => let r := nth i ka [] in ksum i (fun j => kmul (nth j r kz) (nth j v kz))) (seq 0 stages).
Definition fcons (n : nat) (d r : fdata) : fdata :=
  let w := map (fun p => kmul (fst p) (snd p)) (combine (fd_aw d) (fd_w r)) in
  (Node (fd_ch d) :: fd_ch r, (S n * fd_den d) * fd_den r, w, amul w).
Definition fnil : fdata := let w := map (fun _ => ko) (seq 0 stages) in ([], 1, w, amul w).
(** level n from the levels below it: the first child has n1 + 1 nodes, the others n - 1 - n1 *)
Definition next_level (lv : list (list fdata)) : list fdata :=
  let n := length lv in
  flat_map (fun k => flat_map (fun d => map (fcons k d) (nth (n - 1 - k) lv [])) (nth k lv [])) (seq 0 n).
Fixpoint levels (m : nat) : list (list fdata) :=
  match m with O => [[fnil]] | S m' => let lv := levels m' in lv ++ [next_level lv] end.
Context (close : K -> nat -> bool).
Definition check_tree (n : nat) (d : fdata) : bool :=
  close (ksum stages (fun i => kmul (nth i kb kz) (nth i (fd_w d) kz))) (S n * fd_den d).
Definition check_levels (lv : list (list fdata)) : bool :=
  forallb (fun nl => forallb (check_tree (fst nl)) (snd nl)) (combine (seq 0 (length lv)) lv).

Definition vrel (v : list K) (g : nat -> Qc) : Prop := length v = stages /\ forall i, i < stages -> rel (nth i v kz) (g i).
Definition fd_ok (n : nat) (d : fdata) : Prop :=
  forder (fd_ch d) = n /\ fd_den d = fdens (fd_ch d) /\
  vrel (fd_w d) (fweight co (fd_ch d)) /\ vrel (fd_aw d) (fun i => qsum i (fun j => A_ co i j * fweight co (fd_ch d) j)%Qc).
Lemma nth_map_seq' {A} n (f : nat -> A) d i : i < n -> nth i (map f (seq 0 n)) d = f i.
Proof. intros H. rewrite (nth_indep _ d (f 0)) by (rewrite map_length, seq_length; lia). rewrite map_nth, seq_nth by lia. reflexivity. Qed.
Lemma amul_ok v g : vrel v g -> vrel (amul v) (fun i => qsum i (fun j => A_ co i j * g j)%Qc).
Proof.
  intros [L H]. split; [unfold amul; rewrite map_length, seq_length; reflexivity|]. intros i Hi. unfold amul. rewrite nth_map_seq' by assumption.
  apply ksum_rel. intros j Hj. apply Rmul; [apply Ra; lia|apply H; lia].
Qed.
Lemma fnil_ok : fd_ok 0 fnil.
Proof.
  split; [reflexivity|]. split; [reflexivity|].
  assert (V : vrel (map (fun _ => ko) (seq 0 stages)) (fun _ => 1%Qc)).
  { split; [rewrite map_length, seq_length; reflexivity|]. intros i Hi. rewrite (nth_map_seq' stages (fun _ => ko)) by assumption. exact Ro. }
  split; [exact V|]. exact (amul_ok _ _ V).
Qed.
Lemma fcons_ok k d m r : fd_ok k d -> fd_ok m r -> fd_ok (S (k + m)) (fcons k d r).
Proof.
  intros [D1 [D2 [D3 D4]]] [R1 [R2 [R3 R4]]]. unfold fcons.
  assert (W : vrel (map (fun p : K * K => kmul (fst p) (snd p)) (combine (fd_aw d) (fd_w r))) (fweight co (Node (fd_ch d) :: fd_ch r))).
  { destruct D4 as [L4 D4], R3 as [L3 R3]. split; [rewrite map_length, combine_length; lia|]. intros i Hi.
    rewrite (nth_indep _ kz (kmul (fst (kz, kz)) (snd (kz, kz)))) by (rewrite map_length, combine_length; lia).
    rewrite (map_nth (fun p : K * K => kmul (fst p) (snd p))). rewrite combine_nth by lia. cbn [fst snd].
    exact (Rmul _ _ _ _ (D4 i Hi) (R3 i Hi)). }
  split; [|split; [|split]].
  - change (order (Node (fd_ch d)) + forder (fd_ch r) = S (k + m)). rewrite order_Node. lia.
  - change (S k * fd_den d * fd_den r = density (Node (fd_ch d)) * fdens (fd_ch r)). rewrite density_Node, D1, D2, R2. reflexivity.
  - exact W.
  - exact (amul_ok _ _ W).
Qed.
Definition lv_ok (lv : list (list fdata)) : Prop :=
  forall n, n < length lv -> (forall d, In d (nth n lv []) -> fd_ok n d) /\ (forall l, forder l = n -> exists d, In d (nth n lv []) /\ fd_ch d = l).
Lemma order_pos t : 0 < order t. Proof. destruct t as [l]. rewrite order_Node. lia. Qed.
Lemma next_ok lv : lv_ok lv -> 0 < length lv -> lv_ok (lv ++ [next_level lv]).
Proof.
  intros H P n Hn. rewrite app_length in Hn. simpl in Hn. destruct (Nat.eq_dec n (length lv)) as [->|NE].
  2:{ assert (n < length lv) by lia. rewrite app_nth1 by assumption. apply H. assumption. }
  rewrite app_nth2 by lia. rewrite Nat.sub_diag. simpl nth. unfold next_level. split.
  - intros d D. apply in_flat_map in D. destruct D as [k [Kk D]]. apply in_seq in Kk. apply in_flat_map in D. destruct D as [d1 [D1 D]].
    apply in_map_iff in D. destruct D as [r [<- R]]. replace (length lv) with (S (k + (length lv - 1 - k))) at 1 by lia.
    apply fcons_ok; [apply (H k); [lia|assumption]|apply (H (length lv - 1 - k)); [lia|assumption]].
  - intros l L. destruct l as [|[c] l]; [simpl in L; lia|]. change (order (Node c) + forder l = length lv) in L. rewrite order_Node in L.
    destruct (H (forder c)) as [_ H1]; [lia|]. destruct (H1 c eq_refl) as [d1 [I1 E1]].
    destruct (H (forder l)) as [_ H2]; [lia|]. destruct (H2 l eq_refl) as [r [I2 E2]].
    exists (fcons (forder c) d1 r). split; [|unfold fcons, fd_ch; cbn [fst]; fold (fd_ch d1); fold (fd_ch r); rewrite E1, E2; reflexivity].
    apply in_flat_map. exists (forder c). split; [apply in_seq; lia|]. apply in_flat_map. exists d1. split; [assumption|].
    apply in_map. replace (length lv - 1 - forder c) with (forder l) by lia. assumption.
Qed.
Lemma levels_length m : length (levels m) = S m.
Proof. induction m as [|m I]; [reflexivity|]. simpl. rewrite app_length, I. simpl. lia. Qed.
Lemma levels_ok m : lv_ok (levels m).
Proof.
  induction m as [|m I].
  - intros n Hn. simpl in Hn. assert (n = 0) by lia. subst. simpl. split.
    + intros d [<-|[]]. apply fnil_ok.
    + intros l L. exists fnil. split; [auto|]. destruct l as [|c l]; [reflexivity|]. simpl in L. pose proof (order_pos c). lia.
  - simpl. apply next_ok; [assumption|]. rewrite levels_length. lia.
Qed.
Lemma check_sound p : check_levels (levels (p - 1)) = true ->
  forall t, order t <= p -> exists k, rel k (weight co stages ix t) /\ close k (density t) = true.
Proof.
  intros CH [l] OT. rewrite order_Node in OT. unfold check_levels in CH. rewrite forallb_forall in CH.
  assert (L : forder l < length (levels (p - 1))) by (rewrite levels_length; lia).
  destruct (levels_ok (p - 1) (forder l) L) as [H1 H2]. destruct (H2 l eq_refl) as [d [I E]]. pose proof (H1 d I) as [_ [D2 [[_ D3] _]]].
  assert (C : In (forder l, nth (forder l) (levels (p - 1)) []) (combine (seq 0 (length (levels (p - 1)))) (levels (p - 1)))).
  { replace (forder l) with (nth (forder l) (seq 0 (length (levels (p - 1)))) 0) at 1 by (rewrite seq_nth by assumption; reflexivity).
    rewrite <- combine_nth by (rewrite seq_length; reflexivity). apply nth_In. rewrite combine_length, seq_length. lia. }
  apply CH in C. cbn [fst snd] in C. rewrite forallb_forall in C. specialize (C d I). unfold check_tree in C.
  rewrite density_Node. rewrite D2, E in C. eexists; split; [|exact C].
  apply ksum_rel. intros i Hi. rewrite stage_weight_Node. rewrite <- E. apply Rmul; [apply Rb; assumption|apply D3; assumption].
Qed.
End Check.

(** The matrix and a result row as lists. *)
Definition a_rows {K} (f : Qc -> K) (co : coeffs QcNum) (stages : nat) : list (list K) := map (fun i => map (fun j => f (A_ co i j)) (seq 0 i)) (seq 0 stages).
Definition b_row {K} (f : Qc -> K) (co : coeffs QcNum) (stages ix : nat) : list K := map (fun i => f (B_ co stages ix i)) (seq 0 stages).
Lemma a_rows_nth {K} (f : Qc -> K) co stages i j d : j < i < stages -> nth j (nth i (a_rows f co stages) []) d = f (A_ co i j).
Proof. intros H. unfold a_rows. rewrite nth_map_seq' by lia. rewrite nth_map_seq' by lia. reflexivity. Qed.
Lemma b_row_nth {K} (f : Qc -> K) co stages ix i d : i < stages -> nth i (b_row f co stages ix) d = f (B_ co stages ix i).
Proof. intros H. unfold b_row. rewrite nth_map_seq' by lia. reflexivity. Qed.

(** Exact arithmetic *)
Definition exact_check (co : coeffs QcNum) (stages ix p : nat) : bool :=
  let close := fun (k : Qc) g => Qceqb k (1 / qn g)%Qc in
  let ka := a_rows (fun x => x) co stages in
  check_levels 0%Qc Qcplus Qcmult stages (b_row (fun x => x) co stages ix) close (levels 0%Qc 1%Qc Qcplus Qcmult stages ka (p - 1)).
Lemma exact_sound co stages ix p : exact_check co stages ix p = true -> order_conditions co stages ix p.
Proof.
  intros H t O. unfold exact_check in H.
  pose proof (check_sound 0%Qc 1%Qc Qcplus Qcmult (fun k x => k = x) eq_refl eq_refl) as S.
  destruct (S (fun a b x y e1 e2 => f_equal2 Qcplus e1 e2) (fun a b x y e1 e2 => f_equal2 Qcmult e1 e2) co stages ix
     (a_rows (fun x => x) co stages) (b_row (fun x => x) co stages ix)) with (close := fun (k : Qc) g => Qceqb k (1 / qn g)%Qc) (p := p) (t := t) as [k [E C]].
  - intros i j Hj. apply a_rows_nth. assumption.
  - intros i Hi. apply b_row_nth. assumption.
  - exact H.
  - exact O.
  - rewrite <- E. apply Qceqb_eq. exact C.
Qed.

(** Balls: (m, r) represents x when |2^80 x - m| <= r *)
Definition zq (z : Z) : Qc := Q2Qc (inject_Z z).
Lemma zq_add a b : zq (a + b) = (zq a + zq b)%Qc.
Proof. unfold zq, Qcplus, Q2Qc. apply Qc_is_canon. cbn [this]. rewrite !Qred_correct. unfold Qeq, inject_Z. cbn. lia. Qed.
Lemma zq_mul a b : zq (a * b) = (zq a * zq b)%Qc.
Proof. unfold zq, Qcmult, Q2Qc. apply Qc_is_canon. cbn [this]. rewrite !Qred_correct. unfold Qeq, inject_Z. cbn. lia. Qed.
Lemma zq_opp a : zq (- a) = (- zq a)%Qc.
Proof. unfold zq, Qcopp, Q2Qc. apply Qc_is_canon. cbn [this]. rewrite !Qred_correct. unfold Qeq, inject_Z. cbn. lia. Qed.
Lemma zq_sub a b : zq (a - b) = (zq a - zq b)%Qc.
Proof. unfold Z.sub. rewrite zq_add, zq_opp. reflexivity. Qed.
Lemma zq_le a b : (a <= b)%Z -> (zq a <= zq b)%Qc.
Proof. intros H. unfold zq, Qcle, Q2Qc. cbn [this]. rewrite !Qred_correct. rewrite <- Zle_Qle. assumption. Qed.
Lemma zq_0 : zq 0 = 0%Qc. Proof. reflexivity. Qed.
Lemma zq_1 : zq 1 = 1%Qc. Proof. reflexivity. Qed.

Definition bbits : Z := 80%Z.
Definition bscale : Z := (2 ^ 80)%Z.
Definition ball : Type := (Z * Z)%type.
Definition bin (b : ball) (x : Qc) : Prop := (- zq (snd b) <= zq bscale * x - zq (fst b) /\ zq bscale * x - zq (fst b) <= zq (snd b))%Qc.
Definition badd (a b : ball) : ball := (fst a + fst b, snd a + snd b)%Z.
Definition bmul_gen (a b : ball) : ball :=
  (Z.shiftr (fst a * fst b) bbits, Z.shiftr (snd b * Z.abs (fst a) + snd a * Z.abs (fst b) + snd a * snd b) bbits + 2)%Z.
Definition bmul (a b : ball) : ball :=
  match a, b with
  | (Z0, Z0), _ => (Z0, Z0)
  | _, (Z0, Z0) => (Z0, Z0)
  | _, _ => bmul_gen a b
  end.
Definition bof (x : Qc) : ball := if Z.eqb (Qnum (this x)) 0 then (0, 0)%Z else (bscale * Qnum (this x) / Z.pos (Qden (this x)), 1)%Z.
Lemma badd_ok a b x y : bin a x -> bin b y -> bin (badd a b) (x + y)%Qc.
Proof.
  intros [A1 A2] [B1 B2]. unfold bin, badd. cbn [fst snd]. rewrite !zq_add. generalize dependent (zq bscale).
  generalize (zq (fst a)) (zq (fst b)) (zq (snd a)) (zq (snd b)). intros. split; qcnra.
Qed.
Lemma cancel (S x r : Qc) : (0 < S)%Qc -> (S * x <= S * r)%Qc -> (x <= r)%Qc.
Proof. intros H L. apply Qcnot_lt_le. intros C. qcnra. Qed.
Lemma mul_le (S a b : Qc) : (0 < S)%Qc -> (a <= b)%Qc -> (S * a <= S * b)%Qc.
Proof. intros. qcnra. Qed.
Lemma abs_bound (m v r : Qc) : (- r <= v)%Qc -> (v <= r)%Qc -> (m * v <= Qcabs m * r)%Qc /\ (- (Qcabs m * r) <= m * v)%Qc.
Proof. intros H1 H2. unfold Qcabs. qcase m 0%Qc; split; qcnra. Qed.
Lemma prod_bound (u v r s : Qc) : (- r <= u)%Qc -> (u <= r)%Qc -> (- s <= v)%Qc -> (v <= s)%Qc -> (u * v <= r * s)%Qc /\ (- (r * s) <= u * v)%Qc.
Proof. intros H1 H2 H3 H4. split; qcnra. Qed.
Lemma zq_abs m : zq (Z.abs m) = Qcabs (zq m).
Proof.
  destruct (Z_le_gt_dec 0 m) as [H|H].
  - rewrite Z.abs_eq, Qcabs_pos; [reflexivity| |assumption]. rewrite <- zq_0. apply zq_le. assumption.
  - rewrite Z.abs_neq by lia. rewrite Qcabs_neg; [apply zq_opp|]. rewrite <- zq_0. apply zq_le. lia.
Qed.
Lemma bscale_pos : (0 < zq bscale)%Qc. Proof. reflexivity. Qed.
Lemma div_bounds z : (zq bscale * zq (z / bscale) <= zq z)%Qc /\ (zq z <= zq bscale * zq (z / bscale) + zq bscale)%Qc.
Proof.
  assert (P : (0 < bscale)%Z) by reflexivity. pose proof (Z.div_mod z bscale ltac:(lia)). pose proof (Z.mod_pos_bound z bscale P).
  rewrite <- !zq_mul, <- zq_add. split; apply zq_le; lia.
Qed.
Lemma bmul_gen_ok a b x y : bin a x -> bin b y -> bin (bmul_gen a b) (x * y)%Qc.
Proof.
  destruct a as [m1 r1], b as [m2 r2]. unfold bin, bmul_gen. cbn [fst snd]. intros [A1 A2] [B1 B2].
  rewrite !Z.shiftr_div_pow2 by discriminate. change (2 ^ bbits)%Z with bscale.
  replace (r2 * Z.abs m1 + r1 * Z.abs m2 + r1 * r2)%Z with (Z.abs m1 * r2 + Z.abs m2 * r1 + r1 * r2)%Z by ring.
  destruct (div_bounds (m1 * m2)) as [D1 D2]. destruct (div_bounds (Z.abs m1 * r2 + Z.abs m2 * r1 + r1 * r2)) as [_ D3].
  rewrite !zq_add, !zq_mul, !zq_abs in D3. rewrite !zq_mul in D1, D2. rewrite zq_add. set (d := zq (m1 * m2 / bscale)) in *.
  set (e := zq ((Z.abs m1 * r2 + Z.abs m2 * r1 + r1 * r2) / bscale)) in *.
  change (zq 2) with (1 + 1)%Qc. pose proof bscale_pos as P. set (S := zq bscale) in *. clearbody d e S.
  generalize dependent (zq r1). generalize dependent (zq r2). generalize dependent (zq m1). generalize dependent (zq m2). 
  intros m2' m1' D1 D2 r2' B1 B2 r1' A1 A2 D3. clear m1 m2 r1 r2. rename m1' into m1, m2' into m2, r1' into r1, r2' into r2.
  set (u := (S * x - m1)%Qc) in *. set (v := (S * y - m2)%Qc) in *.
  destruct (abs_bound m1 v r2 B1 B2) as [P1 P2]. destruct (abs_bound m2 u r1 A1 A2) as [P3 P4]. destruct (prod_bound u v r1 r2 A1 A2 B1 B2) as [P5 P6].
  assert (E : (S * (S * (x * y) - d) = u * v + m1 * v + m2 * u + m1 * m2 - S * d)%Qc) by (unfold u, v; ring).
  set (Q := (Qcabs m1 * r2 + Qcabs m2 * r1 + r1 * r2)%Qc) in *.
  split.
  - apply (cancel S); [assumption|]. rewrite E. assert (F : (S * - (e + (1 + 1)) <= - Q)%Qc) by (clearbody Q; clear - D3 P; qclra).
    apply Qcle_trans with (- Q)%Qc; [assumption|]. unfold Q. generalize dependent (u * v)%Qc. generalize dependent (m1 * v)%Qc. generalize dependent (m2 * u)%Qc.
    generalize dependent (Qcabs m1 * r2)%Qc. generalize dependent (Qcabs m2 * r1)%Qc. generalize dependent (r1 * r2)%Qc. generalize dependent (m1 * m2)%Qc.
    generalize (S * d)%Qc. clear. intros. qclra.
  - apply (cancel S); [assumption|]. rewrite E. assert (F : (Q + S <= S * (e + (1 + 1)))%Qc) by (clearbody Q; clear - D3 P; qclra).
    apply Qcle_trans with (Q + S)%Qc; [|assumption]. unfold Q. generalize dependent (u * v)%Qc. generalize dependent (m1 * v)%Qc. generalize dependent (m2 * u)%Qc.
    generalize dependent (Qcabs m1 * r2)%Qc. generalize dependent (Qcabs m2 * r1)%Qc. generalize dependent (r1 * r2)%Qc. generalize dependent (m1 * m2)%Qc.
    generalize (S * d)%Qc. clear. intros. qclra.
Qed.
Lemma bin_zero x : bin (0, 0)%Z x -> x = 0%Qc.
Proof.
  unfold bin. cbn [fst snd]. rewrite zq_0. intros [H1 H2]. pose proof bscale_pos as P. generalize dependent (zq bscale). intros S H1 H2 P.
  assert (E : (S * x = 0)%Qc) by (apply Qcle_antisym; qclra). apply Qcmult_eq0 in E. destruct E as [->|E]; [discriminate P|assumption].
Qed.
Lemma bin_0 : bin (0, 0)%Z 0%Qc. Proof. unfold bin. cbn [fst snd]. rewrite zq_0. split; qclra. Qed.
Lemma bmul_ok a b x y : bin a x -> bin b y -> bin (bmul a b) (x * y)%Qc.
Proof.
  intros A B. assert (Z : (bmul a b = bmul_gen a b) \/ (a = (0, 0)%Z /\ bmul a b = (0, 0)%Z) \/ (b = (0, 0)%Z /\ bmul a b = (0, 0)%Z)).
  { unfold bmul. destruct a as [[|m1|m1] [|r1|r1]], b as [[|m2|m2] [|r2|r2]]; auto. }
  destruct Z as [->|[[-> ->]|[-> ->]]]; [apply bmul_gen_ok; assumption| |].
  - apply bin_zero in A. subst x. replace (0 * y)%Qc with 0%Qc by ring. apply bin_0.
  - apply bin_zero in B. subst y. replace (x * 0)%Qc with 0%Qc by ring. apply bin_0.
Qed.
Lemma zq_pos_lt d : (0 < zq (Z.pos d))%Qc.
Proof. apply Qclt_le_trans with (zq 1); [reflexivity|]. apply zq_le. lia. Qed.
Lemma den_num (x : Qc) : (zq (Z.pos (Qden (this x))) * x = zq (Qnum (this x)))%Qc.
Proof.
  unfold zq, Qcmult, Q2Qc. apply Qc_is_canon. cbn [this]. rewrite !Qred_correct. destruct (this x) as [a b]. unfold Qeq, inject_Z. cbn. destruct a; cbn; lia.
Qed.
Lemma bof_ok x : bin (bof x) x.
Proof.
  unfold bof. destruct (Z.eqb (Qnum (this x)) 0) eqn:EZ.
  { apply Z.eqb_eq in EZ. pose proof (den_num x) as DN. rewrite EZ, zq_0 in DN. apply Qcmult_eq0 in DN. pose proof (zq_pos_lt (Qden (this x))) as P.
    destruct DN as [DN| ->]; [rewrite DN in P; discriminate P|apply bin_0]. }
  unfold bin. cbn [fst snd]. pose proof (den_num x) as DN. set (n := Qnum (this x)) in *. set (d := Qden (this x)) in *.
  pose proof (Z.div_mod (bscale * n) (Z.pos d) ltac:(lia)) as DM. pose proof (Z.mod_pos_bound (bscale * n) (Z.pos d) ltac:(lia)) as MB.
  set (m := (bscale * n / Z.pos d)%Z) in *. assert (E : (zq (Z.pos d) * (zq bscale * x - zq m) = zq ((bscale * n) mod Z.pos d))%Qc).
  { transitivity (zq bscale * (zq (Z.pos d) * x) - zq (Z.pos d) * zq m)%Qc; [ring|]. rewrite DN. rewrite <- !zq_mul, <- zq_sub. f_equal. lia. }
  pose proof (zq_pos_lt d) as PD. split; apply (cancel (zq (Z.pos d))); auto; rewrite E.
  - rewrite <- zq_opp, <- zq_mul. apply zq_le. lia.
  - rewrite <- zq_mul. apply zq_le. lia.
Qed.
(** |x - 1/g| <= 1e-17 *)
Definition bclose (k : ball) (g : nat) : bool :=
  ((0 <? Z.of_nat g) && (10 ^ 17 * (Z.abs (Z.of_nat g * fst k - bscale) + Z.of_nat g * snd k) <=? bscale * Z.of_nat g))%Z.
Lemma bclose_ok k g x : bin k x -> bclose k g = true -> (Qcabs (x - 1 / qn g) <= qc 1 100000000000000000)%Qc.
Proof.
  unfold bclose, bin. destruct k as [m r]. cbn [fst snd]. intros [B1 B2] C. apply andb_true_iff in C. destruct C as [C1 C2].
  apply Z.ltb_lt in C1. apply Z.leb_le in C2. apply zq_le in C2. change (qn g) with (zq (Z.of_nat g)). set (G := Z.of_nat g) in *.
  rewrite !zq_mul, zq_add, zq_abs, zq_sub, !zq_mul in C2.
  assert (GP : (0 < zq G)%Qc) by (apply Qclt_le_trans with (zq 1); [reflexivity|apply zq_le; lia]).
  pose proof bscale_pos as SP. clearbody G. generalize dependent (zq G). intros q C2 QP. clear C1 G.
  change (zq (10 ^ 17)) with (zq 100000000000000000) in C2. set (T := zq 100000000000000000) in *.
  assert (TE : (T * qc 1 100000000000000000 = 1)%Qc) by (apply Qc_is_canon; reflexivity). assert (TP : (0 < T)%Qc) by reflexivity.
  set (e := qc 1 100000000000000000) in *. clearbody e T. set (S := zq bscale) in *. clearbody S. generalize dependent (zq m). generalize dependent (zq r). clear m r.
  intros r m B1 B2 C2.
  assert (D : (q * (1 / q) = 1)%Qc) by (field; intros Z; rewrite Z in QP; discriminate QP).
  set (iv := (1 / q)%Qc) in *. clearbody iv.
  assert (A1 : (q * m - S <= Qcabs (q * m - S))%Qc) by (unfold Qcabs; qcase (q * m - S)%Qc 0%Qc; qclra).
  assert (A2 : (- (q * m - S) <= Qcabs (q * m - S))%Qc) by (unfold Qcabs; qcase (q * m - S)%Qc 0%Qc; qclra).
  set (A := Qcabs (q * m - S)) in *. clearbody A.
  assert (K : (S * q * (x - iv) = q * (S * x) - S * (q * iv))%Qc) by ring. rewrite D in K.
  assert (M1 : (S * q * (x - iv) <= A + q * r)%Qc).
  { rewrite K. assert (H : (q * (S * x - m) <= q * r)%Qc) by (apply mul_le; assumption). clear - H A1. qclra. }
  assert (M2 : (S * q * - (x - iv) <= A + q * r)%Qc).
  { assert (K2 : (S * q * - (x - iv) = - (S * q * (x - iv)))%Qc) by ring. rewrite K2, K.
    assert (H : (q * - r <= q * (S * x - m))%Qc) by (apply mul_le; assumption). clear - H A2. qclra. }
  assert (SQ : (0 < S * q)%Qc) by (clear - SP QP; qcnra). assert (TSQ : (0 < T * (S * q))%Qc) by (clear - SQ TP; generalize dependent (S * q)%Qc; intros; qcnra).
  assert (W : forall z, (S * q * z <= A + q * r)%Qc -> (z <= e)%Qc).
  { intros z H. apply (cancel (T * (S * q))%Qc); [assumption|].
    replace (T * (S * q) * e)%Qc with (S * q)%Qc by (transitivity (S * q * (T * e))%Qc; [rewrite TE|]; ring).
    apply Qcle_trans with (T * (A + q * r))%Qc; [|assumption]. replace (T * (S * q) * z)%Qc with (T * (S * q * z))%Qc by ring. apply mul_le; assumption. }
  unfold Qcabs. destruct (Qcltb (x - iv) 0); apply W; assumption.
Qed.
Definition ball_check (co : coeffs QcNum) (stages ix p : nat) : bool :=
  check_levels (0, 0)%Z badd bmul stages (b_row bof co stages ix) bclose (levels (0, 0)%Z (bof 1%Qc) badd bmul stages (a_rows bof co stages) (p - 1)).
Lemma ball_sound co stages ix p : ball_check co stages ix p = true ->
  forall t, order t <= p -> (Qcabs (weight co stages ix t - 1 / qn (density t)) <= qc 1 100000000000000000)%Qc.
Proof.
  intros H t O. unfold ball_check in H.
  destruct (check_sound (0, 0)%Z (bof 1%Qc) badd bmul bin) with (co := co) (stages := stages) (ix := ix) (ka := a_rows bof co stages)
     (kb := b_row bof co stages ix) (close := bclose) (p := p) (t := t) as [k [E C]].
  - apply bin_0.
  - apply bof_ok.
  - apply badd_ok.
  - apply bmul_ok.
  - intros i j Hj. rewrite a_rows_nth by assumption. apply bof_ok.
  - intros i Hi. rewrite b_row_nth by assumption. apply bof_ok.
  - exact H.
  - exact O.
  - exact (bclose_ok _ _ _ E C).
Qed.

Fixpoint check_rows (co : coeffs QcNum) (s : nat) : bool :=
  match s with O => true | S s' => check_rows co s' && Qceqb (qsum s' (fun i => A_ co s' i)) (C_ co s') end.
Lemma check_rows_sound co stages : check_rows co stages = true -> row_sums co stages.
Proof.
  induction stages as [|s I]; intros H r R; [lia|]. simpl in H. apply andb_true_iff in H. destruct H as [H1 H2].
  destruct (Nat.eq_dec r s) as [->|NE]; [apply Qceqb_eq; assumption|apply I; [assumption|lia]].
Qed.
