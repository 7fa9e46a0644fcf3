(** XrkFacts2.v - Runge-Kutta tables as functions: composition, change of the unit of time, concatenation with weights. *)
From Coq Require Import List Arith Bool ZArith QArith Qcanon Lia Field.
From Verif Require Import Base BaseFacts VecModel VOps RkModel RkSpec RkFacts StepSpec ExtSpec XrkFacts.
Import ListNotations.
Local Open Scope Qc_scope.

Record ft : Type := mkFt { f_n : nat; f_a : nat -> nat -> Qc; f_b : nat -> Qc; f_c : nat -> Qc }.
(** weights of trees *)
Fixpoint fw (a : nat -> nat -> Qc) (t : tree) (i : nat) : Qc :=
  match t with Node l => (fix go (l : list tree) : Qc := match l with [] => 1 | c :: r => qsum i (fun j => a i j * fw a c j) * go r end) l end.
Definition wt (F : ft) (t : tree) : Qc := qsum (f_n F) (fun i => f_b F i * fw (f_a F) t i).
Definition qprod {A} (l : list A) (g : A -> Qc) : Qc := fold_right (fun a r => g a * r) 1 l.
Lemma qprod_cons {A} (c : A) l g : qprod (c :: l) g = g c * qprod l g. Proof. reflexivity. Qed.
Lemma fw_Node (a : nat -> nat -> Qc) l i : fw a (Node l) i = qprod l (fun c => qsum i (fun j => a i j * fw a c j)).
Proof. induction l as [|c l I]; [reflexivity|]. rewrite qprod_cons, <- I. reflexivity. Qed.
Lemma qprod_ext {A} (l : list A) f g : (forall a, In a l -> f a = g a) -> qprod l f = qprod l g.
Proof. induction l as [|a l I]; cbn [qprod fold_right]; intros H; [reflexivity|]. rewrite (H a) by (left; reflexivity). f_equal. apply I. intros. apply H. right. assumption. Qed.
Lemma tree_ind2 (P : tree -> Prop) : (forall l, (forall c, In c l -> P c) -> P (Node l)) -> forall t, P t.
Proof.
  intros H. fix IT 1. intros [l]. apply H. induction l as [|c l I]; [intros ? []|]. intros x [<-|Hx]; [apply IT|apply I; exact Hx].
Qed.
Definition ordl (l : list tree) : nat := fold_right (fun c r => (order c + r)%nat) 0%nat l.
Definition denl (l : list tree) : nat := fold_right (fun c r => (density c * r)%nat) 1%nat l.
Lemma order_Node l : order (Node l) = S (ordl l).
Proof. cbn [order]. f_equal. Qed.
Lemma density_Node l : density (Node l) = (S (ordl l) * denl l)%nat.
Proof. reflexivity. Qed.
Lemma fw_ext a a' : (forall i j, (j < i)%nat -> a i j = a' i j) -> forall t i, fw a t i = fw a' t i.
Proof.
  intros E t. induction t as [l I] using tree_ind2. intros i. rewrite !fw_Node. apply qprod_ext. intros c Hc. apply qsum_ext. intros j Hj. rewrite E by exact Hj. rewrite (I c Hc). reflexivity.
Qed.
Lemma fw_ext_upto a a' m : (forall i j, (i < m)%nat -> (j < i)%nat -> a i j = a' i j) -> forall t i, (i < m)%nat -> fw a t i = fw a' t i.
Proof.
  intros E t. induction t as [l I] using tree_ind2. intros i Hi. rewrite !fw_Node. apply qprod_ext. intros c Hc. apply qsum_ext. intros j Hj. rewrite E by assumption. rewrite (I c Hc) by lia. reflexivity.
Qed.

(** * As a table of the library *)
Definition co_of (F : ft) : coeffs QcNum := mkCo (N:=QcNum) (flat_map (fun s => map (f_a F s) (seq 0 s)) (seq 0 (f_n F))) (map (f_b F) (seq 0 (f_n F))) (map (f_c F) (seq 1 (f_n F - 1))) (-1)%Z.
Lemma tri_S s : tri (S s) = (tri s + s)%nat.
Proof. unfold tri. rewrite Nat.sub_succ, Nat.sub_0_r. destruct s as [|s]; [reflexivity|]. rewrite Nat.sub_succ, Nat.sub_0_r.
  replace (S (S s) * S s)%nat with (S s * s + S s * 2)%nat by lia. rewrite Nat.div_add by lia. reflexivity. Qed.
Lemma rows_length (a : nat -> nat -> Qc) n : length (flat_map (fun s => map (a s) (seq 0 s)) (seq 0 n)) = tri n.
Proof. induction n as [|n I]; [reflexivity|]. rewrite seq_S, flat_map_app, app_length, I. cbn [flat_map]. rewrite app_nil_r, map_length, seq_length, tri_S. reflexivity. Qed.
Lemma rows_nth (a : nat -> nat -> Qc) n s i : (s < n)%nat -> (i < s)%nat -> nth (tri s + i) (flat_map (fun s => map (a s) (seq 0 s)) (seq 0 n)) 0 = a s i.
Proof.
  intros Hs Hi. induction n as [|n I]; [lia|]. rewrite seq_S, flat_map_app. cbn [flat_map]. rewrite app_nil_r. cbn [Nat.add].
  destruct (Nat.eq_dec s n) as [->|NE].
  - rewrite app_nth2; rewrite rows_length; [|lia]. replace (tri n + i - tri n)%nat with i by lia. rewrite (nth_indep _ _ (a n 0%nat)) by (rewrite map_length, seq_length; lia). rewrite map_nth, seq_nth by lia. reflexivity.
  - rewrite app_nth1; [apply I; lia|]. rewrite rows_length. clear I. assert (tri (S s) <= tri n)%nat by (clear Hi; assert (L : (S s <= n)%nat) by lia; clear NE Hs; induction L as [|m L J]; [lia|rewrite (tri_S m); lia]).
    rewrite tri_S in H. lia.
Qed.
Section CoOf.
Context (F : ft).
Hypothesis C0 : f_c F 0%nat = 0.
Hypothesis N0 : (0 < f_n F)%nat.
Lemma co_A s i : (s < f_n F)%nat -> (i < s)%nat -> A_ (co_of F) s i = f_a F s i.
Proof. intros Hs Hi. unfold A_, co_of. cbn [co_a]. apply rows_nth; assumption. Qed.
Lemma co_B s : (s < f_n F)%nat -> B_ (co_of F) (f_n F) 0 s = f_b F s.
Proof. intros Hs. unfold B_, co_of. cbn [co_b]. cbn [Nat.mul Nat.add]. change (nT QcNum) with Qc. rewrite (nth_indep _ _ (f_b F 0%nat)) by (rewrite map_length, seq_length; lia). rewrite map_nth, seq_nth by lia. reflexivity. Qed.
Lemma co_C s : (s < f_n F)%nat -> C_ (co_of F) s = f_c F s.
Proof.
  intros Hs. unfold C_, co_of. cbn [co_c]. destruct s as [|s]; [symmetry; exact C0|]. change (nT QcNum) with Qc. rewrite (nth_indep _ _ (f_c F 0%nat)) by (rewrite map_length, seq_length; lia). rewrite map_nth, seq_nth by lia. reflexivity.
Qed.
Lemma co_wf : wf_table (co_of F) (f_n F) 1.
Proof.
  split; [exact N0|]. unfold co_of. cbn [co_a co_b co_c]. split; [apply rows_length|]. split; [rewrite map_length, seq_length; lia|]. rewrite map_length, seq_length. lia.
Qed.
Lemma stage_weight_fw : forall t i, (i < f_n F)%nat -> stage_weight (co_of F) t i = fw (f_a F) t i.
Proof.
  intros t. induction t as [l I] using tree_ind2. intros i Hi. rewrite fw_Node.
  transitivity (qprod l (fun c => qsum i (fun j => A_ (co_of F) i j * stage_weight (co_of F) c j))).
  { clear I. induction l as [|c l J]; [reflexivity|]. rewrite qprod_cons, <- J. reflexivity. }
  apply qprod_ext. intros c Hc. apply qsum_ext. intros j Hj. rewrite co_A by assumption. rewrite (I c Hc) by lia. reflexivity.
Qed.
Lemma weight_wt t : weight (co_of F) (f_n F) 0 t = wt F t.
Proof. unfold weight, wt. apply qsum_ext. intros i Hi. rewrite co_B, stage_weight_fw by assumption. reflexivity. Qed.
Lemma co_order p : (forall t, (order t <= p)%nat -> wt F t = 1 / qn (density t)) -> order_conditions (co_of F) (f_n F) 0 p.
Proof. intros H t Ht. rewrite weight_wt. apply H. exact Ht. Qed.
Definition rows_ok : Prop := forall s, (s < f_n F)%nat -> qsum s (f_a F s) = f_c F s.
Lemma co_rows : rows_ok -> row_sums (co_of F) (f_n F).
Proof. intros H s Hs. rewrite co_C by exact Hs. rewrite <- H by exact Hs. apply qsum_ext. intros i Hi. apply co_A; assumption. Qed.
End CoOf.

(** * Steps *)
Lemma qsum_div s m (g u : nat -> Qc) : m <> 0 -> qsum s (fun i => g i / m * u i) = qsum s (fun i => g i * u i) / m.
Proof. intros NZ. induction s as [|s I]; cbn [qsum]; [field; exact NZ|]. rewrite I. field. exact NZ. Qed.
Section Steps.
Context (n : nat) (f : Qc -> list Qc -> Outcome (list Qc)).
(** slopes k of the stages of a step of size h from x at t, and its result *)
Definition stages_of (F : ft) (t h : Qc) (x : list Qc) (k : nat -> list Qc) : Prop :=
  forall s, (s < f_n F)%nat -> exists arg, length arg = n /\ f (t + h * f_c F s) arg = Ret (k s) /\ forall j, (j < n)%nat -> cmp_ arg j = cmp_ x j + h * qsum s (fun i => f_a F s i * cmp_ (k i) j).
Definition result_of (F : ft) (h : Qc) (x : list Qc) (k : nat -> list Qc) (y : list Qc) : Prop :=
  length y = n /\ forall j, (j < n)%nat -> cmp_ y j = cmp_ x j + h * qsum (f_n F) (fun s => f_b F s * cmp_ (k s) j).
Lemma stages_ext F t h x k k' : (forall s, (s < f_n F)%nat -> k s = k' s) -> stages_of F t h x k -> stages_of F t h x k'.
Proof.
  intros E H s Hs. destruct (H s Hs) as (arg & L & EV & A). exists arg. split; [exact L|]. rewrite <- E by exact Hs. split; [exact EV|]. intros j Hj. rewrite A by exact Hj. f_equal. f_equal. apply qsum_ext. intros i Hi. rewrite E by lia. reflexivity.
Qed.
Lemma choose m (P : nat -> list Qc -> Prop) : (forall s, (s < m)%nat -> exists a, P s a) -> exists l, length l = m /\ forall s, (s < m)%nat -> P s (nth s l []).
Proof.
  induction m as [|m I]; intros H; [exists []; split; [reflexivity|lia]|]. destruct I as (l & L & A); [intros; apply H; lia|]. destruct (H m) as (a & Pa); [lia|].
  exists (l ++ [a]). split; [rewrite app_length, L; cbn; lia|]. intros s Hs. destruct (Nat.eq_dec s m) as [->|NE]; [rewrite app_nth2 by lia; rewrite L, Nat.sub_diag; exact Pa|rewrite app_nth1 by lia; apply A; lia].
Qed.
Lemma co_step F t h x k y : f_c F 0%nat = 0 -> (0 < f_n F)%nat -> stages_of F t h x k -> result_of F h x k y -> textbook_step (co_of F) (f_n F) n f h (t, x) (t + h, y).
Proof.
  intros C0 N0 ST [LY RES]. split; [reflexivity|]. cbn [fst snd].
  destruct (choose (f_n F) (fun s arg => length arg = n /\ f (t + h * f_c F s) arg = Ret (k s) /\ forall j, (j < n)%nat -> cmp_ arg j = cmp_ x j + h * qsum s (fun i => f_a F s i * cmp_ (k i) j))) as (args & LA & HA).
  { intros s Hs. apply ST. exact Hs. }
  exists (map (fun s => (t + h * f_c F s, nth s args [])) (seq 0 (f_n F))), (map k (seq 0 (f_n F))).
  assert (NK : forall s, (s < f_n F)%nat -> nth s (map k (seq 0 (f_n F))) [] = k s).
  { intros s Hs. rewrite (nth_indep _ _ (k 0%nat)) by (rewrite map_length, seq_length; lia). rewrite map_nth, seq_nth by lia. reflexivity. }
  split.
  - split; [rewrite map_length, seq_length; reflexivity|]. split; [rewrite map_length, seq_length; reflexivity|]. intros s Hs. destruct (HA s Hs) as (L & EV & A).
    exists (nth s args []). rewrite co_C by assumption. split.
    { rewrite nth_error_map. assert (E : nth_error (seq 0 (f_n F)) s = Some s) by (rewrite (nth_error_nth' _ 0%nat) by (rewrite seq_length; lia); rewrite seq_nth by lia; reflexivity). rewrite E. reflexivity. }
    rewrite NK by exact Hs. split; [exact EV|]. split; [exact L|]. intros j Hj. rewrite A by exact Hj. f_equal. f_equal. apply qsum_ext. intros i Hi. rewrite NK by lia. rewrite co_A by assumption. reflexivity.
  - split; [exact LY|]. intros j Hj. rewrite RES by exact Hj. f_equal. f_equal. apply qsum_ext. intros i Hi. rewrite NK by lia. rewrite co_B by assumption. reflexivity.
Qed.

(** * Change of the unit of time: a step of size h as a step of size h * m *)
Definition resize (m : Qc) (F : ft) : ft := mkFt (f_n F) (fun i j => f_a F i j / m) (fun i => f_b F i / m) (fun i => f_c F i / m).
Lemma resize_step m F t h x k y : m <> 0 -> stages_of F t (h / m) x k -> result_of F (h / m) x k y -> stages_of (resize m F) t h x k /\ result_of (resize m F) h x k y.
Proof.
  intros NZ ST [LY RES]. split.
  - intros s Hs. cbn [resize f_n f_a f_c] in *. destruct (ST s Hs) as (arg & L & EV & A). exists arg. split; [exact L|]. split.
    + replace (t + h * (f_c F s / m)) with (t + h / m * f_c F s) by (field; exact NZ). exact EV.
    + intros j Hj. rewrite A by exact Hj. f_equal. rewrite (qsum_div s m (f_a F s) (fun i => cmp_ (k i) j) NZ). field. exact NZ.
  - split; [exact LY|]. intros j Hj. rewrite RES by exact Hj. cbn [resize f_n f_b]. f_equal. rewrite (qsum_div (f_n F) m (f_b F) (fun i => cmp_ (k i) j) NZ). field. exact NZ.
Qed.
End Steps.
Lemma fw_resize m a : m <> 0 -> forall t i, fw (fun i j => a i j / m) t i = fw a t i / m ^ (order t - 1).
Proof.
  intros NZ t. induction t as [l I] using tree_ind2. intros i. rewrite order_Node, Nat.sub_succ, Nat.sub_0_r, !fw_Node.
  induction l as [|c l J]; [cbn; field; discriminate|]. rewrite !qprod_cons. change (ordl (c :: l)) with (order c + ordl l)%nat. rewrite pow_add.
  rewrite J by (intros; apply I; right; assumption).
  rewrite (qsum_ext i _ (fun j => 1 / m ^ order c * (a i j * fw a c j))).
  - rewrite qsum_scale. pose proof (pow_nz m (order c) NZ). pose proof (pow_nz m (ordl l) NZ). field. auto.
  - intros j Hj. rewrite (I c (or_introl eq_refl)). assert (O : order c = S (order c - 1)) by (destruct c as [k]; rewrite order_Node; lia). rewrite O at 2. rewrite pow_S. pose proof (pow_nz m (order c - 1) NZ). field. auto.
Qed.
Lemma wt_resize m F t : m <> 0 -> wt (resize m F) t = wt F t / m ^ order t.
Proof.
  intros NZ. unfold wt, resize. cbn [f_n f_b f_a]. rewrite (qsum_ext (f_n F) _ (fun i => 1 / m ^ order t * (f_b F i * fw (f_a F) t i))).
  - rewrite qsum_scale. pose proof (pow_nz m (order t) NZ). field. auto.
  - intros i Hi. rewrite fw_resize by exact NZ. assert (O : order t = S (order t - 1)) by (destruct t as [k]; rewrite order_Node; lia). rewrite O at 2. rewrite pow_S. pose proof (pow_nz m (order t - 1) NZ). field. auto.
Qed.
Lemma rows_resize m F : m <> 0 -> rows_ok F -> rows_ok (resize m F).
Proof.
  intros NZ R s Hs. cbn [resize f_n f_a f_c] in *. rewrite <- R by exact Hs. rewrite (qsum_ext s (fun j => f_a F s j / m) (fun j => f_a F s j / m * (fun _ => 1) j)) by (intros; ring). rewrite (qsum_div s m (f_a F s) (fun _ => 1) NZ). f_equal. apply qsum_ext. intros; ring.
Qed.

(** * Concatenation: both methods side by side, results weighted *)
Definition cat (w : Qc) (F G : ft) : ft := let m := f_n F in
  mkFt (m + f_n G) (fun i j => if i <? m then f_a F i j else if j <? m then 0 else f_a G (i - m) (j - m)) (fun i => if i <? m then w * f_b F i else f_b G (i - m)) (fun i => if i <? m then f_c F i else f_c G (i - m)).
Lemma fw_cat_left w F G t i : (i < f_n F)%nat -> fw (f_a (cat w F G)) t i = fw (f_a F) t i.
Proof.
  intros Hi. apply (fw_ext_upto _ _ (f_n F)); [|exact Hi]. intros u v Hu Hv. cbn [cat f_a]. assert (E : (u <? f_n F)%nat = true) by (apply Nat.ltb_lt; exact Hu). rewrite E. reflexivity.
Qed.
Lemma cat_row w F G (g : nat -> Qc) i : qsum (f_n F + i) (fun j => f_a (cat w F G) (f_n F + i)%nat j * g j) = qsum i (fun j => f_a G i j * g (f_n F + j)%nat).
Proof.
  rewrite qsum_split. rewrite qsum_zero.
  - rewrite Qcplus_0_l. apply qsum_ext. intros j Hj. cbn [cat f_a]. assert (E : (f_n F + i <? f_n F)%nat = false) by (apply Nat.ltb_ge; lia). assert (E2 : (f_n F + j <? f_n F)%nat = false) by (apply Nat.ltb_ge; lia). rewrite E, E2.
    replace (f_n F + i - f_n F)%nat with i by lia. replace (f_n F + j - f_n F)%nat with j by lia. reflexivity.
  - intros j Hj. cbn [cat f_a]. assert (E : (f_n F + i <? f_n F)%nat = false) by (apply Nat.ltb_ge; lia). assert (E2 : (j <? f_n F)%nat = true) by (apply Nat.ltb_lt; lia). rewrite E, E2. ring.
Qed.
Lemma fw_cat_right w F G t : forall i, fw (f_a (cat w F G)) t (f_n F + i)%nat = fw (f_a G) t i.
Proof.
  induction t as [l I] using tree_ind2. intros i. rewrite !fw_Node. apply qprod_ext. intros c Hc. rewrite (cat_row w F G (fun j => fw (f_a (cat w F G)) c j)). apply qsum_ext. intros j Hj. rewrite (I c Hc). reflexivity.
Qed.
Lemma cat_sum w F G (g : nat -> Qc) : qsum (f_n (cat w F G)) (fun i => f_b (cat w F G) i * g i) = w * qsum (f_n F) (fun i => f_b F i * g i) + qsum (f_n G) (fun i => f_b G i * g (f_n F + i)%nat).
Proof.
  cbn [cat f_n]. rewrite qsum_split. f_equal.
  - rewrite <- qsum_scale. apply qsum_ext. intros i Hi. cbn [cat f_b]. assert (E : (i <? f_n F)%nat = true) by (apply Nat.ltb_lt; exact Hi). rewrite E. ring.
  - apply qsum_ext. intros i Hi. cbn [cat f_b]. assert (E : (f_n F + i <? f_n F)%nat = false) by (apply Nat.ltb_ge; lia). rewrite E. replace (f_n F + i - f_n F)%nat with i by lia. reflexivity.
Qed.
Lemma wt_cat w F G t : wt (cat w F G) t = w * wt F t + wt G t.
Proof.
  unfold wt. rewrite (cat_sum w F G (fun i => fw (f_a (cat w F G)) t i)). f_equal.
  - f_equal. apply qsum_ext. intros i Hi. rewrite fw_cat_left by exact Hi. reflexivity.
  - apply qsum_ext. intros i Hi. rewrite fw_cat_right. reflexivity.
Qed.
Lemma rows_cat w F G : rows_ok F -> rows_ok G -> rows_ok (cat w F G).
Proof.
  intros RF RG s Hs. destruct (Nat.lt_ge_cases s (f_n F)) as [L|L].
  - cbn [cat f_c f_a]. assert (E : (s <? f_n F)%nat = true) by (apply Nat.ltb_lt; exact L). rewrite E. rewrite <- RF by exact L. reflexivity.
  - replace s with (f_n F + (s - f_n F))%nat by lia. set (i := (s - f_n F)%nat). rewrite (qsum_ext _ (f_a (cat w F G) (f_n F + i)%nat) (fun j => f_a (cat w F G) (f_n F + i)%nat j * (fun _ => 1) j)) by (intros; ring). rewrite (cat_row w F G (fun _ => 1)).
    cbn [cat f_c f_n] in *. assert (E : (f_n F + i <? f_n F)%nat = false) by (apply Nat.ltb_ge; lia). rewrite E. replace (f_n F + i - f_n F)%nat with i by lia. rewrite <- RG by lia. apply qsum_ext. intros j _. ring.
Qed.
Lemma cat_step n f w F G t h x k k' y z u : stages_of n f F t h x k -> result_of n F h x k y -> stages_of n f G t h x k' -> result_of n G h x k' z ->
  length u = n -> (forall j, (j < n)%nat -> cmp_ u j = cmp_ x j + w * (cmp_ y j - cmp_ x j) + (cmp_ z j - cmp_ x j)) ->
  exists k2, stages_of n f (cat w F G) t h x k2 /\ result_of n (cat w F G) h x k2 u.
Proof.
  intros SF [LY RF] SG [LZ RG] LU HU. exists (fun i => if (i <? f_n F)%nat then k i else k' (i - f_n F)%nat). split.
  - intros s Hs. destruct (Nat.lt_ge_cases s (f_n F)) as [L|L].
    + assert (E : (s <? f_n F)%nat = true) by (apply Nat.ltb_lt; exact L). destruct (SF s L) as (arg & LA & EV & A). exists arg. split; [exact LA|]. cbn [cat f_c f_a]. rewrite E. split; [exact EV|]. intros j Hj.
      rewrite A by exact Hj. f_equal. f_equal. apply qsum_ext. intros i Hi. assert (E2 : (i <? f_n F)%nat = true) by (apply Nat.ltb_lt; lia). rewrite E2. reflexivity.
    + replace s with (f_n F + (s - f_n F))%nat in * by lia. set (i := (s - f_n F)%nat) in *. cbn [cat f_n] in Hs. destruct (SG i ltac:(lia)) as (arg & LA & EV & A). exists arg. split; [exact LA|].
      assert (E : (f_n F + i <? f_n F)%nat = false) by (apply Nat.ltb_ge; lia). split.
      * cbn [cat f_c]. rewrite E. replace (f_n F + i - f_n F)%nat with i by lia. exact EV.
      * intros j Hj. rewrite A by exact Hj. f_equal. f_equal. rewrite (cat_row w F G (fun q => cmp_ (if (q <? f_n F)%nat then k q else k' (q - f_n F)%nat) j) i). apply qsum_ext. intros q Hq.
        assert (E2 : (f_n F + q <? f_n F)%nat = false) by (apply Nat.ltb_ge; lia). rewrite E2. replace (f_n F + q - f_n F)%nat with q by lia. reflexivity.
  - split; [exact LU|]. intros j Hj. rewrite HU by exact Hj. rewrite (cat_sum w F G (fun q => cmp_ (if (q <? f_n F)%nat then k q else k' (q - f_n F)%nat) j)). rewrite RF, RG by exact Hj.
    rewrite (qsum_ext (f_n F) (fun i => f_b F i * cmp_ (if (i <? f_n F)%nat then k i else k' (i - f_n F)%nat) j) (fun s => f_b F s * cmp_ (k s) j)).
    2:{ intros i Hi. assert (E2 : (i <? f_n F)%nat = true) by (apply Nat.ltb_lt; lia). rewrite E2. reflexivity. }
    rewrite (qsum_ext (f_n G) (fun i => f_b G i * cmp_ (if (f_n F + i <? f_n F)%nat then k (f_n F + i)%nat else k' (f_n F + i - f_n F)%nat) j) (fun s => f_b G s * cmp_ (k' s) j)).
    2:{ intros i Hi. assert (E2 : (f_n F + i <? f_n F)%nat = false) by (apply Nat.ltb_ge; lia). rewrite E2. replace (f_n F + i - f_n F)%nat with i by lia. reflexivity. }
    ring.
Qed.
