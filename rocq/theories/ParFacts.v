(** ParFacts.v - proofs about parameter values and paths *)
From Coq Require Import List Arith Lia Bool String Ascii ZArith NArith.
Require Import Verif.Base Verif.BaseFacts Verif.SMap Verif.LexModel Verif.LexSpec Verif.LexFacts Verif.ParModel Verif.ParSpec.
Import ListNotations.
Local Open Scope string_scope.

(** * Paths *)
Lemma cut_dot_free a : dot_free a -> cut_dot a = (a, None).
Proof.
  induction a as [|c a IH]; simpl; auto. intro H.
  destruct (Ascii.eqb_spec c "."); [subst; exfalso; apply H; left; auto|].
  rewrite IH; auto. intro; apply H; right; auto.
Qed.
Lemma cut_dot_app a t : dot_free a -> cut_dot (a ++ "." ++ t) = (a, Some t).
Proof.
  induction a as [|c a IH]; simpl; auto. intro H.
  destruct (Ascii.eqb_spec c "."); [subst; exfalso; apply H; left; auto|].
  simpl in IH. rewrite IH; auto. intro; apply H; right; auto.
Qed.
Lemma slen_app a b : String.length (a ++ b) = String.length a + String.length b.
Proof. induction a; simpl; auto. Qed.

Lemma parse_loop_ok p : forall fuel, Forall dot_free p -> String.length (formatPath p) <= fuel ->
  parse_loop fuel (formatPath p) = before_empty p.
Proof.
  induction p as [|a p IH]; intros fuel HF HL.
  - destruct fuel; reflexivity.
  - inversion HF; subst. destruct p as [|b p].
    + simpl. simpl in HL. destruct a as [|c a]; [destruct fuel; reflexivity|].
      destruct fuel; [simpl in HL; lia|]. cbn [parse_loop].
      rewrite cut_dot_free by auto. reflexivity.
    + change (formatPath (a :: b :: p)) with (a ++ "." ++ formatPath (b :: p)) in *.
      rewrite slen_app in HL. cbn [before_empty].
      destruct a as [|c a].
      * destruct fuel; reflexivity.
      * destruct fuel; [simpl in HL; lia|].
        change (parse_loop (S fuel) (String c a ++ "." ++ formatPath (b :: p))) with
          (let r := cut_dot (String c a ++ "." ++ formatPath (b :: p)) in
           match fst r with EmptyString => [] | comp => comp :: match snd r with None => [] | Some t => parse_loop fuel t end end).
        rewrite cut_dot_app by auto. cbv zeta. cbn [fst snd].
        rewrite IH; auto. rewrite slen_app in HL. change (String.length (String c a)) with (S (String.length a)) in HL.
        change (String.length ".") with 1 in HL. lia.
Qed.
Lemma parse_format p : Forall dot_free p -> parsePath (formatPath p) = before_empty p.
Proof. intro H. apply parse_loop_ok; auto. Qed.

(** every text is the text form of some dot-free components *)
Lemma cut_dot_spec s : let c := cut_dot s in dot_free (fst c) /\
  match snd c with None => s = fst c | Some t => s = fst c ++ "." ++ t /\ String.length t < String.length s end.
Proof.
  induction s as [|a s IH]; simpl; [split; auto; intros []|].
  destruct (Ascii.eqb_spec a "."); simpl.
  - subst. split; [intros []|]. split; auto.
  - destruct IH as [IH1 IH2]. split.
    + intros [E|E]; [congruence|auto].
    + destruct (snd (cut_dot s)); [destruct IH2 as [E1 E2]; split; [f_equal; exact E1|lia]|congruence].
Qed.
Lemma split_exists s : exists p, p <> [] /\ Forall dot_free p /\ formatPath p = s.
Proof.
  remember (String.length s) as n eqn:En. revert s En. induction n as [n IH] using lt_wf_ind. intros s ->.
  destruct (cut_dot_spec s) as [A B]. destruct (snd (cut_dot s)) as [t|] eqn:E.
  - destruct B as [B1 B2]. destruct (IH _ B2 t eq_refl) as (p & N & F & G).
    exists (fst (cut_dot s) :: p). split; [discriminate|]. split; [constructor; auto|].
    destruct p; [contradiction|]. cbn [formatPath]. cbn [formatPath] in G. rewrite G. auto.
  - exists [fst (cut_dot s)]. split; [discriminate|]. split; auto.
Qed.
Lemma before_empty_good p : Forall dot_free p -> good_path (before_empty p).
Proof.
  induction p as [|a p IH]; simpl; intro H; [constructor|]. inversion H; subst.
  destruct (String.eqb_spec a ""); [constructor|]. constructor; [auto|]. apply IH; auto.
Qed.
Lemma before_empty_id p : good_path p -> before_empty p = p.
Proof.
  induction p as [|a p IH]; simpl; intro H; auto. inversion H; subst.
  destruct (String.eqb_spec a ""); [subst; tauto|]. f_equal; apply IH; auto.
Qed.
Lemma parse_good s : good_path (parsePath s).
Proof. destruct (split_exists s) as (p & _ & F & <-). rewrite parse_format by auto. apply before_empty_good; auto. Qed.
Lemma good_dot_free p : good_path p -> Forall dot_free p.
Proof. apply Forall_impl. tauto. Qed.
Lemma path_round_trip_iff p : parsePath (formatPath p) = p <-> good_path p.
Proof.
  split.
  - intro E. rewrite <- E. apply parse_good.
  - intro H. rewrite parse_format by (apply good_dot_free; auto). apply before_empty_id; auto.
Qed.
Lemma path_cut p q : good_path p -> Forall dot_free q -> parsePath (formatPath (p ++ "" :: q)%list) = p.
Proof.
  intros H Q. rewrite parse_format.
  - induction p as [|a p IH]; simpl; auto. inversion H; subst.
    destruct (String.eqb_spec a ""); [subst; tauto|]. f_equal; apply IH; auto.
  - apply Forall_app. split; [apply good_dot_free; auto|]. constructor; auto. intros [].
Qed.

(** * Nested sets *)
Lemma rd_Ret {A} (l : list A) i a : rd l i = Ret a <-> nth_error l i = Some a.
Proof. unfold rd. destruct (nth_error l i); split; congruence. Qed.
Lemma rd_ok {A} (l : list A) i : i < List.length l -> exists a, rd l i = Ret a.
Proof. intro H. unfold rd. destruct (nth_error l i) eqn:E; eauto. apply nth_error_None in E. lia. Qed.

Lemma params_in h root p l : well_formed h root -> parameters h root p = Ret l -> l < List.length h.
Proof.
  intros [W1 W2]. revert root W1. induction p as [|a p IH]; simpl; intros root W1 E; [congruence|].
  destruct (rd h root) as [ps| |] eqn:R; try discriminate. cbn [obind] in E. apply rd_Ret in R.
  destruct (mfind TOstr a ps) as [v|] eqn:F; try discriminate.
  destruct (v_nested v) as [l'|] eqn:N; try discriminate.
  apply (IH l'); auto. apply mfind_In in F; [|apply (W2 root ps a v R)]. eapply W2; eauto.
Qed.
Lemma params_noub h root p : well_formed h root -> parameters h root p <> UB.
Proof.
  intros [W1 W2]. revert root W1. induction p as [|a p IH]; simpl; intros root W1; [discriminate|].
  destruct (rd_ok h root W1) as (ps & R). rewrite R. cbn [obind]. apply rd_Ret in R.
  destruct (mfind TOstr a ps) as [v|] eqn:F; try discriminate.
  destruct (v_nested v) as [l'|] eqn:N; try discriminate.
  apply IH. apply mfind_In in F; [|apply (W2 root ps a v R)]. eapply W2; eauto.
Qed.
Lemma params_app h root p q : parameters h root (p ++ q)%list = obind (parameters h root p) (fun l => parameters h l q).
Proof.
  revert root. induction p as [|a p IH]; simpl; intro root; auto.
  destruct (rd h root) as [ps| |]; auto. cbn [obind].
  destruct (mfind TOstr a ps) as [v|]; auto. destruct (v_nested v); auto.
Qed.
Lemma decompose_app p a : decomposeValuePath (p ++ [a])%list = Ret (p, a).
Proof. unfold decomposeValuePath. rewrite rev_app_distr. simpl. rewrite rev_involutive. auto. Qed.
Lemma value_ref_app h root p a : value_ref h root (p ++ [a])%list =
  obind (parameters h root p) (fun l => obind (rd h l) (fun ps => match mfind TOstr a ps with None => Throw | Some _ => Ret (l, a) end)).
Proof. unfold value_ref. rewrite decompose_app. reflexivity. Qed.
Lemma read_value_app h root p a : read_value h root (p ++ [a])%list =
  obind (parameters h root p) (fun l => obind (rd h l) (fun ps => match mfind TOstr a ps with None => Throw | Some v => Ret v end)).
Proof.
  unfold read_value. rewrite value_ref_app. destruct (parameters h root p) as [l| |]; auto. cbn [obind].
  destruct (rd h l) as [ps| |] eqn:E; auto. cbn [obind]. destruct (mfind TOstr a ps) eqn:F; auto.
  cbn [obind fst snd]. rewrite E. cbn [obind]. rewrite F. auto.
Qed.
Lemma path_cases (p : path) : p = [] \/ exists q a, p = (q ++ [a])%list.
Proof. destruct (rev p) as [|a r] eqn:E; [left|right].
  - rewrite <- (rev_involutive p), E. auto.
  - exists (rev r), a. rewrite <- (rev_involutive p), E. auto.
Qed.

(** missing components are reported as errors, never as undefined behaviour *)
Lemma read_noub h root p : well_formed h root -> read_value h root p <> UB.
Proof.
  intro W. destruct (path_cases p) as [->|(q & a & ->)]; [discriminate|]. rewrite read_value_app.
  pose proof (params_noub h root q W). pose proof (params_in h root q).
  destruct (parameters h root q) as [l| |]; try discriminate; [|congruence]. cbn [obind].
  destruct (rd_ok h l) as (ps & R); auto. rewrite R. cbn [obind]. destruct (mfind TOstr a ps); discriminate.
Qed.
Lemma read_ret_iff h root p v : well_formed h root ->
  (read_value h root p = Ret v <->
   exists q a l ps, p = (q ++ [a])%list /\ parameters h root q = Ret l /\ nth_error h l = Some ps /\ In (a, v) ps).
Proof.
  intros W. split.
  - destruct (path_cases p) as [->|(q & a & ->)]; [discriminate|]. rewrite read_value_app.
    destruct (parameters h root q) as [l| |] eqn:E; try discriminate. cbn [obind].
    destruct (rd h l) as [ps| |] eqn:R; try discriminate. cbn [obind]. intro F.
    destruct (mfind TOstr a ps) eqn:G; inversion F; subst. apply rd_Ret in R.
    exists q, a, l, ps. repeat split; auto. apply mfind_In in G; auto. eapply W; eauto. Unshelve. all: auto.
  - intros (q & a & l & ps & -> & E & R & I). rewrite read_value_app, E. cbn [obind].
    pose proof R as R'. apply rd_Ret in R'. rewrite R'. cbn [obind].
    apply (mfind_In TOstr) in I; [rewrite I; auto|]. destruct W as [_ W]. apply (W l ps a v R).
Qed.

(** effect of an assignment *)
Definition at_cell (h : heap) (l : loc) (a : string) (v : pvalue) (ps : pset) := upd h l (mput TOstr a v ps).
Lemma nth_error_upd {A} (h : list A) i j x : i < List.length h ->
  nth_error (upd h i x) j = if Nat.eqb j i then Some x else nth_error h j.
Proof.
  revert i j. induction h as [|y h IH]; simpl; intros i j H; [lia|].
  destruct i; destruct j; simpl; auto. apply IH. lia.
Qed.
Lemma upd_len {A} (h : list A) i x : List.length (upd h i x) = List.length h.
Proof. revert i. induction h; destruct i; simpl; auto. Qed.

(** a path is unaffected when it never goes through the assigned cell *)
Lemma params_frame (h : heap) l a v (ps : pset) : l < List.length h -> nth_error h l = Some ps -> msorted TOstr ps ->
  forall p root,
  (forall q b r, p = (q ++ b :: r)%list -> parameters h root q = Ret l -> b <> a) ->
  parameters (at_cell h l a v ps) root p = parameters h root p.
Proof.
  intros HL HN HS. induction p as [|b p IH]; intros root HF; auto. simpl.
  assert (R : rd (at_cell h l a v ps) root = if Nat.eqb root l then Ret (mput TOstr a v ps) else rd h root).
  { unfold rd, at_cell. rewrite nth_error_upd by auto. destruct (Nat.eqb root l); auto. }
  rewrite R. destruct (Nat.eqb_spec root l) as [->|NE].
  - assert (NA : b <> a) by (apply (HF [] b p eq_refl eq_refl)).
    assert (R2 : rd h l = Ret ps) by (apply rd_Ret; auto). rewrite R2. cbn [obind].
    rewrite mfind_put by auto. destruct (keqb_spec TOstr b a); [contradiction|].
    destruct (mfind TOstr b ps) as [w|] eqn:F; auto. destruct (v_nested w) as [l'|] eqn:N; auto.
    apply IH. intros q c r E G. apply (HF (b :: q) c r); [rewrite E; auto|]. simpl. rewrite R2. cbn [obind].
    rewrite F, N. auto.
  - destruct (rd h root) as [ps'| |] eqn:R2; auto. cbn [obind].
    destruct (mfind TOstr b ps') as [w|] eqn:F; auto. destruct (v_nested w) as [l'|] eqn:N; auto.
    apply IH. intros q c r E G. apply (HF (b :: q) c r); [rewrite E; auto|]. simpl. rewrite R2. cbn [obind].
    rewrite F, N. auto.
Qed.

Lemma assign_inv h root q a v h' : assign_value h root (q ++ [a])%list v = Ret h' ->
  exists l ps w, parameters h root q = Ret l /\ nth_error h l = Some ps /\ mfind TOstr a ps = Some w /\
    l < List.length h /\ h' = at_cell h l a v ps.
Proof.
  unfold assign_value. rewrite value_ref_app. intro E.
  destruct (parameters h root q) as [l| |]; try discriminate. cbn [obind] in E.
  destruct (rd h l) as [ps| |] eqn:R; try discriminate. cbn [obind] in E.
  destruct (mfind TOstr a ps) as [w|] eqn:F; try discriminate. cbn [obind fst snd] in E. rewrite R in E. cbn [obind] in E.
  unfold wr in E. destruct (Nat.ltb_spec l (List.length h)); try discriminate. inversion E; subst.
  apply rd_Ret in R. exists l, ps, w. auto.
Qed.

Lemma assign_frame h root q a v h' p : well_formed h root -> no_sharing h root ->
  assign_value h root (q ++ [a])%list v = Ret h' -> ~ is_prefix (q ++ [a])%list p ->
  parameters h' root p = parameters h root p.
Proof.
  intros [W1 W2] NS E NP. apply assign_inv in E. destruct E as (l & ps & w & E & R & F & HL & ->).
  apply params_frame; auto; [apply (W2 l ps a w R)|].
  intros q' b r -> G ->. apply NP. assert (q' = q) by (eapply NS; eauto). subst. exists r. rewrite <- app_assoc. auto.
Qed.
Lemma prefix_snoc (p q : path) b : ~ is_prefix p (q ++ [b])%list -> ~ is_prefix p q.
Proof. intros H (r & ->). apply H. exists (r ++ [b])%list. rewrite app_assoc. auto. Qed.

Lemma put_get h root p v h' : well_formed h root -> no_sharing h root -> assign_value h root p v = Ret h' ->
  read_value h' root p = Ret v.
Proof.
  intros W NS E. destruct (path_cases p) as [->|(q & a & ->)]; [discriminate|].
  rewrite read_value_app.
  rewrite (assign_frame h root q a v h' q W NS E).
  - apply assign_inv in E. destruct E as (l & ps & w & E & R & F & HL & ->). rewrite E. cbn [obind].
    unfold rd, at_cell. rewrite nth_error_upd, Nat.eqb_refl by auto. cbn [obind].
    destruct W as [_ W]. rewrite mfind_put by (apply (W l ps a w R)).
    destruct (keqb_spec TOstr a a); [auto|contradiction].
  - intros (r & G). apply (f_equal (@List.length string)) in G. rewrite !app_length in G. simpl in G. lia.
Qed.
Lemma put_other h root p v h' q : well_formed h root -> no_sharing h root -> assign_value h root p v = Ret h' ->
  ~ is_prefix p q -> read_value h' root q = read_value h root q.
Proof.
  intros W NS E NP. destruct (path_cases p) as [->|(p' & a & ->)]; [discriminate|].
  destruct (path_cases q) as [->|(q' & b & ->)]; [reflexivity|].
  rewrite !read_value_app. rewrite (assign_frame h root p' a v h' q' W NS E) by (eapply prefix_snoc; eauto).
  destruct (parameters h root q') as [l'| |] eqn:G; auto. cbn [obind].
  apply assign_inv in E. destruct E as (l & ps & w & E & R & F & HL & ->).
  unfold rd, at_cell. rewrite nth_error_upd by auto. destruct (Nat.eqb_spec l' l) as [->|NE]; auto.
  rewrite R. cbn [obind]. destruct W as [_ W]. rewrite mfind_put by (apply (W l ps a w R)).
  destruct (keqb_spec TOstr b a); auto. subst. exfalso. apply NP.
  assert (q' = p') by (eapply NS; eauto). subst. exists []. rewrite app_nil_r. auto.
Qed.
(** assignment succeeds exactly where a read does *)
Lemma assign_defined h root p v : well_formed h root ->
  ((exists h', assign_value h root p v = Ret h') <-> exists w, read_value h root p = Ret w) /\
  assign_value h root p v <> UB.
Proof.
  intro W. destruct (path_cases p) as [->|(q & a & ->)].
  { unfold assign_value, read_value. simpl. split; [split; intros (x & H); discriminate|discriminate]. }
  rewrite read_value_app. unfold assign_value. rewrite value_ref_app.
  pose proof (params_noub h root q W). pose proof (params_in h root q).
  destruct (parameters h root q) as [l| |]; cbn [obind];
    [|split; [split; intros (x & K); discriminate|discriminate]|congruence].
  destruct (rd_ok h l) as (ps & R); auto. rewrite R. cbn [obind].
  destruct (mfind TOstr a ps) as [w|]; cbn [obind fst snd].
  - rewrite R. cbn [obind]. unfold wr. assert (l < List.length h) by auto.
    destruct (Nat.ltb_spec l (List.length h)); [|lia]. split; [split; eauto|discriminate].
  - split; [split; intros (x & K); discriminate|discriminate].
Qed.
(** assigning a value without nested parameters keeps the structure sane *)
Lemma assign_leaf_wf h root p t h' : well_formed h root -> assign_value h root p (mkV t None) = Ret h' ->
  well_formed h' root.
Proof.
  intros W E. destruct (path_cases p) as [->|(q & a & ->)]; [discriminate|].
  apply assign_inv in E. destruct E as (l & ps & w & E & R & F & HL & ->). destruct W as [W1 W2].
  unfold at_cell. split; [rewrite upd_len; auto|]. intros l' ps' k v' H. rewrite nth_error_upd in H by auto.
  rewrite upd_len. destruct (Nat.eqb_spec l' l).
  - inversion H; subst. split; [apply mput_sorted; apply (W2 l ps a w R)|].
    intros HI l'' N. apply mput_In in HI. destruct HI as [[-> ->]|HI]; [discriminate|].
    eapply W2; eauto.
  - apply (W2 l' ps' k v' H).
Qed.
Lemma assign_leaf_params h root q a t h' : well_formed h root -> assign_value h root (q ++ [a])%list (mkV t None) = Ret h' ->
  forall p r l, parameters h' r p = Ret l -> parameters h r p = Ret l.
Proof.
  intros W E. apply assign_inv in E. destruct E as (l & ps & w & E & R & F & HL & ->). destruct W as [W1 W2].
  induction p as [|b p IH]; intros r l' G; auto. simpl in *.
  unfold rd in *. unfold at_cell in G at 1. rewrite nth_error_upd in G by auto.
  destruct (Nat.eqb_spec r l) as [->|NE].
  - rewrite R. cbn [obind] in *. rewrite mfind_put in G by (apply (W2 l ps a w R)).
    destruct (keqb_spec TOstr b a); [discriminate|]. destruct (mfind TOstr b ps) as [v'|]; auto.
    destruct (v_nested v'); auto.
  - destruct (nth_error h r) as [ps'|]; auto. cbn [obind] in *. destruct (mfind TOstr b ps') as [v'|]; auto.
    destruct (v_nested v'); auto.
Qed.
Lemma assign_leaf_sharing h root p t h' : well_formed h root -> no_sharing h root ->
  assign_value h root p (mkV t None) = Ret h' -> no_sharing h' root.
Proof.
  intros W NS E. destruct (path_cases p) as [->|(q & a & ->)]; [discriminate|].
  intros p1 p2 l A B. eapply NS; eapply assign_leaf_params; eauto.
Qed.


Lemma set_texts_ok root ws : forall h h', well_formed h root -> no_sharing h root -> set_texts root ws h = Ret h' ->
  well_formed h' root /\ no_sharing h' root /\
  forall q, (forall w, In w ws -> ~ is_prefix (fst w) q) -> read_value h' root q = read_value h root q.
Proof.
  induction ws as [|w ws IH]; intros h h' W NS E.
  - inversion E; subst. auto.
  - unfold set_texts in E. cbn [ofold] in E. destruct (assign_value h root (fst w) (mkV (snd w) None)) as [h1| |] eqn:E1; try discriminate.
    cbn [obind] in E. destruct (IH h1 h') as (A & B & C); auto.
    + eapply assign_leaf_wf; eauto.
    + eapply assign_leaf_sharing; eauto.
    + split; auto. split; auto. intros q Hq. rewrite C by (intros; apply Hq; right; auto).
      eapply put_other; eauto. apply Hq; left; auto.
Qed.
Lemma ofold_app_ret {A S} (f : S -> A -> Outcome S) l1 l2 s s' : ofold f (l1 ++ l2)%list s = Ret s' ->
  exists s1, ofold f l1 s = Ret s1 /\ ofold f l2 s1 = Ret s'.
Proof.
  revert s. induction l1 as [|a l1 IH]; simpl; intros s H; [eauto|].
  destruct (f s a); try discriminate. cbn [obind] in *. eauto.
Qed.
Lemma set_texts_last root ws1 p t ws2 h h' : well_formed h root -> no_sharing h root ->
  set_texts root (ws1 ++ (p, t) :: ws2)%list h = Ret h' -> (forall w, In w ws2 -> ~ is_prefix (fst w) p) ->
  read_value h' root p = Ret (mkV t None).
Proof.
  intros W NS E H. unfold set_texts in E. apply ofold_app_ret in E. destruct E as (h1 & E1 & E2).
  destruct (set_texts_ok root ws1 h h1 W NS E1) as (W1 & NS1 & _).
  cbn [ofold fst snd] in E2. destruct (assign_value h1 root p (mkV t None)) as [h2| |] eqn:E3; try discriminate.
  cbn [obind] in E2.
  destruct (set_texts_ok root ws2 h2 h') as (_ & _ & C); auto.
  - eapply assign_leaf_wf; eauto.
  - eapply assign_leaf_sharing; eauto.
  - rewrite C by auto. eapply put_get; eauto.
Qed.

(** * Scalars *)
Lemma c_str_id s : (forall c, In c (chars s) -> c <> "000"%char) -> c_str s = s.
Proof.
  induction s as [|c s IH]; simpl; intro H; auto.
  destruct (Ascii.eqb_spec c "000"); [exfalso; eapply H; eauto|]. f_equal. apply IH. intros; apply H; auto.
Qed.
Lemma digit_not c d : digit c = true -> digit d = false -> c <> d.
Proof. congruence. Qed.
Lemma c_str_int s : integer_text s -> c_str s = s.
Proof.
  intros (sg & ds & -> & A & B & _). apply c_str_id. intros c Hc. rewrite chars_app in Hc. apply in_app_or in Hc.
  destruct Hc as [Hc|Hc].
  - destruct A as [->|[->| ->]]; simpl in Hc; try tauto; destruct Hc as [<-|[]]; discriminate.
  - apply B in Hc. apply digit_class in Hc. eapply digit_not; eauto.
Qed.
Lemma run_digits_all ds : forall acc, is_digits ds ->
  run_digits acc ds = fold_left (fun a c => (10 * a + (Z.of_N (N_of_ascii c) - 48))%Z) (chars ds) acc.
Proof.
  induction ds as [|c ds IH]; intros acc H; auto.
  assert (D : digit c = true) by (apply digit_class; apply H; left; auto).
  cbn [run_digits]. rewrite D. rewrite IH; auto. intros d Hd. apply H. right; auto.
Qed.
Lemma digit_sign c : digit c = true -> sign c = false /\ Ascii.eqb c "-" = false.
Proof.
  intro H. unfold sign, one. destruct (Ascii.eqb_spec "+" c); [subst; discriminate|].
  destruct (Ascii.eqb_spec "-" c); [subst; discriminate|]. destruct (Ascii.eqb_spec c "-"); [subst; discriminate|]. auto.
Qed.
Lemma scan_int_ok sg ds : is_sign sg -> is_digits ds -> ds <> "" ->
  scan_int (sg ++ ds) = Some (String.eqb sg "-", numeral ds).
Proof.
  intros A B C. destruct ds as [|c ds]; [contradiction|].
  assert (D : digit c = true) by (apply digit_class; apply B; left; auto).
  unfold numeral. rewrite <- run_digits_all by auto.
  destruct A as [->|[->| ->]].
  - change ("" ++ String c ds) with (String c ds). unfold scan_int. destruct (digit_sign c D) as [E1 E2]. cbv zeta. rewrite E1, E2, D. auto.
  - change (scan_int ("+" ++ String c ds)) with (if digit c then Some (false, run_digits 0 (String c ds)) else None). rewrite D. auto.
  - change (scan_int ("-" ++ String c ds)) with (if digit c then Some (true, run_digits 0 (String c ds)) else None). rewrite D. auto.
Qed.
Lemma numeral_nonneg ds : is_digits ds -> (0 <= numeral ds)%Z.
Proof.
  unfold numeral. intro H. assert (G : forall acc, (0 <= acc)%Z -> (0 <= fold_left (fun a c => (10 * a + (Z.of_N (N_of_ascii c) - 48))%Z) (chars ds) acc)%Z).
  { revert H. induction ds as [|c ds IH]; intros H acc HA; auto. cbn [chars list_ascii_of_string fold_left]. apply IH.
    - intros d Hd; apply H; right; auto.
    - assert (D : digit c = true) by (apply digit_class; apply H; left; auto). unfold digit, range in D.
      apply andb_true_iff in D. destruct D as [D _]. apply N.leb_le in D. change (N_of_ascii "0") with 48%N in D. lia. }
  apply G. lia.
Qed.
Lemma denotes_integer s z : denotes s z -> integer_text s.
Proof. intros (sg & ds & -> & A & B & C & _). exists sg, ds. auto. Qed.
Lemma integer_denotes s : integer_text s -> exists z, denotes s z.
Proof. intros (sg & ds & -> & A & B & C). eexists. exists sg, ds. repeat split; auto. Qed.
Lemma stoi_ok s z : denotes s z -> stoi s = if ((z <? INT_MIN) || (INT_MAX <? z))%Z then Throw else Ret z.
Proof.
  intros (sg & ds & -> & A & B & C & ->). unfold stoi. rewrite scan_int_ok by auto. cbv zeta.
  set (z := if String.eqb sg "-" then _ else _).
  destruct ((z <? LONG_MIN) || (LONG_MAX <? z))%Z eqn:E; auto.
  assert (((z <? INT_MIN) || (INT_MAX <? z))%Z = true); [|rewrite H; auto].
  unfold LONG_MIN, LONG_MAX, INT_MIN, INT_MAX in *. apply orb_true_iff in E. apply orb_true_iff.
  destruct E as [E|E]; [left|right]; apply Z.ltb_lt in E; apply Z.ltb_lt; lia.
Qed.
Lemma denotes_fun s z1 z2 : denotes s z1 -> denotes s z2 -> z1 = z2.
Proof.
  intros (sg1 & ds1 & E1 & A1 & B1 & C1 & ->) (sg2 & ds2 & E2 & A2 & B2 & C2 & ->).
  assert (scan_int s = Some (String.eqb sg1 "-", numeral ds1)) by (subst s; apply scan_int_ok; auto).
  rewrite E2, scan_int_ok in H by auto. injection H as -> ->. auto.
Qed.
(** c_str in front: the text is cut at the first NUL *)
Lemma to_int_ok v z : to_int v = Ret z <-> denotes (c_str (v_text v)) z /\ (INT_MIN <= z <= INT_MAX)%Z.
Proof.
  unfold to_int. destruct (IsIntegerNumber (c_str (v_text v))) eqn:E.
  - apply IsIntegerNumber_ok in E. apply integer_denotes in E. destruct E as (z' & D).
    rewrite (stoi_ok _ z') by auto.
    destruct ((z' <? INT_MIN) || (INT_MAX <? z'))%Z eqn:R.
    + split; [discriminate|]. intros [D2 K]. rewrite (denotes_fun _ _ _ D2 D) in K. apply orb_true_iff in R.
      rewrite !Z.ltb_lt in R. lia.
    + apply orb_false_iff in R. rewrite !Z.ltb_ge in R. split.
      * intro H; inversion H; subst. split; auto; lia.
      * intros [D2 _]. f_equal. eapply denotes_fun; eauto.
  - split; [discriminate|]. intros [D _]. apply denotes_integer in D. apply IsIntegerNumber_ok in D. congruence.
Qed.
Lemma stoi_noub s : stoi s <> UB.
Proof. unfold stoi. destruct (scan_int s) as [[neg m]|]; [|discriminate]. cbv zeta. repeat match goal with |- context [if ?b then _ else _] => destruct b end; discriminate. Qed.
Lemma to_int_noub v : to_int v <> UB.
Proof. unfold to_int. destruct (IsIntegerNumber _); [apply stoi_noub|discriminate]. Qed.

Lemma to_unsigned_ok v x : to_unsigned v = Ret x <->
  exists z, denotes (c_str (v_text v)) z /\ (- ULONG_MOD < z < ULONG_MOD)%Z /\ x = (z mod UINT_MOD)%Z.
Proof.
  unfold to_unsigned. destruct (IsIntegerNumber (c_str (v_text v))) eqn:E.
  - apply IsIntegerNumber_ok in E. destruct E as (sg & ds & E & A & B & C).
    assert (D : denotes (c_str (v_text v)) (if String.eqb sg "-" then Z.opp (numeral ds) else numeral ds)%Z) by (exists sg, ds; auto).
    unfold stoul. rewrite E at 1. rewrite scan_int_ok by auto.
    pose proof (numeral_nonneg ds B) as NN.
    set (z := if String.eqb sg "-" then Z.opp (numeral ds) else numeral ds) in *.
    assert (RB : (- ULONG_MOD < z < ULONG_MOD)%Z <-> (numeral ds < ULONG_MOD)%Z).
    { unfold z, ULONG_MOD. destruct (String.eqb sg "-"); lia. }
    assert (MM : ((z mod ULONG_MOD) mod UINT_MOD = z mod UINT_MOD)%Z).
    { symmetry. apply Znumtheory.Zmod_div_mod; [reflexivity|reflexivity|]. exists 4294967296%Z. reflexivity. }
    destruct (Z.leb_spec ULONG_MOD (numeral ds)).
    + split; [discriminate|]. intros (z' & D2 & K & ->). rewrite (denotes_fun _ _ _ D2 D) in K. lia.
    + cbn [obind]. rewrite MM. split.
      * intro H1; inversion H1; subst. exists z. split; auto. split; auto. apply RB; auto.
      * intros (z' & D2 & K & ->). rewrite (denotes_fun _ _ _ D2 D). auto.
  - split; [discriminate|]. intros (z & D & _). apply denotes_integer in D. apply IsIntegerNumber_ok in D. congruence.
Qed.
Lemma to_unsigned_noub v : to_unsigned v <> UB.
Proof.
  unfold to_unsigned, stoul. destruct (IsIntegerNumber _); [|discriminate].
  destruct (scan_int _) as [[neg m]|]; [|discriminate]. destruct (ULONG_MOD <=? m)%Z; discriminate.
Qed.

(** to_string *)
Lemma digit_char_ok d : (d < 10)%N -> digit (digit_char d) = true /\ (Z.of_N (N_of_ascii (digit_char d)) - 48 = Z.of_N d)%Z.
Proof.
  intro H. unfold digit_char. rewrite <- (N2Z.id d) at 1. 
  assert (K : forallb (fun k => digit (ascii_of_N (48 + k)) && (Z.of_N (N_of_ascii (ascii_of_N (48 + k))) - 48 =? Z.of_N k)%Z)
     (map N.of_nat (seq 0 10)) = true) by (vm_compute; reflexivity).
  rewrite forallb_forall in K. specialize (K d). rewrite andb_true_iff, Z.eqb_eq in K. rewrite N2Z.id. apply K.
  apply in_map_iff. exists (N.to_nat d). split; [lia|]. apply in_seq. lia.
Qed.
Lemma dec_run fuel : forall n s, (n < 2 ^ N.of_nat fuel)%N ->  (fuel > 0) ->
  run_digits 0 (dec fuel n s) = run_digits (Z.of_N n) s.
Proof.
  induction fuel as [|f IH]; intros n s H HF; [lia|]. cbn [dec].
  destruct (N.ltb_spec n 10).
  - destruct (digit_char_ok n H0) as [D E]. cbn [run_digits]. rewrite D. f_equal. lia.
  - assert (HM : (n mod 10 < 10)%N) by (apply N.mod_lt; lia).
    destruct (digit_char_ok _ HM) as [D E].
    assert (F0 : f > 0). { destruct f; [|lia]. change (N.of_nat 1) with 1%N in H. change (2 ^ 1)%N with 2%N in H. lia. }
    rewrite IH; auto.
    + cbn [run_digits]. rewrite D. f_equal. rewrite E. rewrite (N.div_mod n 10) at 3 by lia. lia.
    + apply N.div_lt_upper_bound; [lia|]. rewrite Nnat.Nat2N.inj_succ, N.pow_succ_r' in H. lia.
Qed.
Lemma dec_digits fuel : forall n s, is_digits s -> is_digits (dec fuel n s).
Proof.
  induction fuel as [|f IH]; intros n s H; auto. cbn [dec].
  assert (G : forall d, (d < 10)%N -> is_digits (String (digit_char d) s)).
  { intros d Hd c [<-|Hc]; auto. apply digit_class. apply digit_char_ok; auto. }
  destruct (N.ltb_spec n 10); [apply G; auto|]. apply IH, G. apply N.mod_lt. lia.
Qed.
Lemma dec_ne fuel : forall n s, (fuel > 0) -> dec fuel n s <> "".
Proof.
  assert (G : forall fuel n s, s <> "" -> dec fuel n s <> "").
  { clear fuel. induction fuel; intros n s H; auto. cbn [dec]. destruct (n <? 10)%N; [discriminate|]. apply IHfuel. discriminate. }
  intros n s H. destruct fuel; [lia|]. cbn [dec]. destruct (n <? 10)%N; [discriminate|]. apply G. discriminate.
Qed.
Lemma log2_bound n : (n < 2 ^ N.of_nat (S (N.to_nat (N.log2 n))))%N.
Proof.
  rewrite Nnat.Nat2N.inj_succ, Nnat.N2Nat.id. destruct (N.eq_dec n 0) as [->|H]; [reflexivity|].
  apply N.log2_spec. lia.
Qed.
Lemma empty_digits : is_digits "". Proof. intros c []. Qed.
Lemma to_string_N_ok n : is_digits (to_string_N n) /\ to_string_N n <> "" /\ numeral (to_string_N n) = Z.of_N n.
Proof.
  unfold to_string_N. pose proof (dec_digits (S (N.to_nat (N.log2 n))) n "" empty_digits) as D.
  split; auto. split; [apply dec_ne; lia|]. unfold numeral. rewrite <- run_digits_all by auto.
  rewrite dec_run by (try apply log2_bound; lia). reflexivity.
Qed.
Lemma to_string_Z_denotes z : denotes (to_string_Z z) z.
Proof.
  destruct z as [|p|p]; unfold to_string_Z.
  - destruct (to_string_N_ok (Z.to_N 0)) as (A & B & C). exists "", (to_string_N (Z.to_N 0)).
    repeat split; auto. left; auto.
  - destruct (to_string_N_ok (Z.to_N (Zpos p))) as (A & B & C). exists "", (to_string_N (Z.to_N (Zpos p))).
    repeat split; auto. left; auto.
  - destruct (to_string_N_ok (Npos p)) as (A & B & C). exists "-", (to_string_N (Npos p)).
    split; auto. split; [right; right; auto|]. split; auto. split; auto. rewrite C. reflexivity.
Qed.
Lemma int_round_trip z : (INT_MIN <= z <= INT_MAX)%Z -> to_int (Value_int z) = Ret z.
Proof.
  intro H. apply to_int_ok. split; auto. pose proof (to_string_Z_denotes z) as D. cbn [Value_int v_text].
  rewrite c_str_int; auto. eapply denotes_integer; eauto.
Qed.
Lemma unsigned_round_trip z : (0 <= z < UINT_MOD)%Z -> to_unsigned (Value_unsigned z) = Ret z.
Proof.
  intro H. apply to_unsigned_ok. exists z. pose proof (to_string_Z_denotes z) as D. cbn [Value_unsigned v_text].
  rewrite c_str_int by (eapply denotes_integer; eauto). split; auto. split.
  - unfold UINT_MOD, ULONG_MOD in *. lia.
  - rewrite Z.mod_small; auto.
Qed.
Lemma bool_round_trip b : to_bool (Value_bool b) = Ret b.
Proof. destruct b; reflexivity. Qed.
Lemma to_bool_ok v b : to_bool v = Ret b <-> In (v_text v) (if b then ["1"; "true"] else ["0"; "false"]).
Proof.
  unfold to_bool. destruct (String.eqb_spec (v_text v) "0") as [E|]; simpl.
  { rewrite E. destruct b; simpl; split; try congruence; try tauto; intros [H|[H|[]]]; discriminate. }
  destruct (String.eqb_spec (v_text v) "false") as [E|]; simpl.
  { rewrite E. destruct b; simpl; split; try congruence; try tauto; intros [H|[H|[]]]; discriminate. }
  destruct (String.eqb_spec (v_text v) "1") as [E|]; simpl.
  { rewrite E. destruct b; simpl; split; try congruence; try tauto; intros [H|[H|[]]]; discriminate. }
  destruct (String.eqb_spec (v_text v) "true") as [E|]; simpl.
  { rewrite E. destruct b; simpl; split; try congruence; try tauto; intros [H|[H|[]]]; discriminate. }
  destruct b; simpl; split; try discriminate; intros [H|[H|[]]]; congruence.
Qed.
