(** LexFacts.v - proofs about the lexical classifiers *)
From Coq Require Import List Bool String Ascii NArith Lia.
Require Import Verif.LexModel Verif.LexSpec.
Import ListNotations.
Local Open Scope string_scope.

Inductive lang : re -> string -> Prop :=
| LEps : lang REps ""
| LCls f c : f c = true -> lang (RCls f) (String c "")
| LSeq a b s t : lang a s -> lang b t -> lang (RSeq a b) (s ++ t)
| LAltL a b s : lang a s -> lang (RAlt a b) s
| LAltR a b s : lang b s -> lang (RAlt a b) s
| LStar0 a : lang (RStar a) ""
| LStarS a s t : lang a s -> lang (RStar a) t -> lang (RStar a) (s ++ t).

Lemma sapp_nil_r s : s ++ "" = s.
Proof. induction s; simpl; congruence. Qed.
Lemma sapp_assoc a b c : (a ++ b) ++ c = a ++ (b ++ c).
Proof. induction a; simpl; congruence. Qed.
Lemma sapp_nil a b : a ++ b = "" -> a = "" /\ b = "".
Proof. destruct a; simpl; [auto|discriminate]. Qed.

Lemma nullable_ok r : nullable r = true <-> lang r "".
Proof.
  induction r; simpl.
  - split; [discriminate|inversion 1].
  - split; constructor.
  - split; [discriminate|inversion 1].
  - rewrite andb_true_iff, IHr1, IHr2. split.
    + intros [A B]. change "" with ("" ++ ""). constructor; auto.
    + inversion 1; subst. apply sapp_nil in H2. destruct H2; subst; auto.
  - rewrite orb_true_iff, IHr1, IHr2. split; [intros [A|A]; [apply LAltL|apply LAltR]; auto|inversion 1; auto].
  - split; constructor.
Qed.

Lemma star_cons a c t : lang (RStar a) (String c t) ->
  exists u v, t = u ++ v /\ lang a (String c u) /\ lang (RStar a) v.
Proof.
  intros H. remember (RStar a) as r. remember (String c t) as s. revert c t Heqs Heqr.
  induction H; intros c0 t0 Es Er; inversion Er; subst; try discriminate.
  destruct s as [|d s].
  - simpl in Es. apply (IHlang2 c0 t0); auto.
  - simpl in Es. inversion Es; subst. exists s, t. auto.
Qed.

Lemma lang_seq a b s : lang (RSeq a b) s <-> exists u v, s = u ++ v /\ lang a u /\ lang b v.
Proof. split; [inversion 1; subst; eauto|intros (u & v & -> & A & B); constructor; auto]. Qed.
Lemma lang_alt a b s : lang (RAlt a b) s <-> lang a s \/ lang b s.
Proof. split; [inversion 1; auto|intros [H|H]; [apply LAltL|apply LAltR]; auto]. Qed.

Lemma deriv_ok r c s : lang (deriv c r) s <-> lang r (String c s).
Proof.
  revert s. induction r; intro s; simpl.
  - split; inversion 1.
  - split; inversion 1.
  - destruct (f c) eqn:E; split; inversion 1; subst; try congruence; constructor; auto.
  - assert (S : lang (RSeq (deriv c r1) r2) s -> lang (RSeq r1 r2) (String c s)).
    { rewrite !lang_seq. intros (u & v & -> & A & B). apply IHr1 in A. exists (String c u), v. auto. }
    assert (S2 : lang (RSeq r1 r2) (String c s) -> (lang r1 "" /\ lang r2 (String c s)) \/ lang (RSeq (deriv c r1) r2) s).
    { rewrite !lang_seq. intros (u & v & E & A & B). destruct u as [|d u]; simpl in E; [subst; auto|].
      inversion E; subst. right. exists u, v. rewrite IHr1. auto. }
    destruct (nullable r1) eqn:N.
    + rewrite lang_alt. split.
      * intros [A|A]; auto. apply IHr2 in A. apply lang_seq. exists "", (String c s). split; auto. split; auto.
        apply nullable_ok; auto.
      * intro A. apply S2 in A. destruct A as [[A B]|A]; auto. right. apply IHr2; auto.
    + split; auto. intro A. apply S2 in A. destruct A as [[A B]|A]; auto. apply nullable_ok in A. congruence.
  - rewrite !lang_alt, IHr1, IHr2. reflexivity.
  - split.
    + rewrite lang_seq. intros (u & v & -> & A & B). apply IHr in A.
      change (String c (u ++ v)) with (String c u ++ v). constructor; auto.
    + intro H. apply star_cons in H. destruct H as (u & v & -> & A & B). constructor; auto. apply IHr; auto.
Qed.
Lemma match_ok s r : regex_match s r = true <-> lang r s.
Proof. revert r. induction s as [|c s IH]; intro r; simpl; [apply nullable_ok|]. rewrite IH. apply deriv_ok. Qed.

(** characterisation of the building blocks *)
Definition allb (f : ascii -> bool) (s : string) : Prop := forall c, In c (chars s) -> f c = true.
Lemma chars_app a b : chars (a ++ b) = (chars a ++ chars b)%list.
Proof. unfold chars. induction a; simpl; congruence. Qed.
Lemma lang_star_cls f s : lang (RStar (RCls f)) s <-> allb f s.
Proof.
  induction s as [|c s IH].
  - split; [intros _ c []|constructor].
  - split.
    + intro H. apply star_cons in H. destruct H as (u & v & -> & A & B). inversion A; subst. simpl in *.
      intros d [<-|Hd]; auto. apply IH; auto.
    + intro H. change (String c s) with (String c "" ++ s). constructor; [constructor; apply H; left; auto|].
      apply IH. intros d Hd. apply H. right; auto.
Qed.
Lemma lang_cls f s : lang (RCls f) s <-> exists c, s = String c "" /\ f c = true.
Proof. split; [inversion 1; subst; eauto|intros (c & -> & H); constructor; auto]. Qed.
Lemma lang_eps s : lang REps s <-> s = "".
Proof. split; [inversion 1; auto|intros ->; constructor]. Qed.
Lemma lang_plus_cls f s : lang (rplus (RCls f)) s <-> allb f s /\ s <> "".
Proof.
  unfold rplus. rewrite lang_seq. split.
  - intros (u & v & -> & A & B). apply lang_cls in A. destruct A as (c & -> & A). rewrite lang_star_cls in B.
    simpl. split; [|discriminate]. intros d [<-|Hd]; auto.
  - intros [A B]. destruct s as [|c s]; [contradiction|]. exists (String c ""), s. split; auto.
    split; [constructor; apply A; left; auto|]. apply lang_star_cls. intros d Hd. apply A. right; auto.
Qed.
Lemma lang_opt r s : lang (ropt r) s <-> s = "" \/ lang r s.
Proof. unfold ropt. rewrite lang_alt, lang_eps. reflexivity. Qed.
(** classes versus explicit character sets: all 256 characters are checked *)
Definition memb (c : ascii) (l : list ascii) : bool := existsb (Ascii.eqb c) l.
Lemma memb_In c l : memb c l = true <-> In c l.
Proof.
  unfold memb. rewrite existsb_exists. split.
  - intros (x & H & E). apply Ascii.eqb_eq in E. subst; auto.
  - intro H. exists c. split; auto. apply Ascii.eqb_refl.
Qed.
Definition all_ascii : list ascii := map (fun n => ascii_of_N (N.of_nat n)) (seq 0 256).
Lemma all_ascii_ok c : In c all_ascii.
Proof.
  unfold all_ascii. apply in_map_iff. exists (N.to_nat (N_of_ascii c)). split.
  - rewrite Nnat.N2Nat.id. apply ascii_N_embedding.
  - apply in_seq. pose proof (N_ascii_bounded c). lia.
Qed.
Lemma class_eq (f : ascii -> bool) l :
  forallb (fun c => Bool.eqb (f c) (memb c l)) all_ascii = true -> forall c, f c = true <-> In c l.
Proof.
  intros H c. rewrite <- memb_In. rewrite forallb_forall in H. specialize (H c (all_ascii_ok c)).
  apply eqb_prop in H. rewrite H. reflexivity.
Qed.
Lemma digit_class c : digit c = true <-> In c digits_set.
Proof. revert c. apply class_eq. vm_compute. reflexivity. Qed.
Lemma allb_digits s : allb digit s <-> is_digits s.
Proof. unfold allb, is_digits, all_in. split; intros H c Hc; apply digit_class; auto. Qed.
Lemma sign_opt s : lang (ropt (RCls sign)) s <-> is_sign s.
Proof.
  rewrite lang_opt, lang_cls. unfold is_sign, sign, one. split.
  - intros [H|(c & -> & H)]; auto. apply orb_true_iff in H.
    destruct H as [H|H]; apply Ascii.eqb_eq in H; subst; auto.
  - intros [->|[->| ->]]; auto; right; eexists; (split; [reflexivity|reflexivity]).
Qed.
Lemma dot_opt s : lang (ropt (RCls (one "."))) s <-> s = "" \/ s = ".".
Proof.
  rewrite lang_opt, lang_cls. unfold one. split.
  - intros [H|(c & -> & H)]; auto. apply Ascii.eqb_eq in H; subst; auto.
  - intros [->| ->]; auto; right; eexists; (split; reflexivity).
Qed.
Lemma int_lang s : lang (RSeq (ropt (RCls sign)) (rplus (RCls digit))) s <-> integer_text s.
Proof.
  rewrite lang_seq. unfold integer_text. split.
  - intros (u & v & -> & A & B). apply sign_opt in A. apply lang_plus_cls in B. rewrite allb_digits in B.
    exists u, v. tauto.
  - intros (u & v & -> & A & B & C). exists u, v. rewrite sign_opt, lang_plus_cls, allb_digits. auto.
Qed.
Lemma IsIntegerNumber_ok s : IsIntegerNumber s = true <-> integer_text s.
Proof. unfold IsIntegerNumber. rewrite match_ok. apply int_lang. Qed.

Lemma digits_app a b : is_digits a -> is_digits b -> is_digits (a ++ b).
Proof. unfold is_digits, all_in. intros A B c. rewrite chars_app. intro H. apply in_app_or in H. destruct H; auto. Qed.
Lemma mant_lang s :
  lang (RAlt (RSeq (RStar (RCls digit)) (RSeq (ropt (RCls (one "."))) (rplus (RCls digit))))
             (RSeq (rplus (RCls digit)) (RSeq (ropt (RCls (one "."))) (RStar (RCls digit))))) s <-> mantissa s.
Proof.
  rewrite lang_alt, !lang_seq. unfold mantissa. split.
  - intros [(u & v & -> & A & B)|(u & v & -> & A & B)]; rewrite lang_seq in B; destruct B as (p & q & -> & B & C);
      rewrite dot_opt in B; rewrite ?lang_plus_cls, ?lang_star_cls, ?allb_digits in A; rewrite ?lang_plus_cls, ?lang_star_cls, ?allb_digits in C.
    + exists u, p, q. split; auto. split; [tauto|]. split; [tauto|]. split; [tauto|]. intro E. apply sapp_nil in E. tauto.
    + exists u, p, q. split; auto. split; [tauto|]. split; [tauto|]. split; [tauto|]. intro E. apply sapp_nil in E. tauto.
  - intros (ip & pt & fp & -> & A & B & C & D).
    destruct fp as [|f0 fp].
    + right. exists ip, (pt ++ ""). rewrite lang_plus_cls, allb_digits. split; auto. split.
      * split; auto. rewrite sapp_nil_r in D. auto.
      * rewrite lang_seq. exists pt, "". rewrite dot_opt, lang_star_cls, allb_digits. auto.
    + left. exists ip, (pt ++ String f0 fp). rewrite lang_star_cls, allb_digits. split; auto. split; auto.
      rewrite lang_seq. exists pt, (String f0 fp). rewrite dot_opt, lang_plus_cls, allb_digits.
      repeat split; auto. discriminate.
Qed.
Lemma exp_lang s :
  lang (ropt (RSeq (RCls (fun c => one "e" c || one "E" c)) (RSeq (ropt (RCls sign)) (rplus (RCls digit))))) s <-> exponent s.
Proof.
  rewrite lang_opt, lang_seq. unfold exponent. split.
  - intros [->|(u & v & -> & A & B)]; auto. right. apply lang_cls in A. destruct A as (c & -> & A).
    apply int_lang in B. exists c, v. split; auto. split; auto. unfold one in A. apply orb_true_iff in A.
    destruct A as [A|A]; apply Ascii.eqb_eq in A; auto.
  - intros [->|(e & t & -> & A & B)]; auto. right. exists (String e ""), t. split; auto. split.
    + apply lang_cls. exists e. split; auto. destruct A as [->| ->]; reflexivity.
    + apply int_lang; auto.
Qed.
Lemma IsNumber_ok s : IsNumber s = true <-> number_text s.
Proof.
  unfold IsNumber. rewrite match_ok, lang_seq. unfold number_text. split.
  - intros (u & v & -> & A & B). apply lang_seq in B. destruct B as (m & e & -> & B & C).
    apply sign_opt in A. apply mant_lang in B. apply exp_lang in C. exists u, m, e. auto.
  - intros (u & m & e & -> & A & B & C). exists u, (m ++ e). split; auto. rewrite sign_opt. split; auto.
    apply lang_seq. exists m, e. rewrite mant_lang, exp_lang. auto.
Qed.
Lemma allb_all f l s : (forall c, f c = true <-> In c l) -> (allb f s <-> all_in l s).
Proof. intro H. unfold allb, all_in. split; intros K c Hc; apply H; auto. Qed.
Lemma IsHex_ok s : IsHexIntegerNumber s = true <-> hex_text s.
Proof.
  unfold IsHexIntegerNumber. rewrite match_ok, lang_plus_cls. unfold hex_text.
  rewrite (allb_all _ (digits_set ++ chars "abcdefABCDEF")); [tauto|]. apply class_eq. vm_compute. reflexivity.
Qed.
Lemma id_first c : (fun c => range "a" "z" c || range "A" "z" c || one "_" c) c = true <-> In c (lower ++ upper ++ extra)%list.
Proof. revert c. apply class_eq. vm_compute. reflexivity. Qed.
Lemma IsIdentifier_ok s : IsIdentifier s = true <-> loose_identifier s.
Proof.
  unfold IsIdentifier. rewrite match_ok, lang_seq. unfold loose_identifier, word. split.
  - intros (u & v & -> & A & B). apply lang_cls in A. destruct A as (c & -> & A). apply lang_star_cls in B.
    exists c, v. split; auto. split; [apply id_first; auto|].
    revert B. apply allb_all. apply class_eq. vm_compute. reflexivity.
  - intros (c & t & -> & A & B). exists (String c ""), t. split; auto. split.
    + apply lang_cls. exists c. split; auto. apply id_first in A. auto.
    + apply lang_star_cls. revert B. apply allb_all. apply class_eq. vm_compute. reflexivity.
Qed.
Lemma c_identifier_loose s : c_identifier s -> loose_identifier s.
Proof.
  intros (c & t & -> & A & B). exists c, t. split; auto.
  assert (H : forall d, In d (lower ++ upper ++ chars "_")%list -> In d (lower ++ upper ++ extra)%list).
  { intro d. rewrite <- !memb_In. pose proof (all_ascii_ok d) as Hd.
    assert (F : forallb (fun d => implb (memb d (lower ++ upper ++ chars "_")) (memb d (lower ++ upper ++ extra))) all_ascii = true) by (vm_compute; reflexivity).
    rewrite forallb_forall in F. specialize (F d Hd). rewrite implb_true_iff in F. auto. }
  split; [auto|]. intros d Hd. specialize (B d Hd). rewrite !in_app_iff in B |- *.
  specialize (H d). rewrite !in_app_iff in H. tauto.
Qed.
