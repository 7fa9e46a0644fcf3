(** ExPar.v - concrete cases for PropPar.v and refutations. *)
From Coq Require Import List Arith Bool String ZArith Lia Ascii.
Require Import Verif.Base Verif.SMap Verif.LexSpec Verif.ParModel Verif.ParSpec Verif.ParFacts Verif.PropPar.
Import ListNotations.
Local Open Scope string_scope.

Example path_ex : parsePath "solver.newton.tol" = ["solver"; "newton"; "tol"]. Proof. reflexivity. Qed.
Example path_cut_ex : parsePath "a..b" = ["a"] /\ parsePath ".a" = [] /\ parsePath "a." = ["a"]. Proof. repeat split. Qed.
Example path_good_ex : good_path ["solver"; "tol"].
Proof. repeat constructor; try discriminate; unfold dot_free; simpl; intuition discriminate. Qed.

(** solver = { newton = { tol, maxit }, h } *)
Definition h0 : heap :=
  [ [("h", mkV "0.1" None); ("newton", mkV "simple" (Some 1))];
    [("maxit", mkV "10" None); ("tol", mkV "1e-6" None)] ].
Lemma h0_wf : well_formed h0 0.
Proof.
  split; [simpl; lia|]. intros l ps k v H. destruct l as [|[|l]]; simpl in H; try (destruct l; discriminate); inversion H; subst; clear H.
  - split; [simpl; repeat split; intros; simpl in *; intuition (try discriminate); match goal with E : (_, _) = (_, _) |- _ => inversion E; reflexivity end|].
    simpl. intros [E|[E|[]]] l' N; inversion E; subst; simpl in N; inversion N; subst; simpl; lia.
  - split; [simpl; repeat split; intros; simpl in *; intuition (try discriminate); match goal with E : (_, _) = (_, _) |- _ => inversion E; reflexivity end|].
    simpl. intros [E|[E|[]]] l' N; inversion E; subst; simpl in N; discriminate.
Qed.
Lemma h0_paths p l : parameters h0 0 p = Ret l -> (p = [] /\ l = 0) \/ (p = ["newton"] /\ l = 1).
Proof.
  destruct p as [|a p]; simpl; [intro E; inversion E; auto|].
  destruct (str_cmp a "h") eqn:C1; [discriminate| |].
  - discriminate.
  - destruct (str_cmp a "newton") eqn:C2; try discriminate. apply (cmp_eq TOstr) in C2. subst. cbn [v_nested].
    destruct p as [|b p]; simpl; [intro E; inversion E; auto|].
    destruct (str_cmp b "maxit"); try discriminate. destruct (str_cmp b "tol"); discriminate.
Qed.
Lemma h0_ns : no_sharing h0 0.
Proof.
  intros p q l A B. apply h0_paths in A. apply h0_paths in B.
  destruct A as [[-> ->]|[-> ->]]; destruct B as [[-> E]|[-> E]]; auto; discriminate.
Qed.
Example h0_set : exists h', assign_value h0 0 ["newton"; "tol"] (mkV "1e-9" None) = Ret h' /\
  read_value h' 0 ["newton"; "tol"] = Ret (mkV "1e-9" None) /\ read_value h' 0 ["newton"; "maxit"] = Ret (mkV "10" None) /\
  read_value h' 0 ["newton"; "nope"] = Throw /\ read_value h' 0 ["h"; "x"] = Throw.
Proof. eexists. split; [reflexivity|]. repeat split. Qed.
Example h0_put_get : exists h', assign_value h0 0 ["newton"; "tol"] (mkV "1e-9" None) = Ret h' /\
  read_value h' 0 ["newton"; "tol"] = Ret (mkV "1e-9" None).
Proof. eexists. split; [reflexivity|]. eapply C15_put_get; [exact h0_wf|exact h0_ns|reflexivity]. Qed.

(** Copying a Value shares the nested set: writing through one copy changes the other. *)
Definition h_shared : heap :=
  [ [("a", mkV "simple" (Some 1)); ("b", mkV "simple" (Some 1))]; [("tol", mkV "1e-6" None)] ].
Theorem C15_put_other_shared_refuted :
  ~ (forall h root p v h' q, well_formed h root -> assign_value h root p v = Ret h' -> ~ is_prefix p q ->
       read_value h' root q = read_value h root q).
Proof.
  intro H.
  assert (W : well_formed h_shared 0).
  { split; [simpl; lia|]. intros l ps k v E. destruct l as [|[|l]]; simpl in E; try (destruct l; discriminate); inversion E; subst; clear E.
    - split; [simpl; repeat split; intros; simpl in *; intuition (try discriminate); match goal with E : (_, _) = (_, _) |- _ => inversion E; reflexivity end|].
      simpl. intros [E|[E|[]]] l' N; inversion E; subst; simpl in N; inversion N; subst; simpl; lia.
    - split; [simpl; repeat split; intros; simpl in *; intuition (try discriminate)|].
      simpl. intros [E|[]] l' N; inversion E; subst; simpl in N; discriminate. }
  specialize (H h_shared 0 ["a"; "tol"] (mkV "1" None) _ ["b"; "tol"] W eq_refl).
  assert (P : ~ is_prefix ["a"; "tol"] ["b"; "tol"]) by (intros (r & E); discriminate).
  specialize (H P). vm_compute in H. discriminate.
Qed.
(** A cyclic structure (assigning a node below itself) breaks even put-then-get. *)
Definition h_cyc : heap := [ [("a", mkV "x" (Some 0))] ].
Theorem C15_put_get_cyclic_refuted :
  ~ (forall h root p v h', well_formed h root -> assign_value h root p v = Ret h' -> read_value h' root p = Ret v).
Proof.
  intro H.
  assert (W : well_formed h_cyc 0).
  { split; [simpl; lia|]. intros l ps k v E. destruct l as [|l]; simpl in E; [|destruct l; discriminate]. inversion E; subst; clear E.
    split; [simpl; repeat split; intros; simpl in *; intuition (try discriminate)|].
    simpl. intros [E|[]] l' N; inversion E; subst; simpl in N; inversion N; subst; simpl; lia. }
  specialize (H h_cyc 0 ["a"; "a"] (mkV "y" None) _ W eq_refl). vm_compute in H. discriminate.
Qed.

Example int_ex : to_int (mkV "-042" None) = Ret (-42)%Z /\ to_int (mkV "2147483648" None) = Throw /\ to_int (mkV "1.5" None) = Throw.
Proof. repeat split. Qed.
Example int_min_ex : to_string_Z INT_MIN = "-2147483648". Proof. reflexivity. Qed.
Example unsigned_ex : to_unsigned (mkV "4294967295" None) = Ret 4294967295%Z. Proof. reflexivity. Qed.
(** "-1" reads as 2^32-1, "4294967296" as 0 *)
Theorem C16_unsigned_rejects_out_of_range_refuted :
  ~ (forall v x z, to_unsigned v = Ret x -> denotes (v_text v) z -> x = z).
Proof.
  intro H. specialize (H (mkV "-1" None) 4294967295%Z (-1)%Z eq_refl).
  assert (D : denotes "-1" (-1)) by exact (to_string_Z_denotes (-1)).
  specialize (H D). discriminate.
Qed.
Example unsigned_wrap0 : to_unsigned (mkV "4294967296" None) = Ret 0%Z. Proof. reflexivity. Qed.
(** Text after an embedded NUL is ignored *)
Theorem C16_int_whole_text_refuted : ~ (forall v z, to_int v = Ret z -> denotes (v_text v) z).
Proof.
  intro H. specialize (H (mkV ("7" ++ String "000"%char "x") None) 7%Z eq_refl). apply denotes_integer in H.
  apply LexFacts.IsIntegerNumber_ok in H. vm_compute in H. discriminate.
Qed.
