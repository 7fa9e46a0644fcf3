(** ExMap.v - concrete cases meeting the hypotheses of the theorems in PropMap.v, and refutations. *)
From Coq Require Import List Arith QArith Qcanon Permutation Lia ZArith.
From Verif Require Import Base BaseFacts MapModel MapSpec MapFacts.
Import ListNotations.
Local Open Scope nat_scope.

Definition q (z : Z) : Qc := Q2Qc (inject_Z z).
Definition ql (l : list Z) : list Qc := map q l.
Definition sh (o : Outcome (list Qc)) : option (list Q) := match o with Ret v => Some (map this v) | _ => None end.
Definition zl (l : list Z) : option (list Q) := Some (map inject_Z l).

(** f(x) = (x0+x1, x1*x2, x3, x0) on four variables. *)
Definition exf : vmapping QcNum := mkMap (N:=QcNum) 4 4 (fun x : list Qc =>
  match x with [a; b; c; d] => Ret [(a + b)%Qc; (b * c)%Qc; d; a] | _ => Throw end).
(** Indices 2 and 0 disabled, given unsorted and with a duplicate. *)
Definition exo : Outcome (narrowing QcNum) := setInputNarrowing (narrow_new exf) [2; 0; 2] (ql [10; 20; 30; 40]%Z).
Example narrow_accepted : exists o, exo = Ret o /\ disIn o = [0; 2] /\ narrow_inSize o = 2. Proof. eexists. repeat split. Qed.
Example narrow_case : sh (o <- exo ;; narrowInput o (ql [1; 2; 3; 4]%Z)) = zl [2; 4]%Z. Proof. reflexivity. Qed.
Example widen_case : sh (o <- exo ;; widenInput o (ql [7; 8]%Z)) = zl [10; 7; 30; 8]%Z. Proof. reflexivity. Qed.
Example narrow_map_case : sh (o <- exo ;; narrow_map o (ql [7; 8]%Z)) = zl [17; 210; 8; 10]%Z. Proof. reflexivity. Qed.
Example narrow_map_both_case : sh (o <- exo ;; o2 <- setOutputNarrowing o [0; 2] ;; narrow_map o2 (ql [7; 8]%Z)) = zl [210; 10]%Z. Proof. reflexivity. Qed.
(** C18_map_any_narrowing: input components 0 and 2 and output component 1 are left out; the value loses components 0 and 2. *)
Example C18_any_narrowing_case : exists o1 o2, setInputNarrowing (narrow_new exf) [2; 0] (ql [10; 20; 30; 40]%Z) = Ret o1 /\ setOutputNarrowing o1 [1] = Ret o2 /\
  sh (narrow_map o2 (ql [7; 8]%Z)) = sh (w <- widenInput o2 (ql [7; 8]%Z) ;; y <- mapf exf w ;; narrowInput o2 y) /\ sh (narrow_map o2 (ql [7; 8]%Z)) = zl [210; 10]%Z.
Proof. eexists. eexists. repeat split. Qed.
Example narrow_rejected : setInputNarrowing (narrow_new exf) [1; 4] (ql []) = Throw. Proof. reflexivity. Qed.

(** With different input and output index sets, the narrowed mapping drops the wrong components of the value. *)
Theorem C18_map_drops_output_indices_refuted :
  ~ (forall (o o1 o2 : narrowing QcNum) (ds es : list nat) (st v : list Qc),
       setInputNarrowing o ds st = Ret o1 -> setOutputNarrowing o1 es = Ret o2 -> length st = inSize (nmap o) -> length v = narrow_inSize o2 ->
       narrow_map o2 v = (w <- widenInput o2 v ;; y <- mapf (nmap o) w ;; narrowOutput o2 y)).
Proof.
  intros H.
  specialize (H (narrow_new exf) (mkNarrow (N:=QcNum) exf [0] (ql [10; 20; 30; 40]%Z) []) (mkNarrow (N:=QcNum) exf [0] (ql [10; 20; 30; 40]%Z) [3]) [0] [3]
    (ql [10; 20; 30; 40]%Z) (ql [7; 8; 9]%Z) eq_refl eq_refl eq_refl eq_refl).
  apply (f_equal sh) in H. vm_compute in H. discriminate H.
Qed.
Print Assumptions C18_map_drops_output_indices_refuted.
(** Disabling only an output does not reduce the output at all. *)
Theorem C18_map_has_output_size_refuted :
  ~ (forall (o o' : narrowing QcNum) (es : list nat) (v y : list Qc),
       setOutputNarrowing o es = Ret o' -> length v = narrow_inSize o' -> narrow_map o' v = Ret y -> length y = narrow_outSize o').
Proof.
  intros H. assert (E : exists y, narrow_map (mkNarrow (N:=QcNum) exf [] [] [3]) (ql [1; 2; 3; 4]%Z) = Ret y /\ length y = 4) by (eexists; split; reflexivity).
  destruct E as [y [E L]]. specialize (H (narrow_new exf) (mkNarrow (N:=QcNum) exf [] [] [3]) [3] (ql [1; 2; 3; 4]%Z) y eq_refl eq_refl E).
  pose proof (eq_trans (eq_sym L) H) as K. discriminate K.
Qed.
Print Assumptions C18_map_has_output_size_refuted.

(** Reordering by the permutation (2 0 3 1). *)
Definition exr : reordering QcNum := mkReord (N:=QcNum) exf [2; 0; 3; 1] [1; 0; 3; 2].
Example perm_case : Permutation (inOrd exr) (seq 0 (inSize (rmap exr))) /\ Permutation (outOrd exr) (seq 0 (outSize (rmap exr))).
Proof.
  split; (apply NoDup_Permutation_bis; [repeat constructor; simpl; intuition lia|simpl; lia|intros i; simpl; intuition lia]).
Qed.
Example order_case : sh (orderInput exr (ql [1; 2; 3; 4]%Z)) = zl [3; 1; 4; 2]%Z. Proof. reflexivity. Qed.
Example unorder_case : sh (unorderInput exr (ql [3; 1; 4; 2]%Z)) = zl [1; 2; 3; 4]%Z. Proof. reflexivity. Qed.
Example reord_map_case : sh (reord_map exr (ql [3; 1; 4; 2]%Z)) = zl [6; 3; 1; 4]%Z. Proof. reflexivity. Qed.
Example total_case : forall u, length u = inSize exf -> exists y, mapf exf u = Ret y /\ length y = outSize exf.
Proof. intros [|a [|b [|c [|d [|]]]]] L; try discriminate L. eexists. split; reflexivity. Qed.

Example diag_case : sh (diag_map (N:=QcNum) (ql [2; -3; 5]%Z) (ql [1; 1; 2]%Z)) = zl [2; -3; 10]%Z /\
  sh (diag_unmap (N:=QcNum) (ql [2; -3; 5]%Z) (ql [2; -3; 10]%Z)) = zl [1; 1; 2]%Z. Proof. split; reflexivity. Qed.
Example norm_case : sh (norm_map exf (ql [1; 2; 3; 4]%Z) (ql [1; 1; 1; 1]%Z)) = zl [3; 12; 12; 4]%Z. Proof. reflexivity. Qed.
