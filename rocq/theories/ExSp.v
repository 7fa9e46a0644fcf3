(** ExSp.v - concrete cases meeting the hypotheses of the theorems in PropSp.v, and refutations of the
    unconditional claims. *)
From Coq Require Import List Arith Bool QArith Qcanon Lia ZArith.
From Verif Require Import Base BaseFacts SMap SpModel SpSpec SpFacts SpFacts2 SpFacts3.
Import ListNotations.
Local Open Scope nat_scope.

Definition q (z : Z) : Qc := Q2Qc (inject_Z z).
Definition els (l : list (nat * nat * nat)) : list (key * Qc) := map (fun '(r, c, z) => ((r, c), q (Z.of_nat z))) l.
Definition mk (f : bool) (r c : nat) (l : list (nat * nat * nat)) : smat QcNum := mkS (N:=QcNum) f (r, c) (els l).
Definition show (d : list (key * Qc)) : list (key * Q) := map (fun e => (fst e, this (snd e))) d.
Definition showz (l : list (nat * nat * nat)) : list (key * Q) := map (fun '(r, c, z) => ((r, c), inject_Z (Z.of_nat z))) l.
Definition showo (r : option (mems QcNum * Outcome unit)) : option (list (list (key * Q)) * bool) :=
  option_map (fun r : mems QcNum * Outcome unit => (map (fun a : smat QcNum => show (sdat a)) (fst r), match snd r with Ret _ => true | _ => false end)) r.
Definition showv (o : Outcome (list Qc)) : option (list Q) := match o with Ret v => Some (map this v) | _ => None end.

(** Three matrices: a 3x3 map, an array with the same pattern, a 2x3 map. *)
Definition exs : mems QcNum :=
  [mk false 3 3 [(0,0,1);(0,2,2);(1,1,3);(2,0,4);(2,2,5)];
   mk true  3 3 [(0,0,1);(0,2,2);(1,1,3);(2,0,4);(2,2,5)];
   mk false 2 3 [(0,1,7);(1,2,8)]].
Ltac rm := repeat (simpl; split); simpl; intros;
  repeat match goal with H : _ \/ _ |- _ => destruct H as [H|H] | H : False |- _ => destruct H
                       | H : (_, _) = (_, _) |- _ => injection H as; subst end; unfold before; simpl; auto; lia.
Ltac qne H := apply (f_equal (fun x : Qc => Qnum (this x))) in H; lazy in H; discriminate H.
Lemma exs_ok : mems_ok exs.
Proof. intros [|[|[|[|id]]]]; cbn [obj nth exs mk sdat els map]; try exact I; rm. Qed.

(** C02: a history with writes, an update, a removal and a size change. *)
Definition exh : list (sop QcNum) :=
  [OpUpd (N:=QcNum) (0, 1) (fun _ => q 5); OpUpd (N:=QcNum) (2, 2) (fun _ => q 6); OpUpd (N:=QcNum) (0, 1) (fun x => (x + q 1)%Qc);
   OpRemove (N:=QcNum) (2, 2); OpUpd (N:=QcNum) (1, 0) (fun _ => q 9); OpResize (N:=QcNum) (1, 3)].
Example history_case : show (sdat (srun (3, 3) exh)) = showz [(0,1,6)].
Proof. reflexivity. Qed.
Example last_write_case : forall o, In o [OpUpd (N:=QcNum) (1, 0) (fun _ => q 9); OpResize (N:=QcNum) (1, 3)] -> leaves_alone (0, 1) o.
Proof. intros o [<-|[<-|[]]]; simpl; [discriminate|lia]. Qed.
Example cut_off_case : (2, 2) <> fold_left (fun s (o : sop QcNum) => match o with OpResize s' => s' | _ => s end) exh (3, 3) /\
  ~ (fst (2, 0) < fst (2, 2) /\ snd (2, 0) < snd (2, 2)).
Proof. split; [discriminate|simpl; lia]. Qed.
(** A resize to the size the matrix already has does not drop an element stored outside it. *)
Theorem C02_resize_drops_outside_refuted :
  ~ (forall (h : list (sop QcNum)) (s0 s p : key), ~ (fst p < fst s /\ snd p < snd s) -> hasIndex (srun s0 (h ++ [OpResize s])) p = false).
Proof.
  intros H. specialize (H [OpUpd (N:=QcNum) (4, 4) (fun _ => q 1)] (3, 3) (3, 3) (4, 4)). simpl in H.
  assert (~ (4 < 3 /\ 4 < 3)) as L by lia. discriminate (H L).
Qed.
Print Assumptions C02_resize_drops_outside_refuted.

(** C03 *)
Example fast_case : mems_ok exs /\ 1 < length exs /\ fast (obj exs 1) = true /\
  showo (sassign 9 exs 1 (SW 2)) = Some ([showz [(0,0,1);(0,2,2);(1,1,3);(2,0,4);(2,2,5)]; showz [(0,1,7);(1,2,8)]; showz [(0,1,7);(1,2,8)]], true).
Proof. split; [exact exs_ok|]. repeat split; simpl; lia. Qed.
Example fast_write_case : hasIndex (obj exs 1) (2, 0) = true /\ hasIndex (obj exs 1) (0, 1) = false. Proof. split; reflexivity. Qed.
(** Assigning a transposed view to an array-backed matrix leaves the array out of order: reads miss elements. *)
Theorem C03_array_from_transposed_refuted :
  ~ (forall (m m' : mems QcNum) (f id fuel : nat) (p : key), mems_ok m -> f < length m -> fast (obj m f) = true ->
       sassign fuel m f (STr (SW id)) = Some (m', Ret tt) -> get (obj m' f) p = sget m (STr (SW id)) p).
Proof.
  intros H.
  set (m := [mk false 3 3 [(0,1,1);(0,2,2);(1,0,3)]; mk true 3 3 []]).
  specialize (H m (upd m 1 (mkS (N:=QcNum) true (3, 3) (siter m (STr (SW 0))))) 1 0 9 (0, 1)).
  assert (OK : mems_ok m) by (intros [|[|[|id]]]; cbn [m obj nth mk sdat els map]; try exact I; rm).
  specialize (H OK ltac:(simpl; lia) eq_refl eq_refl). qne H.
Qed.
Print Assumptions C03_array_from_transposed_refuted.
(** Constructing (or cloning) an array-backed matrix that stores anything throws. *)
Theorem C03_clone_of_array_refuted :
  ~ (forall (m : mems QcNum) (id fuel : nat), mems_ok m -> id < length m -> fast (obj m id) = true ->
       exists m', sconstruct (length (sdat (obj m id)) + 1 + fuel) m true (SW id) = Some (m', Ret tt)).
Proof. intros H. destruct (H exs 1 5 exs_ok ltac:(simpl; lia) eq_refl) as [m' E]. discriminate E. Qed.
Print Assumptions C03_clone_of_array_refuted.
(** A refused resize of an array-backed matrix has changed the size already. *)
Theorem C03_failed_resize_keeps_size_refuted :
  ~ (forall (a : smat QcNum) (s : key), snd (resize a s) = Throw -> ssz (fst (resize a s)) = ssz a).
Proof. intros H. specialize (H (mk true 2 2 [(0,0,1)]) (3, 3) eq_refl). discriminate H. Qed.
Print Assumptions C03_failed_resize_keeps_size_refuted.

(** C04 *)
Example in_range_case : in_range exs (SW 2) /\ in_range exs (SBk (SW 0) (1, 0) (2, 3)) /\ in_range exs (SSc (N:=QcNum) (STr (SW 0)) (q 2)).
Proof.
  split; [|split]; split; cbn; intros; repeat match goal with H : _ \/ _ |- _ => destruct H as [H|H] | H : False |- _ => destruct H end;
    try match goal with H : (_, _) = _ |- _ => injection H as <- _ end; simpl; auto; lia.
Qed.
Example smulv_case : showv (smulv exs (SW 2) [q 1; q 10; q 100]) = Some [70; 800]%Q. Proof. reflexivity. Qed.
Example smulv_view_case : showv (smulv exs (SBk (SW 0) (1, 0) (2, 3)) [q 1; q 10; q 100]) = Some [30; 504]%Q. Proof. reflexivity. Qed.
Example svmul_case : showv (svmul exs [q 1; q 10; q 100] (SW 1)) = Some [401; 30; 502]%Q. Proof. reflexivity. Qed.
Example mulVectLeft_case : showv (mulVectLeft (N:=QcNum) 3 (siter exs (SW 2)) [q 1; q 10] [q 9; q 9; q 9; q 9]) = Some [0; 7; 80; 9]%Q. Proof. reflexivity. Qed.
(** v*M for a wide matrix writes past the end of the result; for a tall one the result is too long. *)
Theorem C04_vector_times_matrix_refuted :
  ~ (forall (m : mems QcNum) (e : sexpr QcNum) (v : list Qc), mems_ok m -> in_range m e -> length v = fst (ssize m e) ->
       exists w : list Qc, svmul m v e = Ret w /\ length w = snd (ssize m e)).
Proof.
  intros H. destruct (H exs (SW 2) [q 1; q 10] exs_ok (proj1 in_range_case) eq_refl) as [w [E _]]. discriminate E.
Qed.
Print Assumptions C04_vector_times_matrix_refuted.
Theorem C04_vector_times_tall_matrix_refuted :
  ~ (forall (m : mems QcNum) (e : sexpr QcNum) (v w : list Qc), mems_ok m -> in_range m e -> length v = fst (ssize m e) ->
       svmul m v e = Ret w -> length w = snd (ssize m e)).
Proof.
  intros H. set (m := [mk false 3 1 [(2,0,4)]]).
  assert (OK : mems_ok m) by (intros [|[|id]]; cbn [m obj nth mk sdat els map]; try exact I; rm).
  assert (IR : in_range m (SW 0)).
  { split; cbn; intros; [|exact I]. destruct H0 as [H0|[]]. injection H0 as <- _. simpl; lia. }
  specialize (H m (SW 0) [q 1; q 1; q 1] [q 4; q 0; q 0] OK IR eq_refl).
  assert (E : svmul m [q 1; q 1; q 1] (SW 0) = Ret [q 4; q 0; q 0]).
  { reflexivity. }
  discriminate (H E).
Qed.
Print Assumptions C04_vector_times_tall_matrix_refuted.

(** C05 *)
Example product_case : row_capable exs (SSc (N:=QcNum) (SBk (SW 0) (0, 0) (2, 3)) (q 2)) = true /\
  match sprod exs (SSc (N:=QcNum) (SBk (SW 0) (0, 0) (2, 3)) (q 2)) (SW 0) with
  | Ret r => show (sdat r) = showz [(0,0,18);(0,2,24);(1,1,18)] /\ ssz r = (2, 3) | _ => False end.
Proof. repeat split; reflexivity. Qed.
Example plus_case : showo (spluseq 9 exs (SW 0) (SBk (SW 2) (0, 1) (2, 2))) =
  Some ([showz [(0,0,8);(0,2,2);(1,1,11);(2,0,4);(2,2,5)]; showz [(0,0,1);(0,2,2);(1,1,3);(2,0,4);(2,2,5)]; showz [(0,1,7);(1,2,8)]], true).
Proof. reflexivity. Qed.
Example minus_fast_case : showo (sminuseq 9 exs (SW 1) (SW 0)) =
  Some ([showz [(0,0,1);(0,2,2);(1,1,3);(2,0,4);(2,2,5)]; showz [(0,0,0);(0,2,0);(1,1,0);(2,0,0);(2,2,0)]; showz [(0,1,7);(1,2,8)]], true).
Proof. reflexivity. Qed.
Example outside_pattern_case : exists p x, In (p, x) (siter exs (SW 2)) /\ forall y, ~ In (to_base (SW 1 : sexpr QcNum) p, y) (sdat (obj exs 1)).
Proof. exists (0, 1), (q 7). split; [left; reflexivity|]. intros y H. cbn in H. repeat destruct H as [H|H]; try discriminate H. exact H. Qed.
Example identity_case : match addScaledIdentity (mk false 2 2 [(0,1,3);(1,1,4)]) (q 10) with
  | Ret a => show (sdat a) = showz [(0,0,10);(0,1,3);(1,1,14)] | _ => False end.
Proof. reflexivity. Qed.
Example make_zero_case : show (sdat (makeZero (obj exs 1))) = showz [(0,0,0);(0,2,0);(1,1,0);(2,0,0);(2,2,0)]. Proof. reflexivity. Qed.
Example views_case : show (siter exs (SBk (STr (SSc (N:=QcNum) (SW 0) (q 3))) (0, 1) (2, 2))) = showz [(1,0,9);(0,1,12)]. Proof. reflexivity. Qed.

(** Reading a transposed view or a block through get(row, column) ignores the view. *)
Theorem C05_transposed_get_rc_refuted :
  ~ (forall (m : mems QcNum) (e : sexpr QcNum) (r c : nat), mems_ok m -> sget_rc m (STr e) r c = sget m e (c, r)).
Proof. intros H. specialize (H exs (SW 0) 0 2 exs_ok). qne H. Qed.
Print Assumptions C05_transposed_get_rc_refuted.
Theorem C05_transposed_size_refuted :
  ~ (forall (m : mems QcNum) (e : sexpr QcNum), mems_ok m -> ssize m (STr e) = (snd (ssize m e), fst (ssize m e))).
Proof. intros H. specialize (H exs (SW 2) exs_ok). discriminate H. Qed.
Print Assumptions C05_transposed_size_refuted.
(** m = m.scaled(2) empties m. *)
Theorem C05_assign_own_view_refuted :
  ~ (forall (m m' : mems QcNum) (id fuel : nat) (k : Qc) (p : key), mems_ok m -> id < length m ->
       sassign fuel m id (SSc (N:=QcNum) (SW id) k) = Some (m', Ret tt) -> get (obj m' id) p = (get (obj m id) p * k)%Qc).
Proof.
  intros H. specialize (H exs (upd exs 0 (mk false 3 3 [])) 0 9 (q 2) (0, 0) exs_ok ltac:(simpl; lia) eq_refl).
  qne H.
Qed.
Print Assumptions C05_assign_own_view_refuted.
(** m += m.transposed(): elements inserted on the way are visited too. *)
Theorem C05_plus_own_transposed_refuted :
  ~ (forall (m m' : mems QcNum) (id fuel : nat) (r c : nat), mems_ok m -> id < length m ->
       spluseq fuel m (SW id) (STr (SW id)) = Some (m', Ret tt) ->
       get (obj m' id) (r, c) = (get (obj m id) (r, c) + get (obj m id) (c, r))%Qc).
Proof.
  intros H. set (m := [mk false 2 2 [(0,1,1)]]).
  assert (OK : mems_ok m) by (intros [|[|id]]; cbn [m obj nth mk sdat els map]; try exact I; rm).
  assert (A : match spluseq 9 m (SW 0) (STr (SW 0)) with Some (m', Ret tt) => Qnum (this (get (obj m' 0) (0, 1))) = 2%Z | _ => False end) by reflexivity.
  destruct (spluseq 9 m (SW 0) (STr (SW 0))) as [[m' [[]| |]]|] eqn:E; try contradiction.
  rewrite (H m m' 0 9 0 1 OK ltac:(simpl; lia) E) in A. lazy in A. discriminate A.
Qed.
Print Assumptions C05_plus_own_transposed_refuted.
(** The product of two array-backed matrices is refused. *)
Theorem C05_array_product_refuted :
  ~ (forall (m : mems QcNum) (a b : sexpr QcNum), mems_ok m -> in_range m a -> in_range m b -> exists res, sprod m a b = Ret res).
Proof.
  intros H. assert (IR : in_range exs (SW 1)).
  { split; cbn; intros; [|exact I]. repeat match goal with H : _ \/ _ |- _ => destruct H as [H|H] | H : False |- _ => destruct H end;
    try match goal with H : (_, _) = _ |- _ => injection H as <- _ end; simpl; lia. }
  destruct (H exs (SW 1) (SW 1) exs_ok IR IR) as [res E]. discriminate E.
Qed.
Print Assumptions C05_array_product_refuted.

(** C57 *)
Example block_assign_case : showo (sbassign 9 exs (SBk (SW 0) (1, 0) (2, 3)) (SW 2)) =
  Some ([showz [(0,0,1);(0,2,2);(1,1,7);(2,2,8)]; showz [(0,0,1);(0,2,2);(1,1,3);(2,0,4);(2,2,5)]; showz [(0,1,7);(1,2,8)]], true) /\
  forall p x, In (p, x) (siter exs (SW 2)) -> presents (SBk (SW 0) (1, 0) (2, 3) : sexpr QcNum) p.
Proof.
  split; [reflexivity|]. intros p x H. cbn in H. destruct H as [H|[H|[]]]; injection H as <- _; cbn; lia.
Qed.
Example block_clear_case : show (sdat (obj (fst (sbclear exs (SBk (SW 0) (1, 0) (2, 2)))) 0)) = showz [(0,0,1);(0,2,2);(2,2,5)].
Proof. reflexivity. Qed.
Theorem C57_block_get_rc_refuted :
  ~ (forall (m : mems QcNum) (e : sexpr QcNum) (f s : key) (r c : nat), mems_ok m ->
       sget_rc m (SBk e f s) r c = sget m e (r + fst f, c + snd f)).
Proof. intros H. specialize (H exs (SW 0) (1, 1) (2, 2) 0 0 exs_ok). qne H. Qed.
Print Assumptions C57_block_get_rc_refuted.
(** Elements of a source larger than the block are written outside the block. *)
Theorem C57_block_assign_stays_inside_refuted :
  ~ (forall (m m' : mems QcNum) (e src : sexpr QcNum) (f s : key) (fuel : nat) (b : key), mems_ok m ->
       fast (obj m (sbase e)) = false -> sbase src <> sbase e -> sbassign fuel m (SBk e f s) src = Some (m', Ret tt) ->
       (forall p, presents (SBk e f s) p -> to_base (SBk e f s) p <> b) -> sfind (obj m' (sbase e)) b = sfind (obj m (sbase e)) b).
Proof.
  intros H.
  assert (F : match sbassign 9 exs (SBk (SW 0) (0, 0) (1, 1)) (SW 2) with
              | Some (m', Ret tt) => match sfind (obj m' 0) (0, 1) with Some _ => True | None => False end | _ => False end) by exact I.
  destruct (sbassign 9 exs (SBk (SW 0) (0, 0) (1, 1)) (SW 2)) as [[m' [[]| |]]|] eqn:E; try contradiction.
  specialize (H exs m' (SW 0) (SW 2) (0, 0) (1, 1) 9 (0, 1) exs_ok eq_refl ltac:(discriminate) E).
  assert (A : forall p, presents (SBk (SW 0) (0, 0) (1, 1) : sexpr QcNum) p -> to_base (SBk (SW 0) (0, 0) (1, 1) : sexpr QcNum) p <> (0, 1)).
  { intros [r c] [[L1 L2] _] K. cbn in *. injection K as K1 K2. lia. }
  specialize (H A). cbn [sbase] in H. rewrite H in F. exact F.
Qed.
Print Assumptions C57_block_assign_stays_inside_refuted.

Example norms_case : (this (sinfnorm exs (SSc (N:=QcNum) (STr (SW 0)) (q (-2)))), this (sonenorm exs (SSc (N:=QcNum) (STr (SW 0)) (q (-2)))), this (seuclsq exs (SW 2)))
  = (10, 30, 113)%Q. Proof. reflexivity. Qed.
