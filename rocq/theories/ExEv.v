(** ExEv.v - concrete cases for PropEv.v. *)
From Coq Require Import List Arith Lia ZArith QArith Qcanon Bool.
From Verif Require Import Base BaseFacts VecModel VOps RkModel EvModel EvSpec EvFacts3 EvFacts4.
Import ListNotations.
Local Open Scope nat_scope.
Definition q (z : Z) : Qc := Q2Qc (inject_Z z).
Definition qf (a : Z) (b : positive) : Qc := Q2Qc (a # b).
Definition ql (l : list Z) : list Qc := map q l.
Definition tq (l : list Qc) : list Q := map this l.
Definition el (x : list Qc) i : Qc := nth i x 0%Qc.

(** Three functions of the state (x0, x1): x0 downwards, x1 - 1 upwards and computed anew after a switch, x0 - x1 in both directions.
    The phase state counts switches; a switch of function 0 turns x0 back. *)
Definition m3 : evrhs QcNum nat :=
  mkEvRhs (N:=QcNum) 3 [1; 6; 3]%Z (fun _ _ x => Ret [el x 0; (el x 1 - 1)%Qc; (el x 0 - el x 1)%Qc])
    (fun p tr _ x => Ret (S p, match tr with (-1)%Z :: _ => [(- el x 0)%Qc; el x 1] | _ => x end))
    (fun _ t x => Ret (false, t, x)).
Definition show (r : Outcome (nat * ctl QcNum * evres QcNum)) :=
  match r with Ret (p, c, e) => Some (p, tq (ev_x e), this (ev_t e), ev_trunc e, ev_izf e, ev_type e, (tq (c_zf1 c), c_state c)) | _ => None end.
Definition c0 : ctl QcNum := ctl_new.
Definition begin_at (x : list Qc) (t : Qc) : Outcome (ctl QcNum) := c_start m3 0 x t c0.
Definition one (x1 x2 : list Qc) (t1 t2 : Qc) := c <- begin_at x1 t1 ;; c_end m3 0 x1 x2 t2 c.
(** All three functions cross; the third one, x0 - x1 from 2 to -8, is the earliest: at one fifth of the step. *)
Example three_cross : show (one (ql [2; 0]%Z) (ql [-4; 4]%Z) (q 1) (q 6)) =
  Some (1, [(4 # 5)%Q; (4 # 5)%Q], (2 # 1)%Q, true, Some 2, (-1)%Z, ([(4 # 5)%Q; (-1 # 5)%Q; (0 # 1)%Q], [1; -1; -1]%Z)).
Proof. vm_compute. reflexivity. Qed.
Example none_crosses : show (one (ql [2; 0]%Z) (ql [3; 0]%Z) (q 1) (q 6)) =
  Some (0, [(3 # 1)%Q; (0 # 1)%Q], (6 # 1)%Q, false, None, 0%Z, ([(3 # 1)%Q; (-1 # 1)%Q; (3 # 1)%Q], [1; -1; 1]%Z)).
Proof. vm_compute. reflexivity. Qed.
Example zero_at_end : one (ql [2; 0]%Z) (ql [2; 1]%Z) (q 1) (q 6) = Throw.
Proof. reflexivity. Qed.
Lemma near3 : forall i, i < 3 -> near_side (nth i [1; 6; 3]%Z 0%Z) (nth i [el (ql [2; 0]%Z) 0; (el (ql [2; 0]%Z) 1 - 1)%Qc; (el (ql [2; 0]%Z) 0 - el (ql [2; 0]%Z) 1)%Qc] 0%Qc).
Proof.
  intros [|[|[|i]]] H; [left|right; left|right; right|lia]; cbn.
  - split; [reflexivity|]. vm_compute. discriminate.
  - split; [reflexivity|]. vm_compute. discriminate.
  - reflexivity.
Qed.
(** The hypotheses of the C33/C34 theorems hold in this case. *)
Example hypotheses_met : exists c z2, begin_at (ql [2; 0]%Z) (q 1) = Ret c /\ consistent m3 c 3 /\ zeroFunctions m3 0 (q 6) (ql [-4; 4]%Z) = Ret z2 /\
  length z2 = 3 /\ (forall i, i < 3 -> ~ touches_at c z2 i) /\ crosses_at c z2 0 /\ crosses_at c z2 1 /\ crosses_at c z2 2.
Proof.
  destruct (start_fresh m3 3 0 (ql [2; 0]%Z) (q 1) c0 _ eq_refl ltac:(lia) eq_refl eq_refl eq_refl eq_refl) as (c & E & S & Z & T & CO).
  exists c. eexists. split; [exact E|]. split; [apply CO, near3|]. split; [reflexivity|]. split; [reflexivity|].
  injection E as <-.
  split; [|split; [|split]].
  - intros [|[|[|i]]] H (A & _); [| | |lia]; apply (f_equal this) in A; vm_compute in A; discriminate A.
  - left. split; [reflexivity|]. vm_compute. reflexivity.
  - right; left. split; [reflexivity|]. vm_compute. reflexivity.
  - right; right. split; [reflexivity|]. left. split; [reflexivity|]. vm_compute. reflexivity.
Qed.
(** A run of two steps; between them the model has turned x0 back. *)
Definition showr (r : Outcome ((ctl QcNum * nat) * list (evres QcNum))) :=
  match r with Ret (w, es) => Some (snd w, map (fun e : evres QcNum => (this (ev_t e), ev_izf e)) es) | _ => None end.
Example two_steps : showr (c <- begin_at (ql [1; 0]%Z) (q 0) ;;
   ev_run m3 [mkStep (ql [1; 0]%Z) (q 0) [q (-1); qf (-7) 1] (q 1); mkStep [0%Qc; qf (-7) 2] (qf 1 2) [q 1; q (-7)] (qf 3 2)] (c, 0)) =
   Some (1, [((1 # 2)%Q, Some 0); ((3 # 2)%Q, None)]).
Proof. vm_compute. reflexivity. Qed.

(** A reset after those two steps: the next step start records the values at (7, 9). *)
Example reset_case : match (c <- begin_at (ql [1; 0]%Z) (q 0) ;;
   r <- ev_run m3 [mkStep (ql [1; 0]%Z) (q 0) [q (-1); qf (-7) 1] (q 1); mkStep [0%Qc; qf (-7) 2] (qf 1 2) [q 1; q (-7)] (qf 3 2)] (c, 0) ;;
   c_start m3 1 (ql [7; 9]%Z) (q 5) (c_reset (fst (fst r)))) with Ret c' => Some (tq (c_zf1 c'), c_state c', this (c_t1 c')) | _ => None end =
   Some (map inject_Z [7; 8; -2]%Z, [1; 0; -1]%Z, 5%Q).
Proof. vm_compute. reflexivity. Qed.

(** A function watched downwards that starts below zero and goes on falling: the step ends before it starts, at -5 * h. *)
Definition m1 : evrhs QcNum unit := mkEvRhs (N:=QcNum) 1 [1%Z] (fun _ _ x => Ret [el x 0]) (fun p _ _ x => Ret (p, x)) (fun _ t x => Ret (false, t, x)).
Definition show1 (r : Outcome (unit * ctl QcNum * evres QcNum)) := match r with Ret (_, c, e) => Some (tq (ev_x e), this (ev_t e)) | _ => None end.
Example backwards : show1 (c <- c_start m1 tt (ql [-5]%Z) (q 10) c0 ;; c_end m1 tt (ql [-5]%Z) (ql [-6]%Z) (q 11) c) = Some ([(0 # 1)%Q], (5 # 1)%Q).
Proof. vm_compute. reflexivity. Qed.
Theorem C33_time_backwards_refuted : ~ (forall (m : evrhs QcNum unit) p x1 x2 t1 t2 c p' c' e, (t1 < t2)%Qc -> c_start m p x1 t1 ctl_new = Ret c ->
   c_end m p x1 x2 t2 c = Ret (p', c', e) -> (t1 <= ev_t e)%Qc).
Proof.
  intros H. destruct (c_start m1 tt (ql [-5]%Z) (q 10) c0) as [c| |] eqn:E; [|discriminate|discriminate].
  destruct (c_end m1 tt (ql [-5]%Z) (ql [-6]%Z) (q 11) c) as [((p' & c') & e)| |] eqn:E2.
  - pose proof (H m1 tt _ _ (q 10) (q 11) c p' c' e ltac:(reflexivity) E E2) as G. pose proof backwards as B. rewrite E in B. cbn [obind] in B. rewrite E2 in B. cbn in B.
    injection B as _ B. unfold Qcle in G. rewrite B in G. apply G. reflexivity.
  - pose proof backwards as B. rewrite E in B. cbn [obind] in B. rewrite E2 in B. discriminate B.
  - pose proof backwards as B. rewrite E in B. cbn [obind] in B. rewrite E2 in B. discriminate B.
Qed.
(** ... and moving towards zero without reaching it makes the step fail *)
Example far_side_fails : c <- c_start m1 tt (ql [-5]%Z) (q 10) c0 ;; c_end m1 tt (ql [-5]%Z) (ql [-4]%Z) (q 11) c = Throw.
Proof. reflexivity. Qed.
(** Falling through zero with a model that does not react: every later step is truncated to length zero. *)
Definition showu (r : Outcome ((ctl QcNum * unit) * list (evres QcNum))) :=
  match r with Ret (w, es) => Some (map (fun e : evres QcNum => (this (ev_t e), ev_izf e)) es) | _ => None end.
Example stuck : showu (c <- c_start m1 tt (ql [1]%Z) (q 0) c0 ;;
   ev_run m1 [mkStep (ql [1]%Z) (q 0) (ql [-1]%Z) (q 1); mkStep (ql [0]%Z) (qf 1 2) (ql [-1]%Z) (qf 3 2); mkStep (ql [0]%Z) (qf 1 2) (ql [-1]%Z) (qf 3 2)] (c, tt)) =
   Some [((1 # 2)%Q, Some 0); ((1 # 2)%Q, Some 0); ((1 # 2)%Q, Some 0)].
Proof. vm_compute. reflexivity. Qed.
Example stuck_hypotheses : exists c, c_start m1 tt (ql [0]%Z) (qf 1 2) c0 = Ret c /\ at_zero m1 c /\ falling_step m1 (mkStep (ql [0]%Z) (qf 1 2) (ql [-1]%Z) (qf 3 2)) (c, tt).
Proof.
  destruct (start_fresh m1 1 tt (ql [0]%Z) (qf 1 2) c0 _ eq_refl ltac:(lia) eq_refl eq_refl eq_refl eq_refl) as (c & E & S & Z & T & CO).
  exists c. split; [exact E|]. injection E as <-. split.
  - split; [|split; [reflexivity|split; [reflexivity|reflexivity]]]. apply CO. intros [|i] H; [|lia]. left. split; [reflexivity|]. vm_compute. discriminate.
  - split; [cbn; lia|]. split; [eexists; split; [reflexivity|vm_compute; reflexivity]|]. intros tr t x p' x' H. destruct p'. reflexivity.
Qed.
