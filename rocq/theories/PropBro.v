(** PropBro.v - property theorems about the quasi-Newton descent directions (C69-C72).  Only statements closed by lemmas. *)
From Coq Require Import List Arith Bool QArith Qcanon.
From Verif Require Import Base SMap SpModel SpSpec MapModel JacModel JacSpec LUModel LUSpec NewtModel NewtSpec BroModel BroSpec BroFacts3 BroFacts4 BroFacts5 BroFacts6.
Import ListNotations.
Local Open Scope nat_scope.

(** * The Jacobian providers as the directions see them *)
(** DefaultJacobianProvider computes the forward-difference Jacobian at any time and keeps the old one through a hard reset;
    SparseJacobianProvider computes the same one after a hard reset, which makes it forget. *)
Theorem C69_default_provider : forall (dx : Qc) (g : vmapping QcNum) F n, computes g F n n ->
  (forall x : list Qc, length x = n -> good_pattern n (computed dx None g x)) ->
  provides (default_jp dx None g) n (computed dx None g) true any_time.
Proof. exact default_provides. Qed.
Print Assumptions C69_default_provider.
Theorem C69_sparse_provider : forall (dx : Qc) (g : vmapping QcNum) F n, computes g F n n ->
  (forall x : list Qc, length x = n -> good_pattern n (computed dx None g x)) ->
  provides (sparse_jp dx None g) n (computed dx None g) false (when_empty (sparse_jp dx None g)).
Proof. exact sparse_provides. Qed.
Print Assumptions C69_sparse_provider.

(** * C69: Broyden's update *)
(** Any history of resets, directions and reports, any size: every direction is minus the solution with the matrix Broyden's
    formula prescribes at that point of the history. *)
Theorem C69_history : forall P (jp : jprov P) n J0 keep, provides jp n J0 keep (when_empty jp) ->
  forall (h : list dev) (p : P) (q : list (matrix * list Qc)), when_empty jp p ->
  qn_run n (broyden_next n) J0 keep h None None q ->
  exists ds s', dhist (bro_dd jp) h (b_new p) = Ret (ds, s') /\ Forall2 (newton_like n) q ds.
Proof. exact @bro_history. Qed.
Print Assumptions C69_history.
(** One update from any state: the new matrix satisfies the secant equation, acts as the old one on everything orthogonal
    to the step, and is the only matrix satisfying the secant equation that is nearest to the old one. *)
Theorem C69_step : forall P (jp : jprov P) n s x f it d s', (forall p J, jp_J jp (jp_set jp p J) = J) ->
  square n (jp_J jp (b_p s)) -> mat_empty (jp_J jp (b_p s)) = false -> b_have s = true ->
  length x = n -> length f = n -> length (b_xp s) = n -> length (b_fp s) = n -> x <> b_xp s ->
  bro_dir jp x f it s = Ret (d, s') ->
  let J := mval (sdat (jp_J jp (b_p s))) in let J' := mval (sdat (jp_J jp (b_p s'))) in
  let dx := vdiff x (b_xp s) in let df := vdiff f (b_fp s) in
  (forall i, i < n -> mapply n J' dx i = df i) /\
  (forall z i, i < n -> qsum n (fun c => dx c * z c)%Qc = 0%Qc -> mapply n J' z i = mapply n J z i) /\
  (forall C : matrix, (forall i, i < n -> mapply n C dx i = df i) ->
     (distsq n J' J <= distsq n C J)%Qc /\ ((distsq n C J <= distsq n J' J)%Qc -> forall i j, i < n -> j < n -> C i j = J' i j)).
Proof. exact @bro_step_facts. Qed.
Print Assumptions C69_step.
(** An update that would change a position not stored in the Jacobian makes the call throw. *)
Theorem C69_throws : forall P (jp : jprov P) n s x f it, square n (jp_J jp (b_p s)) -> mat_empty (jp_J jp (b_p s)) = false -> b_have s = true ->
  length x = n -> length f = n -> length (b_xp s) = n -> length (b_fp s) = n ->
  forall i j, i < n -> j < n ->
  broyden_next n [] (mval (sdat (jp_J jp (b_p s)))) (vdiff x (b_xp s)) (vdiff f (b_fp s)) i j <> mval (sdat (jp_J jp (b_p s))) i j ->
  ~ stored (sdat (jp_J jp (b_p s))) i j -> bro_dir jp x f it s = Throw.
Proof. exact @bro_one_throws. Qed.
Print Assumptions C69_throws.
(** Affine systems: whatever the history, every direction is the Newton one. *)
Theorem C69_affine : forall P (jp : jprov P) p keep n A b F (g : vmapping QcNum) dx h, computes g F n n -> affine n A b F -> dx <> 0%Qc -> solvable_pattern n A -> 0 < n ->
  provides jp n (computed dx None g) keep (when_empty jp) -> when_empty jp p -> follows n F h None ->
  exists ds s', dhist (bro_dd jp) h (b_new p) = Ret (ds, s') /\ Forall2 (fun f d => newton_like n (A, f) d) (residuals h) ds.
Proof. exact @bro_affine. Qed.
Print Assumptions C69_affine.
(** With DefaultJacobianProvider the mapping is never differentiated again: once there is a Jacobian, no history of calls (hard resets
    included) depends on the mapping, the step of the differences or the trimmer. *)
Theorem C69_never_recomputed : forall dx1 dx2 jt1 jt2 (g1 g2 : vmapping QcNum) h (s : bst (smat QcNum)), mat_empty (b_p s) = false ->
  dhist (bro_dd (default_jp dx1 jt1 g1)) h s = dhist (bro_dd (default_jp dx2 jt2 g2)) h s.
Proof. exact bro_never. Qed.
Print Assumptions C69_never_recomputed.

(** * C70: the update restricted to the stored positions *)
Theorem C70_history : forall P (jp : jprov P) n J0 keep, provides jp n J0 keep (when_empty jp) ->
  forall (h : list dev) (p : P) (q : list (matrix * list Qc)), when_empty jp p ->
  qn_run n (fake_next n) J0 keep h None None q ->
  exists ds s', dhist (fake_dd jp) h (b_new p) = Ret (ds, s') /\ Forall2 (newton_like n) q ds.
Proof. exact @fake_history. Qed.
Print Assumptions C70_history.
(** One update from any state: the pattern stays; in each row the discrepancy of the secant equation is multiplied by one minus the share of the
    step's square that the stored positions see, so it never grows, and vanishes if they see the whole step. *)
Theorem C70_step : forall P (jp : jprov P) n s x f it d s', (forall p J, jp_J jp (jp_set jp p J) = J) ->
  square n (jp_J jp (b_p s)) -> mat_empty (jp_J jp (b_p s)) = false -> b_have s = true ->
  length x = n -> length f = n -> length (b_xp s) = n -> length (b_fp s) = n -> x <> b_xp s ->
  fake_dir jp x f it s = Ret (d, s') ->
  let e := sdat (jp_J jp (b_p s)) in
  let J := mval e in let J' := mval (sdat (jp_J jp (b_p s'))) in
  let dx := vdiff x (b_xp s) in let df := vdiff f (b_fp s) in
  map fst (sdat (jp_J jp (b_p s'))) = map fst e /\
  (forall i, i < n -> (0 <= row_share n e dx i)%Qc /\ (row_share n e dx i <= 1)%Qc /\
     (df i - mapply n J' dx i = (df i - mapply n J dx i) * (1 - row_share n e dx i))%Qc /\
     (Qcabs (df i - mapply n J' dx i) <= Qcabs (df i - mapply n J dx i))%Qc) /\
  (forall i, i < n -> (forall j, j < n -> dx j <> 0%Qc -> stored e i j) -> mapply n J' dx i = df i).
Proof. exact @fake_step_facts. Qed.
Print Assumptions C70_step.
Theorem C70_affine : forall P (jp : jprov P) p keep n A b F (g : vmapping QcNum) dx h, computes g F n n -> affine n A b F -> dx <> 0%Qc -> solvable_pattern n A -> 0 < n ->
  provides jp n (computed dx None g) keep (when_empty jp) -> when_empty jp p -> follows n F h None ->
  exists ds s', dhist (fake_dd jp) h (b_new p) = Ret (ds, s') /\ Forall2 (fun f d => newton_like n (A, f) d) (residuals h) ds.
Proof. exact @fake_affine. Qed.
Print Assumptions C70_affine.
Theorem C70_never_recomputed : forall dx1 dx2 jt1 jt2 (g1 g2 : vmapping QcNum) h (s : bst (smat QcNum)), mat_empty (b_p s) = false ->
  dhist (fake_dd (default_jp dx1 jt1 g1)) h s = dhist (fake_dd (default_jp dx2 jt2 g2)) h s.
Proof. exact fake_never. Qed.
Print Assumptions C70_never_recomputed.

(** * C71: lazy updates *)
(** Any sequence of runs: one matrix throughout a run; the next run keeps it after at most [lazy] directions, adds what was gathered after
    more, and has it computed anew after a failure or a hard reset. *)
Theorem C71_history : forall P (jp : jprov P) n lazy J0 keep, provides jp n J0 keep any_time ->
  forall (rs : list lrun) (p : P) (q : list (matrix * list Qc)), lazy_runs n lazy J0 rs None RecomputeJ q ->
  exists ds s', dhist (lazy_dd jp lazy) (runs_events rs) (l_new p) = Ret (ds, s') /\ Forall2 (newton_like n) q ds.
Proof. exact @lazy_history. Qed.
Print Assumptions C71_history.
Theorem C71_affine : forall P (jp : jprov P) p keep lazy n A b F (g : vmapping QcNum) dx rs, computes g F n n -> affine n A b F -> dx <> 0%Qc -> solvable_pattern n A -> 0 < n ->
  provides jp n (computed dx None g) keep any_time -> follows n F (runs_events rs) None ->
  exists ds s', dhist (lazy_dd jp lazy) (runs_events rs) (l_new p) = Ret (ds, s') /\
    Forall2 (fun f d => newton_like n (A, f) d) (residuals (runs_events rs)) ds.
Proof. exact @lazy_affine. Qed.
Print Assumptions C71_affine.
(** What is gathered is measured against the unchanged matrix, so it adds up: in one dimension, k steps of a function of slope a
    gather k times the correction a - B. *)
Theorem C71_overshoot : forall (e : entries_) (B : matrix) (a : Qc), storedb e 0 0 = true -> forall (st : list ((nat -> Qc) * (nat -> Qc))) (D : matrix),
  (forall s y, In (s, y) st -> s 0 <> 0%Qc /\ y 0 = (a * s 0%nat)%Qc) ->
  lazy_delta 1 e B st D 0 0 = (D 0%nat 0%nat + qc (Z.of_nat (length st)) 1 * (a - B 0%nat 0%nat))%Qc.
Proof. exact lazy_overshoot. Qed.
Print Assumptions C71_overshoot.

(** * C72: Hart's update of the factors *)
(** Any history whose steps are visible to the update: the directions come from matrices that satisfy the secant equation, keep the profile of the
    computed Jacobian, and are computed anew exactly after a hard reset. *)
Theorem C72_history : forall P (jp : jprov P) n J0 keep (pre : P -> Prop), provides jp n J0 keep pre -> (forall p, pre (jp_hard jp p)) ->
  forall (h : list dev) (p : P), pre p -> hart_fits n J0 h None None ->
  exists q ds s', dhist (hart_dd jp) h (b_new p) = Ret (ds, s') /\ sec_run n J0 h None None q /\
    Forall2 (fun m d => leading_nonsingular n (fst m) -> newton_like n m d) q ds.
Proof. exact @BroFacts6.hart_history. Qed.
Print Assumptions C72_history.
