(** PropSp.v - property theorems about sparse matrices (C02-C05, C57).  Only statements closed by lemmas. *)
From Coq Require Import List Arith QArith Qcanon.
From Verif Require Import Base SpModel SpSpec SpFacts SpFacts2 SpFacts3 SpFacts4 SpFacts5 SpFacts6.
Import ListNotations.
Local Open Scope nat_scope.

(** * C02: histories of edits *)
(** Reading any position after any history gives what the history of that position alone says. *)
Theorem C02_history_reads : forall (N : Num) (s0 : key) (h : list (sop N)) (p : key),
  get (srun s0 h) p = match snd (pos_history s0 h p) with Some x => x | None => n0 N end /\
  hasIndex (srun s0 h) p = match snd (pos_history s0 h p) with Some _ => true | None => false end /\
  ssz (srun s0 h) = fst (pos_history s0 h p).
Proof. exact @history_reads. Qed.
Print Assumptions C02_history_reads.

(** The last value written, when nothing since concerns the position. *)
Theorem C02_last_write : forall (N : Num) (s0 : key) (h1 h2 : list (sop N)) (p : key) (v : nT N),
  (forall o, In o h2 -> leaves_alone p o) ->
  get (srun s0 (h1 ++ OpUpd p (fun _ => v) :: h2)) p = v /\
  hasIndex (srun s0 (h1 ++ OpUpd p (fun _ => v) :: h2)) p = true.
Proof. exact @last_write. Qed.
Print Assumptions C02_last_write.

(** Zero after a removal, a clear or a size change that cuts the position off. *)
Theorem C02_removed_reads_zero : forall (N : Num) (s0 : key) (h1 h2 : list (sop N)) (p : key) (o : sop N),
  (forall o', In o' h2 -> leaves_alone p o') ->
  (o = OpRemove p \/ o = OpClear \/
   exists s, o = OpResize s /\ s <> fold_left (fun s o => match o with OpResize s' => s' | _ => s end) h1 s0 /\
             ~ (fst p < fst s /\ snd p < snd s)) ->
  get (srun s0 (h1 ++ o :: h2)) p = n0 N /\ hasIndex (srun s0 (h1 ++ o :: h2)) p = false.
Proof. exact @removed_reads_zero. Qed.
Print Assumptions C02_removed_reads_zero.

Theorem C02_never_written_zero : forall (N : Num) (s0 : key) (h : list (sop N)) (p : key),
  (forall q f, In (OpUpd q f) h -> q <> p) -> get (srun s0 h) p = n0 N /\ hasIndex (srun s0 h) p = false.
Proof. exact @never_written. Qed.
Print Assumptions C02_never_written_zero.

(** Iteration: row-major, no duplicates, exactly the stored positions with their values. *)
Theorem C02_iteration : forall (N : Num) (s0 : key) (h : list (sop N)),
  row_major (sdat (srun s0 h)) /\
  forall p x, In (p, x) (sdat (srun s0 h)) <-> snd (pos_history s0 h p) = Some x.
Proof. exact @iteration. Qed.
Print Assumptions C02_iteration.

(** * C03: array storage *)
Theorem C03_fast_reads_like_map : forall (N : Num) (m : mems N) (f id fuel : nat),
  mems_ok m -> f < length m -> fast (obj m f) = true ->
  exists m', sassign fuel m f (SW id) = Some (m', Ret tt) /\ others_same m m' f /\ fast (obj m' f) = true /\
    ssz (obj m' f) = ssz (obj m id) /\ row_major (sdat (obj m' f)) /\
    forall p, get (obj m' f) p = get (obj m id) p /\ hasIndex (obj m' f) p = hasIndex (obj m id) p.
Proof. exact @fast_reads_like_map. Qed.
Print Assumptions C03_fast_reads_like_map.

Theorem C03_write_existing : forall (N : Num) (m : mems N) (id : nat) (p : key) (f : nT N -> nT N),
  mems_ok m -> id < length m -> fast (obj m id) = true -> hasIndex (obj m id) p = true ->
  exists m', sat_upd m (SW id) p f = (m', Ret tt) /\ mems_ok m' /\ others_same m m' id /\
    fast (obj m' id) = true /\ ssz (obj m' id) = ssz (obj m id) /\
    get (obj m' id) p = f (get (obj m id) p) /\
    (forall q, q <> p -> get (obj m' id) q = get (obj m id) q) /\
    (forall q, hasIndex (obj m' id) q = hasIndex (obj m id) q).
Proof. exact @fast_write_existing. Qed.
Print Assumptions C03_write_existing.

Theorem C03_write_absent_throws : forall (N : Num) (m : mems N) (id : nat) (p : key) (f : nT N -> nT N),
  mems_ok m -> fast (obj m id) = true -> hasIndex (obj m id) p = false -> sat_upd m (SW id) p f = (m, Throw).
Proof. exact @fast_write_absent. Qed.
Print Assumptions C03_write_absent_throws.

(** * C04: matrix-vector products, map or array storage, views included *)
Theorem C04_matrix_times_vector : forall (m : mems QcNum) (e : sexpr QcNum) (v : list Qc),
  mems_ok m -> in_range m e -> length v = snd (ssize m e) ->
  exists w : list Qc, smulv m e v = Ret w /\ length w = fst (ssize m e) /\
    forall r, r < fst (ssize m e) -> nth r w 0%Qc = qsum (snd (ssize m e)) (fun c => (sget m e (r, c) * nth c v 0)%Qc).
Proof. exact smulv_ok. Qed.
Print Assumptions C04_matrix_times_vector.

Theorem C04_mulVectRight : forall (m : mems QcNum) (e : sexpr QcNum) (vs vd : list Qc),
  mems_ok m -> in_range m e -> snd (ssize m e) <= length vs -> fst (ssize m e) <= length vd ->
  exists vd' : list Qc, mulVectRight (N:=QcNum) (fst (ssize m e)) (siter m e) vs vd = Ret vd' /\ length vd' = length vd /\
    (forall r, r < fst (ssize m e) -> nth r vd' 0%Qc = qsum (snd (ssize m e)) (fun c => (sget m e (r, c) * nth c vs 0)%Qc)) /\
    (forall r, fst (ssize m e) <= r -> nth r vd' 0%Qc = nth r vd 0%Qc).
Proof. exact mulVectRight_ok. Qed.
Print Assumptions C04_mulVectRight.

Theorem C04_mulVectLeft : forall (m : mems QcNum) (e : sexpr QcNum) (vs vd : list Qc),
  mems_ok m -> in_range m e -> fst (ssize m e) <= length vs -> snd (ssize m e) <= length vd ->
  exists vd' : list Qc, mulVectLeft (N:=QcNum) (snd (ssize m e)) (siter m e) vs vd = Ret vd' /\ length vd' = length vd /\
    (forall c, c < snd (ssize m e) -> nth c vd' 0%Qc = qsum (fst (ssize m e)) (fun r => (sget m e (r, c) * nth r vs 0)%Qc)) /\
    (forall c, snd (ssize m e) <= c -> nth c vd' 0%Qc = nth c vd 0%Qc).
Proof. exact mulVectLeft_ok. Qed.
Print Assumptions C04_mulVectLeft.

Theorem C04_vector_times_square_matrix : forall (m : mems QcNum) (e : sexpr QcNum) (v : list Qc),
  mems_ok m -> in_range m e -> length v = fst (ssize m e) -> fst (ssize m e) = snd (ssize m e) ->
  exists w : list Qc, svmul m v e = Ret w /\ length w = snd (ssize m e) /\
    forall c, c < snd (ssize m e) -> nth c w 0%Qc = qsum (fst (ssize m e)) (fun r => (sget m e (r, c) * nth r v 0)%Qc).
Proof. exact svmul_ok. Qed.
Print Assumptions C04_vector_times_square_matrix.

(** * C05: matrix algebra *)
(** A * B: row-by-column sums; only nonzero results are stored, inside the result's size. *)
Theorem C05_product : forall (m : mems QcNum) (a b : sexpr QcNum),
  mems_ok m -> row_capable m a = true -> in_range m a ->
  exists res, sprod m a b = Ret res /\ fast res = false /\ ssz res = (fst (ssize m a), snd (ssize m b)) /\ row_major (sdat res) /\
    (forall r c, r < fst (ssize m a) -> c < snd (ssize m b) ->
       get res (r, c) = qsum (snd (ssize m a)) (fun k => (sget m a (r, k) * sget m b (k, c))%Qc)) /\
    (forall r c x, In ((r, c), x) (sdat res) -> r < fst (ssize m a) /\ c < snd (ssize m b) /\ x <> 0%Qc).
Proof. exact sprod_get. Qed.
Print Assumptions C05_product.

(** dst += src, dst -= src for different matrices (either may be a view; any arithmetic).  An array-backed
    destination must contain the pattern of the source. *)
Theorem C05_plus_minus : forall (N : Num) (m : mems N) (dst src : sexpr N) (fuel : nat),
  mems_ok m -> sbase dst < length m -> writable dst = true -> sbase src <> sbase dst ->
  length (sdat (obj m (sbase src))) < fuel ->
  (fast (obj m (sbase dst)) = true -> forall p x, In (p, x) (siter m src) -> exists y, In (to_base dst p, y) (sdat (obj m (sbase dst)))) ->
  (exists m', spluseq fuel m dst src = Some (m', Ret tt) /\ mems_ok m' /\ others_same m m' (sbase dst) /\
    ssz (obj m' (sbase dst)) = ssz (obj m (sbase dst)) /\
    (forall p x, In (p, x) (siter m src) -> sget m' dst p = nadd N (sget m dst p) x) /\
    (forall q, (forall p x, In (p, x) (siter m src) -> to_base dst p <> q) -> sfind (obj m' (sbase dst)) q = sfind (obj m (sbase dst)) q)) /\
  (exists m', sminuseq fuel m dst src = Some (m', Ret tt) /\ mems_ok m' /\ others_same m m' (sbase dst) /\
    ssz (obj m' (sbase dst)) = ssz (obj m (sbase dst)) /\
    (forall p x, In (p, x) (siter m src) -> sget m' dst p = nsub N (sget m dst p) x) /\
    (forall q, (forall p x, In (p, x) (siter m src) -> to_base dst p <> q) -> sfind (obj m' (sbase dst)) q = sfind (obj m (sbase dst)) q)).
Proof. exact @plus_minus. Qed.
Print Assumptions C05_plus_minus.

(** In exact arithmetic this is the pointwise sum / difference at every position the views present. *)
Theorem C05_plus_minus_pointwise : forall (m : mems QcNum) (dst src : sexpr QcNum) (fuel : nat),
  mems_ok m -> sbase dst < length m -> writable dst = true -> fast (obj m (sbase dst)) = false -> sbase src <> sbase dst ->
  length (sdat (obj m (sbase src))) < fuel ->
  (exists m', spluseq fuel m dst src = Some (m', Ret tt) /\
     forall p, presents src p -> sget m' dst p = (sget m dst p + sget m src p)%Qc) /\
  (exists m', sminuseq fuel m dst src = Some (m', Ret tt) /\
     forall p, presents src p -> sget m' dst p = (sget m dst p - sget m src p)%Qc).
Proof. exact plus_minus_pointwise. Qed.
Print Assumptions C05_plus_minus_pointwise.

(** An array-backed destination without some position of the source: exception. *)
Theorem C05_plus_outside_pattern_throws : forall (N : Num) (m : mems N) (dst src : sexpr N) (fuel : nat),
  mems_ok m -> sbase dst < length m -> sbase src <> sbase dst -> length (sdat (obj m (sbase src))) < fuel ->
  fast (obj m (sbase dst)) = true ->
  (exists p x, In (p, x) (siter m src) /\ forall y, ~ In (to_base dst p, y) (sdat (obj m (sbase dst)))) ->
  (exists m', spluseq fuel m dst src = Some (m', Throw)) /\ (exists m', sminuseq fuel m dst src = Some (m', Throw)).
Proof. exact @plus_outside_pattern. Qed.
Print Assumptions C05_plus_outside_pattern_throws.

Theorem C05_add_scaled_identity : forall (N : Num) (a : smat N) (k : nT N),
  row_major (sdat a) -> (fast a = true -> forall i, i < fst (ssz a) -> exists x, In ((i, i), x) (sdat a)) ->
  exists a', addScaledIdentity a k = Ret a' /\ fast a' = fast a /\ ssz a' = ssz a /\ row_major (sdat a') /\
    (forall i, i < fst (ssz a) -> get a' (i, i) = nadd N (get a (i, i)) k) /\
    (forall r c, r <> c \/ fst (ssz a) <= r -> sfind a' (r, c) = sfind a (r, c)).
Proof. exact @addScaledIdentity_ok. Qed.
Print Assumptions C05_add_scaled_identity.

Theorem C05_make_zero : forall (N : Num) (a : smat N) (p : key), row_major (sdat a) ->
  ssz (makeZero a) = ssz a /\ map fst (sdat (makeZero a)) = map fst (sdat a) /\
  hasIndex (makeZero a) p = hasIndex a p /\ get (makeZero a) p = n0 N.
Proof. exact @makeZero_ok. Qed.
Print Assumptions C05_make_zero.

(** Views: element access by index pair, and iteration. *)
Theorem C05_transposed_view : forall (N : Num) (m : mems N) (e : sexpr N) (r c : nat),
  sget m (STr e) (r, c) = sget m e (c, r) /\
  (forall x, In ((r, c), x) (siter m (STr e)) <-> In ((c, r), x) (siter m e)).
Proof. exact @transposed_view. Qed.
Print Assumptions C05_transposed_view.

Theorem C05_scaled_view : forall (N : Num) (m : mems N) (e : sexpr N) (k : nT N) (r c : nat),
  sget m (SSc e k) (r, c) = nmul N (sget m e (r, c)) k /\ sget_rc m (SSc e k) r c = nmul N (sget_rc m e r c) k /\
  ssize m (SSc e k) = ssize m e /\
  siter m (SSc e k) = map (fun el => (fst el, nmul N (snd el) k)) (siter m e).
Proof. exact @scaled_view. Qed.
Print Assumptions C05_scaled_view.

(** Every view: iteration presents exactly the stored elements, once each. *)
Theorem C05_view_iteration : forall (N : Num) (m : mems N) (e : sexpr N), mems_ok m ->
  NoDup (map fst (siter m e)) /\
  (forall p x, In (p, x) (siter m e) -> sget m e p = x /\ presents e p) /\
  (forall p, presents e p -> hasIndex (obj m (sbase e)) (to_base e p) = true -> In (p, sget m e p) (siter m e)).
Proof. exact @view_iteration. Qed.
Print Assumptions C05_view_iteration.

(** Assigning any view of another matrix to a map-backed matrix copies its size and elements. *)
Theorem C05_assign : forall (N : Num) (m : mems N) (id : nat) (src : sexpr N) (fuel : nat),
  mems_ok m -> id < length m -> fast (obj m id) = false -> sbase src <> id -> length (sdat (obj m (sbase src))) < fuel ->
  exists m', sassign fuel m id src = Some (m', Ret tt) /\ mems_ok m' /\ others_same m m' id /\
    fast (obj m' id) = false /\ ssz (obj m' id) = ssize m src /\
    forall p x, sfind (obj m' id) p = Some x <-> In (p, x) (siter m src).
Proof. exact @assign_map. Qed.
Print Assumptions C05_assign.

(** The norms of a matrix or view: the largest absolute value, the sum of absolute values, the sum of squares (whose
    root euclideanNorm takes), over all positions inside the size, stored or not. *)
Theorem C05_norms : forall (m : mems QcNum) (e : sexpr QcNum), mems_ok m -> in_range m e ->
  let a := fun r c => sget m e (r, c) in let R := fst (ssize m e) in let C := snd (ssize m e) in
  (forall r c, (r < R)%nat -> (c < C)%nat -> (Qcabs (a r c) <= sinfnorm m e)%Qc) /\
  (sinfnorm m e = 0%Qc \/ exists r c, r < R /\ c < C /\ sinfnorm m e = Qcabs (a r c)) /\
  sonenorm m e = qsum R (fun r => qsum C (fun c => Qcabs (a r c))) /\
  seuclsq m e = qsum R (fun r => qsum C (fun c => (a r c * a r c)%Qc)).
Proof. exact sparse_norms. Qed.
Print Assumptions C05_norms.

(** * C57: block views *)
Theorem C57_block_reads : forall (N : Num) (m : mems N) (e : sexpr N) (f s p : key),
  sget m (SBk e f s) p = sget m e (fst p + fst f, snd p + snd f) /\ ssize m (SBk e f s) = s /\
  (forall r c x, In ((r, c), x) (siter m (SBk e f s)) <->
     r < fst s /\ c < snd s /\ In ((r + fst f, c + snd f), x) (siter m e)).
Proof. exact @block_reads. Qed.
Print Assumptions C57_block_reads.

(** Assigning a matrix to a block replaces exactly the block: stored elements become those of the source,
    everything outside the block and all other matrices stay. *)
Theorem C57_block_assign : forall (N : Num) (m : mems N) (dst src : sexpr N) (fuel : nat),
  mems_ok m -> sbase dst < length m -> fast (obj m (sbase dst)) = false -> writable dst = true ->
  sbase src <> sbase dst -> length (sdat (obj m (sbase src))) < fuel ->
  (forall p x, In (p, x) (siter m src) -> presents dst p) ->
  exists m', sbassign fuel m dst src = Some (m', Ret tt) /\ others_same m m' (sbase dst) /\
    siter m' src = siter m src /\
    (forall p x, presents dst p -> (sfind (obj m' (sbase dst)) (to_base dst p) = Some x <-> In (p, x) (siter m src))) /\
    (forall q, (forall p, presents dst p -> to_base dst p <> q) -> sfind (obj m' (sbase dst)) q = sfind (obj m (sbase dst)) q).
Proof. exact @sbassign_ok. Qed.
Print Assumptions C57_block_assign.

Theorem C57_block_clear : forall (N : Num) (m : mems N) (e : sexpr N),
  mems_ok m -> sbase e < length m -> fast (obj m (sbase e)) = false ->
  exists m', sbclear m e = (m', Ret tt) /\ mems_ok m' /\ others_same m m' (sbase e) /\ fast (obj m' (sbase e)) = false /\
    ssz (obj m' (sbase e)) = ssz (obj m (sbase e)) /\
    (forall p, presents e p -> sfind (obj m' (sbase e)) (to_base e p) = None) /\
    (forall q, (forall p, presents e p -> to_base e p <> q) -> sfind (obj m' (sbase e)) q = sfind (obj m (sbase e)) q).
Proof. exact @sbclear_ok. Qed.
Print Assumptions C57_block_clear.
