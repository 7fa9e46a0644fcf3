(** ExObs.v - concrete cases and refutations for PropObs.v *)
From Coq Require Import List Arith ZArith Bool.
Require Import Verif.Base Verif.SMap Verif.ObsModel Verif.ObsSpec Verif.ObsFacts Verif.PropObs.
Import ListNotations.
Local Open Scope Z_scope.

(** callbacks append their name to a log *)
Definition say (n : nat) : list nat -> list nat := fun log => log ++ [n].
Definition exOps : list (op (list nat -> list nat)) := [Add (say 10); Add (say 20); Remove 1; Add (say 30); Remove 7].
Example exOps_runs : exists m tr, history exOps = Ret (m, tr) /\ map fst (live tr) = [2; 3] /\ notify m [] = [20; 30]%nat.
Proof. eexists. eexists. split; [vm_compute; reflexivity|]. split; reflexivity. Qed.
Definition ask (b : bool) (n : nat) : list nat -> list nat * bool := fun log => (log ++ [n], b).
Example exT : exists m tr, history [Add (ask true 1); Add (ask false 2); Add (ask false 3)] = Ret (m, tr) /\
  tnotify m [] = ([1; 2; 3]%nat, true).
Proof. eexists. eexists. split; [vm_compute; reflexivity|]. reflexivity. Qed.
Example exScoped : run_prog (Scoped (say 1) (Seq (Scoped (say 2) Skip) (Scoped (say 3) (Scoped (say 4) Skip)))) [(5, say 0)]
  = Ret [(5, say 0)].
Proof. vm_compute. reflexivity. Qed.
(** a callback subscribing another one during notification: the new one is called in the same notification *)
Example exReentrantAdd :
  let call (c : nat) (s : elements nat * list nat) : elements nat * list nat :=
    (if Nat.eqb c 1 then match add (fst s) 2%nat with Ret (m, _) => m | _ => fst s end else fst s, snd s ++ [c]) in
  rnotify call ([(1, 1%nat)], []) (Ret ([(1, 1%nat); (2, 2%nat)], [1%nat; 2%nat])).
Proof.
  simpl. eapply rn_start; [reflexivity|]. eapply ra_next; [vm_compute; discriminate|vm_compute; reflexivity|].
  vm_compute. apply (ra_end (fun c s => (if Nat.eqb c 1 then match add (fst s) 2%nat with Ret (m, _) => m | _ => fst s end else fst s, snd s ++ [c])) 2 2%nat ([(1, 1%nat); (2, 2%nat)], [1%nat]));
  vm_compute; [discriminate|reflexivity].
Qed.

(** Ids are reused: a stale id held by the first owner cancels the second owner's subscription. *)
Theorem C12_stale_id_refuted : exists (m1 m2 m3 : elements nat) id1 id2,
  add (@nil (Z * nat)) 1%nat = Ret (m1, id1) /\ remove m1 id1 = m2 /\
  add m2 2%nat = Ret (m3, id2) /\ id1 = id2 /\ remove m3 id1 = [].
Proof. do 5 eexists. repeat split; vm_compute; reflexivity. Qed.
(** The id counter overflows when the largest live id is INT_MAX. *)
Theorem C12_id_overflow_refuted : add [(INT_MAX, 0%nat)] 1%nat = UB.
Proof. reflexivity. Qed.

(** Moved-from object destroyed after its id has been reused: nothing happens. *)
Example exMove : exists m tr, history [Add (say 1); Remove 1; Add (say 2)] = Ret (m, tr) /\ fst (scoped_finish m (snd (scoped_move 1))) = [(1, say 2)].
Proof. eexists. eexists. split; [vm_compute; reflexivity|]. reflexivity. Qed.
Example exForward : exists m tr, history [Add (say 1); Add (say 2)] = Ret (m, tr) /\ forward (fun _ => m) [] = [1; 2]%nat.
Proof. eexists. eexists. split; [vm_compute; reflexivity|]. reflexivity. Qed.
