(** ExtSpec.v - vocabulary for extrapolation and the Gragg solver. *)
From Coq Require Import List Arith Bool ZArith QArith Qcanon.
From Verif Require Import Base VecModel VOps RkModel RkSpec StepModel StepSpec ExtModel.
Import ListNotations.
Local Open Scope nat_scope.

(** A polynomial c0 + c1 x + c2 x^2 + ... given by its coefficients *)
Fixpoint peval (p : list Qc) (x : Qc) : Qc := match p with [] => 0%Qc | c :: q => (c + x * peval q x)%Qc end.
(** The variable in which the results are expanded: 1/n, or 1/n^2 for symmetric reference solvers *)
Definition node (sym : bool) (n : nat) : Qc := if sym then (1 / (qn n * qn n))%Qc else (1 / qn n)%Qc.
Definition increasing (ns : list nat) (m : nat) : Prop := length ns = m /\ 0 < nth 0 ns 0 /\ forall i j, i < j -> j < m -> nth i ns 0 < nth j ns 0.
(** Neville's recursion: the value at zero of the polynomial through the points (x a, v a), ..., (x (a+k), v (a+k)) *)
Fixpoint extrap (x v : nat -> Qc) (a k : nat) : Qc :=
  match k with
  | O => v a
  | S k' => ((x a * extrap x v (S a) k' - x (a + k)%nat * extrap x v a k') / (x a - x (a + k)%nat))%Qc
  end.
(** The results of the reference solver: vectors of length n *)
Definition table (Ts : list (list Qc)) (m n : nat) : Prop := m <= length Ts /\ forall k, k < m -> length (nth k Ts []) = n.

(** The closed forms of the step sequences *)
Definition pow2 (k : nat) : Z := (2 ^ Z.of_nat k)%Z.
Definition seq_harmonic (k : nat) : Z := (Z.of_nat k + 1)%Z.
Definition seq_romberg (k : nat) : Z := pow2 k.
Definition seq_bulirsch (k : nat) : Z :=
  if k =? 0 then 1%Z else if Nat.odd k then pow2 ((k + 1) / 2) else (3 * pow2 (k / 2 - 1))%Z.

(** A step sequence that, after a reset, produces [m] values, positive and strictly increasing *)
Definition seq_ok {Q} (sq : stepseq Q) (m : nat) : Prop := forall q, exists zs q', sq_take sq m (sq_reset sq q) = Ret (zs, q') /\ increasing (map Z.to_nat zs) m.

(** The result of the reference solver: n steps of size h/n from (t, x), started from any state of the solver *)
Definition ref_result {N : Num} {S : Type} (rs : refsolver N S) (t : nT N) (x : list (nT N)) (h : nT N) (n : nat) (s s' : S) (v : list (nT N)) : Prop :=
  exists s1, rs_set rs t x s = Ret s1 /\ rs_steps rs n (rs_size rs (ndiv N h (nnat n)) s1) = Ret s' /\ rs_get rs s' = Ret v.
(** its results for the numbers of steps [ns], one after the other *)
Fixpoint ref_results {N : Num} {S : Type} (rs : refsolver N S) (t : nT N) (x : list (nT N)) (h : nT N) (ns : list nat) (s s' : S) (vs : list (list (nT N))) : Prop :=
  match ns, vs with
  | [], [] => s' = s
  | n :: ns', v :: vs' => exists s1, ref_result rs t x h n s s1 v /\ ref_results rs t x h ns' s1 s' vs'
  | _, _ => False
  end.
(** The controller and the error norm, as in StepSpec *)
Definition ctl {N : Num} (c : xcfg N) : erkcfg N :=
  mkErk (mkCo [] [] [] 0%Z) (xc_n c) (xc_hinit c) (xc_hmin c) 0 (xc_nocheck c) false (n0 N) (xc_norm c) (xc_sc c).
(** The size of the first attempt *)
Definition x_first {N S Q} (c : xcfg N) (s : xst N S Q) : option (nT N) := match x_T s with [] => Some (xc_hinit c) | _ => x_h s end.
(** A step of size h from (t, x) (of the state s), ending at [next] with the error err, before events are looked at *)
Definition x_computed {N S Q} (rs : refsolver N S) (sq : stepseq Q) (ev : events N S) (c : xcfg N) (s : xst N S Q) (h : nT N) (next : list (nT N)) (err : nT N) (w : S) : Prop :=
  exists w0 q0 zs q1 vs vs' Tn, ev_start ev (x_x s) (x_t s) (x_s s) = Ret w0 /\
    sq_take sq (xc_stages c) (sq_reset sq q0) = Ret (zs, q1) /\ ref_results rs (x_t s) (x_x s) h (map Z.to_nat zs) w0 w vs /\
    neville (xc_sym c) (map Z.to_nat zs) (xc_stages c) (vs ++ vs') = Ret Tn /\ nth_error Tn 0 = Some next /\
    (if xc_nocheck c then err = n0 N else exists e, (v1 <- rd Tn 1 ;; ladd (lscale v1 (nopp N (n1 N))) next) = Ret e /\ xc_norm c e = Ret err).
Definition x_unmoved {N S Q} (s s' : xst N S Q) : Prop := x_t s' = x_t s /\ x_x s' = x_x s.
(** Attempts refused in a call, the first of size h: the observers are given the size of the following attempt. *)
Fixpoint x_refused {N} (c : xcfg N) (h : nT N) (l : list (postarg N)) : Prop :=
  match l with
  | [] => True
  | a :: l' => pa_accepted a = false /\ pa_trunc a = false /\ pa_changed a = asks (ctl c) h (pa_err a) /\ verdict (ctl c) h (pa_err a) = false /\ below_min (ctl c) h (pa_err a) = false /\
               pa_h a = next_size (ctl c) h (pa_err a) /\ x_refused c (pa_h a) l'
  end.
Definition x_cur {N} (h : nT N) (l : list (postarg N)) : nT N := fold_left (fun _ a => pa_h a) l h.
(** The move of an accepted attempt of size h: the result of the step, unless the event controller replaces it *)
Definition x_moved {N S Q} (rs : refsolver N S) (sq : stepseq Q) (ev : events N S) (c : xcfg N) (s s' : xst N S Q) (h err : nT N) (trunc : bool) : Prop :=
  exists s0 next w er, x_unmoved s s0 /\ x_computed rs sq ev c s0 h next err w /\ ev_end ev (x_x s) next (nadd N (x_t s) h) w = Ret (x_s s', er) /\
    x_t s' = ev_t er /\ x_x s' = ev_x er /\ trunc = ev_trunc er.
(** A solver between calls: not started since setInitialState, or with work space for the stages and a step size *)
Definition x_ready {N S Q} (c : xcfg N) (s : xst N S Q) : Prop :=
  length (x_x s) = xc_n c /\ (x_T s = [] \/ (x_h s <> None /\ xc_stages c <= length (x_T s))).

(** The reference solver as one function; it never has undefined behaviour and its results have the right length. *)
Definition ref_call {N S} (rs : refsolver N S) (t : nT N) (x : list (nT N)) (h : nT N) (n : nat) (s : S) : Outcome (S * list (nT N)) :=
  s1 <- rs_set rs t x s ;; s2 <- rs_steps rs n (rs_size rs (ndiv N h (nnat n)) s1) ;; v <- rs_get rs s2 ;; Ret (s2, v).
Definition ref_safe {N S} (rs : refsolver N S) (n : nat) : Prop :=
  forall t x h k s, length x = n -> ref_call rs t x h k s = Throw \/ exists s' v, ref_call rs t x h k s = Ret (s', v) /\ length v = n.
(** In exact arithmetic: [next] is, component by component, the value at zero of the polynomial through the results of the reference solver for the numbers of steps [ns];
    err is the norm of its difference from the value without the coarsest result. *)
Definition extrapolated {S} (rs : refsolver QcNum S) (sym nocheck : bool) (stages n : nat) (norm : list Qc -> Outcome Qc) (t : Qc) (x : list Qc) (h : Qc) (ns : list nat) (s s' : S)
    (next : list Qc) (err : Qc) : Prop :=
  exists vs, ref_results (N:=QcNum) rs t x h ns s s' vs /\ length next = n /\
    let value c a k := extrap (fun i => node sym (nth i ns 0)) (fun i => cmp_ (nth i vs []) c) a k in
    (forall c, c < n -> cmp_ next c = value c 0 (stages - 1)) /\
    if nocheck then err = 0%Qc else exists d, length d = n /\ (forall c, c < n -> cmp_ d c = (cmp_ next c - value c 1%nat (stages - 2)%nat)%Qc) /\ norm d = Ret err.

(** * The modified midpoint rule with substep h/2: y 0 is given, y 1 an Euler step, y (i+2) = y i + h f(y (i+1)); the time of y i is t + i h/2.
    The slopes are known up to m, the values up to m + 1. *)
Definition midpoint (n : nat) (f : Qc -> list Qc -> Outcome (list Qc)) (t h : Qc) (y slope : nat -> list Qc) (m : nat) : Prop :=
  (forall i, i <= m -> length (y i) = n /\ f (t + qn i * (h / qn 2))%Qc (y i) = Ret (slope i)) /\
  (forall j, j < n -> cmp_ (y 1) j = (cmp_ (y 0%nat) j + h / qn 2 * cmp_ (slope 0%nat) j)%Qc) /\
  (forall i, i + 1 <= m -> forall j, j < n -> cmp_ (y (i + 2)) j = (cmp_ (y i) j + h * cmp_ (slope (i + 1)%nat) j)%Qc).
