(** UtilModel.v - model of util/m_inline.h, util/ErrorStats.h, timing/TimingStats.h and ode/OdeVarNameGenerator.h.
    Release build: ASSERT is nothing. *)
From Coq Require Import List Arith Bool ZArith QArith Qcanon Qround Reals String Ascii.
From Verif Require Import Base VOps ParModel.
Import ListNotations.
Local Open Scope Z_scope.

(** * util/m_inline.h *)
(** modp 53-64.  x is an int, m an unsigned; -x overflows for the least int; x % 0 is undefined; (-x)%m and the subtraction are unsigned. *)
Definition modp (x m : Z) : Outcome Z :=
  if m =? 0 then UB
  else if x <? 0 then
    if x =? INT_MIN then UB
    else let xx := (m - (- x) mod m) mod UINT_MOD in Ret (if xx =? m then 0 else xx)
  else Ret (x mod m).
(** static_cast<int> of a nonnegative value: truncates; undefined when the result is no int. *)
Definition cast_int (q : Q) : Outcome Z := if INT_MAX <? Qfloor q then UB else Ret (Qfloor q).
(** roundi 46-50 (exact arithmetic) *)
Definition roundi (x : Q) : Outcome Z :=
  if Qle_bool 0 x then cast_int (x + (1 # 2)) else r <- cast_int (- x + (1 # 2)) ;; Ret (- r).
(** modd 67-73 (exact arithmetic) *)
Definition modd (x period bias : Q) : Q := (x - bias - inject_Z (Qfloor ((x - bias) / period)) * period + bias)%Q.
(** Sgn 35, Min 39, Max 43 *)
Definition Sgn (x : Q) : Z := if Qle_bool 0 x then 1 else -1.
(** * cubic, 75-121 (real numbers) *)
Local Open Scope R_scope.
Definition f00 (t : R) : R := 1 + t*t*(t*2 - 3).
Definition f01 (t : R) : R := t*t*(3 - t*2).
Definition f10 (t : R) : R := t*(1 + t*(t - 2)).
Definition f11 (t : R) : R := t*t*(t - 1).
Definition df00 (t : R) : R := t*(t*6 - 6).
Definition df01 (t : R) : R := t*(6 - t*6).
Definition df10 (t : R) : R := 1 + t*(3*t - 4).
Definition df11 (t : R) : R := t*(3*t - 2).
Definition d2f00 (t : R) : R := t*12 - 6.
Definition d2f01 (t : R) : R := 6 - t*12.
Definition d2f10 (t : R) : R := 6*t - 4.
Definition d2f11 (t : R) : R := 6*t - 2.
(** the versions for a segment of length L, 91-104 *)
Definition f00L (x L : R) : R := f00 (x/L).
Definition f01L (x L : R) : R := f01 (x/L).
Definition f10L (x L : R) : R := f10 (x/L) * L.
Definition f11L (x L : R) : R := f11 (x/L) * L.
Definition df00L (x L : R) : R := df00 (x/L) / L.
Definition df01L (x L : R) : R := df01 (x/L) / L.
Definition df10L (x L : R) : R := df10 (x/L).
Definition df11L (x L : R) : R := df11 (x/L).
Definition d2f00L (x L : R) : R := d2f00 (x/L) / (L*L).
Definition d2f01L (x L : R) : R := d2f01 (x/L) / (L*L).
Definition d2f10L (x L : R) : R := d2f10 (x/L) / L.
Definition d2f11L (x L : R) : R := d2f11 (x/L) / L.
(** CalcCubicPolynom, CalcCubicPolynomD, CalcCubicPolynomD2, CalcCubicPolynomD3, 109-119 *)
Definition CalcCubicPolynom (f0 df0 f1 df1 t : R) : R := f0 + t * (df0 + t * (3*(f1-f0)-2*df0-df1 + t * (df1+df0+2*(f0-f1)))).
Definition CalcCubicPolynomD (f0 df0 f1 df1 t : R) : R := df0 + t * (6*(f1-f0)-4*df0-2*df1 + t * (3*(df1+df0)+6*(f0-f1))).
Definition CalcCubicPolynomD2 (f0 df0 f1 df1 t : R) : R := 6*(f1-f0)-4*df0-2*df1 + t * (6*(df1+df0)+12*(f0-f1)).
Definition CalcCubicPolynomD3 (f0 df0 f1 df1 t : R) : R := 6*(df1+df0)+12*(f0-f1).
Local Close Scope R_scope.

(** * util/ErrorStats.h for vectors (X = V; X = double behaves like vectors of one component).  Exact arithmetic. *)
Local Open Scope nat_scope.
Record estats : Type := mkEs { es_max : list Qc; es_sum : list Qc; es_sq : list Qc; es_n : Z }.
(** ErrorStats( zero ) 21-27 with zero = V(n), and the default constructor 17 (empty vectors) *)
Definition es_new (n : nat) : estats := mkEs (repeat 0%Qc n) (repeat 0%Qc n) (repeat 0%Qc n) 0.
Definition es_default : estats := mkEs [] [] [] 0.
Definition sqr_ (x : Qc) : Qc := (x * x)%Qc.
(** addSample 72-79.  std::max of vectors (VectorTemplate.h 469-480, 506-508) has the size of its first argument and reads the second with at;
    += loops over the destination (VOps.lzip).  An exception leaves what was assigned before it. *)
Definition es_add (e : list Qc) (s : estats) : estats * Outcome unit :=
  let c := ((es_n s + 1) mod UINT_MOD)%Z in
  let a := map Qcabs e in
  match lzip (N:=QcNum) Qcmaxb a (es_max s) with
  | Ret mx =>
      match lzip (N:=QcNum) Qcplus (es_sum s) a with
      | Ret sm =>
          match lzip (N:=QcNum) Qcplus (es_sq s) (map sqr_ a) with
          | Ret sq => (mkEs mx sm sq c, Ret tt)
          | Throw => (mkEs mx sm (es_sq s) c, Throw)
          | UB => (s, UB)
          end
      | Throw => (mkEs mx (es_sum s) (es_sq s) c, Throw)
      | UB => (s, UB)
      end
  | Throw => (mkEs (es_max s) (es_sum s) (es_sq s) c, Throw)
  | UB => (s, UB)
  end.
(** operator+ 90-95 by operator+= 81-88 *)
Definition es_merge (a b : estats) : Outcome estats :=
  mx <- lzip (N:=QcNum) Qcmaxb (es_max a) (es_max b) ;; sm <- lzip (N:=QcNum) Qcplus (es_sum a) (es_sum b) ;; sq <- lzip (N:=QcNum) Qcplus (es_sq a) (es_sq b) ;;
  Ret (mkEs mx sm sq ((es_n a + es_n b) mod UINT_MOD)%Z).
(** errorMeanValue 52-58 *)
Definition es_mean (s : estats) : list Qc := map (fun x => x * (1 / Q2Qc (inject_Z (es_n s))))%Qc (es_sum s).
(** errorMeanSqareDev 60-66: the vector of which it takes the square roots *)
Definition es_msd2 (s : estats) : Outcome (list Qc) :=
  r <- lzip (N:=QcNum) Qcplus (map sqr_ (es_sum s)) (es_sq s) ;; Ret (map (fun x => x * (1 / Q2Qc (inject_Z (es_n s))))%Qc r).
(** client: samples one by one *)
Fixpoint es_run (l : list (list Qc)) (s : estats) : estats * Outcome unit :=
  match l with [] => (s, Ret tt) | e :: t => match es_add e s with (s', Ret _) => es_run t s' | r => r end end.

(** * timing/TimingStats.h 14-46.  Tick counts are 64-bit, sample counts 32-bit unsigned. *)
Local Open Scope Z_scope.
Record tstats : Type := mkTs { ts_time : Z; ts_count : Z }.
Definition ts_new : tstats := mkTs 0 0.
Definition ts_add (t : Z) (s : tstats) : tstats := mkTs ((ts_time s + t) mod ULONG_MOD) ((ts_count s + 1) mod UINT_MOD).
Definition ts_merge (a b : tstats) : tstats := mkTs ((ts_time a + ts_time b) mod ULONG_MOD) ((ts_count a + ts_count b) mod UINT_MOD).
Definition ts_average (s : tstats) : Z := if 0 <? ts_count s then ts_time s / ts_count s else 0.

(** * ode/OdeVarNameGenerator.h *)
(** The conversion of an unsigned to int (FormatInt takes an int, util/cxx_str_fmt_num.h 11-13): modulo 2^32. *)
Definition as_int (i : Z) : Z := if INT_MAX <? i then i - UINT_MOD else i.
Definition FormatInt (i : Z) : string := to_string_Z (as_int i).
(** static_cast<int>( log10(n + 0.5) ) for n >= 0: the largest k >= 0 with 10^k <= n + 0.5, and 0 for n = 0, where -0.3 is truncated.
    Simplification: log10 is taken to be exact enough for its integer part. *)
Fixpoint log10_from (fuel : nat) (k p n : Z) : Z :=
  match fuel with O => k | S f => if 2 * (10 * p) <=? 2 * n + 1 then log10_from f (k + 1) (10 * p) n else k end.
Definition log10_int (n : Z) : Z := log10_from (S (Z.to_nat (Z.log2 n))) 0 1 n.
(** ndigits 44-46 *)
Definition ndigits (n : Z) : Z := 1 + Z.max 0 (log10_int n).
Fixpoint zeros (k : nat) : string := match k with O => ""%string | S k' => String "0"%char (zeros k') end.
(** formatUnnamedVar 48-52.  A negative difference becomes a huge unsigned, and the string constructor throws. *)
Definition formatUnnamedVar (varCount i : Z) : Outcome string :=
  let pad := ndigits varCount - ndigits i in
  if pad <? 0 then Throw else Ret ("UNNAMED_" ++ zeros (Z.to_nat pad) ++ FormatInt i)%string.
(** varIdByIndex 30-34 (unchecked access), varNameByIndex 36-38, varName 25-28 *)
Definition varNameByIndex (varCount : Z) (varIds : list nat) (i : nat) : Outcome string :=
  _ <- rd varIds i ;; formatUnnamedVar varCount (Z.of_nat i).
