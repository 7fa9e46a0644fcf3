(** ParModel.v - model of include/ode_num_int/infra/OptionalParameters.h: parameter values, nested parameter
    sets, paths.  A Value holds its nested set through a shared pointer, so nested sets live in a heap and a
    copied Value shares them.  The doubles and the type registry getter of a Value are not modelled. *)
From Coq Require Import List Arith Bool String Ascii ZArith NArith.
Require Import Verif.Base Verif.SMap Verif.LexModel.
Import ListNotations.
Local Open Scope string_scope.

(** * Nested sets *)
Definition loc := nat.
(** Value: m_value, m_nestedParameters.  OptionalParameters.h 143-144 *)
Record pvalue := mkV { v_text : string; v_nested : option loc }.
(** Parameters: std::map< std::string, Value >.  OptionalParameters.h 50 *)
Definition pset := list (string * pvalue).
Definition heap := list pset.
Definition path := list string.

(** parameters( root, path ): OptionalParameters.h 191-204; returns a reference, i.e. a location. *)
Fixpoint parameters (h : heap) (root : loc) (p : path) : Outcome loc :=
  match p with
  | [] => Ret root
  | item :: t =>
      ps <- rd h root ;;
      match mfind TOstr item ps with
      | None => Throw
      | Some v => match v_nested v with None => Throw | Some l => parameters h l t end
      end
  end.
(** decomposeValuePath: OptionalParameters.h 351-361 *)
Definition decomposeValuePath (p : path) : Outcome (path * string) :=
  match rev p with [] => Throw | name :: r => Ret (rev r, name) end.
(** value( root, path ): OptionalParameters.h 221-231; returns a reference: the set and the key in it. *)
Definition value_ref (h : heap) (root : loc) (p : path) : Outcome (loc * string) :=
  d <- decomposeValuePath p ;;
  l <- parameters h root (fst d) ;;
  ps <- rd h l ;;
  match mfind TOstr (snd d) ps with None => Throw | Some _ => Ret (l, snd d) end.
(** Reading through the reference. *)
Definition read_value (h : heap) (root : loc) (p : path) : Outcome pvalue :=
  r <- value_ref h root p ;;
  ps <- rd h (fst r) ;;
  match mfind TOstr (snd r) ps with None => UB | Some v => Ret v end.
(** Client code  value( root, path ) = v : Value's implicit copy assignment copies the pointer. *)
Definition assign_value (h : heap) (root : loc) (p : path) (v : pvalue) : Outcome heap :=
  r <- value_ref h root p ;;
  ps <- rd h (fst r) ;;
  wr h (fst r) (mput TOstr (snd r) v ps).

(** Client code: a sequence of text assignments. *)
Definition set_texts (root : loc) (ws : list (path * string)) (h : heap) : Outcome heap :=
  ofold (fun h w => assign_value h root (fst w) (mkV (snd w) None)) ws h.

(** * Paths as text *)
(** formatPath: OptionalParameters.h 363-372 *)
Fixpoint formatPath (p : path) : string :=
  match p with [] => "" | [a] => a | a :: t => a ++ "." ++ formatPath t end.
(** find_first_of('.'): the text before the first dot and the text after it *)
Fixpoint cut_dot (s : string) : string * option string :=
  match s with
  | EmptyString => ("", None)
  | String c t => if Ascii.eqb c "." then ("", Some t)
                  else let r := cut_dot t in (String c (fst r), snd r)
  end.
(** parsePath: OptionalParameters.h 374-388.  The index n is represented by the remaining text;
    [fuel] bounds the iterations by the text length. *)
Fixpoint parse_loop (fuel : nat) (rest : string) : path :=
  match fuel with
  | O => []
  | S fuel' =>
      match rest with
      | EmptyString => []                       (* n < size() fails *)
      | _ =>
          let c := cut_dot rest in
          match fst c with
          | EmptyString => []                   (* nd == n: break *)
          | comp => comp :: match snd c with None => [] | Some t => parse_loop fuel' t end
          end
      end
  end.
Definition parsePath (s : string) : path := parse_loop (String.length s) s.

(** * Scalars as text *)
(** std::to_string of a natural number / integer *)
Definition digit_char (d : N) : ascii := ascii_of_N (48 + d).
Fixpoint dec (fuel : nat) (n : N) (acc : string) : string :=
  match fuel with
  | O => acc
  | S f => if (n <? 10)%N then String (digit_char n) acc else dec f (n / 10)%N (String (digit_char (n mod 10)) acc)
  end.
Definition to_string_N (n : N) : string := dec (S (N.to_nat (N.log2 n))) n "".
Definition to_string_Z (z : Z) : string :=
  match z with Zneg p => "-" ++ to_string_N (Npos p) | _ => to_string_N (Z.to_N z) end.
Definition INT_MIN : Z := -2147483648.
Definition INT_MAX : Z := 2147483647.
Definition UINT_MOD : Z := 4294967296.
Definition LONG_MIN : Z := -9223372036854775808.
Definition LONG_MAX : Z := 9223372036854775807.
Definition ULONG_MOD : Z := 18446744073709551616.
(** Value( int ), Value( unsigned ), Value( bool ): OptionalParameters.h 78, 81, 92 *)
Definition Value_int (x : Z) : pvalue := mkV (to_string_Z x) None.
Definition Value_unsigned (x : Z) : pvalue := mkV (to_string_Z x) None.
Definition Value_bool (b : bool) : pvalue := mkV (if b then "true" else "false") None.

(** c_str() consumers stop at the first NUL *)
Fixpoint c_str (s : string) : string :=
  match s with EmptyString => "" | String c t => if Ascii.eqb c "000" then "" else String c (c_str t) end.
(** strtol / strtoul, base 10: optional sign, then the longest run of digits; None when there is no digit.
    (Leading white space cannot occur after the IsIntegerNumber check.)  Returns the sign and the magnitude. *)
Fixpoint run_digits (acc : Z) (s : string) : Z :=
  match s with
  | String c t => if digit c then run_digits (10 * acc + (Z.of_N (N_of_ascii c) - 48)) t else acc
  | EmptyString => acc
  end.
Definition scan_int (s : string) : option (bool * Z) :=
  let body := match s with String c t => if sign c then t else s | _ => s end in
  let neg := match s with String c _ => Ascii.eqb c "-" | _ => false end in
  match body with
  | String c _ => if digit c then Some (neg, run_digits 0 body) else None
  | _ => None
  end.
(** std::stoi: invalid_argument / out_of_range are exceptions *)
Definition stoi (s : string) : Outcome Z :=
  match scan_int s with
  | None => Throw
  | Some (neg, m) =>
      let z := if neg then Z.opp m else m in
      if ((z <? LONG_MIN) || (LONG_MAX <? z))%Z then Throw                    (* ERANGE *)
      else if ((z <? INT_MIN) || (INT_MAX <? z))%Z then Throw else Ret z
  end.
(** std::stoul: a minus sign negates modulo 2^64; ERANGE when the magnitude does not fit *)
Definition stoul (s : string) : Outcome Z :=
  match scan_int s with
  | None => Throw
  | Some (neg, m) =>
      if (ULONG_MOD <=? m)%Z then Throw
      else Ret ((if neg then Z.opp m else m) mod ULONG_MOD)%Z
  end.
(** toType( int& ): OptionalParameters.h 158-163 *)
Definition to_int (v : pvalue) : Outcome Z :=
  if IsIntegerNumber (c_str (v_text v)) then stoi (c_str (v_text v)) else Throw.
(** toType( unsigned& ): OptionalParameters.h 165-170 *)
Definition to_unsigned (v : pvalue) : Outcome Z :=
  if IsIntegerNumber (c_str (v_text v)) then x <- stoul (c_str (v_text v)) ;; Ret (x mod UINT_MOD)%Z else Throw.
(** toType( bool& ): OptionalParameters.h 172-180 *)
Definition to_bool (v : pvalue) : Outcome bool :=
  if String.eqb (v_text v) "0" || String.eqb (v_text v) "false" then Ret false
  else if String.eqb (v_text v) "1" || String.eqb (v_text v) "true" then Ret true
  else Throw.
