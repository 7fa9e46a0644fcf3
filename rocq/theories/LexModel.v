(** LexModel.v - model of include/ode_num_int/util/lex_idnum.h.
    std::regex_match is modelled by its specification (whole-string match of a regular expression, ECMAScript
    syntax restricted to classes, concatenation, alternation, ?, *, +), computed by derivatives.
    Not modelled: the stack depth of the library's backtracking matcher on very long strings. *)
From Coq Require Import List Bool String Ascii NArith.
Import ListNotations.

Inductive re := REmpty | REps | RCls (f : ascii -> bool) | RSeq (a b : re) | RAlt (a b : re) | RStar (a : re).
Fixpoint nullable (r : re) : bool :=
  match r with
  | REmpty => false | REps => true | RCls _ => false
  | RSeq a b => nullable a && nullable b | RAlt a b => nullable a || nullable b | RStar _ => true
  end.
Fixpoint deriv (c : ascii) (r : re) : re :=
  match r with
  | REmpty => REmpty | REps => REmpty
  | RCls f => if f c then REps else REmpty
  | RSeq a b => if nullable a then RAlt (RSeq (deriv c a) b) (deriv c b) else RSeq (deriv c a) b
  | RAlt a b => RAlt (deriv c a) (deriv c b)
  | RStar a => RSeq (deriv c a) (RStar a)
  end.
Fixpoint regex_match (s : string) (r : re) : bool :=
  match s with EmptyString => nullable r | String c t => regex_match t (deriv c r) end.
Definition ropt r := RAlt REps r.
Definition rplus r := RSeq r (RStar r).

(** character class [a-b] *)
Definition range (a b c : ascii) : bool := N.leb (N_of_ascii a) (N_of_ascii c) && N.leb (N_of_ascii c) (N_of_ascii b).
Definition one (a c : ascii) : bool := Ascii.eqb a c.
Definition digit : ascii -> bool := range "0" "9".                                      (* [0-9] *)
Definition sign : ascii -> bool := fun c => one "+" c || one "-" c.                     (* [+-] *)
Local Open Scope char_scope.

(** IsIdentifier: lex_idnum.h 62-66   ^[a-zA-z_][a-zA-z0-9_]*$  *)
Definition IsIdentifier (s : string) : bool :=
  regex_match s (RSeq (RCls (fun c => range "a" "z" c || range "A" "z" c || one "_" c))
                      (RStar (RCls (fun c => range "a" "z" c || range "A" "z" c || range "0" "9" c || one "_" c)))).
(** IsNumber: lex_idnum.h 69-74   ^[+-]?([0-9]*\.?[0-9]+|[0-9]+\.?[0-9]* )([eE][+-]?[0-9]+)?$  *)
Definition IsNumber (s : string) : bool :=
  regex_match s
    (RSeq (ropt (RCls sign))
      (RSeq (RAlt (RSeq (RStar (RCls digit)) (RSeq (ropt (RCls (one "."))) (rplus (RCls digit))))
                  (RSeq (rplus (RCls digit)) (RSeq (ropt (RCls (one "."))) (RStar (RCls digit)))))
            (ropt (RSeq (RCls (fun c => one "e" c || one "E" c)) (RSeq (ropt (RCls sign)) (rplus (RCls digit))))))).
(** IsIntegerNumber: lex_idnum.h 77-81   ^[+-]?[0-9]+$  *)
Definition IsIntegerNumber (s : string) : bool :=
  regex_match s (RSeq (ropt (RCls sign)) (rplus (RCls digit))).
(** IsHexIntegerNumber: lex_idnum.h 84-88   ^[0-9a-fA-F]+$  *)
Definition IsHexIntegerNumber (s : string) : bool :=
  regex_match s (rplus (RCls (fun c => range "0" "9" c || range "a" "f" c || range "A" "F" c))).
