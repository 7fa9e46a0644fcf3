(** LexSpec.v - the number and identifier grammars, by decomposition of the text. *)
From Coq Require Import List Bool String Ascii NArith.
Import ListNotations.
Local Open Scope string_scope.

Definition chars (s : string) : list ascii := list_ascii_of_string s.
Definition all_in (set : list ascii) (s : string) : Prop := forall c, In c (chars s) -> In c set.
Definition digits_set : list ascii := chars "0123456789".
Definition lower : list ascii := chars "abcdefghijklmnopqrstuvwxyz".
Definition upper : list ascii := chars "ABCDEFGHIJKLMNOPQRSTUVWXYZ".
Definition is_digits (s : string) : Prop := all_in digits_set s.
Definition is_sign (s : string) : Prop := s = "" \/ s = "+" \/ s = "-".
(** optionally signed decimal integer *)
Definition integer_text (s : string) : Prop :=
  exists sg ds, s = sg ++ ds /\ is_sign sg /\ is_digits ds /\ ds <> "".
(** sign, digits with at most one point and at least one digit, exponent *)
Definition mantissa (s : string) : Prop :=
  exists ip pt fp, s = ip ++ pt ++ fp /\ is_digits ip /\ is_digits fp /\ (pt = "" \/ pt = ".") /\ ip ++ fp <> "".
Definition exponent (s : string) : Prop :=
  s = "" \/ exists e t, s = String e t /\ (e = "e"%char \/ e = "E"%char) /\ integer_text t.
Definition number_text (s : string) : Prop :=
  exists sg m e, s = sg ++ m ++ e /\ is_sign sg /\ mantissa m /\ exponent e.
Definition hex_text (s : string) : Prop := s <> "" /\ all_in (digits_set ++ chars "abcdefABCDEF") s.
(** the C identifier grammar, and the one the code accepts: six more characters *)
Definition word (first rest : list ascii) (s : string) : Prop :=
  exists c t, s = String c t /\ In c first /\ all_in rest t.
Definition c_identifier : string -> Prop :=
  word (lower ++ upper ++ chars "_") (lower ++ upper ++ chars "_" ++ digits_set).
Definition extra : list ascii := chars "[\]^_`".
Definition loose_identifier : string -> Prop :=
  word (lower ++ upper ++ extra) (lower ++ upper ++ extra ++ digits_set).
