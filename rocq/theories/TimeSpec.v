(** TimeSpec.v - vocabulary for C77. *)
From Coq Require Import List Arith Bool ZArith QArith String Ascii.
From Verif Require Import Base SMap ParModel LexModel LexSpec ParSpec UtilModel UtilSpec TimeModel.
Import ListNotations.
Local Open Scope Z_scope.

(** The tick counter shows the number of ticks since some moment modulo 2^64. *)
Definition reading (t : Z) : Z := t mod 2 ^ 64.
(** times at which things happen, in order, none 2^64 ticks or more after the one before *)
Fixpoint in_order (a : Z) (l : list Z) : Prop := match l with [] => True | t :: r => a <= t < a + 2 ^ 64 /\ in_order t r end.
(** durations between consecutive times *)
Fixpoint durations (a : Z) (l : list Z) : list Z := match l with [] => [] | t :: r => (t - a) :: durations t r end.
(** scopes one after the other between [a] and [b] *)
Fixpoint consecutive (a b : Z) (l : list (Z * Z)) : Prop := match l with [] => a <= b | (s, e) :: r => a <= s /\ s <= e /\ consecutive e b r end.
(** what a solver does with its right-hand side: a call that returns or throws; refreshing the Jacobian with calls inside *)
Record call : Type := mkCall { began : Z; ended : option Z }.
Inductive doing := ACall (c : call) | ARefresh (b : Z) (cs : list call) (e : Z).
Definition call_events (c : call) : list sev := EBefore (reading (began c)) :: match ended c with Some e => [EAfter (reading e)] | None => [] end.
Definition events (d : doing) : list sev :=
  match d with
  | ACall c => call_events c
  | ARefresh b cs e => ERefresh true (reading b) :: flat_map call_events cs ++ [ERefresh false (reading e)]
  end.
Definition calls (d : doing) : list call := match d with ACall c => [c] | ARefresh _ cs _ => cs end.
Definition calls_for_J (d : doing) : list call := match d with ACall _ => [] | ARefresh _ cs _ => cs end.
Definition completed (cs : list call) : list Z := flat_map (fun c => match ended c with Some e => [e - began c] | None => [] end) cs.
Definition refreshes (l : list doing) : list Z := flat_map (fun d => match d with ACall _ => [] | ARefresh b _ e => [e - b] end) l.
Definition count (l : list Z) : Z := Z.of_nat (List.length l).
(** a text of [w] decimal digits with the value [z] *)
Definition digits_of (w : nat) (s : string) (z : Z) : Prop := is_digits s /\ String.length s = w /\ numeral s = z.
(** [s] is the text H:MM:SS of the numbers *)
Definition clock_text (s : string) (h m sc : Z) : Prop :=
  exists hs ms ss, s = (hs ++ ":" ++ ms ++ ":" ++ ss)%string /\ denotes hs h /\ hs = utext h /\ digits_of 2 ms m /\ digits_of 2 ss sc /\ 0 <= m < 60 /\ 0 <= sc < 60.
