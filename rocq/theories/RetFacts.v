(** RetFacts.v - when a run of Newton's method makes a second attempt; the low order of the extrapolation solver. *)
From Coq Require Import List Arith Bool ZArith Lia QArith Qcanon.
From Verif Require Import Base VecModel VOps MapModel JacModel NewtModel NewtSpec PropNewt LUModel BroModel.
From Verif Require Import RkModel RkSpec StepModel ExtModel ExtSpec ConvSpec HighSpec XrkModel XrkSpec XrkFacts8.
Import ListNotations.
Local Open Scope nat_scope.

Lemma second_yes {N : Num} {S : Type} (dd : ddir N S) lit mt g limit (p p' : perf N (S:=S)) log st :
  (forall s, dd_help dd s = true) -> nrun (plain_comps dd lit mt g) limit p = Ret (p', log, st) ->
  guesses log = (if match st with NConverged | NTerminated => true | _ => false end then guesses log else [p_x p]) /\ (guesses log = [] \/ guesses log = [p_x p]).
Proof.
  intros H E. destruct (C27_iterations _ _ _ _ _ _ _ _ E) as (s0 & a & b & R & _ & _ & _ & _ & _ & G).
  cbn in R. injection R as <-. cbn in G.
  assert (G2 : guesses log = [] \/ guesses log = [p_x p]) by tauto. split; [|exact G2].
  destruct st; try reflexivity.
  - destruct (C27_status _ _ _ _ _ _ _ _ E) as (_ & _ & _ & _ & D & _). destruct (D eq_refl) as [D1 _]. tauto.
  - destruct G2 as [G2|G2]; [|exact G2]. destruct (C27_calls _ _ _ _ _ _ _ _ E) as (s1 & _ & _ & _ & L). destruct (L eq_refl G2) as (l1 & s2 & _ & _ & F). cbn in F. rewrite H in F. discriminate F.
Qed.
Lemma second_no {N : Num} {S : Type} (dd : ddir N S) lit mt g limit (p p' : perf N (S:=S)) log st :
  (forall s, dd_help dd s = false) -> nrun (plain_comps dd lit mt g) limit p = Ret (p', log, st) -> guesses log = [].
Proof.
  intros H E. destruct (C27_calls _ _ _ _ _ _ _ _ E) as (s1 & _ & _ & [G|G] & _); [exact G|]. destruct G as (l1 & l2 & s2 & _ & _ & _ & F). cbn in F. rewrite H in F. discriminate F.
Qed.
Theorem attempts (P : Type) (jp : jprov P) lit mt g limit :
  (forall (p p' : perf QcNum (S:=bst P)) log st dd, In dd [bro_dd jp; fake_dd jp; hart_dd jp] -> nrun (plain_comps dd lit mt g) limit p = Ret (p', log, st) ->
     (guesses log = [] \/ guesses log = [p_x p]) /\ (st <> NConverged -> st <> NTerminated -> guesses log = [p_x p])) /\
  (forall lazy (p p' : perf QcNum (S:=@BroModel.lst P)) log st, nrun (plain_comps (lazy_dd jp lazy) lit mt g) limit p = Ret (p', log, st) ->
     (guesses log = [] \/ guesses log = [p_x p]) /\ (st <> NConverged -> st <> NTerminated -> guesses log = [p_x p])) /\
  (forall dx jt (p p' : perf QcNum (S:=LUModel.lu)) log st, nrun (plain_comps (const_dd dx jt g) lit mt g) limit p = Ret (p', log, st) ->
     (guesses log = [] \/ guesses log = [p_x p]) /\ (st <> NConverged -> st <> NTerminated -> guesses log = [p_x p])) /\
  (forall dx jt (p p' : perf QcNum (S:=LUModel.lu)) log st, nrun (plain_comps (simple_dd dx jt g) lit mt g) limit p = Ret (p', log, st) -> guesses log = []).
Proof.
  assert (A : forall S (dd : ddir QcNum S) (p p' : perf QcNum (S:=S)) log st, (forall s, dd_help dd s = true) -> nrun (plain_comps dd lit mt g) limit p = Ret (p', log, st) ->
     (guesses log = [] \/ guesses log = [p_x p]) /\ (st <> NConverged -> st <> NTerminated -> guesses log = [p_x p])).
  { intros S dd p p' log st H E. destruct (second_yes dd lit mt g limit p p' log st H E) as [G1 G2]. split; [exact G2|]. intros N1 N2. destruct st; try contradiction; exact G1. }
  split; [|split; [|split]].
  - intros p p' log st dd I E. refine (A _ dd p p' log st _ E). intros s. destruct I as [<-|[<-|[<-|[]]]]; reflexivity.
  - intros lazy p p' log st E. refine (A _ _ p p' log st _ E). reflexivity.
  - intros dx jt p p' log st E. refine (A _ _ p p' log st _ E). reflexivity.
  - intros dx jt p p' log st E. refine (second_no _ lit mt g limit p p' log st _ E). reflexivity.
Qed.
Lemma inc_tl ns m : 2 <= m -> increasing ns m -> increasing (tl ns) (m - 1).
Proof.
  intros M [L [P I]]. destruct ns as [|a ns]; [simpl in L; lia|]. cbn [tl]. simpl in L. split; [lia|]. split.
  - specialize (I 0 1 ltac:(lia) ltac:(lia)). simpl in I, P. destruct ns as [|b ns]; [simpl in L; lia|]. simpl in *. lia.
  - intros i j H1 H2. exact (I (S i) (S j) ltac:(lia) ltac:(lia)).
Qed.
Theorem reported_low : forall (ns : list nat) (m : nat), 2 <= m -> increasing ns m ->
  (exists big bigstages, wf_table big bigstages 1 /\ order_conditions big bigstages 0 (Z.to_nat (x_low_order 1 m false)) /\ row_sums big bigstages /\
    forall (W Q : Type) (f : Qc -> list Qc -> Outcome (list Qc)) (n : nat) (sq : stepseq Q) (c : xcfg QcNum),
    good_rhs (N:=QcNum) n f -> delivers sq (tl ns) -> xc_stages c = m - 1 -> xc_sym c = false -> (xc_nocheck c = false -> 3 <= m) ->
    steps_by (rk_ref (N:=QcNum) no_events (fun _ : W => f) tab_euler n) sq c n f big bigstages) /\
  forall smooth, exists big bigstages, wf_table big bigstages 1 /\ order_conditions big bigstages 0 (Z.to_nat (x_low_order 2 m true)) /\ row_sums big bigstages /\
    forall (W Q : Type) (f : Qc -> list Qc -> Outcome (list Qc)) (n : nat) (sq : stepseq Q) (c : xcfg QcNum),
    good_rhs (N:=QcNum) n f -> delivers sq (tl ns) -> xc_stages c = m - 1 -> xc_sym c = true -> (xc_nocheck c = false -> 3 <= m) ->
    steps_by (gragg_ref (N:=QcNum) no_events (fun _ : W => f) smooth (1 / qn 2)%Qc (qn 2)) sq c n f big bigstages.
Proof.
  intros ns m M INC. destruct (reported_order (tl ns) (m - 1) ltac:(lia) (inc_tl ns m M INC)) as [A B]. split.
  - destruct A as (big & bs & A1 & A2 & A3 & A4). exists big, bs. split; [exact A1|]. split; [replace (x_low_order 1 m false) with (x_order 1 (m - 1) false) by (unfold x_low_order, x_order; lia); exact A2|]. split; [exact A3|].
    intros W Q f n sq c G D S1 S2 S3. apply (A4 W Q); try assumption. intros H. specialize (S3 H). lia.
  - intros smooth. destruct (B smooth) as (big & bs & A1 & A2 & A3 & A4). exists big, bs. split; [exact A1|]. split; [replace (x_low_order 2 m true) with (x_order 2 (m - 1) true) by (unfold x_low_order, x_order; lia); exact A2|]. split; [exact A3|].
    intros W Q f n sq c G D S1 S2 S3. apply (A4 W Q); try assumption. intros H. specialize (S3 H). lia.
Qed.
Theorem low_order_any : forall r m sym, 2 <= m -> x_low_order r m sym = x_order r (m - 1) sym.
Proof. intros r m [|] M; unfold x_low_order, x_order; lia. Qed.
