(** ExFac.v - concrete cases for PropFac.v and refutations. *)
From Coq Require Import List Bool String Ascii.
Require Import Verif.Base Verif.SMap Verif.FacModel Verif.FacSpec Verif.FacFacts Verif.PropFac.
Import ListNotations.
Local Open Scope string_scope.

Definition FI := mkIface "FactoryI" "RegistryI".
Definition FJ := mkIface "FactoryJ" "RegistryJ".
Definition X := mkImpl "MixinXI" "string".
Definition Y := mkImpl "MixinYI" "string".
Definition Z := mkImpl "MixinZJ" "string".
(** queries interleaved with registrations, an id re-registered, two interfaces sharing an id *)
Definition h1 : list fop := [OTypes FI; OReg FI X "b"; OReg FJ Z "b"; ONew FI "zz"; OReg FI Y "a"; OReg FI Y "b"; OTypeId X].

Lemma h1_good : good_names h1.
Proof.
  repeat split; intros; simpl in *; repeat match goal with H : _ \/ _ |- _ => destruct H as [H|H] end;
    try discriminate; try tauto; inversion H; subst; simpl; repeat split; discriminate.
Qed.
Lemma h1_disj : disjoint_names h1.
Proof.
  assert (A : forall i, mentions_iface h1 i -> i = FI \/ i = FJ).
  { intros i [(c & id & H)|[(id & H)|H]]; simpl in H; repeat destruct H as [H|H]; try discriminate; try tauto; inversion H; auto. }
  assert (B : forall c, mentions_impl h1 c -> c = X \/ c = Y \/ c = Z).
  { intros c [(i & id & H)|H]; simpl in H; repeat destruct H as [H|H]; try discriminate; try tauto; inversion H; auto. }
  intros i c Hi Hc. apply A in Hi. apply B in Hc. destruct Hi as [-> | ->]; destruct Hc as [->|[->| ->]]; simpl; discriminate.
Qed.
Lemma h1_query : ok_query h1 FI.
Proof.
  split; [simpl; repeat split; discriminate|].
  intros c [(i & id & H)|H]; simpl in H; repeat destruct H as [H|H]; try discriminate; try tauto; inversion H; simpl; discriminate.
Qed.
Example h1_b : exists st st', frun h1 = Ret st /\ newInstance st FI "b" = Ret (st', Y) /\ newInstance st FI "c" = Throw.
Proof.
  destruct (C13_factory_lookup h1 FI "b" h1_good h1_disj h1_query) as (st & E & A & _).
  destruct (C13_factory_lookup h1 FI "c" h1_good h1_disj h1_query) as (st2 & E2 & _ & B & _).
  rewrite E in E2. injection E2 as <-. destruct (A Y eq_refl) as (st' & F). exists st, st'. auto.
Qed.
Example h1_types : exists st st', frun h1 = Ret st /\ registeredTypes st FI = Ret (st', ["a"; "b"]).
Proof. vm_compute. eauto. Qed.
Example h1_id : last_reg FI "b" h1 = Some Y /\ last_id Y h1 = Some "b".
Proof. split; reflexivity. Qed.

(** One class registered under two ids: an object created as "a" says it is a "b". *)
Theorem C13_type_id_of_created_refuted :
  ~ (forall h i id c st st', good_names h -> disjoint_names h -> ok_query h i -> frun h = Ret st ->
       newInstance st i id = Ret (st', c) -> exists st'', typeIdOf st' c = Ret (st'', id)).
Proof.
  intro H. destruct (h1_types) as (st & _ & E & _).
  destruct (C13_factory_lookup h1 FI "a" h1_good h1_disj h1_query) as (st2 & E2 & A & _).
  destruct (A Y eq_refl) as (st' & F).
  destruct (H h1 FI "a" Y st2 st' h1_good h1_disj h1_query E2 F) as (st'' & G).
  assert (E3 : exists s, frun h1 = Ret s /\ exists s', newInstance s FI "a" = Ret (s', Y) /\ exists s'', typeIdOf s' Y = Ret (s'', "b"))
    by (vm_compute; eauto 10).
  destruct E3 as (s & E3 & s' & F3 & s'' & G3). rewrite E2 in E3. injection E3 as ->.
  rewrite F in F3. injection F3 as ->. rewrite G in G3. discriminate.
Qed.
(** Storage cells are keyed by the concatenated names: without the naming hypothesis two cells of different
    types coincide and the reinterpret_cast is undefined. *)
Theorem C13_key_collision_refuted :
  ~ (forall h, exists st, frun h = Ret st).
Proof.
  intro H. destruct (H [OTypes (mkIface "A" "B / C"); OTypeId (mkImpl "A / B" "C")]) as (st & E).
  vm_compute in E. discriminate.
Qed.
