(** Behaviours of an inflated scenario, in terms of its measurements: a measurement is a
    party (0-based), the copies of the sources it acts on, and a setting; its outcomes are
    operators of the operator list. *)
From Coq Require Import List Arith QArith Qcanon.
From Verif Require Import ScenarioModel ScenarioSpec SymSpec LPSpec.
Import ListNotations.
Open Scope nat_scope.

Definition measurement := (nat * list nat * nat)%type.
Definition is_measurement (sc : scenario) (m : measurement) : Prop :=
  valid_operator sc (fst (fst m)) (snd (fst m)) (snd m) 0.
(** operator [i] of the list is outcome [o] of measurement [m] *)
Definition outcome_of (sc : scenario) (m : measurement) (o i : nat) : Prop :=
  nth_error (lexorder sc) i = Some (mkrow (fst (fst m) + 1) (snd (fst m)) (snd m) o).
Definition jointly_measurable (sc : scenario) (ms : list measurement) : Prop :=
  (forall m, In m ms -> is_measurement sc m) /\
  (forall m m', In m ms -> In m' ms ->
     commute_rule sc (fst (fst m)) (snd (fst m)) (snd m) (fst (fst m')) (snd (fst m')) (snd m')).

(** P gives the probability of every event (a set of operators that all fire); for jointly
    measurable measurements it comes from one joint distribution of their outcomes. *)
Definition scenario_behaviour (sc : scenario) (P : list bool -> Qc) : Prop :=
  forall ms, jointly_measurable sc ms ->
    exists ws, is_distribution ws /\
      (forall q m, In q ws -> In m ms -> exists o i, outcome_of sc m o i /\ snd q i = true /\
          forall o' i', outcome_of sc m o' i' -> snd q i' = true -> o' = o) /\
      (forall v, length v = length (lexorder sc) ->
         (forall i, nth i v false = true -> exists m o, In m ms /\ outcome_of sc m o i) ->
         P v = prob ws v).
(** P does not change when source copies are relabelled *)
Definition relabelling_invariant (sc : scenario) (P : list bool -> Qc) : Prop :=
  forall sigma g v, is_relabelling sc sigma -> induces sc sigma g -> length v = length (lexorder sc) ->
    P (permuted v g) = P v.
(** an event that fixes one outcome for each measurement of a maximal jointly measurable set *)
Definition complete_event (sc : scenario) (v : list bool) : Prop :=
  length v = length (lexorder sc) /\
  exists ms, ms <> [] /\ jointly_measurable sc ms /\
    (forall m, is_measurement sc m -> jointly_measurable sc (m :: ms) -> In m ms) /\
    (forall m, In m ms -> exists o i, outcome_of sc m o i /\ nth i v false = true) /\
    (forall i, nth i v false = true -> exists m o, In m ms /\ outcome_of sc m o i) /\
    (forall m o i o' i', In m ms -> outcome_of sc m o i -> outcome_of sc m o' i' -> nth i v false = true -> nth i' v false = true -> o = o').
