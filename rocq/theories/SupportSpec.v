(** Which sets of possible events a scenario can give (supports_problem = True). *)
From Coq Require Import List Arith Bool QArith Qcanon.
From Verif Require Import CanonModel ScenarioModel ScenarioSpec MargModel CausalSpec.
Import ListNotations.
Close Scope Q_scope. Close Scope Qc_scope. Open Scope nat_scope.

(** the same events have non-zero probability *)
Definition same_support (sc : scenario) (arr x : ndarray) : Prop :=
  forall o i, Forall2 lt o (outcomes sc) -> Forall2 lt i (private_settings sc) ->
    (0 <= nd_at arr (o ++ i))%Qc /\ (0 <= nd_at x (o ++ i))%Qc /\ (nd_at arr (o ++ i) = 0%Qc <-> nd_at x (o ++ i) = 0%Qc).
(** [arr] (with numbers of any size in the places of the possible events) is the support of a
    distribution that the scenario can give *)
Definition possible_support (sc : scenario) (arr : ndarray) : Prop := exists x, compatible_distribution sc x /\ same_support sc arr x.
(** ... when the parties also share randomness *)
Definition possible_support_shared (sc : scenario) (arr : ndarray) : Prop := exists x, mixture_of_compatible sc x /\ same_support sc arr x.
(** a table of possibilities: 0 for impossible events *)
Definition possibility_table (sc : scenario) (arr : ndarray) : Prop :=
  forall o i, Forall2 lt o (outcomes sc) -> Forall2 lt i (private_settings sc) -> nd_at arr (o ++ i) = 0%Qc \/ (1 <= nd_at arr (o ++ i))%Qc.
