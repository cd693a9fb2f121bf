(** What factorisation conditions say. *)
From Coq Require Import List QArith Qcanon.
From Verif Require Import MargModel ScenarioModel InflatedSpec.
Import ListNotations.
Close Scope Q_scope. Close Scope Qc_scope. Open Scope nat_scope.

(** a vector of values for the columns satisfies the conditions: the value of the key is the product of
    the values of its parts *)
Definition satisfies (x : nat -> Qc) (conditions : list (nat * list nat)) : Prop :=
  forall c parts, In (c, parts) conditions -> x c = fold_right Qcmult 1%Qc (map x parts).
(** events that involve different source copies are independent *)
Definition independent_sources (sc : scenario) (P : list bool -> Qc) : Prop :=
  forall v w, length v = length (lexorder sc) -> length w = length (lexorder sc) ->
    measurable_event sc (either v w) -> separate sc v w -> P (either v w) = (P v * P w)%Qc.
