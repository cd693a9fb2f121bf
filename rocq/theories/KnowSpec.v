(** Specification of knowability. *)
From Verif Require Import ScenarioModel ScenarioSpec.

(** A party occurs at most once. *)
Definition one_operator_per_party (mon : list row) : Prop :=
  forall i j p c s o c' s' o',
    nth_error mon i = Some (mkrow p c s o) -> nth_error mon j = Some (mkrow p c' s' o') -> i = j.
(** Operators connected to the same source use the same copy of it. *)
Definition one_copy_per_source (mon : list row) : Prop :=
  forall p c s o p' c' s' o' k,
    In (mkrow p c s o) mon -> In (mkrow p' c' s' o') mon ->
    nth k c 0 <> 0 -> nth k c' 0 <> 0 -> nth k c 0 = nth k c' 0.
(** The parents' outcomes that an operator's setting hypothesises are the outcomes of the
    parents' operators, which are in the monomial. *)
Definition parents_agree (sc : scenario) (mon : list row) : Prop :=
  forall p c s o, In (mkrow (p + 1) c s o) mon ->
    exists x os, assoc (effective_to_parent sc p) s = Some (x :: os) /\
      length os = length (nth p (parents sc) []) /\
      forall m q, nth_error (nth p (parents sc) []) m = Some q ->
        exists c' s', In (mkrow (q + 1) c' s' (nth m os 0)) mon.
