(** What an inflation of a distribution is: probabilities of the events of the inflated scenario that
    every theory of the sources (classical, quantum or beyond) provides when the original scenario
    gives the distribution. *)
From Coq Require Import List Arith Bool QArith Qcanon.
From Verif Require Import ScenarioModel ScenarioSpec SymSpec KnowSpec MargModel LPSpec LPSpec2.
Import ListNotations.
Open Scope nat_scope.

(** the event that the operators of a list fire *)
Definition event_of (sc : scenario) (ops : list nat) : list bool := map (fun i => memb i ops) (seq 0 (length (lexorder sc))).
Definition either (v w : list bool) : list bool := map (fun q => fst q || snd q) (combine v w).
(** all its operators belong to jointly measurable measurements *)
Definition measurable_event (sc : scenario) (v : list bool) : Prop :=
  exists ms, jointly_measurable sc ms /\ forall i, nth i v false = true -> exists m o, In m ms /\ outcome_of sc m o i.
(** no source copy is involved in both *)
Definition separate (sc : scenario) (v w : list bool) : Prop :=
  forall i j p c s o p' c' s' o', nth i v false = true -> nth j w false = true ->
    nth_error (lexorder sc) i = Some (mkrow p c s o) -> nth_error (lexorder sc) j = Some (mkrow p' c' s' o') -> ~ share_copy c c'.

Record inflation_of (sc : scenario) (arr : ndarray) (P : list bool -> Qc) : Prop := {
  (* jointly measurable measurements have a joint distribution *)
  io_behaviour : scenario_behaviour sc P;
  (* copies are exchangeable *)
  io_invariant : relabelling_invariant sc P;
  (* events with different source copies are independent *)
  io_independent : forall v w, length v = length (lexorder sc) -> length w = length (lexorder sc) ->
    measurable_event sc (either v w) -> separate sc v w -> P (either v w) = (P v * P w)%Qc;
  (* parts of the inflation that are copies of the original scenario have the original probabilities:
     the sum over the outcomes [a] that agree with the event, at the private settings [x] of its
     parties and setting 0 of the others *)
  io_observed : forall ops, (forall k, In k ops -> k < length (lexorder sc)) ->
    let mon := map (fun k => nth k (lexorder sc) []) ops in
    one_operator_per_party mon -> one_copy_per_source mon -> parents_agree sc mon ->
    forall l x, NoDup l ->
      (forall a, In a l <-> Forall2 lt a (outcomes sc) /\ forall p c s o, In (mkrow (p + 1) c s o) mon -> nth p a 0 = o) ->
      length x = nr_parties sc ->
      (forall p, p < nr_parties sc ->
         (forall c s o y os, In (mkrow (p + 1) c s o) mon -> assoc (effective_to_parent sc p) s = Some (y :: os) -> nth p x 0 = y) /\
         ((forall c s o, ~ In (mkrow (p + 1) c s o) mon) -> nth p x 0 = 0)) ->
      P (event_of sc ops) = sumQ (map (fun a => nd_at arr (a ++ x)) l)
}.
