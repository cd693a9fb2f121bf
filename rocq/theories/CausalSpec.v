(** Classical causal models of a scenario and the distributions they give.  Nothing here refers to
    the code except the description of the scenario (parties, sources, observed parents). *)
From Coq Require Import List Arith Bool QArith Qcanon.
From Verif Require Import ScenarioModel ScenarioSpec MargModel.
Import ListNotations.
Open Scope nat_scope.

(** ** Independent random variables with finitely many values *)
(** a distribution: values with their probabilities *)
Definition finite_distribution := list (Qc * nat).
Definition is_probability (d : finite_distribution) : Prop :=
  (forall wv, In wv d -> (0 <= fst wv)%Qc) /\ sumQ (map fst d) = 1%Qc.
Section Expectation.
Context {K : Type} (eqd : forall x y : K, {x = y} + {x <> y}) (D : K -> finite_distribution).
Definition assign (u : K -> nat) (x : K) (v : nat) : K -> nat := fun y => if eqd y x then v else u y.
(** the mean of [g] when the variables [L] are drawn independently and the others are as in [u] *)
Fixpoint mean (L : list K) (g : (K -> nat) -> Qc) (u : K -> nat) : Qc :=
  match L with
  | [] => g u
  | x :: L' => sumQ (map (fun wv => fst wv * mean L' g (assign u x (snd wv)))%Qc (D x))
  end.
End Expectation.
Definition indicator (b : bool) : Qc := if b then 1%Qc else 0%Qc.

(** ** Models *)
(** The exogenous variables: the sources (with a copy number, 0 in the original scenario) and the
    private noise of each party (with the copies of the sources that the party is connected to; none
    in the original scenario). *)
Inductive variable := Source (k copy : nat) | Noise (p : nat) (copies : list nat).
Definition var_dec : forall x y : variable, {x = y} + {x <> y}.
Proof. decide equality; try apply Nat.eq_dec; apply (list_eq_dec Nat.eq_dec). Defined.

(** Each party computes its outcome from the values of the sources, its noise, its setting and the
    outcomes of its observed parents. *)
Record causal_model := {
  source_distribution : nat -> finite_distribution;
  noise_distribution : nat -> finite_distribution;
  response : nat -> (nat -> nat) -> nat -> nat -> list nat -> nat }.
Definition distribution_of (m : causal_model) (x : variable) : finite_distribution :=
  match x with Source k _ => source_distribution m k | Noise p _ => noise_distribution m p end.
Record model_of (sc : scenario) (m : causal_model) : Prop := {
  mo_sources : forall k, k < nr_sources sc -> is_probability (source_distribution m k);
  mo_noise : forall p, p < nr_parties sc -> is_probability (noise_distribution m p);
  (* outcomes are in range *)
  mo_range : forall p u e x os, p < nr_parties sc -> response m p u e x os < nth p (outcomes sc) 0;
  (* a party only depends on the sources that reach it *)
  mo_local : forall p u u' e x os, p < nr_parties sc ->
    (forall k src, nth_error (sources sc) k = Some src -> reaches src p -> u k = u' k) ->
    response m p u e x os = response m p u' e x os }.

(** ** The distribution of the outcomes given the settings *)
Definition exogenous (sc : scenario) : list variable :=
  map (fun k => Source k 0) (seq 0 (nr_sources sc)) ++ map (fun p => Noise p []) (seq 0 (nr_parties sc)).
(** the outcomes [a] are those computed by the parties at settings [x] *)
Definition consistent (sc : scenario) (m : causal_model) (a x : list nat) (u : variable -> nat) : bool :=
  forallb (fun p => nth p a 0 =? response m p (fun k => u (Source k 0)) (u (Noise p [])) (nth p x 0)
                                     (map (fun q => nth q a 0) (nth p (parents sc) [])))
          (seq 0 (nr_parties sc)).
Definition observed (sc : scenario) (m : causal_model) (a x : list nat) : Qc :=
  mean var_dec (distribution_of m) (exogenous sc) (fun u => indicator (consistent sc m a x u)) (fun _ => 0).
(** the observed graph has no cycles *)
Definition acyclic (sc : scenario) : Prop :=
  exists rank : nat -> nat, forall p q, p < nr_parties sc -> In q (nth p (parents sc) []) -> rank q < rank p.
(** [arr], indexed by outcomes and then settings, is a distribution that the scenario can give *)
Definition compatible_distribution (sc : scenario) (arr : ndarray) : Prop :=
  nd_shape arr = outcomes sc ++ private_settings sc /\
  exists m, model_of sc m /\ forall a x, Forall2 lt a (outcomes sc) -> Forall2 lt x (private_settings sc) ->
    nd_at arr (a ++ x) = observed sc m a x.

(** [arr] is a mixture of such distributions (the parties also share randomness) *)
Definition mixture_of_compatible (sc : scenario) (arr : ndarray) : Prop :=
  nd_shape arr = outcomes sc ++ private_settings sc /\
  exists l : list (Qc * ndarray), (forall q, In q l -> (0 <= fst q)%Qc /\ compatible_distribution sc (snd q)) /\ sumQ (map fst l) = 1%Qc /\
    forall a x, Forall2 lt a (outcomes sc) -> Forall2 lt x (private_settings sc) ->
      nd_at arr (a ++ x) = sumQ (map (fun q => fst q * nd_at (snd q) (a ++ x))%Qc l).
