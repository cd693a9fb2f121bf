(** What the linear programme is about, independently of how it is generated: events of
    jointly performed measurements and their probabilities. *)
From Coq Require Import List Arith Bool QArith Qcanon.
From Verif Require Import MargModel CliqueSpec.
Import ListNotations.
Open Scope nat_scope.

(** An event is a set of operators, given by a vector of booleans.  A deterministic
    assignment says which operators fire; the event happens when all its operators fire. *)
Definition happens (w : nat -> bool) (v : list bool) : bool :=
  forallb (fun i => implb (nth i v false) (w i)) (seq 0 (length v)).
(** A distribution over assignments. *)
Definition mixture := list (Qc * (nat -> bool)).
Definition prob (ws : mixture) (v : list bool) : Qc :=
  sumQ (map (fun q => if happens (snd q) v then fst q else 0%Qc) ws).
Definition is_distribution (ws : mixture) : Prop :=
  (forall q, In q ws -> (0 <= fst q)%Qc) /\ sumQ (map fst ws) = 1%Qc.
(** Exactly one outcome (operator) of a measurement fires. *)
Definition one_outcome (g : list nat) (w : nat -> bool) : Prop :=
  exists i, In i g /\ w i = true /\ forall j, In j g -> w j = true -> j = i.
(** The event only involves measurements of [c]. *)
Definition involves (groups : list (list nat)) (c : list nat) (v : list bool) : Prop :=
  forall i, nth i v false = true -> exists t, In t c /\ In i (nth t groups []).

(** A behaviour: every set of pairwise compatible measurements has a joint distribution of
    outcomes, and P gives the probabilities of its events (so the marginals of different
    sets agree). *)
Definition behaviour (n : nat) (groups : list (list nat)) (compat : nat -> nat -> bool) (P : list bool -> Qc) : Prop :=
  forall c, is_clique (length groups) compat c ->
    exists ws, is_distribution ws /\
      (forall q t, In q ws -> In t c -> one_outcome (nth t groups []) (snd q)) /\
      (forall v, length v = n -> involves groups c v -> P v = prob ws v).

(** the event with its operators renamed by a permutation *)
Definition permuted (v : list bool) (g : list nat) : list bool := map (fun k => nth k v false) g.
Definition invariant (n : nat) (syms : list (list nat)) (P : list bool -> Qc) : Prop :=
  forall g v, In g syms -> length v = n -> P (permuted v g) = P v.

(** value of a row of coefficients *)
Definition row_value (x : nat -> Qc) (r : list (nat * Qc)) : Qc := sumQ (map (fun q => snd q * x (fst q))%Qc r).

(** a group of permutations of the operators that maps measurements to measurements,
    keeping the order of outcomes and the kind of party *)
Record symmetry_group (n : nat) (groups : list (bool * list nat)) (compat : nat -> nat -> bool) (syms : list (list nat)) : Prop := {
  sg_head : hd [] syms = seq 0 n;
  sg_range : forall g, In g syms -> length g = n /\ (forall i, In i g -> i < n) /\ NoDup g;
  sg_comp : forall g h, In g syms -> In h syms -> In (map (fun k => nth k g 0) h) syms;
  sg_inv : forall g, In g syms -> exists h, In h syms /\ map (fun k => nth k g 0) h = seq 0 n;
  sg_groups : forall g t, In g syms -> t < length groups ->
    exists t', t' < length groups /\ fst (nth t' groups (false, [])) = fst (nth t groups (false, [])) /\
      map (fun k => nth k g 0) (snd (nth t groups (false, []))) = snd (nth t' groups (false, []));
  sg_compat : forall g t u t' u', In g syms -> t < length groups -> u < length groups -> t' < length groups -> u' < length groups ->
    map (fun k => nth k g 0) (snd (nth t groups (false, []))) = snd (nth t' groups (false, [])) ->
    map (fun k => nth k g 0) (snd (nth u groups (false, []))) = snd (nth u' groups (false, [])) ->
    compat t u = compat t' u'
}.
