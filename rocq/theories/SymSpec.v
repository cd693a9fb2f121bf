(** Specification of inflation symmetries. *)
From Verif Require Import ScenarioModel.

(** A relabelling of source copies: for every source a bijection of its copies 1..level
    (0 means "not connected to this source" and stays). *)
Definition relabelling := nat -> nat -> nat.
Definition is_relabelling (sc : scenario) (sigma : relabelling) : Prop :=
  forall k, k < nr_sources sc ->
    sigma k 0 = 0 /\
    (forall c, 1 <= c <= nth k (levels sc) 0 -> 1 <= sigma k c <= nth k (levels sc) 0) /\
    (forall c c', 1 <= c <= nth k (levels sc) 0 -> 1 <= c' <= nth k (levels sc) 0 ->
        sigma k c = sigma k c' -> c = c').

(** its action on the copies of an operator *)
Definition relabel (sigma : relabelling) (copies : list nat) : list nat :=
  map (fun k => sigma k (nth k copies 0)) (seq 0 (length copies)).

(** [g] is the permutation of operator indices that the relabelling induces: position i
    holds the index of the relabelled i-th operator. *)
Definition induces (sc : scenario) (sigma : relabelling) (g : list nat) : Prop :=
  length g = length (lexorder sc) /\
  forall i p c s o, nth_error (lexorder sc) i = Some (mkrow p c s o) ->
    exists j, nth_error g i = Some j /\ nth_error (lexorder sc) j = Some (mkrow p (relabel sigma c) s o).

(** Two operators share a source copy. *)
Definition share_copy (c c' : list nat) : Prop :=
  exists k, nth k c 0 <> 0 /\ nth k c 0 = nth k c' 0.
