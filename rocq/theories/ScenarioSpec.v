(** Specification of scenarios: which operators exist and when they commute. *)
From Verif Require Import ScenarioModel.

(** Party [p] (0-based) is reached by source [src]: directly or via a latent. *)
Definition reaches (src : source) (p : nat) : Prop :=
  In p (s_children src) \/ exists l, In l (s_latents src) /\ In p (l_desc l).

(** A scenario accepted by the constructor: vectors have matching lengths, every
    inflation level is positive, parent indices are parties, and every party has a source
    in its past (assertion in InflationProblem.py:273-274). *)
Record wf_scenario (sc : scenario) : Prop := {
  wf_settings : length (private_settings sc) = nr_parties sc;
  wf_parents : length (parents sc) = nr_parties sc;
  wf_parents_range : forall ps q, In ps (parents sc) -> In q ps -> q < nr_parties sc;
  wf_levels : length (levels sc) = nr_sources sc;
  wf_levels_pos : forall n, In n (levels sc) -> 1 <= n;
  wf_sourced : forall p, p < nr_parties sc -> exists src, In src (sources sc) /\ reaches src p
}.

(** The operators of the inflated scenario. *)
Definition valid_operator (sc : scenario) (p : nat) (copies : list nat) (s o : nat) : Prop :=
  p < nr_parties sc /\
  length copies = nr_sources sc /\
  (forall k src, nth_error (sources sc) k = Some src ->
     (reaches src p -> 1 <= nth k copies 0 <= nth k (levels sc) 0) /\
     (~ reaches src p -> nth k copies 0 = 0)) /\
  s < nr_settings sc p /\
  o < nth p (outcomes sc) 0.

(** Source [src] is relevant for whether operators of parties p and q commute:
    it acts on both "in the same place" (same party, or through a common latent). *)
Definition joins (src : source) (p q : nat) : Prop :=
  (p = q /\ In p (s_children src)) \/
  (exists l, In l (s_latents src) /\ In p (l_desc l) /\ In q (l_desc l)).
(** ... and does so non-classically. *)
Definition joins_quantum (src : source) (p q : nat) : Prop :=
  s_classical src = false /\
  ((p = q /\ In p (s_children src)) \/
   (exists l, In l (s_latents src) /\ l_nonclassical l = true /\ In p (l_desc l) /\ In q (l_desc l))).

(** The commutation rule of the package, in words: two operators commute when all
    sources that join them non-classically are in different copies, or when all
    sources that join them are in equal copies and they are of different parties
    or of the same setting. *)
Definition commute_rule (sc : scenario) (p : nat) (c : list nat) (s : nat)
                                        (p' : nat) (c' : list nat) (s' : nat) : Prop :=
  (forall k src, nth_error (sources sc) k = Some src -> joins_quantum src p p' -> nth k c 0 <> nth k c' 0) \/
  ((forall k src, nth_error (sources sc) k = Some src -> joins src p p' -> nth k c 0 = nth k c' 0) /\
   (p <> p' \/ s = s')).

(** Strict lexicographic order on rows. *)
Inductive lex_lt : list nat -> list nat -> Prop :=
| lt_nil x u : lex_lt [] (x :: u)
| lt_head a b u v : a < b -> lex_lt (a :: u) (b :: v)
| lt_tail a u v : lex_lt u v -> lex_lt (a :: u) (a :: v).
