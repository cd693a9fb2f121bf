(** Specification of factorisation. *)
From Verif Require Import ScenarioModel SymSpec FactorModel.
From Coq Require Import Relation_Operators.

(** copies of the operator at position i of the monomial *)
Definition copies_at (sc : scenario) (mon : list nat) (i : nat) : list nat :=
  row_copies (nth (nth i mon 0) (lexorder sc) []).
(** positions i and j of the monomial carry operators that share a source copy *)
Definition adjacent_ops (sc : scenario) (mon : list nat) (i j : nat) : Prop :=
  i < length mon /\ j < length mon /\ share_copy (copies_at sc mon i) (copies_at sc mon j).
(** linked by a chain of operators of the monomial, consecutive ones sharing a copy *)
Definition linked (sc : scenario) (mon : list nat) : nat -> nat -> Prop :=
  clos_refl_sym_trans nat (adjacent_ops sc mon).
(** the piece with label q: operators of the monomial, in order, whose position has label q *)
Definition piece (mon lab : list nat) (q : nat) : list nat :=
  map (fun i => nth i mon 0) (filter (fun i => nth i lab 0 =? q) (seq 0 (length mon))).
(** how many different tuples of copy indices occur in the monomial *)
Definition distinct_copies (sc : scenario) (mon : list nat) : nat :=
  length (nodup (list_eq_dec Nat.eq_dec) (map (fun k => row_copies (nth k (lexorder sc) [])) mon)).
