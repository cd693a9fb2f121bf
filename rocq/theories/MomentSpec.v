(** Specification of a moment matrix. *)
From Verif Require Import CanonModel CanonSpec.

(** Two products have the same (real) moment when they are equal up to the
    projector relations, possibly after Hermitian conjugation (reversal). *)
Definition same_moment (nc ortho : table) (u v : word) : Prop :=
  proj_eq nc ortho u v \/ proj_eq nc ortho u (rev v).

(** the product at row i, column j: (column i)^dagger * (column j) *)
Definition entry (cols : list word) (i j : nat) : word :=
  rev (nth i cols []) ++ nth j cols [].
