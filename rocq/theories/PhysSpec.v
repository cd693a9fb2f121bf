(** What the physicality test should decide. *)
From Coq Require Import Relation_Operators.
From Verif Require Import ScenarioModel SymSpec.

(** positions i and j of a product carry operators of one party that share a source copy *)
Definition party_adjacent (m : list row) (i j : nat) : Prop :=
  i < length m /\ j < length m /\ row_party (nth i m []) = row_party (nth j m []) /\
  share_copy (row_copies (nth i m [])) (row_copies (nth j m [])).
(** ... or are linked by a chain of operators of that party *)
Definition party_linked (m : list row) : nat -> nat -> Prop :=
  clos_refl_sym_trans nat (party_adjacent m).
(** A factor of a product: the operators of one party, in order, that are linked to each other;
    [idx] lists their positions in increasing order. *)
Definition is_factor (m : list row) (idx : list nat) : Prop :=
  exists i, i < length m /\ (forall j, In j idx <-> j < length m /\ party_linked m i j) /\
    (forall a b, a < b < length idx -> nth a idx 0 < nth b idx 0).
Definition factor_rows (m : list row) (idx : list nat) : list row := map (fun k => nth k m []) idx.
(** reads the same forwards and backwards *)
Definition palindrome {A} (l : list A) : Prop := rev l = l.

(** ** positivity *)
From Coq Require Import QArith Qcanon.
From Verif Require Import CanonSpec.
Open Scope nat_scope.
(** An assignment of (real) values to products that a quantum state could give: equal products
    have equal values, zero has value zero, and u^dagger u has a non-negative value. *)
Record state (nc ortho : table) (L : word -> Qc) : Prop := {
  st_eq : forall u v, proj_eq nc ortho u v -> L u = L v;
  st_zero : L [0] = 0%Qc;
  st_pos : forall u, (0 <= L (rev u ++ u))%Qc
}.
(** a product of the form u^dagger u, hence of non-negative value in every state *)
Definition is_square (nc ortho : table) (w : word) : Prop :=
  exists u, proj_eq nc ortho w (rev u ++ u).
