(** What a clique is, independently of the enumeration. *)
From Coq Require Import List Arith Sorted.

(** a set of vertices below [n], listed in increasing order, that are pairwise adjacent *)
Definition is_clique (n : nat) (adj : nat -> nat -> bool) (c : list nat) : Prop :=
  StronglySorted lt c /\ (forall x, In x c -> x < n) /\
  (forall x y, In x c -> In y c -> x <> y -> adj x y = true).

(** no vertex can be added *)
Definition is_maximal (n : nat) (adj : nat -> nat -> bool) (c : list nat) : Prop :=
  is_clique n adj c /\ forall v, v < n -> ~ In v c -> exists x, In x c /\ adj x v = false.

Definition undirected (n : nat) (adj : nat -> nat -> bool) : Prop :=
  forall x y, x < n -> y < n -> adj x y = adj y x.
