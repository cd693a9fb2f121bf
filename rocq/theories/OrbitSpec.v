(** Specification of symmetrisation: orbits of matrix entries under a group of permutations
    of rows and columns. *)
From Coq Require Import Permutation.
From Verif Require Import OrbitModel.

(** The permutations in [syms], together with the identity, form a group of permutations of
    0..n-1 (a permutation is a list, position i holding the image of i). *)
Definition id_perm (n : nat) : list nat := seq 0 n.
Definition compose (g h : list nat) : list nat := map (fun j => nth j g 0) h.
Definition group_with_identity (n : nat) (syms : list (list nat)) : Prop :=
  let G := fun g => g = id_perm n \/ In g syms in
  (forall g, G g -> Permutation g (id_perm n)) /\
  (forall g h, G g -> G h -> G (compose g h)) /\
  (forall g, G g -> exists h, G h /\ compose h g = id_perm n).

(** Equal entries are moved to equal entries. *)
Definition acts_on_entries (n : nat) (M : matrix) (syms : list (list nat)) : Prop :=
  forall g i j i' j', In g syms -> i < n -> j < n -> i' < n -> j' < n ->
    M i j = M i' j' -> M (nth i g 0) (nth j g 0) = M (nth i' g 0) (nth j' g 0).

(** Two values of the matrix are in the same orbit. *)
Definition same_orbit (n : nat) (M : matrix) (syms : list (list nat)) (x y : nat) : Prop :=
  exists g i j, (g = id_perm n \/ In g syms) /\ i < n /\ j < n /\
    M i j = x /\ M (nth i g 0) (nth j g 0) = y.
