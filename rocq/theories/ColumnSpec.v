(** Specification of symmetries of operators acting on columns. *)
From Coq Require Import Permutation.
From Verif Require Import CanonModel CanonSpec MomentSpec ColumnModel OrbitSpec.

(** [syms] is a group of permutations of the operator indices 0..L-1, the identity first,
    that fix the zero operator and change neither commutation nor orthogonality. *)
Record operator_symmetries (nc ortho : table) (L : nat) (syms : list (list nat)) : Prop := {
  os_first : exists t, syms = seq 0 L :: t;
  os_perm : forall g, In g syms -> Permutation g (seq 0 L);
  os_zero : forall g, In g syms -> nth 0 g 0 = 0;
  os_nc : forall g a b, In g syms -> a < L -> b < L -> nc (nth a g 0) (nth b g 0) = nc a b;
  os_ortho : forall g a b, In g syms -> a < L -> b < L -> ortho (nth a g 0) (nth b g 0) = ortho a b;
  os_comp : forall g h, In g syms -> In h syms -> In (compose g h) syms;
  os_inv : forall g, In g syms -> exists h, In h syms /\ compose h g = seq 0 L;
  (* indices outside 0..L-1 do not denote operators *)
  os_out : forall a b, L <= a \/ L <= b -> nc a b = false /\ (a <> 0 -> b <> 0 -> ortho a b = false)
}.

(** Columns as build_columns makes them: canonical words of operators, without repetition. *)
Record good_columns (nc ortho : table) (L : nat) (cols : list word) : Prop := {
  gcol_nodup : NoDup cols;
  gcol_range : forall w x, In w cols -> In x w -> x < L;
  gcol_canon : forall w, In w cols -> to_canonical_1d_internal nc ortho false false w = Some w
}.

(** The symmetry g maps every column to a column (up to commutations). *)
Definition keeps_columns (nc : table) (cols : list word) (g : list nat) : Prop :=
  forall w, In w cols -> exists w', In w' cols /\ comm_eq nc (apply_lexsym g w) w'.

(** [pi] is the permutation of columns that g induces. *)
Definition moves_columns (nc : table) (cols : list word) (g pi : list nat) : Prop :=
  length pi = length cols /\
  forall i, i < length cols -> nth i pi 0 < length cols /\
     comm_eq nc (apply_lexsym g (nth i cols [])) (nth (nth i pi 0) cols []).
