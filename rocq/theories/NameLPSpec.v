(** What the names of atoms and moments of linear programmes should satisfy. *)
From Coq Require Import List Arith Bool String Permutation Sorted.
From Verif Require Import CanonModel CanonSpec ScenarioModel SymModel NameSpec.
Import ListNotations.
Open Scope nat_scope.

(** The words of the atoms of a linear programme: increasing lists of operators (counted from 0)
    such that no relabelling of copies of sources, sorted again, is lexicographically smaller. *)
Definition lp_atom_word (sc : scenario) (w : list nat) : Prop :=
  w <> [] /\ StronglySorted lt w /\ (forall k, In k w -> k < List.length (lexorder sc)) /\
  forall g w', In g (discover_lexorder_symmetries sc) -> StronglySorted lt w' ->
    (forall k, In k w' <-> exists j, In j w /\ k = nth j g 0) -> lex_le w w'.
(** A factor of a moment: an atom or an empty factor *)
Definition lp_usable (sc : scenario) (w : list nat) : Prop := w = [] \/ lp_atom_word sc w.
