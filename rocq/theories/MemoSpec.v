(** Specification of the memoised functions. *)
From Verif Require Import CanonModel CanonSpec MemoModel.

(** [w] is not zero and not shortened by the relations: it does not contain the zero operator
    and no exchange of commuting neighbours brings equal or orthogonal operators together. *)
Definition reduced (nc ortho : table) (w : word) : Prop :=
  ~ In 0 w /\ forall u a b v, comm_eq nc w (u ++ a :: b :: v) -> a <> b /\ ortho a b = false.

(** [r] is the lexicographically first word among all words equal, up to commutations, to an
    image of [w] under a symmetry. *)
Definition is_representative (nc : table) (syms : list (list nat)) (w r : word) : Prop :=
  (exists g, In g syms /\ comm_eq nc (apply_lexsym g w) r) /\
  forall g r', In g syms -> comm_eq nc (apply_lexsym g w) r' -> lex_le r r'.

Definition in_range (L : nat) (w : word) : Prop := forall x, In x w -> x < L.

(** The calls of a history that is well behaved: full canonicalisation of any word (other
    than a product of several zero operators), and the other calls on reduced words of
    operators, on the identity or on zero. *)
Definition good_call (nc ortho : table) (L : nat) (c : call) : Prop :=
  match c with
  | Canon false w => trivial w = true -> length w <= 1
  | Canon true w | Repr _ w | Conj w =>
      w = [] \/ w = [0] \/ (reduced nc ortho w /\ in_range L w)
  end.

(** What a call must return, whatever happened before. *)
Definition right_answer (nc ortho : table) (commuting : bool) (syms : list (list nat)) (c : call) (r : word) : Prop :=
  match c with
  | Canon only w => to_canonical_1d_internal nc ortho commuting only w = Some r
  | Repr _ w => if trivial w then r = w else is_representative nc syms w r
  | Conj w => (forall a b, In a w -> In b w -> nc a b = false) /\ r = w \/
              (exists a b, In a w /\ In b w /\ nc a b = true) /\ is_representative nc syms (rev w) r
  end.
