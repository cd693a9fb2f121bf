(** Specification of operator words, independent of the algorithm. *)
From Verif Require Import CanonModel.

(** Two words are equal up to exchanging neighbouring operators that commute. *)
Inductive comm_eq (nc : table) : word -> word -> Prop :=
| ce_refl w : comm_eq nc w w
| ce_swap u a b v : nc a b = false -> comm_eq nc (u ++ a :: b :: v) (u ++ b :: a :: v)
| ce_sym w1 w2 : comm_eq nc w1 w2 -> comm_eq nc w2 w1
| ce_trans w1 w2 w3 : comm_eq nc w1 w2 -> comm_eq nc w2 w3 -> comm_eq nc w1 w3.

(** Lexicographic order on words (as Python tuples are compared). *)
Inductive lex_le : word -> word -> Prop :=
| ll_nil w : lex_le [] w
| ll_lt a b u v : a < b -> lex_le (a :: u) (b :: v)
| ll_eq a u v : lex_le u v -> lex_le (a :: u) (a :: v).

(** Equality of products of projectors: the congruence generated by the
    commutations, a*a = a, and the vanishing of orthogonal neighbours.  The
    index 0 denotes the zero operator, so the word [0] is the zero product. *)
Inductive proj_eq (nc ortho : table) : word -> word -> Prop :=
| pe_refl w : proj_eq nc ortho w w
| pe_sym w1 w2 : proj_eq nc ortho w1 w2 -> proj_eq nc ortho w2 w1
| pe_trans w1 w2 w3 :
    proj_eq nc ortho w1 w2 -> proj_eq nc ortho w2 w3 -> proj_eq nc ortho w1 w3
| pe_comm u a b v : nc a b = false ->
    proj_eq nc ortho (u ++ a :: b :: v) (u ++ b :: a :: v)
| pe_idem u a v : proj_eq nc ortho (u ++ a :: a :: v) (u ++ a :: v)
| pe_ortho u a b v : ortho a b = true ->
    proj_eq nc ortho (u ++ a :: b :: v) [0]
| pe_zero u v : proj_eq nc ortho (u ++ 0 :: v) [0].

Definition is_zero_product (nc ortho : table) (w : word) : Prop :=
  proj_eq nc ortho w [0].

(** Well-formed tables.  [good_comm]: commutation is symmetric. *)
Definition good_comm (nc : table) : Prop := forall a b, nc a b = nc b a.

(** [good_tables]: what the code's tables satisfy (proved for the tables built
    from a scenario in ScenarioProofs.v): symmetric commutation, operators commute with
    themselves, orthogonality is between different outcomes of one measurement:
    such operators have the same commutation row and their indices form an
    interval; the zero operator (index 0) is orthogonal to and commutes with
    everything. *)
Record good_tables (nc ortho : table) : Prop := {
  gt_nc_sym : forall a b, nc a b = nc b a;
  gt_nc_diag : forall a, nc a a = false;
  gt_nc_zero : forall a, nc 0 a = false;
  gt_ortho_sym : forall a b, ortho a b = ortho b a;
  gt_ortho_irrefl : forall a, a <> 0 -> ortho a a = false;
  gt_ortho_zero : forall a, ortho 0 a = true;
  gt_ortho_trans : forall a b c, a <> 0 -> b <> 0 -> c <> 0 -> a <> c ->
      ortho a b = true -> ortho b c = true -> ortho a c = true;
  gt_same_row : forall a b c, a <> 0 -> b <> 0 -> ortho a b = true -> nc a c = nc b c;
  gt_interval : forall a b c, a <> 0 -> ortho a b = true -> a < c < b -> ortho a c = true
}.
