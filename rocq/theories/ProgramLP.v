(** How the state of a linear programme is passed to the solver (inflation/lp/InflationLP.py:
    sparse_extra_equalities 1446-1457, sparse_equalities 1459-1464, sparse_extra_inequalities
    1515-1526, sparse_inequalities 1528-1532, _mon_dict_to_coo_vec 1596-1605, sparse_objective
    ... sparse_semiknown 1773-1833, _prepare_solver_matrices 1842-1891 with separate bounds,
    solve 544-615). *)
From Coq Require Import List Arith Bool QArith Qcanon.
From Verif Require Import MargModel FactorModel LPSolveModel LPSolveSpec SearchModel ProgramModel ProgramSpec.
Import ListNotations.
Open Scope nat_scope.

(** The generated programme: the moments in the order of the columns (compmonomial_to_idx is
    their position) and the minimal constraints. *)
Record lp_programme := {
  columns : list moment;
  minimal_sparse_equalities : coo;
  minimal_sparse_inequalities : coo
}.
Definition m_eqb (a b : moment) : bool := if meq a b then true else false.
Definition column (P : lp_programme) (m : moment) : nat := index_of m_eqb m (columns P).
(** looking up a moment without column is a KeyError *)
Definition all_columns (P : lp_programme) (ms : list moment) : bool := forallb (fun m => mmem m (columns P)) ms.
(** 1449-1457, 1518-1526 *)
Definition rows_matrix (n : nat) (l : list (list (nat * Qc))) : coo :=
  Coo (length l) n (flat_map (fun p => map (fun q => (fst p, fst q, snd q)) (snd p)) (combine (seq 0 (length l)) l)).
Definition indexed (P : lp_programme) (d : mdict Qc) : list (nat * Qc) := map (fun p => (column P (fst p), snd p)) d.
Definition sparse_extra (P : lp_programme) (l : list (mdict Qc)) : coo := rows_matrix (length (columns P)) (map (indexed P) l).
(** utils.vstack; without rows its result coo_array([]) has no entries (and no rows once
    drop_zero_rows has been applied): blank_coo *)
Definition stack (blocks : list coo) : coo := match vstack blocks with Some m => m | None => blank_coo end.
(** 1601-1605 *)
Definition coo_vec (P : lp_programme) (d : mdict Qc) : coo :=
  Coo 1 (length (columns P)) (map (fun q => (0, fst q, snd q)) (indexed P d)).
(** 1824-1833 *)
Definition sparse_semiknown (P : lp_programme) (d : mdict (Qc * moment)) : coo :=
  semiknown_matrix (length (columns P)) (map (fun p => (column P (fst p), (fst (snd p), column P (snd (snd p))))) d).
(** 1868-1883; solve 595-613 *)
Definition prepare_lp (P : lp_programme) (nonneg relax_known relax_ineq : bool) (s : state) : option lp_args :=
  if all_columns P (keys (known s)) && all_columns P (keys (ProgramModel.objective s)) && all_columns P (keys (lower s)) && all_columns P (keys (upper s))
     && all_columns P (keys (semiknown s)) && all_columns P (map (fun p => snd (snd p)) (semiknown s))
     && forallb (fun d => all_columns P (keys d)) (extra_equalities s) && forallb (fun d => all_columns P (keys d)) (extra_inequalities s)
  then Some {|
    LPSolveModel.objective := coo_vec P (ProgramModel.objective s);
    known_vars := coo_vec P (known s);
    equalities := stack [stack [minimal_sparse_equalities P; sparse_extra P (extra_equalities s)]; sparse_semiknown P (semiknown s)];
    inequalities := stack [minimal_sparse_inequalities P; sparse_extra P (extra_inequalities s)];
    lower_bounds := coo_vec P (lower s); upper_bounds := coo_vec P (upper s);
    default_non_negative := nonneg; relax_known_vars := relax_known; relax_inequalities := relax_ineq |}
  else None.

(** ** The points of the programme (without relaxation), as the user understands them *)
Record lp_point (P : lp_programme) (nonneg : bool) (s : state) (y : moment -> Qc) : Prop := {
  lpp_min_eq : forall i, i < c_rows (minimal_sparse_equalities P) -> entry_sum (minimal_sparse_equalities P) i (fun j => y (nth j (columns P) [])) = 0%Qc;
  lpp_min_ineq : forall i, i < c_rows (minimal_sparse_inequalities P) -> (0 <= entry_sum (minimal_sparse_inequalities P) i (fun j => y (nth j (columns P) [])))%Qc;
  lpp_eq : forall d, In d (extra_equalities s) -> expr_at y d = 0%Qc;
  lpp_ineq : forall d, In d (extra_inequalities s) -> (0 <= expr_at y d)%Qc;
  lpp_semi : forall m k u, In (m, (k, u)) (semiknown s) -> y m = (k * y u)%Qc;
  lpp_known : forall m v, In (m, v) (known s) -> y m = v;
  lpp_lower : forall m v, In (m, v) (lower s) -> (v <= y m)%Qc;
  lpp_upper : forall m v, In (m, v) (upper s) -> (y m <= v)%Qc;
  lpp_nonneg : nonneg = true -> forall m, In m (columns P) -> (0 <= y m)%Qc
}.
Record programme_ok (P : lp_programme) : Prop := {
  po_columns : NoDup (columns P); po_some : columns P <> [];
  po_eq : matrix_ok (length (columns P)) (minimal_sparse_equalities P); po_ineq : matrix_ok (length (columns P)) (minimal_sparse_inequalities P);
  po_rows : 0 < c_rows (minimal_sparse_inequalities P)
}.
