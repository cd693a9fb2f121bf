(** How the state of a linear programme is turned into dictionaries by name
    (inflation/lp/InflationLP.py: _coo_vec_to_name_dict 1553-1570, _coo_mat_to_dict 1572-1594,
    moment_equalities_by_name and moment_inequalities_by_name 1737-1746 (cached), objective_by_name,
    known_vars_by_name, lowerbounds_by_name, upperbounds_by_name, semiknown_by_name 1779-1840,
    _prepare_solver_arguments 1893-1957 with separate bounds; these arguments are what
    write_to_file 910-938 exports).

    Simplification: a matrix without rows gives no dictionaries (ProgramLP.stack); with some versions
    of SciPy coo_array([]) gives one empty dictionary, which demands nothing.  The other branch,
    separate_bounds=False, is not used by the package and not modelled. *)
From Coq Require Import List Arith Bool Ascii String QArith Qcanon.
From Verif Require Import MargModel FactorModel LPSolveModel SearchModel ProgramModel ProgramSpec ProgramLP.
From Verif Require SDPSolveModel LPWriteModel.
Import ListNotations.
Close Scope Q_scope. Open Scope string_scope. Open Scope nat_scope. Open Scope list_scope.

(** coo_array.tolil, line 1589: in every row the columns increase, entries at the same place are
    added, and explicit zeros are kept *)
Definition at_place (i j : nat) (e : entry) : bool := (e_row e =? i) && (e_col e =? j).
Definition lil_row (m : coo) (i : nat) : list (nat * Qc) :=
  map (fun j => (j, sumQ (map e_val (filter (at_place i j) (c_ent m)))))
      (filter (fun j => existsb (at_place i j) (c_ent m)) (seq 0 (c_cols m))).
(** dict(zip(self.monomial_names[col].flat, data)), line 1570; the last one of two equal keys wins *)
Definition name_dict (names : list string) (row : list (nat * Qc)) : list (string * Qc) :=
  update string_dec [] (map (fun p => (nth (fst p) names "", snd p)) row).
Definition to_name_dicts (names : list string) (m : coo) : list (list (string * Qc)) :=
  map (fun i => name_dict names (lil_row m i)) (seq 0 (c_rows m)).
(** [..][0], lines 1782, 1794, 1806, 1818 *)
Definition vec_by_name (names : list string) (v : coo) : list (string * Qc) := nth 0 (to_name_dicts names v) [].

Section ByName.
Variables (P : lp_programme) (nm : moment -> string).          (** the names of the moments *)
Definition monomial_names : list string := map nm (columns P).
Definition objective_by_name (s : state) := vec_by_name monomial_names (coo_vec P (ProgramModel.objective s)).
Definition known_vars_by_name (s : state) := vec_by_name monomial_names (coo_vec P (known s)).
Definition lowerbounds_by_name (s : state) := vec_by_name monomial_names (coo_vec P (lower s)).
Definition upperbounds_by_name (s : state) := vec_by_name monomial_names (coo_vec P (upper s)).
(** 1838-1840, a dictionary comprehension *)
Definition semiknown_by_name (s : state) : list (string * (Qc * string)) :=
  update string_dec [] (map (fun p => (nm (fst p), (fst (snd p), nm (snd (snd p))))) (semiknown s)).
Definition equalities_by_name (s : state) := to_name_dicts monomial_names (stack [minimal_sparse_equalities P; sparse_extra P (extra_equalities s)]).
Definition inequalities_by_name (s : state) := to_name_dicts monomial_names (stack [minimal_sparse_inequalities P; sparse_extra P (extra_inequalities s)]).
(** what the cached properties remember *)
Record caches := { cached_equalities : option (list (list (string * Qc))); cached_inequalities : option (list (list (string * Qc))) }.
Definition no_caches : caches := {| cached_equalities := None; cached_inequalities := None |}.
Definition moment_equalities_by_name (k : caches) (s : state) := match cached_equalities k with Some l => l | None => equalities_by_name s end.
Definition moment_inequalities_by_name (k : caches) (s : state) := match cached_inequalities k with Some l => l | None => inequalities_by_name s end.
(** 1930-1949.  Lines 1937-1940: the dictionary known_vars_by_name is made afresh at every use, so that
    line 1938 changes nothing; the name of the constant term is never one of its keys, and is
    appended to the variables.  None: the assertion or a KeyError. *)
Definition prepare_arguments (k : caches) (s : state) : option (LPWriteModel.lp_args * caches) :=
  if all_columns P (keys (known s)) && all_columns P (keys (ProgramModel.objective s)) && all_columns P (keys (lower s)) && all_columns P (keys (upper s))
     && forallb (fun d => all_columns P (keys d)) (extra_equalities s) && forallb (fun d => all_columns P (keys d)) (extra_inequalities s)
  then Some ({|
    LPWriteModel.variables := monomial_names ++ (if existsb (String.eqb "constant_term") monomial_names then [] else ["constant_term"]);
    LPWriteModel.a_objective := objective_by_name s; LPWriteModel.a_known := known_vars_by_name s; LPWriteModel.a_semiknown := semiknown_by_name s;
    LPWriteModel.a_equalities := moment_equalities_by_name k s; LPWriteModel.a_inequalities := moment_inequalities_by_name k s;
    LPWriteModel.a_lower := lowerbounds_by_name s; LPWriteModel.a_upper := upperbounds_by_name s |},
    {| cached_equalities := Some (moment_equalities_by_name k s); cached_inequalities := Some (moment_inequalities_by_name k s) |})
  else None.
End ByName.
