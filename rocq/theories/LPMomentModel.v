(** The moments of a linear programme (inflation/lp/InflationLP.py: One 194, _AtomicMonomial
    943-980 (LPModel.atomic_monomial), Monomial 982-1006, _monomial_from_atoms 1008-1038, the
    loop over the columns 1302-1332, atomic_factors 237-242, atomic_monomials 244-248,
    knowable_atoms 259-262, set_distribution 290-329; monomial_classes.py: CompoundMoment
    equality 308-321, is_knowable of a moment with one factor). *)
From Coq Require Import List Arith Bool QArith Qcanon.
From Verif Require Import CanonModel ScenarioModel SymModel KnowModel FactorModel MargModel LPModel ProgramModel ProgramSpec LPSolveModel ProgramLP.
Import ListNotations.
Close Scope Q_scope. Close Scope Qc_scope. Open Scope nat_scope.

Section Moments.
Variable sc : scenario.
Let n := length (lexorder sc).
Let syms := discover_lexorder_symmetries sc.
(** 1002-1003; the cache _atomic_monomial_from_hash is passed along *)
Fixpoint atoms_of_factors (fs : list (list nat)) (c : acache) : list atom * acache :=
  match fs with
  | [] => ([], c)
  | f :: fs' =>
      let '(a, c1) := atomic_monomial n syms f c in
      let '(l, c2) := atoms_of_factors fs' c1 in (a :: l, c2)
  end.
(** 1001-1003: the atoms of the moment (None: the factorisation does not end) *)
Definition monomial_atoms (array1d : list nat) (c : acache) : option (list atom * acache) :=
  match factorize_monomial_1d sc array1d with
  | None => None
  | Some fs => Some (atoms_of_factors (filter (fun f => negb (length f =? 0)) fs) c)
  end.
(** 1308-1312 *)
Fixpoint all_atoms (vs : list bvec) (c : acache) : option (list (list atom) * acache) :=
  match vs with
  | [] => Some ([], c)
  | v :: vs' =>
      match monomial_atoms (flatnonzero v) c with
      | None => None
      | Some (a, c1) => match all_atoms vs' c1 with None => None | Some (l, c2) => Some (a :: l, c2) end
      end
  end.
(** 238-242: sorted(set of the factors of all moments); [nodup] lists the set in some order *)
Definition atomic_factors (l : list (list atom)) : list atom := sig_sort (nodup (list_eq_dec Nat.eq_dec) (concat l)).
(** 1024, monomial_classes.py:308-321: a moment is the multiset of its factors, written as the
    sorted list of their positions in atomic_factors *)
Definition number (atoms : list atom) (a : atom) : nat := index_of row_eqb a atoms.
Definition moment_of (atoms : list atom) (l : list atom) : moment := sort_atoms (map (number atoms) l).

Record relaxation := { r_programme : lp_programme; r_context : context; r_atoms : list atom }.
(** 1302-1353: columns, constraints, and the two assertions (1328: the first column is One;
    1330: no two columns are the same moment).  One has no atoms and leaves the cache empty
    (194). *)
Definition generate (all_outcomes supports : bool) : option relaxation :=
  match scenario_lp sc all_outcomes with
  | None => None
  | Some prog =>
    match all_atoms (lp_columns prog) [] with
    | None => None
    | Some (lists, _) =>
      let atoms := atomic_factors lists in
      let cols := map (moment_of atoms) lists in
      let named := map (fun q => (nth (fst q) cols [], snd q)) in
      if (if meq (hd [0] cols) One then true else false) && (length (nodup meq cols) =? length cols) then
        Some {| r_programme := {| columns := cols;
                                  minimal_sparse_equalities := rows_matrix (length cols) (lp_equalities prog);
                                  minimal_sparse_inequalities := rows_matrix (length cols) (lp_inequalities prog) |};
                r_context := {| moments := cols;
                                is_knowable := fun a => match atom_is_knowable sc (nth a atoms []) with Some b => b | None => false end;
                                dagger := fun a => a; is_zero := fun _ => false; is_one := fun _ => false;
                                hermitian_moments := []; zero_moment := None; supports_problem := supports;
                                minimal_equalities := map named (lp_equalities prog);
                                minimal_inequalities := map named (lp_inequalities prog) |};
                r_atoms := atoms |}
      else None
    end
  end.

(** set_distribution, 318-325: the values (None: the shape is wrong or a marginal fails) *)
Definition distribution_values (r : relaxation) (arr : ndarray) : option (list (moment * option Qc)) :=
  if list_eq_dec Nat.eq_dec (nd_shape arr) (outcomes sc ++ private_settings sc) then
    map_opt (fun a => match atom_compute_marginal sc arr (nth a (r_atoms r) []) with
                      | Some v => Some ([a], Some v) | None => None end)
            (filter (is_knowable (r_context r)) (seq 0 (length (r_atoms r))))
  else None.
(** set_distribution, 327-329 ([None] is prob_array = None) *)
Definition set_distribution (r : relaxation) (arr : option ndarray) (lpi shared_randomness : bool) (s : state) : option state :=
  match (match arr with Some a => distribution_values r a | None => Some [] end) with
  | None => None
  | Some values => set_values lp (r_context r) values lpi shared_randomness s
  end.
End Moments.
