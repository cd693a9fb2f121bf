(** The moments of a semidefinite programme (inflation/sdp/InflationSDP.py: generate_relaxation
    300-411 (columns are a parameter), Moment_1d 1402-1430, _AtomicMonomial 1347-1361, _monomial_from_atoms
    1481-1508, knowable_atoms 529-540, set_distribution 577-585, _construct_mask_matrices 1457-1469,
    _prepare_solver_arguments 2143-2180, solve 804-817; sdp/monomial_classes.py: dagger and
    is_hermitian 79-104, 143-147).

    The caches of canonical words, representatives and atoms are left out: C24 and C35 say that answers
    do not depend on them.  Names of moments are a parameter (C38: the code's names of different
    moments are different). *)
From Coq Require Import List Arith Bool String QArith Qcanon.
From Verif Require Import CanonModel ScenarioModel SymModel KnowModel FactorModel MargModel MomentModel ColumnModel MemoModel NormModel NameModel ProgramModel LPMomentModel SDPSolveModel.
Import ListNotations.
Close Scope Q_scope. Close Scope Qc_scope. Open Scope string_scope. Open Scope nat_scope. Open Scope list_scope.

Section Moments.
Variable sc : scenario.
(** InflationSDP.py:192 *)
Definition operators_commute : bool :=
  negb (existsb (fun a => existsb (sdp_notcomm sc a) (seq 0 (S (List.length (lexorder sc))))) (seq 0 (S (List.length (lexorder sc))))).
(** _AtomicMonomial, 1347-1361: the word of the atom made from a word (None: out of fuel) *)
Definition atom_of (w : word) : option word :=
  option_map fst (memo_repr (sdp_notcomm sc) (sdp_orthomat sc) operators_commute (sdp_lexorder_symmetries sc) false w memo_empty).
(** Moment_1d, 1424-1427: the atoms of a word of operators.  The problem counts operators from 0. *)
Definition atoms_of (w : word) : option (list word) :=
  match factorize_monomial_1d sc (map pred w) with
  | None => None
  | Some fs => map_opt (fun f => atom_of (map S f)) (filter (fun f => negb (List.length f =? 0)) fs)
  end.
(** sdp/monomial_classes.py:79-84 *)
Definition conjugate (w : word) : word := if NameModel.is_zero w then w else code_conj sc operators_commute w.
(** all atoms that occur in the moments, their conjugates and zero, sorted; the position of an atom in
    this list is its number *)
Definition all_atoms (l : list (list word)) : list word :=
  sig_sort (nodup (list_eq_dec Nat.eq_dec) ([0] :: List.concat l ++ map conjugate (List.concat l))).
Definition dagger_of (atoms : list word) (a : nat) : nat :=
  match nth_error atoms a with Some w => number atoms (conjugate w) | None => a end.
Definition knowable_of (atoms : list word) (a : nat) : bool :=
  match NameModel.is_knowable sc (nth a atoms []) with Some b => b | None => false end.
(** the context without the moments: enough to make moments from atoms *)
Definition atom_context (atoms : list word) : context :=
  {| moments := []; ProgramModel.is_knowable := knowable_of atoms; ProgramModel.dagger := dagger_of atoms;
     ProgramModel.is_zero := fun a => NameModel.is_zero (nth a atoms []);
     is_one := fun a => match nth_error atoms a with Some [] => true | _ => false end;
     hermitian_moments := []; zero_moment := None; supports_problem := false; minimal_equalities := []; minimal_inequalities := [] |}.
(** 399-404: the moment of an index counts, once per index; None: itemgetter with fewer than two
    indices, or KeyError *)
Definition equality_of (comp : list (nat * moment)) (eq : nat * list nat) : option (mdict Qc) :=
  if List.length (snd eq) <? 2 then None
  else match assoc comp (fst eq), map_opt (assoc comp) (snd eq) with
       | Some k, Some l => Some (update meq [(k, 1%Qc)] (map (fun m => (m, (- (1))%Qc)) l))
       | _, _ => None
       end.

Record relaxation := {
  r_columns : list word; r_matrix : MomentModel.matrix; r_moments : list (nat * moment);   (* compmoment_from_idx *)
  r_atoms : list word; r_context : context }.
(** 388-404; [hc] is has_children (91-95) *)
Definition equalities_of (hc : list bool) (supports : bool) (cols : list word) (M : MomentModel.matrix) (comp : list (nat * moment)) : option (list (mdict Qc)) :=
  if negb (is_network sc) || supports then
    match discover_normalization_eqns sc hc cols with
    | None => None
    | Some eqs => map_opt (equality_of comp) (construct_normalization_eqs (List.length cols) M eqs)
    end
  else Some [].
(** 344, 350 *)
Definition has_zero (cols : list word) (M : MomentModel.matrix) : bool := memb 0 (ravel (List.length cols) M).
(** 311-408 *)
Definition generate (hc : list bool) (supports : bool) (cols : list word) : option relaxation :=
  match symmetrized_moment_matrix (sdp_notcomm sc) (sdp_orthomat sc) operators_commute cols (sdp_lexorder_symmetries sc) with
  | None => None
  | Some (M, _, corresp) =>
    match map_opt (fun q => match atoms_of (snd q) with Some l => Some (fst q, l) | None => None end) corresp with
    | None => None
    | Some lists =>
      let atoms := all_atoms (map snd lists) in
      let zero := [number atoms [0]] in
      let comp := (if has_zero cols M then [(0, zero)] else [])
                  ++ map (fun q => (fst q, ProgramModel.monomial_from_atoms (atom_context atoms) (map (number atoms) (snd q)))) lists in
      let ms := map snd comp in
      (* 356: max() of an empty dictionary; 360 *)
      if negb (List.length comp =? 0) && (List.length (nodup meq ms) =? List.length ms) then
        match equalities_of hc supports cols M comp with
        | None => None
        | Some eqs =>
          Some {| r_columns := cols; r_matrix := M; r_moments := comp; r_atoms := atoms;
                  r_context := {| moments := ms; ProgramModel.is_knowable := knowable_of atoms; ProgramModel.dagger := dagger_of atoms;
                    ProgramModel.is_zero := ProgramModel.is_zero (atom_context atoms); is_one := is_one (atom_context atoms);
                    hermitian_moments := if operators_commute then ms else filter (forallb (fun a => dagger_of atoms a =? a)) ms;
                    zero_moment := if has_zero cols M then Some zero else None;
                    supports_problem := supports; minimal_equalities := eqs; minimal_inequalities := [] |} |}
        end
      else None
    end
  end.

(** 529-540: the knowable atoms that occur in moments *)
Definition knowable_atoms (r : relaxation) : list nat :=
  filter (fun a => existsb (memb a) (moments (r_context r)) && ProgramModel.is_knowable (r_context r) a) (seq 0 (List.length (r_atoms r))).
(** lp/monomial_classes.py:218-221 *)
Definition atom_value (arr : ndarray) (w : word) : option Qc :=
  if NameModel.is_zero w then Some 0%Qc else atom_compute_marginal sc arr (map pred w).
(** 577-581 *)
Definition distribution_values (r : relaxation) (arr : ndarray) : option (list (moment * option Qc)) :=
  map_opt (fun a => match atom_value arr (nth a (r_atoms r) []) with
                    | Some v => Some (ProgramModel.monomial_from_atoms (r_context r) [a], Some v) | None => None end)
          (knowable_atoms r).
(** 577-585 ([None] is prob_array = None) *)
Definition set_distribution (r : relaxation) (arr : option ndarray) (lpi shared_randomness : bool) (s : state) : option state :=
  match (match arr with Some a => distribution_values r a | None => Some [] end) with
  | None => None
  | Some values => set_values ProgramModel.sdp (r_context r) values lpi shared_randomness s
  end.

(** constant_term_name *)
Definition constant_term : name := "constant_term".
(** the names of the moments are the result of [nm] *)
Definition named_dict {V} (nm : moment -> name) (d : mdict V) : ndict V := map (fun p => (nm (fst p), snd p)) d.
Definition named_row (nm : moment -> name) (d : list (option moment * Qc)) : ndict Qc :=
  map (fun p => (match fst p with Some m => nm m | None => constant_term end, snd p)) d.
(** 1457-1469, 2143-2180 and 804-817: what solve passes on *)
Definition solver_args (nm : moment -> name) (r : relaxation) (feas : bool) (s : state) : option SDPSolveModel.sdp_args :=
  match prepare_sdp (r_context r) s with
  | None => None
  | Some p =>
    Some {| mat_dim := List.length (r_columns r);
            mask_matrices := map (fun q => (nm (snd q), fun i j => if r_matrix r i j =? fst q then 1%Qc else 0%Qc)) (r_moments r)
                             ++ [(constant_term, fun _ _ => 0%Qc)];
            SDPSolveModel.objective := named_dict nm (a_objective p);
            known_vars := named_dict nm (a_known p) ++ [(constant_term, 1%Qc)];
            semiknown_vars := map (fun q => (nm (fst q), (fst (snd q), nm (snd (snd q))))) (a_semiknown p);
            inequalities := map (named_row nm) (a_inequalities p);
            equalities := map (named_row nm) (a_equalities p);
            default_non_negative := false;
            feas_as_optim := feas && negb (1 <? List.length (processed s));
            process_constraints := true |}
  end.
End Moments.
