(** Model of the export of a semidefinite programme to a human-readable form
    (inflation/sdp/writer_utils.py: convert_to_human_readable 14-112; write_to_csv 115-153
    prints the results one after the other, with spaces and quotes removed from the cells).

    The programme is SdpaModel.problem: a moment is called by its index [mon.idx], 0 is Zero
    and 1 is One.  [name] gives the names, [moments] the indices of problem.moments.  [show]
    and [read] are str and float for numbers that are not negative; numbers are exact
    rationals.  An IndexError is None. *)
From Coq Require Import List Arith Bool Ascii String ZArith QArith Qcanon.
From Verif Require Import FactorModel LPDictModel SearchModel ProgramModel SdpaModel CertModel NameModel.
Import ListNotations.
Close Scope Q_scope. Close Scope Qc_scope. Open Scope string_scope. Open Scope nat_scope. Open Scope list_scope.

Section Csv.
Variables (name : nat -> string) (moments : list nat) (show : Qc -> string) (read : string -> option Qc).

(** float(text) *)
Definition read_number (s : string) : option Qc :=
  match s with
  | String ch t => if Ascii.eqb ch "-" then option_map Qcopp (read t) else read s
  | EmptyString => read s
  end.
(** name.replace(", ", ";"), lines 40, 46 *)
Definition cell_name (m : nat) : string := replace ", " ";" (name m).
(** lines 43-53: monomials.get(float(monom), monom), or monom where float fails *)
Definition replace_known (text : string) : string :=
  match read_number text with
  | Some v => match find (fun m => if Qc_eq_dec (z2q (Z.of_nat m)) v then true else false) moments with
              | Some m => cell_name m
              | None => text
              end
  | None => text
  end.
(** lines 34-42, 55-58: a known value, a multiple of another moment, or the index *)
Definition entry_text (p : problem) (m : nat) : string :=
  match iget m (known_moments p) with
  | Some v => str_of show v
  | None => match iget m (semiknown_moments p) with
            | Some (c, m') => (str_of show c ++ "*" ++ cell_name m')%string
            | None => dec m
            end
  end.
(** line 59: np.triu makes the entries below the diagonal 0 *)
Definition csv_matrix (p : problem) : list (list string) :=
  map (fun '(ii, row) => map (fun '(jj, m) => if jj <? ii then "0" else replace_known (entry_text p m)) (combine (seq 0 (List.length row)) row))
      (combine (seq 0 (List.length (momentmatrix p))) (momentmatrix p)).

(** lines 61-79: the text and is_first *)
Definition objective_start (p : problem) : string * bool :=
  match iget 1 (objective p) with
  | Some c => if not_tiny c then (str_of show c, false) else ("", true)
  | None => ("", true)
  end.
Definition objective_step (s : string * bool) (q : nat * Qc) : string * bool :=
  if fst q =? 1 then s
  else if qltb (snd q) 0 || snd s then ((fst s ++ str_of show (snd q) ++ "*" ++ name (fst q))%string, false)
  else ((fst s ++ "+" ++ str_of show (snd q) ++ "*" ++ name (fst q))%string, false).
Definition csv_objective (p : problem) : string := fst (fold_left objective_step (objective p) (objective_start p)).

(** lines 81-89: the bounded moments sorted by name, with their bounds (different moments
    have different names) *)
Definition csv_bounds (p : problem) : list (nat * option Qc * option Qc) :=
  map (fun m => (m, iget m (moment_lowerbounds p), iget m (moment_upperbounds p)))
      (np_unique (fun a b => string_compare (name a) (name b)) (keys (moment_upperbounds p) ++ keys (moment_lowerbounds p))).

(** lines 93-102, 107-117: one term, and one constraint *)
Definition constraint_term (q : nat * Qc) : string :=
  let factor : string := if fst q =? 1 then show (qabs (snd q))
       else if isclose (qabs (snd q)) 1 then name (fst q) else (show (qabs (snd q)) ++ "*" ++ name (fst q))%string in
  ((if qltb 0 (snd q) then "+" else "-") ++ factor)%string.
Definition constraint_text (d : idict Qc) : option string :=
  let text := fold_left (fun s q => (s ++ constraint_term q)%string) d "" in
  match text with EmptyString => None | String _ _ => Some (if starts_with_plus text then tail text else text) end.

Record csv := { csv_obj : string; csv_mat : list (list string); csv_bnd : list (nat * option Qc * option Qc); csv_eq : list string; csv_ineq : list string }.
Definition all_some {A} (l : list (option A)) : option (list A) :=
  fold_right (fun o acc => match o, acc with Some a, Some l => Some (a :: l) | _, _ => None end) (Some []) l.
Definition convert_to_human_readable (p : problem) : option csv :=
  match all_some (map constraint_text (moment_equalities p)), all_some (map constraint_text (moment_inequalities p)) with
  | Some e, Some i => Some {| csv_obj := csv_objective p; csv_mat := csv_matrix p; csv_bnd := csv_bounds p; csv_eq := e; csv_ineq := i |}
  | _, _ => None
  end.
End Csv.
