(** Model of the certificates as the user sees them (inflation/lp/InflationLP.py:
    certificate_as_dict 630-678, string_from_dict 738-774, certificate_as_string 776-814,
    evaluate_polynomial 816-843, evaluate_certificate 846-873; inflation/sdp/InflationSDP.py:
    certificate_as_dict 836-884, string_from_dict 943-976, certificate_as_string 978-1016,
    evaluate_polynomial 1018-1044, evaluate_certificate 1047-1075; inflation/lp/lp_utils.py 526-533;
    inflation/lp/monomial_classes.py: CompoundMoment.compute_marginal 341-365).

    The keys of the solver's certificate are names of moments or constant_term; different moments
    have different names, so a name is [Some m] or [None].  Printing a number is a parameter.
    Warnings are not modelled; an exception is None. *)
From Coq Require Import List Arith Bool Ascii String ZArith QArith Qcanon.
From Verif Require Import ScenarioModel MargModel SearchModel ProgramModel LPSolveModel ProgramLP LPMomentModel.
From Verif Require SDPSolveModel SDPMomentModel.
Import ListNotations.
Close Scope Q_scope. Close Scope Qc_scope. Open Scope string_scope. Open Scope nat_scope. Open Scope list_scope.

Definition key := option moment.
(** monomial_from_name; Constant_Term (InflationSDP.py:302-304, InflationLP.py:1249-1251) is a copy
    of One with another name: as a key of a dictionary (lp/monomial_classes.py:308-321) it is One *)
Definition monomial_from_name (k : key) : moment := match k with Some m => m | None => One end.
(** is_zero of a moment, lp/monomial_classes.py:297 *)
Definition moment_is_zero (c : context) (m : moment) : bool := existsb (ProgramModel.is_zero c) m.

(** lp_utils.py:526-533: the coefficients of the columns without those close to zero *)
Definition lp_dual_certificate (P : lp_programme) (cert : list Qc) : list (key * Qc) :=
  filter (fun p => negb (ProgramModel.isclose0 (snd p))) (combine (map Some (columns P)) cert).

(** certificate_as_dict, 676-678 = InflationSDP.py:880-884 (np.allclose(l, 0): all are close to 0; a dictionary
    comprehension assigns one key after the other) *)
Definition certificate_as_dict (c : context) (clean : bool) (chop_tol : Qc) (round_decimals : nat) (dual : list (key * Qc)) : option (mdict Qc) :=
  if forallb (fun p => ProgramModel.isclose0 (snd p)) dual then Some []
  else match (if clean then clean_coefficients dual chop_tol round_decimals else Some dual) with
       | None => None
       | Some dual =>
           Some (update meq [] (map (fun p => (monomial_from_name (fst p), snd p))
                                    (filter (fun p => negb (moment_is_zero c (monomial_from_name (fst p)))) dual)))
       end.
(** the default arguments *)
Definition default_tol : Qc := Q2Qc (1 # 10000000000).
Definition default_decimals : nat := 3.

(** ** Evaluation *)
(** CompoundMoment.compute_marginal, 360-365 (powers are written as repeated factors); [value] is
    compute_marginal of an atom *)
Definition compute_marginal (c : context) (value : nat -> option Qc) (m : moment) : option Qc :=
  if forallb (ProgramModel.is_knowable c) m
  then fold_left (fun acc a => match acc, value a with Some v, Some w => Some (v * w)%Qc | _, _ => None end) m (Some 1%Qc)
  else None.
(** evaluate_polynomial, 842-843 *)
Definition evaluate_polynomial (c : context) (value : nat -> option Qc) (polynomial : mdict Qc) : option Qc :=
  fold_left (fun acc p => match acc, compute_marginal c value (fst p) with Some s, Some v => Some (s + v * snd p)%Qc | _, _ => None end)
            (sanitise_dict (fun m => m) polynomial) (Some 0%Qc).
(** evaluate_certificate, 873 *)
Definition evaluate_certificate (c : context) (value : nat -> option Qc) (dual : list (key * Qc)) : option Qc :=
  match certificate_as_dict c true default_tol default_decimals dual with
  | None => None
  | Some d => evaluate_polynomial c value d
  end.
(** compute_marginal of the atoms of a linear programme *)
Definition lp_atom_marginal (sc : scenario) (r : relaxation) (arr : ndarray) (a : nat) : option Qc := atom_compute_marginal sc arr (nth a (r_atoms r) []).
(** sdp_utils.py:532-535: the coefficients of a semidefinite programme without those close to zero *)
Definition sdp_dual_certificate (cert : SDPSolveModel.ndict Qc) : SDPSolveModel.ndict Qc :=
  filter (fun p => negb (ProgramModel.isclose0 (snd p))) cert.
(** compute_marginal of the atoms of a semidefinite programme (lp/monomial_classes.py:218-221) *)
Definition sdp_atom_marginal (sc : scenario) (r : SDPMomentModel.relaxation) (arr : ndarray) (a : nat) : option Qc :=
  SDPMomentModel.atom_value sc arr (nth a (SDPMomentModel.r_atoms r) []).

(** ** Text *)
Section Text.
Variables (name : moment -> string) (show : Qc -> string).     (** names of moments; str of a number that is not negative *)
Definition str_of (v : Qc) : string := if qltb v 0 then ("-" ++ show (- v)%Qc)%string else show v.
(** the loop of 762-769 (963-971) *)
Definition term_text (c : context) (p : moment * Qc) : string :=
  if moment_is_zero c (fst p) || ProgramModel.isclose0 (qabs (snd p)) then ""
  else ((if qleb 0 (snd p) then "+" else "-")
       ++ (if ProgramModel.isclose (qabs (snd p)) 1 then name (fst p) else show (qabs (snd p)) ++ "*" ++ name (fst p)))%string.
Definition starts_with_plus (s : string) : bool := match s with String ch _ => Ascii.eqb ch "+" | EmptyString => false end.
Definition tail (s : string) : string := match s with String _ t => t | EmptyString => EmptyString end.
(** string_from_dict, 752-774 (sdp: 957-976, where the first character of an empty text is an IndexError).  The inner pop of
    One (756) is evaluated first; Constant_Term is then no longer in the dictionary. *)
Definition string_from_dict (t : kind) (c : context) (dict : mdict Qc) : option string :=
  let as_dict := sanitise_dict (fun m => m) dict in
  let constant := match get meq One as_dict with Some v => v | None => 0%Qc end in
  let start := if Qc_eq_dec constant 0 then "" else str_of constant in
  let text := fold_left (fun s p => s ++ term_text c p)%string (del meq One as_dict) start in
  match text with
  | EmptyString => match t with lp => Some "0" | sdp => None end
  | String _ _ => Some (if starts_with_plus text then tail text else text)
  end.
(** certificate_as_string, 810-814 *)
Definition certificate_as_string (t : kind) (c : context) (clean : bool) (chop_tol : Qc) (round_decimals : nat) (dual : list (key * Qc)) : option string :=
  match certificate_as_dict c clean chop_tol round_decimals dual with
  | None => None
  | Some d => match string_from_dict t c d with Some s => Some (s ++ " < 0")%string | None => None end
  end.
End Text.
