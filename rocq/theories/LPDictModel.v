(** Model of the wrapper that accepts dictionaries (inflation/lp/lp_utils.py: solveLP 50-127,
    to_sparse 571-602, convert_dicts 605-654).  None: Python raises an exception. *)
From Coq Require Import List Arith Bool Ascii String QArith Qcanon.
From Verif Require Import ScenarioModel MargModel FactorModel SearchModel ProgramModel LPSolveModel.
Import ListNotations.
Close Scope Q_scope. Close Scope Qc_scope. Open Scope string_scope. Open Scope nat_scope. Open Scope list_scope.

(** dictionaries in insertion order; their keys differ *)
Definition named := list (string * Qc).
Inductive vec := VSparse (m : coo) | VDict (d : named).
Inductive mat := MSparse (m : coo) | MDicts (l : list named).
(** the arguments (50-57); an omitted argument is None.  Bounds are keyword arguments, present or not.
    The options that only concern MOSEK are left out. *)
Record user_args := {
  u_objective : option vec; u_known : option vec; u_semiknown : option (list (string * (Qc * string)));
  u_ineq : option mat; u_eq : option mat; u_lower : option vec; u_upper : option vec;
  u_variables : option (list string);
  u_default_non_negative : bool; u_relax_known_vars : bool; u_relax_inequalities : bool }.

(** Python's order of strings: by characters *)
Definition string_compare (a b : string) : comparison :=
  lex_compare (map nat_of_ascii (list_ascii_of_string a)) (map nat_of_ascii (list_ascii_of_string b)).
Definition sparse_vec (o : option vec) : bool := match o with Some (VDict _) => false | _ => true end.
Definition sparse_mat (o : option mat) : bool := match o with Some (MDicts _) => false | _ => true end.
Definition dict_vec (o : option vec) : bool := match o with Some (VSparse _) => false | _ => true end.
Definition dict_mat (o : option mat) : bool := match o with Some (MSparse _) => false | _ => true end.
(** 92-94 *)
Definition all_sparse (u : user_args) : bool :=
  sparse_vec (u_objective u) && sparse_vec (u_known u) && match u_semiknown u with None => true | Some _ => false end &&
  sparse_mat (u_ineq u) && sparse_mat (u_eq u) && sparse_vec (u_lower u) && sparse_vec (u_upper u).
(** 95 *)
Definition all_dicts (u : user_args) : bool :=
  dict_vec (u_objective u) && dict_vec (u_known u) && dict_mat (u_ineq u) && dict_mat (u_eq u) && dict_vec (u_lower u) && dict_vec (u_upper u).
Definition vec_names (o : option vec) : list string := match o with Some (VDict d) => map fst d | _ => [] end.
Definition mat_names (o : option mat) : list string := match o with Some (MDicts l) => flat_map (map fst) l | _ => [] end.
Definition semiknown_names (o : option (list (string * (Qc * string)))) : list string :=
  match o with Some l => flat_map (fun q => [fst q; snd (snd q)]) l | None => [] end.
(** 98-113: the names in bounds are not collected *)
Definition infer_variables (u : user_args) : list string :=
  np_unique string_compare (vec_names (u_objective u) ++ mat_names (u_ineq u) ++ mat_names (u_eq u) ++ semiknown_names (u_semiknown u) ++ vec_names (u_known u)).
(** 92-122: the variables; None if they had to be declared *)
Definition declared_variables (u : user_args) : option (list string) :=
  if all_sparse u then u_variables u
  else match u_variables u with
       | Some vars => Some vars
       | None => if all_dicts u then Some (infer_variables u) else None
       end.

(** {x: i for i, x in enumerate(variables)}[x] *)
Fixpoint var_to_idx (i : nat) (vars : list string) (x : string) : option nat :=
  match vars with
  | [] => None
  | v :: vs => match var_to_idx (S i) vs x with Some j => Some j | None => if String.eqb v x then Some i else None end
  end.
Definition lookup_var (vars : list string) (x : string) : option nat := var_to_idx 0 vars x.
(** to_sparse of a dictionary, 585-591; the row is i *)
Definition dict_entries (vars : list string) (i : nat) (d : named) : option (list entry) :=
  map_opt (fun q => match lookup_var vars (fst q) with Some j => Some (i, j, snd q) | None => None end) d.
Definition to_sparse_dict (vars : list string) (d : named) : option coo :=
  match dict_entries vars 0 d with Some es => Some (Coo 1 (List.length vars) es) | None => None end.
(** to_sparse of a list, 592-602 *)
Definition to_sparse_list (vars : list string) (l : list named) : option coo :=
  match map_opt (fun q => dict_entries vars (fst q) (snd q)) (combine (seq 0 (List.length l)) l) with
  | Some ess => Some (Coo (List.length l) (List.length vars) (concat ess))
  | None => None
  end.
(** 629-632: sparse arguments stay *)
Definition convert_vec (vars : list string) (v : vec) : option coo := match v with VSparse m => Some m | VDict d => to_sparse_dict vars d end.
Definition convert_mat (vars : list string) (m : mat) : option coo := match m with MSparse m => Some m | MDicts l => to_sparse_list vars l end.
Definition semiknown_columns (vars : list string) (l : list (string * (Qc * string))) : option (list (nat * (Qc * nat))) :=
  map_opt (fun q => match lookup_var vars (fst q), lookup_var vars (snd (snd q)) with Some j, Some j2 => Some (j, (fst (snd q), j2)) | _, _ => None end) l.
(** 634-653: if the equalities are not dictionaries they are replaced *)
Definition convert_equalities (vars : list string) (eq : option mat) (semi : option (list (string * (Qc * string)))) : option coo :=
  match semi with
  | None | Some [] => match eq with Some m => convert_mat vars m | None => None end
  | Some l =>
      match semiknown_columns vars l with
      | None => None
      | Some cols =>
          let sm := semiknown_matrix (List.length vars) cols in
          match eq with
          | Some (MDicts ds) => match to_sparse_list vars ds with Some m => vstack [m; sm] | None => None end
          | _ => Some sm
          end
      end
  end.
(** an omitted bound is the default, an empty matrix; any other omitted argument is passed on as None and
    solveLP_sparse raises (198-203) *)
Definition required (vars : list string) (o : option vec) : option coo := match o with Some v => convert_vec vars v | None => None end.
Definition optional (vars : list string) (o : option vec) : option coo := match o with Some v => convert_vec vars v | None => Some blank_coo end.
(** solveLP, 78-127: the variables and the arguments of solveLP_sparse *)
Definition solve_lp_args (u : user_args) : option (list string * lp_args) :=
  match declared_variables u with
  | None => None
  | Some vars =>
      match required vars (u_objective u), required vars (u_known u), match u_ineq u with Some m => convert_mat vars m | None => None end,
            convert_equalities vars (u_eq u) (u_semiknown u), optional vars (u_lower u), optional vars (u_upper u) with
      | Some o, Some k, Some i, Some e, Some l, Some b =>
          Some (vars, {| objective := o; known_vars := k; inequalities := i; equalities := e; lower_bounds := l; upper_bounds := b;
                         default_non_negative := u_default_non_negative u; relax_known_vars := u_relax_known_vars u; relax_inequalities := u_relax_inequalities u |})
      | _, _, _, _, _, _ => None
      end
  end.
(** the values and the certificate that are returned (488-496, 526-535): dict(zip(variables, ...)),
    the certificate without the entries close to 0 *)
Definition by_name (vars : list string) (values : list Qc) : named := combine vars values.
Definition named_certificate (vars : list string) (cert : list Qc) : named := filter (fun q => negb (isclose0 (snd q))) (combine vars cert).
