(** The method reset and the lifetime of a stored solution
    (inflation/sdp/InflationSDP.py: reset 1261-1291, solve 762-831, _reset_lowerbounds 1988-1992,
    _reset_upperbounds 1994-1997, _reset_objective 1999-2004, _reset_values 2006-2016,
    _reset_solution 2182-2192; inflation/lp/InflationLP.py: reset 879-908, solve 544-625,
    _reset_bounds 1688-1692, _reset_lowerbounds 1694-1697, _reset_upperbounds 1699-1702,
    _reset_objective 1704-1708, _reset_values 1710-1718, _reset_solution 1720-1730).

    Simplifications: what a call that raises an exception leaves behind is not modelled (None); a
    solution is represented by the state and the direction (self.maximize) for which it was
    computed; solve does not fail. *)
From Coq Require Import List Bool Ascii String Qcanon.
From Verif Require Import ProgramModel.
Import ListNotations.
Open Scope string_scope. Open Scope list_scope.

(** ** The parts; [default_lower] and [update_bounds] are in ProgramModel *)
Definition reset_lower (t : kind) (c : context) (s : state) : option state :=
  match t with
  | sdp => match update_bounds lo_ok (known s) (default_lower c) with Some lo => Some (with_bounds lo (upper s) s) | None => None end
  | lp => Some (with_bounds [] (upper s) s)
  end.
Definition reset_upper (s : state) : state := with_bounds (lower s) [] s.
Definition reset_objective (t : kind) (s : state) : state :=
  let zero := match t with sdp => [(One, 0%Qc)] | lp => [] end in with_objective zero zero s.

(** A session: the programme, self.maximize, and self.solution_object *)
Record session := { now : state; maximize : bool; solution : option (state * bool) }.
Definition new_session (s : state) : session := {| now := s; maximize := true; solution := None |}.
(** _reset_solution is called by all of the following *)
Definition unsolved (mx : bool) (s : state) : session := {| now := s; maximize := mx; solution := None |}.

(** reset of one part, SDP 1274-1287, LP 892-904 *)
Definition reset_part (t : kind) (c : context) (x : string) (e : session) : option session :=
  if String.eqb x "bounds" then option_map (fun s => unsolved (maximize e) (reset_upper s)) (reset_lower t c (now e))
  else if String.eqb x "lowerbounds" then option_map (unsolved (maximize e)) (reset_lower t c (now e))
  else if String.eqb x "upperbounds" then Some (unsolved (maximize e) (reset_upper (now e)))
  else if String.eqb x "objective" then Some (unsolved true (reset_objective t (now e)))
  else if String.eqb x "values" then Some (unsolved (maximize e) (reset_values t c (now e)))
  else None.
Fixpoint in_turn (f : string -> session -> option session) (l : list string) (e : session) : option session :=
  match l with [] => Some e | x :: l' => match f x e with Some e' => in_turn f l' e' | None => None end end.
(** SDP 1272-1273; LP 890-891 *)
Definition all_parts (t : kind) : list string := match t with sdp => ["values"; "bounds"; "objective"] | lp => ["bounds"; "objective"; "values"] end.
Definition reset_name (t : kind) (c : context) (x : string) (e : session) : option session :=
  if String.eqb x "all" then in_turn (reset_part t c) (all_parts t) e else reset_part t c x e.
(** the argument: a name or a list of names (lists of lists, which the code accepts too, are not modelled) *)
Inductive which := Name (x : string) | Names (l : list string).
Definition reset (t : kind) (c : context) (w : which) (e : session) : option session :=
  match w with Name x => reset_name t c x e | Names l => in_turn (reset_name t c) l e end.

(** ** Calls *)
Inductive call := Call (o : op) | Reset (w : which) | Solve.
(** Which methods delete the solution: all except set_extra_equalities and set_extra_inequalities
    (SDP 416-448, LP 510-542) and update_values without values (SDP 670-671, LP 409-410). *)
Definition keeps_solution (o : op) : bool :=
  match o with SetExtraEqualities _ | SetExtraInequalities _ | UpdateValues [] _ _ => true | _ => false end.
(** self.maximize, SDP 611-615, LP 353-357 *)
Definition direction_after (o : op) (mx : bool) : bool := match o with SetObjective _ mx' => mx' | _ => mx end.
Definition perform (t : kind) (c : context) (k : call) (e : session) : option session :=
  match k with
  | Call o => option_map (fun s => {| now := s; maximize := direction_after o (maximize e); solution := if keeps_solution o then solution e else None |}) (step t c o (now e))
  | Reset w => reset t c w e
  | Solve => Some {| now := now e; maximize := maximize e; solution := Some (now e, maximize e) |}
  end.
Definition perform_all (t : kind) (c : context) (h : list call) (e : option session) : option session :=
  fold_left (fun e k => match e with Some e => perform t c k e | None => None end) h e.
