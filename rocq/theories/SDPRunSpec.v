(** A use of InflationSDP: construct, generate_relaxation with given columns, set_distribution, solve
    (up to the call of the solver). *)
From Coq Require Import List Arith Bool String Ascii QArith Qcanon.
From Verif Require Import CanonModel ScenarioModel MargModel NameModel ProgramModel SDPSolveModel SDPMomentModel.
Import ListNotations.
Close Scope Q_scope. Close Scope Qc_scope. Open Scope string_scope. Open Scope nat_scope. Open Scope list_scope.

(** Names of moments: different moments have different names, and no name looks like the name of the
    constant term or of the auxiliary variable.  (C44_names: the names that the code gives are such
    names; they begin with P, <, 0 or 1.)  The moments are what the code makes from lists of atoms. *)
Definition proper_moment (r : SDPMomentModel.relaxation) (m : moment) : Prop :=
  exists l, (forall a, In a l -> a < List.length (SDPMomentModel.r_atoms r)) /\ m = ProgramModel.monomial_from_atoms (SDPMomentModel.r_context r) l.
Definition plain_name (s : name) : Prop := match s with EmptyString => True | String ch _ => ch <> "c"%char /\ ch <> "l"%char end.
Record good_naming (r : SDPMomentModel.relaxation) (nm : moment -> name) : Prop := {
  gm_different : forall m m', proper_moment r m -> proper_moment r m' -> nm m = nm m' -> m = m';
  gm_plain : forall m, proper_moment r m -> plain_name (nm m) }.

(** the names of the code: the name of the moment made from the atoms (NameModel, whose dictionaries
    contain [b] before the moment is looked up) *)
Definition code_name (sc : scenario) (names : list string) (r : SDPMomentModel.relaxation) (b : NameModel.book) (m : moment) : name :=
  match NameModel.do_step sc names (NameModel.code_conj sc (operators_commute sc)) (NameModel.FromWords (map (fun a => nth a (SDPMomentModel.r_atoms r) []) m)) b with
  | Some (x, _) => NameModel.m_name x | None => "" end.

(** operations that do not set bounds, and those that also do not set values *)
Definition keeps_bounds (o : op) : Prop := match o with SetBounds _ _ => False | _ => True end.
Definition keeps_values (o : op) : Prop := match o with SetBounds _ _ | SetValues _ _ _ | UpdateValues _ _ _ => False | _ => True end.
(** [before] and [after] are what the user does before and after set_distribution; [arr] is its argument
    (None: no distribution) *)
Record sdp_run (sc : scenario) (hc : list bool) (cols : list word) (nm : moment -> name) (before : list op)
               (arr : option ndarray) (lpi shared : bool) (after : list op) (feas : bool)
               (r : SDPMomentModel.relaxation) (s : state) (a : SDPSolveModel.sdp_args) : Prop := {
  sr_generate : SDPMomentModel.generate sc hc false cols = Some r;
  sr_names : good_naming r nm;
  sr_before : Forall keeps_bounds before;
  sr_after : Forall keeps_values after;
  sr_state : exists s0 s1 s2, generated sdp (SDPMomentModel.r_context r) = Some s0 /\ run sdp (SDPMomentModel.r_context r) before (Some s0) = Some s1 /\
    SDPMomentModel.set_distribution sc r arr lpi shared s1 = Some s2 /\ run sdp (SDPMomentModel.r_context r) after (Some s2) = Some s;
  sr_args : solver_args nm r feas s = Some a }.
