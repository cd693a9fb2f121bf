(** A use of InflationSDP(supports_problem=True): construct, generate_relaxation with given columns,
    set_distribution, solve (up to the call of the solver).  No objective is allowed. *)
From Coq Require Import List Arith Bool QArith Qcanon.
From Verif Require Import CanonModel ScenarioModel ScenarioSpec MargModel QcSum ProgramModel SDPSolveModel QInflationSpec SDPMomentModel SDPRunSpec SupportSpec.
Import ListNotations.
Close Scope Q_scope. Close Scope Qc_scope. Open Scope nat_scope.

Record sdp_supports_run (sc : scenario) (hc : list bool) (cols : list word) (nm : moment -> name) (arr : ndarray) (lpi shared feas : bool)
                        (r : SDPMomentModel.relaxation) (s : state) (a : SDPSolveModel.sdp_args) : Prop := {
  sp_generate : SDPMomentModel.generate sc hc true cols = Some r;
  sp_names : good_naming r nm;
  sp_state : exists s0, generated sdp (SDPMomentModel.r_context r) = Some s0 /\ SDPMomentModel.set_distribution sc r (Some arr) lpi shared s0 = Some s;
  sp_args : solver_args nm r feas s = Some a }.
