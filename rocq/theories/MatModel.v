(** Model of the export of a semidefinite programme to MATLAB
    (inflation/sdp/writer_utils.py: write_to_mat 156-247).

    The programme is SdpaModel.problem: a moment is called by its index [mon.idx], 0 is Zero
    and 1 is One; [moments] gives the indices and names of problem.moments.  Numbers are exact
    rationals, and scipy's savemat stores what it is given.  The columns of an array of mixed
    numbers (known values, bounds, semi-known moments) are kept apart, so that indices stay
    whole numbers. *)
From Coq Require Import List Arith Bool String ZArith QArith Qcanon.
From Verif Require Import SearchModel ProgramModel SdpaModel.
Import ListNotations.
Close Scope Q_scope. Close Scope Qc_scope. Open Scope nat_scope.

(** the variables of the .mat file, 236-246 *)
Record mat_file := {
  mat_idx2name : list (nat * string);
  mat_momentmatrix : list (list nat);
  mat_objective : list (nat * Qc);
  mat_known_moments : list (nat * Qc);
  mat_semiknown_moments : list (nat * (Qc * nat));
  mat_lowerbounds : list (nat * Qc);
  mat_upperbounds : list (nat * Qc);
  mat_equalities : list (list nat * list Qc);      (** 'moments' and 'coeffs' *)
  mat_inequalities : list (list nat * list Qc)
}.

(** line 198 (momentmatrix_has_a_zero: InflationSDP.py 344) *)
Definition offset (p : problem) : nat := if imem 0 (entries p) then 1 else 0.
(** lines 200, 215, 217: [mon.idx + offset, value] for the items of a dictionary *)
Definition shifted {V} (o : nat) (d : idict V) : list (nat * V) := map (fun q => (fst q + o, snd q)) d.
(** lines 202-211: the three lists, stacked and transposed *)
Definition semiknown_rows (o : nat) (d : idict (Qc * nat)) : list (nat * (Qc * nat)) :=
  map (fun q => (fst q + o, (fst (snd q), snd (snd q) + o))) d.
(** lines 212-214 *)
Definition objective_rows (o : nat) (d : idict Qc) : list (nat * Qc) :=
  map (fun q => (fst q + o, snd q)) (filter (fun q => not_tiny (snd q)) d).
(** lines 221-225, 228-232 *)
Definition constraint_rows (o : nat) (d : idict Qc) : list nat * list Qc := (map (fun q => fst q + o) d, map snd d).

Definition write_to_mat (p : problem) (moments : list (nat * string)) : mat_file :=
  let o := offset p in
  {| mat_idx2name := shifted o moments;
     mat_momentmatrix := map (map (fun m => m + o)) (momentmatrix p);
     mat_objective := objective_rows o (objective p);
     mat_known_moments := shifted o (known_moments p);
     mat_semiknown_moments := semiknown_rows o (semiknown_moments p);
     mat_lowerbounds := shifted o (moment_lowerbounds p);
     mat_upperbounds := shifted o (moment_upperbounds p);
     mat_equalities := map (constraint_rows o) (moment_equalities p);
     mat_inequalities := map (constraint_rows o) (moment_inequalities p) |}.
