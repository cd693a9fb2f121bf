(** What a file in SDPA's sparse format means (http://euler.nmt.edu/~brian/sdplib/FORMAT) and
    what the programme in memory means. *)
From Coq Require Import List Arith Bool ZArith QArith Qcanon.
From Verif Require Import MargModel Duality SearchModel ProgramModel SDPSolveModel SDPSolveSpec SdpaModel.
Import ListNotations.
Open Scope nat_scope.

(** ** The format
    minimise c1 x1 + ... + cm xm subject to F1 x1 + ... + Fm xm - F0 positive semidefinite,
    where the F are block diagonal; a line "k b i j v" gives the entries (i, j) and (j, i) of
    block b of Fk; the size of a diagonal block is given with a minus sign. *)
Definition number (t : text) : option Qc :=
  match t with Plain v => Some v | Minus v => if qltb v 0 then None else Some (- v)%Qc end.
Definition num (t : text) : Qc := match number t with Some v => v | None => 0%Qc end.
(** a file that can be read *)
Definition well_formed (f : file) : Prop :=
  (0 <= f_nvars f)%Z /\ length (f_blockstruct f) = f_nblocks f /\ Z.of_nat (length (f_objective f)) = f_nvars f /\
  forall l, In l (f_lines f) ->
    number (l_text l) <> None /\ (Z.of_nat (l_var l) <= f_nvars f)%Z /\
    exists s, nth_error (f_blockstruct f) (l_block l - 1) = Some s /\ 1 <= l_block l /\
      1 <= l_row l <= l_col l /\ (Z.of_nat (l_col l) <= Z.abs s)%Z /\ ((s <= 0)%Z -> l_row l = l_col l).
(** entry (i, j) of block b of F1 x1 + ... + Fm xm - F0, counted from 0 *)
Definition coefficient (x : nat -> Qc) (l : line) : Qc :=
  (num (l_text l) * (if l_var l =? 0 then - (1) else x (l_var l)))%Qc.
Definition slack (f : file) (x : nat -> Qc) (b : nat) : matrix := fun i j =>
  sumQ (map (coefficient x)
        (filter (fun l => (l_block l =? b) && (l_row l =? S (Nat.min i j)) && (l_col l =? S (Nat.max i j))) (f_lines f))).
Definition block_holds (s : BinNums.Z) (M : matrix) : Prop :=
  if (0 <? s)%Z then psd (Z.to_nat s) M
  else forall i, i < Z.to_nat (- s) -> (0 <= M i i)%Qc.
Definition file_feasible (f : file) (x : nat -> Qc) : Prop :=
  forall b s, nth_error (f_blockstruct f) b = Some s -> block_holds s (slack f x (S b)).
(** to be minimised *)
Definition file_value (f : file) (x : nat -> Qc) : Qc :=
  sumn (length (f_objective f)) (fun k => (nth k (f_objective f) 0 * x (S k))%Qc).

(** ** The programme in memory
    [v] gives a value to every moment. *)
Definition entry (p : problem) (i j : nat) : nat := nth j (nth i (momentmatrix p) []) 0.
Definition combination (d : idict Qc) (v : nat -> Qc) : Qc := sumQ (map (fun q => (snd q * v (fst q))%Qc) d).
(** the values that are given *)
Definition respects (p : problem) (v : nat -> Qc) : Prop :=
  v 0 = 0%Qc /\ v 1 = 1%Qc /\
  (forall m c, In (m, c) (known_moments p) -> v m = c) /\
  (forall m c m', In (m, (c, m')) (semiknown_moments p) -> v m = (c * v m')%Qc).
(** a bound on [m] matters if [m] is not given and not a multiple of another moment *)
Definition free (p : problem) (m : nat) : Prop :=
  m <> 1 /\ ~ In m (keys (known_moments p)) /\ ~ In m (keys (semiknown_moments p)).
Definition constraints (bounded : nat -> Prop) (p : problem) (v : nat -> Qc) : Prop :=
  psd (length (momentmatrix p)) (fun i j => v (entry p i j)) /\
  (forall m b, In (m, b) (moment_upperbounds p) -> bounded m -> (v m <= b)%Qc) /\
  (forall m b, In (m, b) (moment_lowerbounds p) -> bounded m -> (b <= v m)%Qc) /\
  (forall d, In d (moment_equalities p) -> combination d v = 0%Qc) /\
  (forall d, In d (moment_inequalities p) -> (0 <= combination d v)%Qc).
Definition feasible (p : problem) (v : nat -> Qc) : Prop := constraints (fun _ => True) p v.
(** the same without the bounds on known and semi-known moments *)
Definition feasible_but_bounds (p : problem) (v : nat -> Qc) : Prop := constraints (free p) p v.
(** to be maximised *)
Definition value (p : problem) (v : nat -> Qc) : Qc := combination (objective p) v.
(** the constant term of the objective *)
Definition constant (p : problem) : Qc := match iget 1 (objective p) with Some c => c | None => 0%Qc end.

(** the moments that are variables of the programme *)
Definition variable (p : problem) (m : nat) : Prop :=
  (m <> 0 /\ free p m /\ In m (entries p)) \/
  exists k c, In k (entries p) /\ In (k, (c, m)) (semiknown_moments p).

(** ** Sensible problems *)
Definition exact_bound (b : Qc) : Prop := b = 0%Qc \/ (atol < qabs b)%Qc.
Record wf (p : problem) : Prop := {
  (** the matrix is symmetric and its indices are 0 or 1 and 1, 2, ..., max *)
  wf_square : forall row, In row (momentmatrix p) -> length row = length (momentmatrix p);
  wf_symmetric : forall i j, i < length (momentmatrix p) -> j < length (momentmatrix p) -> entry p i j = entry p j i;
  wf_indices : forall m, 1 <= m <= mm_max p -> In m (entries p);
  wf_known_keys : NoDup (keys (known_moments p));
  wf_semi_keys : NoDup (keys (semiknown_moments p));
  wf_objective_keys : NoDup (keys (objective p));
  (** what is given is in the matrix; the unit is 1 *)
  wf_known_in : forall m, In m (keys (known_moments p)) -> In m (entries p);
  wf_known_one : forall c, In (1, c) (known_moments p) -> c = 1%Qc;
  wf_known_zero : forall c, In (0, c) (known_moments p) -> c = 0%Qc;
  wf_semi_in : forall m, In m (keys (semiknown_moments p)) -> In m (entries p) /\ 2 <= m /\ ~ In m (keys (known_moments p));
  (** a moment is a multiple of one that is not given *)
  wf_targets : forall k c m, In (k, (c, m)) (semiknown_moments p) -> 2 <= m /\ free p m
}.
