(** What the .mat file says, according to the docstring of write_to_mat: a value [y k] for every
    index k, counted from 1 as in MATLAB. *)
From Coq Require Import List Arith Bool String QArith Qcanon.
From Verif Require Import MargModel SDPSolveModel SDPSolveSpec SdpaModel MatModel.
Import ListNotations.
Close Scope Q_scope. Close Scope Qc_scope. Open Scope nat_scope.

Definition mat_entry (f : mat_file) (i j : nat) : nat := nth j (nth i (mat_momentmatrix f) []) 0.
(** sum of coeffs(t) * y(moments(t)) *)
Definition row_value (y : nat -> Qc) (c : list nat * list Qc) : Qc :=
  sumQ (map (fun q => snd q * y (fst q))%Qc (combine (fst c) (snd c))).

Record mat_satisfied (f : mat_file) (y : nat -> Qc) : Prop := {
  ms_psd : psd (List.length (mat_momentmatrix f)) (fun i j => y (mat_entry f i j));
  ms_known : forall k c, In (k, c) (mat_known_moments f) -> y k = c;
  ms_semi : forall k c k', In (k, (c, k')) (mat_semiknown_moments f) -> y k = (c * y k')%Qc;
  ms_lower : forall k b, In (k, b) (mat_lowerbounds f) -> (b <= y k)%Qc;
  ms_upper : forall k b, In (k, b) (mat_upperbounds f) -> (y k <= b)%Qc;
  ms_eq : forall c, In c (mat_equalities f) -> row_value y c = 0%Qc;
  ms_ineq : forall c, In c (mat_inequalities f) -> (0 <= row_value y c)%Qc }.
Definition mat_value (f : mat_file) (y : nat -> Qc) : Qc := sumQ (map (fun q => snd q * y (fst q))%Qc (mat_objective f)).

(** MATLAB can use the file: indices are at least 1, a constraint has as many moments as
    coefficients, the matrix is square *)
Record mat_readable (f : mat_file) : Prop := {
  mr_matrix : forall row k, In row (mat_momentmatrix f) -> In k row -> 1 <= k;
  mr_square : forall row, In row (mat_momentmatrix f) -> List.length row = List.length (mat_momentmatrix f);
  mr_names : forall k, In k (map fst (mat_idx2name f)) -> 1 <= k;
  mr_objective : forall k, In k (map fst (mat_objective f)) -> 1 <= k;
  mr_known : forall k, In k (map fst (mat_known_moments f)) -> 1 <= k;
  mr_semi : forall k c k', In (k, (c, k')) (mat_semiknown_moments f) -> 1 <= k /\ 1 <= k';
  mr_bounds : forall k, In k (map fst (mat_lowerbounds f)) \/ In k (map fst (mat_upperbounds f)) -> 1 <= k;
  mr_constraints : forall c, In c (mat_equalities f) \/ In c (mat_inequalities f) ->
    List.length (fst c) = List.length (snd c) /\ forall k, In k (fst c) -> 1 <= k }.

(** the zero moment occurs in the constraints, values or bounds *)
Definition uses_zero (p : problem) (moments : list (nat * string)) : Prop :=
  In 0 (map fst moments) \/ In 0 (map fst (objective p)) \/ In 0 (map fst (known_moments p)) \/
  (exists k c k', In (k, (c, k')) (semiknown_moments p) /\ (k = 0 \/ k' = 0)) \/
  In 0 (map fst (moment_lowerbounds p)) \/ In 0 (map fst (moment_upperbounds p)) \/
  exists d, (In d (moment_equalities p) \/ In d (moment_inequalities p)) /\ In 0 (map fst d).
(** what a programme with values looks like: One is 1, and Zero is 0 if it is in the matrix *)
Record mat_wf (p : problem) (moments : list (nat * string)) : Prop := {
  mw_square : forall row, In row (momentmatrix p) -> List.length row = List.length (momentmatrix p);
  mw_one : In (1, 1%Qc) (known_moments p);
  mw_zero : In 0 (entries p) -> In (0, 0%Qc) (known_moments p);
  mw_uses : uses_zero p moments -> In 0 (entries p) }.
