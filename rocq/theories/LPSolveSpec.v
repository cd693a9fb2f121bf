(** What the linear programmes handed to the solver mean. *)
From Coq Require Import List Arith Bool QArith Qcanon.
From Verif Require Import MargModel LPSolveModel.
Import ListNotations.
Open Scope nat_scope.

(** A solver task: each constraint and each variable lies within its bounds. *)
Definition within (b : bound) (v : Qc) : Prop :=
  let '(k, l, u) := b in
  match k with
  | lo => (l <= v)%Qc
  | up => (v <= u)%Qc
  | fx => v = l /\ v = u
  | fr => True
  | ra => (l <= v)%Qc /\ (v <= u)%Qc
  end.
Definition total (n : nat) (f : nat -> Qc) : Qc := sumQ (map f (seq 0 n)).
(** sum over the columns j of (entry in row i) * z_j *)
Definition activity (t : task) (i : nat) (z : nat -> Qc) : Qc :=
  total (t_numvar t) (fun j => sumQ (map (fun q => if fst q =? i then snd q * z j else 0)%Qc (nth j (t_cols t) []))).
Definition task_feasible (t : task) (z : nat -> Qc) : Prop :=
  (forall i, i < t_numcon t -> within (nth i (t_con t) (fr, 0, 0)%Qc) (activity t i z)) /\
  (forall j, j < t_numvar t -> within (nth j (t_var t) (fr, 0, 0)%Qc) (z j)).
Definition task_value (t : task) (z : nat -> Qc) : Qc :=
  total (t_numvar t) (fun j => nth j (t_c t) 0 * z j)%Qc.

(** The problem described by the arguments. *)
Definition entry_sum (m : coo) (i : nat) (x : nat -> Qc) : Qc :=
  sumQ (map (fun e => if e_row e =? i then e_val e * x (e_col e) else 0)%Qc (c_ent m)).
Definition objective_at (a : lp_args) (x : nat -> Qc) : Qc :=
  sumQ (map (fun e => e_val e * x (e_col e))%Qc (c_ent (objective a))).

(** [n] variables x; [l] is the slack of a relaxed problem.  Relaxing drops the default
    non-negativity. *)
Record problem_point (n : nat) (a : lp_args) (x : nat -> Qc) (l : Qc) : Prop := {
  pp_ineq : forall i, i < c_rows (inequalities a) ->
    (0 <= entry_sum (inequalities a) i x + (if relax_inequalities a then l else 0))%Qc;
  pp_eq : forall i, i < c_rows (equalities a) -> entry_sum (equalities a) i x = 0%Qc;
  pp_known : forall e, In e (c_ent (known_vars a)) ->
    if relax_known_vars a then (e_val e <= x (e_col e) + l)%Qc /\ (x (e_col e) - l <= e_val e)%Qc
    else x (e_col e) = e_val e;
  pp_lower : forall e, In e (c_ent (lower_bounds a)) -> (e_val e <= x (e_col e))%Qc;
  pp_upper : forall e, In e (c_ent (upper_bounds a)) -> (x (e_col e) <= e_val e)%Qc;
  pp_nonneg : relaxed a = false -> default_non_negative a = true -> forall j, j < n -> (0 <= x j)%Qc
}.
(** what is maximised: the objective, or minus the slack *)
Definition problem_value (a : lp_args) (x : nat -> Qc) (l : Qc) : Qc :=
  if relaxed a then (- l)%Qc else objective_at a x.

(** Arguments over [n] variables: matrices have that width and no empty row, vectors name
    each column at most once, and there is at least one (in)equality. *)
Record matrix_ok (n : nat) (m : coo) : Prop := {
  mo_width : c_cols m = n \/ m = blank_coo;
  mo_rows : forall e, In e (c_ent m) -> e_row e < c_rows m /\ e_col e < n;
  mo_full : forall i, i < c_rows m -> exists e, In e (c_ent m) /\ e_row e = i
}.
Record vector_ok (n : nat) (v : coo) : Prop := {
  vo_width : c_cols v = n \/ v = blank_coo;
  vo_rows : forall e, In e (c_ent v) -> e_row e = 0 /\ e_col e < n;
  vo_nodup : NoDup (map e_col (c_ent v))
}.
Record args_ok (n : nat) (a : lp_args) : Prop := {
  ao_pos : 0 < n;
  ao_ineq : matrix_ok n (inequalities a);
  ao_eq : matrix_ok n (equalities a);
  ao_some : 0 < c_rows (inequalities a) + c_rows (equalities a);
  ao_known : vector_ok n (known_vars a);
  ao_lower : vector_ok n (lower_bounds a);
  ao_upper : vector_ok n (upper_bounds a);
  ao_obj : vector_ok n (objective a)
}.
(** lower bounds do not contradict the default non-negativity *)
Definition lower_bounds_nonneg (a : lp_args) : Prop :=
  relaxed a = false -> default_non_negative a = true -> forall e, In e (c_ent (lower_bounds a)) -> (0 <= e_val e)%Qc.

(** Multipliers of a maximisation task, as a solver reports them with an optimal solution:
    one per constraint, with the sign its bound allows, such that the reduced cost of every
    variable has the sign its bounds allow. *)
Definition multipliers (t : task) (y : nat -> Qc) : Prop :=
  (forall i, i < t_numcon t -> match fst (fst (nth i (t_con t) (fr, 0, 0)%Qc)) with
     | lo => (y i <= 0)%Qc | up => (0 <= y i)%Qc | fr => y i = 0%Qc | fx | ra => True end) /\
  (forall j, j < t_numvar t ->
     let d := (nth j (t_c t) 0 - sumQ (map (fun q => snd q * y (fst q)) (nth j (t_cols t) [])))%Qc in
     match fst (fst (nth j (t_var t) (fr, 0, 0)%Qc)) with
     | lo => (d <= 0)%Qc | up => (0 <= d)%Qc | fr => d = 0%Qc | fx | ra => True end).

(** A point that is possible for some known values: it satisfies everything except those
    values. *)
Record possible (n : nat) (a : lp_args) (x : nat -> Qc) : Prop := {
  po_ineq : forall i, i < c_rows (inequalities a) -> (0 <= entry_sum (inequalities a) i x)%Qc;
  po_eq : forall i, i < c_rows (equalities a) -> entry_sum (equalities a) i x = 0%Qc;
  po_lower : forall e, In e (c_ent (lower_bounds a)) -> (e_val e <= x (e_col e))%Qc;
  po_upper : forall e, In e (c_ent (upper_bounds a)) -> (x (e_col e) <= e_val e)%Qc;
  po_nonneg : relaxed a = false -> default_non_negative a = true -> forall j, j < n -> (0 <= x j)%Qc
}.
Definition no_bounds (a : lp_args) : Prop := c_ent (lower_bounds a) = [] /\ c_ent (upper_bounds a) = [].
Definition objective_unknown (a : lp_args) : Prop :=
  forall e e', In e (c_ent (objective a)) -> In e' (c_ent (known_vars a)) -> e_col e <> e_col e'.
(** value of a certificate (a list of coefficients of the variables) at a point *)
Definition certificate_at (n : nat) (cert : list Qc) (x : nat -> Qc) : Qc := total n (fun j => nth j cert 0 * x j)%Qc.
