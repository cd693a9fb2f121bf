(** What a semidefinite programme handed to the solver interface means, and what it means to
    be a point of the conic programmes that are built from it. *)
From Coq Require Import List Arith Bool String QArith Qcanon.
From Verif Require Import MargModel ProgramModel Duality SDPSolveModel.
Import ListNotations.
Open Scope Qc_scope.

(** ** Positive semidefinite matrices *)
Definition symmetric (n : nat) (M : matrix) : Prop := forall i j, (i < n)%nat -> (j < n)%nat -> M i j = M j i.
Definition psd (n : nat) (M : matrix) : Prop :=
  symmetric n M /\ forall v : nat -> Qc, 0 <= sumn n (fun i => sumn n (fun j => v i * M i j * v j)).

(** ** The programme in terms of all of its moments *)
Definition expr (x : name -> Qc) (d : ndict Qc) : Qc := sumQ (map (fun '(k, c) => c * x k) d).
Definition moment_matrix (a : sdp_args) (x : name -> Qc) : matrix :=
  fun i j => sumQ (map (fun '(k, M) => x k * M i j) (mask_matrices a)).
Definition unknown (a : sdp_args) (k : name) : Prop := In k (all_names a) /\ ~ In k (keys (known_vars a)).

(** everything a point has to satisfy except positivity of the matrix *)
Definition linear_part (a : sdp_args) (x : name -> Qc) : Prop :=
  (forall k v, In (k, v) (known_vars a) -> x k = v) /\
  (forall k c k2, In (k, (c, k2)) (semiknown_vars a) -> x k = c * x k2) /\
  (forall d, In d (equalities a) -> expr x d = 0) /\
  (forall d, In d (inequalities a) -> 0 <= expr x d) /\
  (default_non_negative a = true -> (forall k, unknown a k -> 0 <= x k) /\
                                    (forall k c k2, In (k, (c, k2)) (semiknown_vars a) -> 0 <= x k2)).
Definition feasible (a : sdp_args) (x : name -> Qc) : Prop :=
  linear_part a x /\ psd (mat_dim a) (moment_matrix a x).
(** all eigenvalues at least l *)
Definition feasible_above (a : sdp_args) (l : Qc) (x : name -> Qc) : Prop :=
  linear_part a x /\ psd (mat_dim a) (fun i j => moment_matrix a x i j - (if Nat.eqb i j then l else 0)).
Definition value (a : sdp_args) (x : name -> Qc) : Qc := expr x (objective a).

(** ** Points of the conic programmes *)
Definition dual_feasible (t : dual_task) (s : dual_point) : Prop :=
  (d_psd t = true -> psd (d_dim t) (Z s)) /\
  length (I s) = d_ineq t /\ (forall y, In y (I s) -> 0 <= y) /\ length (E s) = d_eq t /\
  forall ci F A C, In (ci, F, A, C) (d_rows t) ->
    let lhs := ci + match F with Some M => mdot (d_dim t) (Z s) M | None => 0 end + dotQ A (I s) + dotQ C (E s) in
    if d_le t then lhs <= 0 else lhs = 0.
(** a ray: the same without the constants ci *)
Definition dual_ray (t : dual_task) (s : dual_point) : Prop :=
  (d_psd t = true -> psd (d_dim t) (Z s)) /\
  length (I s) = d_ineq t /\ (forall y, In y (I s) -> 0 <= y) /\ length (E s) = d_eq t /\
  forall ci F A C, In (ci, F, A, C) (d_rows t) ->
    let lhs := match F with Some M => mdot (d_dim t) (Z s) M | None => 0 end + dotQ A (I s) + dotQ C (E s) in
    if d_le t then lhs <= 0 else lhs = 0.
Definition dual_value (t : dual_task) (s : dual_point) : Qc :=
  d_const t + (if d_psd t then mdot (d_dim t) (Z s) (d_F0 t) else 0) + dotQ (d_b t) (I s) + dotQ (d_d t) (E s).

Definition primal_feasible (t : primal_task) (x : name -> Qc) (G : matrix) : Prop :=
  (x_nonneg t = true -> forall k, In k (x_vars t) -> 0 <= x k) /\
  (forall r b, In (r, b) (x_A t) -> 0 <= expr x r + b) /\
  (forall r b, In (r, b) (x_C t) -> expr x r + b = 0) /\
  (x_psd t = true -> psd (x_dim t) G /\
     forall i j, (i <= j)%nat -> (j < x_dim t)%nat ->
       G i j = x_F0 t i j + sumQ (map (fun '(k, M) => M i j * x k) (x_F t))).
Definition primal_value (t : primal_task) (x : name -> Qc) : Qc := x_const t + expr x (x_obj t).

(** ** Sensible arguments *)
Definition targets (a : sdp_args) : list name := map (fun p => snd (snd p)) (semiknown_vars a).
Definition wf_args (a : sdp_args) : Prop :=
  NoDup (keys (mask_matrices a)) /\ NoDup (keys (objective a)) /\ NoDup (keys (known_vars a)) /\
  NoDup (keys (semiknown_vars a)) /\
  (forall d, In d (equalities a) -> NoDup (keys d)) /\ (forall d, In d (inequalities a) -> NoDup (keys d)) /\
  (forall k M, In (k, M) (mask_matrices a) -> symmetric (mat_dim a) M) /\
  (mask_matrices a = [] -> mat_dim a = 0%nat) /\
  (** a moment is not both known and semi-known, and is semi-known relative to an unknown *)
  (forall k, In k (keys (semiknown_vars a)) -> ~ In k (keys (known_vars a))) /\
  (forall k, In k (targets a) -> ~ In k (keys (known_vars a)) /\ ~ In k (keys (semiknown_vars a))) /\
  (default_non_negative a = true -> forall k c k2, In (k, (c, k2)) (semiknown_vars a) -> 0 <= c).
(** the auxiliary variable is not the name of something else *)
Definition lambda_free (a : sdp_args) : Prop :=
  ~ In (lambda_name a) (keys (known_vars a)) /\ ~ In (lambda_name a) (keys (semiknown_vars a)) /\
  ~ In (lambda_name a) (targets a).
(** the same programme with other known values *)
Definition with_known (v : ndict Qc) (a : sdp_args) : sdp_args :=
  {| mat_dim := mat_dim a; mask_matrices := mask_matrices a; objective := objective a; known_vars := v;
     semiknown_vars := semiknown_vars a; inequalities := inequalities a; equalities := equalities a;
     default_non_negative := default_non_negative a; feas_as_optim := feas_as_optim a;
     process_constraints := process_constraints a |}.
