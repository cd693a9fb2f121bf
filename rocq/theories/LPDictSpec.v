(** What the arguments of solveLP mean, by the names of the variables. *)
From Coq Require Import List Arith Bool Ascii String QArith Qcanon.
From Verif Require Import MargModel LPSolveModel LPDictModel.
Import ListNotations.
Close Scope Q_scope. Close Scope Qc_scope. Open Scope string_scope. Open Scope nat_scope. Open Scope list_scope.

Definition expression (x : string -> Qc) (d : named) : Qc := sumQ (map (fun q => snd q * x (fst q))%Qc d).
(** a sparse argument refers to the variables by their position *)
Definition entry_named (vars : list string) (e : entry) : string * Qc := (nth (e_col e) vars "", e_val e).
Definition vec_says (vars : list string) (o : option vec) : named :=
  match o with None => [] | Some (VDict d) => d | Some (VSparse m) => map (entry_named vars) (c_ent m) end.
Definition mat_says (vars : list string) (o : option mat) : list named :=
  match o with None => [] | Some (MDicts l) => l
  | Some (MSparse m) => map (fun i => map (entry_named vars) (filter (fun e => e_row e =? i) (c_ent m))) (seq 0 (c_rows m)) end.
Definition semi_says (o : option (list (string * (Qc * string)))) : list (string * (Qc * string)) := match o with Some l => l | None => [] end.
Definition relaxes (u : user_args) : bool := u_relax_known_vars u || u_relax_inequalities u.

(** [x] satisfies what is asked; [l] is the slack of a relaxed problem *)
Record named_point (vars : list string) (u : user_args) (x : string -> Qc) (l : Qc) : Prop := {
  np_ineq : forall d, In d (mat_says vars (u_ineq u)) -> (0 <= expression x d + (if u_relax_inequalities u then l else 0))%Qc;
  np_eq : forall d, In d (mat_says vars (u_eq u)) -> expression x d = 0%Qc;
  np_semi : forall y c y2, In (y, (c, y2)) (semi_says (u_semiknown u)) -> x y = (c * x y2)%Qc;
  np_known : forall y v, In (y, v) (vec_says vars (u_known u)) ->
    if u_relax_known_vars u then (v <= x y + l)%Qc /\ (x y - l <= v)%Qc else x y = v;
  np_lower : forall y v, In (y, v) (vec_says vars (u_lower u)) -> (v <= x y)%Qc;
  np_upper : forall y v, In (y, v) (vec_says vars (u_upper u)) -> (x y <= v)%Qc;
  np_nonneg : relaxes u = false -> u_default_non_negative u = true -> forall y, In y vars -> (0 <= x y)%Qc }.
Definition named_value (vars : list string) (u : user_args) (x : string -> Qc) (l : Qc) : Qc :=
  if relaxes u then (- l)%Qc else expression x (vec_says vars (u_objective u)).

(** the names that dictionaries mention, except in bounds *)
Definition mentioned (u : user_args) (y : string) : Prop :=
  In y (vec_names (u_objective u)) \/ (exists l d, u_ineq u = Some (MDicts l) /\ In d l /\ In y (map fst d)) \/
  (exists l d, u_eq u = Some (MDicts l) /\ In d l /\ In y (map fst d)) \/
  (exists z c z2, In (z, (c, z2)) (semi_says (u_semiknown u)) /\ (y = z \/ y = z2)) \/ In y (vec_names (u_known u)).

(** ** Sensible arguments *)
Record sparse_vec_ok (n : nat) (m : coo) : Prop := {
  sv_width : c_cols m = n; sv_rows : forall e, In e (c_ent m) -> e_row e = 0 /\ e_col e < n; sv_nodup : NoDup (map e_col (c_ent m)) }.
Definition vec_ok (vars : list string) (v : vec) : Prop :=
  match v with VSparse m => sparse_vec_ok (List.length vars) m | VDict d => NoDup (map fst d) /\ forall y, In y (map fst d) -> In y vars end.
Record sparse_mat_ok (n : nat) (m : coo) : Prop := {
  sm_width : c_cols m = n; sm_rows : forall e, In e (c_ent m) -> e_row e < c_rows m /\ e_col e < n;
  sm_full : forall i, i < c_rows m -> exists e, In e (c_ent m) /\ e_row e = i }.
Definition mat_ok (vars : list string) (m : mat) : Prop :=
  match m with MSparse m => sparse_mat_ok (List.length vars) m | MDicts l => forall d, In d l -> d <> [] /\ forall y, In y (map fst d) -> In y vars end.
(** objective, known values and inequalities are given, and equalities unless there are semi-known variables;
    no (in)equality is empty and there is at least one; sparse equalities only without semi-known variables *)
Record usable (vars : list string) (u : user_args) : Prop := {
  us_vars : NoDup vars; us_some_vars : vars <> [];
  us_objective : exists v, u_objective u = Some v /\ vec_ok vars v;
  us_known : exists v, u_known u = Some v /\ vec_ok vars v;
  us_lower : forall v, u_lower u = Some v -> vec_ok vars v;
  us_upper : forall v, u_upper u = Some v -> vec_ok vars v;
  us_ineq : exists m, u_ineq u = Some m /\ mat_ok vars m;
  us_eq : forall m, u_eq u = Some m -> mat_ok vars m;
  us_some_eq : u_eq u <> None \/ semi_says (u_semiknown u) <> [];
  us_semi : forall y c y2, In (y, (c, y2)) (semi_says (u_semiknown u)) -> In y vars /\ In y2 vars;
  us_not_replaced : semi_says (u_semiknown u) <> [] -> forall m, u_eq u <> Some (MSparse m);
  us_constraint : mat_says vars (u_ineq u) <> [] \/ mat_says vars (u_eq u) <> [] \/ semi_says (u_semiknown u) <> [] }.

(** reading a result *)
Definition reading (d : named) (y : string) : Qc := match find (fun q => String.eqb (fst q) y) d with Some q => snd q | None => 0%Qc end.
(** everything but the known values, without slack *)
Record named_possible (vars : list string) (u : user_args) (x : string -> Qc) : Prop := {
  nq_ineq : forall d, In d (mat_says vars (u_ineq u)) -> (0 <= expression x d)%Qc;
  nq_eq : forall d, In d (mat_says vars (u_eq u)) -> expression x d = 0%Qc;
  nq_semi : forall y c y2, In (y, (c, y2)) (semi_says (u_semiknown u)) -> x y = (c * x y2)%Qc;
  nq_nonneg : relaxes u = false -> u_default_non_negative u = true -> forall y, In y vars -> (0 <= x y)%Qc }.
(** no bounds, and the objective has no known variables (and no terms if the problem is relaxed) *)
Record plain_problem (vars : list string) (u : user_args) : Prop := {
  pl_lower : vec_says vars (u_lower u) = []; pl_upper : vec_says vars (u_upper u) = [];
  pl_objective : forall y, In y (map fst (vec_says vars (u_objective u))) -> In y (map fst (vec_says vars (u_known u))) -> False;
  pl_relaxed : relaxes u = true -> vec_says vars (u_objective u) = [] }.
Definition lower_bounds_fit (vars : list string) (u : user_args) : Prop :=
  relaxes u = false -> u_default_non_negative u = true -> forall y v, In (y, v) (vec_says vars (u_lower u)) -> (0 <= v)%Qc.
