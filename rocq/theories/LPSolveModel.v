(** Model of the construction of the solver task and of the certificate for linear
    programmes (inflation/lp/lp_utils.py: drop_zero_rows 18-31, canonical_order 34-48,
    solveLP_sparse 131-548, convert_dicts 605-654; inflation/utils.py: expand_sparse_vec
    113-141, vstack 144-168).  Numbers are exact rationals instead of floats; the call to
    MOSEK (468-485) is not modelled: a solution is any point of the task built here. *)
From Coq Require Import List Arith Bool QArith Qcanon.
From Verif Require Import MargModel FactorModel.
Import ListNotations.
Open Scope nat_scope.

(** scipy.sparse.coo_array: the shape and the stored entries (row, column, value); entries
    with the same position add up. *)
Definition entry := (nat * nat * Qc)%type.
Definition e_row (e : entry) : nat := fst (fst e).
Definition e_col (e : entry) : nat := snd (fst e).
Definition e_val (e : entry) : Qc := snd e.
Record coo := Coo { c_rows : nat; c_cols : nat; c_ent : list entry }.
(** blank_coo_array, lp_utils.py:130 *)
Definition blank_coo : coo := Coo 0 0 [].

(** drop_zero_rows, lp_utils.py:26-31 (arrays are two-dimensional here).  scipy's reshape
    refuses a different number of elements, so a zero row makes the call fail. *)
Definition drop_zero_rows (m : coo) : option coo :=
  let nz := np_unique Nat.compare (map e_row (c_ent m)) in
  if length nz * c_cols m =? c_rows m * c_cols m
  then Some (Coo (length nz) (c_cols m) (map (fun e => (index_of Nat.eqb (e_row e) nz, e_col e, e_val e)) (c_ent m)))
  else None.

(** canonical_order, lp_utils.py:44-48: a stable sort by row, then column *)
Definition e_le (a b : entry) : bool :=
  (e_row a <? e_row b) || ((e_row a =? e_row b) && (e_col a <=? e_col b)).
Fixpoint e_insert (a : entry) (l : list entry) : list entry :=
  match l with [] => [a] | b :: l' => if e_le a b then a :: l else b :: e_insert a l' end.
Definition e_sort (l : list entry) : list entry := fold_right e_insert [] l.
Definition canonical_order (m : coo) : coo := Coo (c_rows m) (c_cols m) (e_sort (c_ent m)).

(** utils.vstack, utils.py:146-168 (all blocks are coo_arrays).  Without any row the result
    of coo_array([]) depends on the version of scipy: left out (None). *)
Definition vstack (blocks : list coo) : option coo :=
  match filter (fun m => negb (c_rows m =? 0)) blocks with
  | [] => None
  | [m] => Some m
  | _ =>
    let '(r, c, es) := fold_left (fun '(r, c, es) m =>
        (r + c_rows m, Nat.max c (c_cols m), es ++ map (fun e => (e_row e + r, e_col e, e_val e)) (c_ent m)))
      blocks (0, 0, []) in
    Some (Coo r c es)
  end.

(** utils.expand_sparse_vec, utils.py:119-141 *)
Inductive style := style_eq | style_lb | style_ub.
Definition nnz (v : coo) : nat := length (c_ent v).
Definition vec_cols (v : coo) : list nat := map e_col (c_ent v).
Definition vec_data (v : coo) : list Qc := map e_val (c_ent v).
Definition expand_sparse_vec (s : style) (v : coo) : coo :=
  let ent := match s with
    | style_eq => map (fun '(i, e) => (i, e_col e, 1%Qc)) (combine (seq 0 (nnz v)) (c_ent v))
    | style_ub => flat_map (fun '(i, e) => [(i, e_col e, (- (1))%Qc); (i, 0, e_val e)]) (combine (seq 0 (nnz v)) (c_ent v))
    | style_lb => flat_map (fun '(i, e) => [(i, e_col e, 1%Qc); (i, 0, (- e_val e)%Qc)]) (combine (seq 0 (nnz v)) (c_ent v))
    end in
  Coo (nnz v) (c_cols v) ent.

(** the arguments of solveLP_sparse, lp_utils.py:131-140 *)
Record lp_args := {
  objective : coo; known_vars : coo; inequalities : coo; equalities : coo;
  lower_bounds : coo; upper_bounds : coo;
  default_non_negative : bool; relax_known_vars : bool; relax_inequalities : bool
}.
Definition relaxed (a : lp_args) : bool := relax_known_vars a || relax_inequalities a.
(** lines 213-214 *)
Definition non_negative (a : lp_args) : bool := if relaxed a then false else default_non_negative a.

(** A MOSEK task (task.inputdata, 433-454): sense, costs, columns of the constraint matrix,
    bound keys and bounds of constraints and of variables *)
Inductive boundkey := lo | up | fx | fr | ra.
Definition bound := (boundkey * Qc * Qc)%type.
Record task := {
  t_maximize : bool; t_numcon : nat; t_numvar : nat; t_c : list Qc;
  t_cols : list (list (nat * Qc)); t_con : list bound; t_var : list bound
}.

(** toarray().ravel() of a vector *)
Definition dense (v : coo) : list Qc :=
  map (fun j => sumQ (map (fun e => if e_col e =? j then e_val e else 0%Qc) (c_ent v))) (seq 0 (c_cols v)).
(** numpy assignment  arr[idx] = vals *)
Fixpoint set_nth {A} (l : list A) (i : nat) (a : A) : list A :=
  match l, i with [], _ => [] | _ :: l', 0 => a :: l' | b :: l', S i' => b :: set_nth l' i' a end.
Definition put {A} (l : list A) (q : list (nat * A)) : list A :=
  fold_left (fun l p => set_nth l (fst p) (snd p)) q l.
(** arr[-1] = val *)
Definition set_last {A} (l : list A) (a : A) : list A := set_nth l (length l - 1) a.
(** tocsc / tocsr: the entries of each column / row (repeated positions are not merged:
    MOSEK's constraint activities are sums over entries) *)
Definition csc (m : coo) : list (list (nat * Qc)) :=
  map (fun j => map (fun e => (e_row e, e_val e)) (filter (fun e => e_col e =? j) (c_ent m))) (seq 0 (c_cols m)).
Definition csr (m : coo) : list (list (nat * Qc)) :=
  map (fun i => map (fun e => (e_col e, e_val e)) (filter (fun e => e_row e =? i) (c_ent m))) (seq 0 (c_rows m)).

(** what lines 198-301 prepare *)
Record setup := {
  s_matrix : coo;          (** the constraints *)
  s_b : list Qc;           (** their right-hand sides *)
  s_ineq : nat; s_eq : nat;
  s_known : coo; s_lower : coo; s_upper : coo; s_obj : coo
}.

(** lines 255-266: the slack is added to each inequality *)
Definition add_slack (nineq : nat) (m : coo) : coo :=
  Coo (c_rows m) (c_cols m + 1) (c_ent m ++ map (fun i => (i, c_cols m, 1%Qc)) (seq 0 nineq)).
(** lines 270-285: two inequalities with slack per known value; n is the width before
    relaxation *)
Definition kv_relaxed (n : nat) (known : coo) : coo :=
  let k := nnz known in
  canonical_order (Coo (2 * k) (n + 1)
    (combine (combine (seq 0 (2 * k) ++ seq 0 (2 * k)) (vec_cols known ++ vec_cols known ++ repeat n (2 * k)))
             (repeat 1%Qc (3 * k) ++ repeat (- (1))%Qc k))).

Definition bind {A B} (o : option A) (f : A -> option B) : option B := match o with Some x => f x | None => None end.

(** lines 198-203 and 243-301 *)
Definition prepare (a : lp_args) : option setup :=
  bind (drop_zero_rows (inequalities a)) (fun ineq =>
  bind (drop_zero_rows (equalities a)) (fun eq =>
  let known := canonical_order (known_vars a) in
  let upper := canonical_order (upper_bounds a) in
  let lower := canonical_order (lower_bounds a) in
  let obj := canonical_order (objective a) in
  bind (vstack [ineq; eq]) (fun constraints =>
  let n := c_cols constraints in
  let m := c_rows constraints in
  let b := repeat 0%Qc m in
  let c1 := if relax_inequalities a then add_slack (c_rows ineq) constraints else constraints in
  let c2 := if relax_known_vars a then Coo m (n + 1) (c_ent c1) else c1 in
  let kv := if relax_known_vars a then kv_relaxed n known else expand_sparse_vec style_eq known in
  let b' := if relax_known_vars a then b ++ vec_data known ++ vec_data known else b ++ vec_data known in
  let neq := if relax_known_vars a then c_rows eq else c_rows eq + nnz known in
  bind (vstack [c2; kv]) (fun full =>
  let obj' := if c_cols obj =? 0 then Coo 1 (c_cols full) [] else obj in
  Some {| s_matrix := full; s_b := b'; s_ineq := c_rows ineq; s_eq := neq;
          s_known := known; s_lower := lower; s_upper := upper; s_obj := obj' |})))).

(** lines 361-422: the task of the primal problem *)
Definition primal_task (a : lp_args) (s : setup) : task :=
  let nvar := c_cols (s_matrix s) in
  let obj := if relaxed a then set_last (repeat 0%Qc nvar) (- (1))%Qc else dense (s_obj s) in
  let k := nnz (s_known s) in
  let bkc := repeat lo (s_ineq s) ++ repeat fx (s_eq s) ++ (if relax_known_vars a then repeat lo k ++ repeat up k else []) in
  let ub_col := vec_cols (s_upper s) in
  let lb_col := vec_cols (s_lower s) in
  let bkx := if non_negative a
    then put (repeat lo nvar) (map (fun j => (j, ra)) ub_col)
    else put (put (put (repeat fr nvar)
                  (map (fun j => (j, lo)) (filter (fun j => negb (memb j ub_col)) lb_col)))
                  (map (fun j => (j, up)) (filter (fun j => negb (memb j lb_col)) ub_col)))
                  (map (fun j => (j, ra)) (filter (fun j => memb j lb_col) ub_col)) in
  let blx := put (repeat 0%Qc nvar) (combine lb_col (vec_data (s_lower s))) in
  let bux := put (repeat 0%Qc nvar) (combine ub_col (vec_data (s_upper s))) in
  let bkx' := if relaxed a then set_last bkx fr else bkx in
  {| t_maximize := true; t_numcon := c_rows (s_matrix s); t_numvar := nvar; t_c := obj;
     t_cols := csc (s_matrix s);
     t_con := combine (combine bkc (s_b s)) (s_b s);
     t_var := combine (combine bkx' blx) bux |}.

(** lines 306-359: the task of the dual problem *)
Definition neg_data (m : coo) : coo := Coo (c_rows m) (c_cols m) (map (fun e => (e_row e, e_col e, (- e_val e)%Qc)) (c_ent m)).
Definition dual_task (a : lp_args) (s : setup) : option task :=
  let nvar := c_cols (s_matrix s) in
  let nb := nnz (s_lower s) + nnz (s_upper s) in
  let k := nnz (s_known s) in
  let numvar := c_rows (s_matrix s) + nb in
  bind (if 0 <? nb
        then vstack [s_matrix s; expand_sparse_vec style_eq (s_lower s); neg_data (expand_sparse_vec style_eq (s_upper s))]
        else Some (s_matrix s)) (fun matrix =>
  let objective_vector := if 0 <? nb then s_b s ++ vec_data (s_lower s) ++ map Qcopp (vec_data (s_upper s)) else s_b s in
  let blc := if relaxed a then set_last (repeat 0%Qc nvar) (- (1))%Qc else dense (s_obj s) in
  let bkc := if non_negative a then repeat lo nvar else repeat fx nvar in
  let bkx := repeat up (s_ineq s) ++ repeat fr (s_eq s) ++ (if relax_known_vars a then repeat up k ++ repeat lo k else []) ++ repeat up nb in
  Some {| t_maximize := false; t_numcon := nvar; t_numvar := numvar; t_c := objective_vector;
          t_cols := csr matrix;
          t_con := combine (combine bkc blc) blc;
          t_var := map (fun key => (key, 0%Qc, 0%Qc)) bkx |}).

(** lines 509-524: the certificate extracted from the multipliers y of the constraints *)
Definition certificate (a : lp_args) (s : setup) (y : list Qc) : list Qc :=
  let nvar := c_cols (s_matrix s) in
  let k := nnz (s_known s) in
  let yk := skipn (c_rows (s_matrix s) - (if relax_known_vars a then k * 2 else k)) y in
  let kcol := vec_cols (s_known s) in
  let obj := dense (s_obj s) in
  let unknown := filter (fun j => negb (memb j kcol)) (vec_cols (s_obj s)) in
  let c1 := put (repeat 0%Qc nvar) (map (fun j => (j, (- nth j obj 0)%Qc)) unknown) in
  let c2 := put c1 (combine kcol (firstn k yk)) in
  if relax_known_vars a
  then put c2 (combine kcol (map (fun '(j, v) => (nth j c2 0 + v)%Qc) (combine kcol (firstn k (skipn k yk)))))
  else c2.

(** convert_dicts, lines 636-654: each semi-known variable x = c * x2 becomes an equality *)
Definition semiknown_matrix (n : nat) (semi : list (nat * (Qc * nat))) : coo :=
  Coo (length semi) n
      (flat_map (fun '(i, (x, (c, x2))) => [(i, x, 1%Qc); (i, x2, (- c)%Qc)]) (combine (seq 0 (length semi)) semi)).
