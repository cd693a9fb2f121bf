(** Model of the pre-processing, the conic programmes and the certificate of the SDP solver
    interface (inflation/sdp/sdp_utils.py: solveSDP_MosekFUSION 16-571).

    Numbers are exact rationals instead of floats and matrices are functions of two indices
    below mat_dim (scipy's sparse formats are not modelled).  Python sets are lists without
    repetition in the order of insertion, and a column of A or C is called by the name of its
    variable instead of its position var2index[x] (250, 269).  The call to MOSEK is not
    modelled: a solution is any point of the programme built here.  An exception is None.
    Printing, timing and garbage collection are left out. *)
From Coq Require Import List Arith Bool String Ascii QArith Qcanon.
From Verif Require Import MargModel ProgramModel Duality.
Import ListNotations.
Open Scope nat_scope.

Definition name := string.
Definition ndict (V : Type) := list (name * V).
Definition nget {V} (k : name) (d : ndict V) : option V := get string_dec k d.
Definition nset {V} (k : name) (v : V) (d : ndict V) : ndict V := set string_dec k v d.
Definition ndel {V} (k : name) (d : ndict V) : ndict V := del string_dec k d.
Definition mem (k : name) (l : list name) : bool := if in_dec string_dec k l then true else false.
(** set.add and set.remove *)
Definition add (k : name) (l : list name) : list name := if mem k l then l else l ++ [k].
Definition remove (k : name) (l : list name) : list name := filter (fun x => negb (String.eqb x k)) l.

Definition matrix := nat -> nat -> Qc.
(** what the dictionary Fi holds after line 220: a matrix, or the number 0 of 0 + c * 0 *)
Inductive fval := Zero | Mat (m : matrix).
Definition fmul (c : Qc) (f : fval) : fval := match f with Zero => Zero | Mat m => Mat (fun i j => (c * m i j)%Qc) end.
Definition fadd (f g : fval) : fval :=
  match f, g with
  | Zero, g => g
  | f, Zero => f
  | Mat m, Mat m' => Mat (fun i j => (m i j + m' i j)%Qc)
  end.

(** the arguments, sdp_utils.py:16-28; mat_dim (187) is the size of the masks *)
Record sdp_args := {
  mat_dim : nat; mask_matrices : ndict matrix; objective : ndict Qc; known_vars : ndict Qc;
  semiknown_vars : ndict (Qc * name); inequalities : list (ndict Qc); equalities : list (ndict Qc);
  default_non_negative : bool; feas_as_optim : bool; process_constraints : bool
}.
Definition is_known (a : sdp_args) (k : name) : bool := mem k (keys (known_vars a)).
Definition has_masks (a : sdp_args) : bool := match mask_matrices a with [] => false | _ => true end.

(** lines 189-196 *)
Definition all_names (a : sdp_args) : list name :=
  keys (mask_matrices a) ++ keys (objective a) ++ flat_map keys (equalities a) ++ flat_map keys (inequalities a).
Definition variables_of (a : sdp_args) : list name :=
  filter (fun k => negb (is_known a k)) (fold_left (fun l k => add k l) (all_names a) []).

(** lines 203-205; one round per variable suffices *)
Fixpoint fresh (fuel : nat) (vars : list name) (lam : name) : name :=
  match fuel with 0 => lam | S fuel => if mem lam vars then fresh fuel vars (String.append lam "_"%string) else lam end.
Definition lambda_name (a : sdp_args) : name := fresh (S (length (variables_of a))) (variables_of a) "lambda"%string.
(** line 207: -1 * eye(mat_dim) *)
Definition minus_identity : matrix := fun i j => if i =? j then (- (1))%Qc else 0%Qc.

(** what the loops of lines 214-241 work on *)
Record work := {
  w_vars : list name; w_F : ndict fval; w_obj : ndict Qc;
  w_eqs : list (ndict Qc); w_ineqs : list (ndict Qc)
}.
Definition relaxing (a : sdp_args) : bool := feas_as_optim a && has_masks a.
(** lines 181-208 *)
Definition start (a : sdp_args) : work :=
  let F := map (fun '(k, m) => (k, Mat m)) (mask_matrices a) in
  let lam := lambda_name a in
  if relaxing a
  then {| w_vars := add lam (variables_of a); w_F := nset lam (Mat minus_identity) F; w_obj := [(lam, 1%Qc)];
          w_eqs := equalities a; w_ineqs := inequalities a |}
  else {| w_vars := variables_of a; w_F := F; w_obj := objective a; w_eqs := equalities a; w_ineqs := inequalities a |}.

(** val = d.pop(x, 0); d[x2] = d.get(x2, 0) + c * val, lines 219-220, 223-224, 227-228 and
    231-232 *)
Definition getd {V} (zero : V) (k : name) (d : ndict V) : V := match nget k d with Some v => v | None => zero end.
Definition substitute {V} (zero : V) (plus : V -> V -> V) (times : Qc -> V -> V) (x : name) (c : Qc) (x2 : name) (d : ndict V) : ndict V :=
  let val := getd zero x d in
  let d := ndel x d in
  nset x2 (plus (getd zero x2 d) (times c val)) d.
Definition substQ := substitute 0%Qc Qcplus Qcmult.
Definition substF := substitute Zero fadd fmul.

(** the body of the loop of lines 217-235 *)
Definition eliminate (a : sdp_args) (w : work) (s : name * (Qc * name)) : option work :=
  let '(x, (c, x2)) := s in
  if mem x (w_vars w)
  then Some {| w_vars := add x2 (remove x (w_vars w));
               w_F := if has_masks a then substF x c x2 (w_F w) else w_F w;
               w_obj := match w_obj w with
                        | [] => []
                        | o => if feas_as_optim a then o else substQ x c x2 o
                        end;
               w_eqs := map (substQ x c x2) (w_eqs w);
               w_ineqs := map (substQ x c x2) (w_ineqs w) |}
  else None.
(** the body of the loop of lines 239-241 *)
Definition append_equality (w : work) (s : name * (Qc * name)) : work :=
  let '(x, (c, x2)) := s in
  {| w_vars := add x2 (w_vars w); w_F := w_F w; w_obj := w_obj w;
     w_eqs := w_eqs w ++ [nset x2 (- c)%Qc [(x, 1%Qc)]]; w_ineqs := w_ineqs w |}.
Definition process (a : sdp_args) (w : work) : option work :=
  if process_constraints a
  then fold_left (fun w s => match w with Some w => eliminate a w s | None => None end) (semiknown_vars a) (Some w)
  else Some (fold_left append_equality (semiknown_vars a) w).

(** lines 210-212: the constant part of the matrix, from the dictionary of line 208 *)
Definition F_entry (i j : nat) (f : fval) : Qc := match f with Zero => 0%Qc | Mat m => m i j end.
Definition constant_matrix (a : sdp_args) (F : ndict fval) : matrix := fun i j =>
  sumQ (map (fun '(k, f) => match nget k (known_vars a) with Some v => (v * F_entry i j f)%Qc | None => 0%Qc end) F).
(** line 244, and 271-275 for one constraint *)
Definition constant_part (a : sdp_args) (d : ndict Qc) : Qc :=
  sumQ (map (fun '(k, c) => match nget k (known_vars a) with Some v => (c * v)%Qc | None => 0%Qc end) d).
(** line 265: the entries of one row of A *)
Definition free_part {V} (a : sdp_args) (d : ndict V) : ndict V := filter (fun '(k, _) => negb (is_known a k)) d.
(** lines 263-276: var2index[x] fails if x is not a variable *)
Definition to_row (a : sdp_args) (vars : list name) (d : ndict Qc) : option (ndict Qc * Qc) :=
  if forallb (fun k => mem k vars) (keys (free_part a d)) then Some (free_part a d, constant_part a d) else None.
Fixpoint all_some {A} (l : list (option A)) : option (list A) :=
  match l with
  | [] => Some []
  | None :: _ => None
  | Some x :: l => match all_some l with Some r => Some (x :: r) | None => None end
  end.

(** the programme after line 287 *)
Record problem := {
  p_vars : list name; p_F : ndict fval; p_F0 : matrix; p_obj : ndict Qc; p_c0 : Qc;
  p_A : list (ndict Qc * Qc);    (** rows of A and entries of b *)
  p_C : list (ndict Qc * Qc);    (** rows of C and entries of d *)
  p_ineqs : list (ndict Qc); p_eqs : list (ndict Qc)
}.
Definition preprocess (a : sdp_args) : option problem :=
  let w0 := start a in
  match process a w0 with
  | None => None
  | Some w =>
    match all_some (map (to_row a (w_vars w)) (w_ineqs w)), all_some (map (to_row a (w_vars w)) (w_eqs w)) with
    | Some A, Some C =>
      Some {| p_vars := w_vars w; p_F := w_F w; p_F0 := constant_matrix a (w_F w0);
              p_obj := w_obj w; p_c0 := constant_part a (w_obj w);
              p_A := A; p_C := C; p_ineqs := w_ineqs w; p_eqs := w_eqs w |}
    | _, _ => None
    end
  end.

(** ** The dual programme, lines 297-368 *)
Record dual_point := { Z : matrix; I : list Qc; E : list Qc }.
(** Expr.dot of two matrices *)
Definition mdot (n : nat) (A B : matrix) : Qc := sumn n (fun i => sumn n (fun j => (A i j * B i j)%Qc)).
Fixpoint dotQ (a b : list Qc) : Qc := match a, b with x :: a, y :: b => (x * y + dotQ a b)%Qc | _, _ => 0%Qc end.
(** coo_getcol, 160-166 *)
Definition column (rows : list (ndict Qc * Qc)) (x : name) : list Qc := map (fun r => getd 0%Qc x (fst r)) rows.

Record dual_task := {
  d_dim : nat;
  d_psd : bool;                   (** whether there is a variable Z (299-300) *)
  d_ineq : nat; d_eq : nat;       (** the lengths of the variables I (302) and E (314) *)
  d_const : Qc; d_F0 : matrix; d_b : list Qc; d_d : list Qc;   (** minimise (322-340) *)
  (** the constraints, 349-368: ci, F, and the columns of A and C *)
  d_rows : list (Qc * option matrix * list Qc * list Qc);
  d_le : bool                     (** 345-348: at most 0 instead of equal to 0 *)
}.
Definition dual_row (a : sdp_args) (p : problem) (x : name) : option (Qc * option matrix * list Qc * list Qc) :=
  let ci := match nget x (p_obj p) with Some c => if is_known a x then 0%Qc else c | None => 0%Qc end in
  match nget x (p_F p) with
  | Some Zero => None          (* scipy_to_mosek of a number *)
  | Some (Mat m) => Some (ci, Some m, column (p_A p) x, column (p_C p) x)
  | None => Some (ci, None, column (p_A p) x, column (p_C p) x)
  end.
Definition build_dual (a : sdp_args) (p : problem) : option dual_task :=
  match all_some (map (dual_row a p) (p_vars p)) with
  | None => None
  | Some rows =>
    Some {| d_dim := mat_dim a; d_psd := has_masks a; d_ineq := length (p_ineqs p); d_eq := length (p_eqs p);
            d_const := if feas_as_optim a then 0%Qc else p_c0 p; d_F0 := p_F0 p;
            d_b := map snd (p_A p); d_d := map snd (p_C p); d_rows := rows; d_le := default_non_negative a |}
  end.

(** ** The primal programme, lines 369-429 *)
Record primal_task := {
  x_vars : list name; x_nonneg : bool;          (** 373-377 *)
  x_A : list (ndict Qc * Qc); x_C : list (ndict Qc * Qc);   (** 379-397 *)
  x_dim : nat; x_psd : bool;
  x_F0 : matrix; x_F : ndict matrix;            (** 399-420: upper triangle of G *)
  x_const : Qc; x_obj : ndict Qc                (** maximise (423-429) *)
}.
Definition as_matrix (p : name * fval) : option (name * matrix) :=
  match snd p with Zero => None | Mat m => Some (fst p, m) end.
Definition build_primal (a : sdp_args) (p : problem) : option primal_task :=
  match all_some (map as_matrix (filter (fun '(k, _) => mem k (p_vars p)) (p_F p))) with
  | None => None
  | Some F =>
    if forallb (fun k => mem k (p_vars p)) (keys (free_part a (p_obj p)))
    then Some {| x_vars := p_vars p; x_nonneg := default_non_negative a; x_A := p_A p; x_C := p_C p;
                 x_dim := mat_dim a; x_psd := has_masks a; x_F0 := p_F0 p; x_F := F;
                 x_const := p_c0 p; x_obj := free_part a (p_obj p) |}
    else None
  end.

(** ** What is returned after solving the dual, lines 452-535 *)
(** Fi after the pops of line 356 *)
Definition left_over (p : problem) : ndict fval := filter (fun '(k, _) => negb (mem k (p_vars p))) (p_F p).
(** lines 457-458, for the values x of the variables *)
Definition returned_matrix (a : sdp_args) (p : problem) (x : name -> Qc) : matrix := fun i j =>
  (p_F0 p i j + sumQ (map (fun '(k, f) => if is_known a k then 0%Qc else (x k * F_entry i j f)%Qc) (left_over p)))%Qc.

Definition add_at (k : name) (v : Qc) (d : ndict Qc) : ndict Qc := nset k (getd 0%Qc k d + v)%Qc d.
(** lines 521-523 and 528-530 *)
Definition add_constraint (a : sdp_args) (cert : ndict Qc) (m : Qc * ndict Qc) : ndict Qc :=
  let '(mult, d) := m in
  fold_left (fun cert '(k, c) => if is_known a k then add_at k (mult * c)%Qc cert else cert) d cert.
Definition certificate (a : sdp_args) (p : problem) (s : dual_point) : ndict Qc :=
  let cert := map (fun '(k, _) => (k, 0%Qc)) (known_vars a) in
  let cert := if feas_as_optim a then cert
              else fold_left (fun cert '(k, c) => if is_known a k then add_at k c cert else cert) (p_obj p) cert in
  let cert := if has_masks a
              then fold_left (fun cert '(k, f) => if is_known a k
                     then nset k (sumn (mat_dim a) (fun i => sumn (mat_dim a) (fun j => Z s i j * F_entry i j f)%Qc)) cert
                     else cert) (left_over p) cert
              else cert in
  let cert := fold_left (add_constraint a) (combine (I s) (p_ineqs p)) cert in
  fold_left (add_constraint a) (combine (E s) (p_eqs p)) cert.
(** lines 533-535 *)
Definition clean (cert : ndict Qc) : ndict Qc := filter (fun '(_, c) => negb (isclose0 c)) cert.
