(** Model of the export of a linear programme in the LP and MPS formats
    (inflation/lp/writer_utils.py: write_to_lp 12-58, write_to_mps 61-148, process_arguments
    169-210, format_constraint_lp 213-252).

    The LP file is modelled character by character, except that Python's printing of a number
    is a parameter [show] and that the order in which Python visits a set is a parameter
    [order].  The MPS file is modelled by the fields of its lines; "{:<10.4f}" prints the
    multiple of 1/10000 closest to a number.  Numbers are exact rationals.  A KeyError is
    None.  lp_to_mps (151-166) only calls MOSEK and is not modelled. *)
From Coq Require Import List Arith Bool Ascii String DecimalString QArith Qcanon.
From Verif Require Import MargModel SearchModel ProgramModel SDPSolveModel SdpaModel.
Import ListNotations.
Open Scope nat_scope.

(** the arguments, InflationLP._prepare_solver_arguments(separate_bounds=True) *)
Record lp_args := {
  variables : list name; a_objective : ndict Qc; a_known : ndict Qc; a_semiknown : ndict (Qc * name);
  a_equalities : list (ndict Qc); a_inequalities : list (ndict Qc); a_lower : ndict Qc; a_upper : ndict Qc
}.
(** what process_arguments returns; variable i is called "x{i}" *)
Record processed := {
  p_variables : list nat; p_objective : idict Qc; p_known : idict Qc; p_equalities : list (idict Qc);
  p_inequalities : list (idict Qc); p_lower : idict Qc; p_upper : idict Qc
}.
(** var_idx, line 196 (the variables are different) *)
Fixpoint index_from (k : nat) (x : name) (l : list name) : option nat :=
  match l with [] => None | y :: l' => if String.eqb x y then Some k else index_from (S k) x l' end.
Definition var_idx (a : lp_args) (x : name) : option nat := index_from 0 x (variables a).
(** {var_idx[x]: c for x, c in d.items()} *)
Fixpoint rename (a : lp_args) (d : ndict Qc) : option (idict Qc) :=
  match d with
  | [] => Some []
  | (x, c) :: d' => match var_idx a x, rename a d' with Some i, Some e => Some ((i, c) :: e) | _, _ => None end
  end.
Fixpoint rename_all (a : lp_args) (l : list (ndict Qc)) : option (list (idict Qc)) :=
  match l with [] => Some [] | d :: l' => match rename a d, rename_all a l' with Some e, Some r => Some (e :: r) | _, _ => None end end.
(** {x: 1, x2: -c}, line 190 *)
Definition semiknown_equality (q : name * (Qc * name)) : ndict Qc := nset (snd (snd q)) (- fst (snd q))%Qc [(fst q, 1%Qc)].
(** lines 186-210 *)
Definition process_arguments (a : lp_args) : option processed :=
  match rename_all a (a_equalities a ++ map semiknown_equality (a_semiknown a)), rename_all a (a_inequalities a), rename a (a_known a) with
  | Some eqs, Some ineqs, Some known =>
      match rename a (a_lower a), rename a (a_upper a), rename a (a_objective a) with
      | Some lo, Some up, Some obj =>
          Some {| p_variables := seq 0 (length (variables a)); p_objective := obj; p_known := known; p_equalities := eqs;
                  p_inequalities := ineqs; p_lower := lo; p_upper := up |}
      | _, _, _ => None
      end
  | _, _, _ => None
  end.

Definition igetd (k : nat) (d : idict Qc) : Qc := match iget k d with Some v => v | None => 0%Qc end.
(** set(d).intersection(known) and set(d).difference(known) *)
Definition known_part (known d : idict Qc) : list nat := filter (fun k => imem k (keys known)) (keys d).
Definition unknown_part (known d : idict Qc) : list nat := filter (fun k => negb (imem k (keys known))) (keys d).

(** ** Text *)
Open Scope string_scope.
Definition dec (i : nat) : string := NilEmpty.string_of_uint (Nat.to_uint i).
Definition xname (i : nat) : string := "x" ++ dec i.
Definition nl : string := String "010" "".
Definition cat (l : list string) : string := fold_right append "" l.
(** s[:-3] *)
Definition drop3 (s : string) : string := substring 0 (String.length s - 3) s.

Section Text.
Variable show : Qc -> string.            (** str of a number *)
Variable order : list nat -> list nat.   (** the order in which a set is visited *)
Inductive ctype := Obj | Eq | Ineq.
(** lines 234-237 *)
Definition known_sum (known d : idict Qc) : Qc :=
  fold_left (fun c x => (c + igetd x d * igetd x known)%Qc) (order (known_part known d)) 0%Qc.
(** lines 240-242 *)
Definition terms_text (known d : idict Qc) : string :=
  fold_left (fun cons x => cons ++ (show (igetd x d) ++ " " ++ xname x ++ " + ")) (order (unknown_part known d)) "".
(** lines 243-252 *)
Definition format_constraint_lp (known d : idict Qc) (t : ctype) : string :=
  let c := known_sum known d in
  let cons := terms_text known d in
  if String.eqb cons "" then cons
  else match t with
       | Obj => cons ++ show c
       | Eq => drop3 cons ++ " = " ++ show (- c)%Qc
       | Ineq => drop3 cons ++ " >= " ++ show (- c)%Qc
       end.
(** the loops of 40-49: what is written and the next number *)
Fixpoint constraint_texts (known : idict Qc) (t : ctype) (i : nat) (l : list (idict Qc)) : list string * nat :=
  match l with
  | [] => ([], i)
  | d :: l' =>
      let cons := format_constraint_lp known d t in
      if String.eqb cons "" then constraint_texts known t i l'
      else let '(r, j) := constraint_texts known t (S i) l' in (("c" ++ dec i ++ ": " ++ cons ++ nl) :: r, j)
  end.
(** lines 34-58 *)
Definition lp_texts (filename : string) (p : processed) : list string :=
  let '(eqs, i) := constraint_texts (p_known p) Eq 0 (p_equalities p) in
  let '(ineqs, _) := constraint_texts (p_known p) Ineq i (p_inequalities p) in
  ["\ File: " ++ filename ++ nl; "maximize" ++ nl; "obj: " ++ format_constraint_lp (p_known p) (p_objective p) Obj ++ nl; "subject to" ++ nl]%string
  ++ eqs ++ ineqs ++ ["bounds" ++ nl]%string
  ++ map (fun q => show (snd q) ++ " <= " ++ xname (fst q)) (p_lower p)
  ++ map (fun q => xname (fst q) ++ " <= " ++ show (snd q)) (p_upper p)
  ++ ["end"].
Definition write_to_lp (a : lp_args) (filename : string) : option string :=
  option_map (fun p => cat (lp_texts filename p)) (process_arguments a).
End Text.
Close Scope string_scope.

(** ** The fields of the MPS file *)
Inductive row := Objective | Row (i : nat).
Inductive row_kind := E_row | G_row.
Record mps := {
  m_rows : list (row_kind * nat);          (** ROWS, besides " N  obj" *)
  m_columns : list (nat * row * Qc);       (** COLUMNS: variable, row, coefficient *)
  m_rhs : list (row * Qc);                 (** RHS *)
  m_lower : list (nat * Qc);               (** BOUNDS: LO *)
  m_upper : list (nat * Qc)                (** BOUNDS: UP *)
}.
(** "{:<10.4f}" *)
Definition fixed4 (c : Qc) : Qc := np_round c 4.
(** lines 86-89 *)
Definition with_unknowns (known : idict Qc) (l : list (idict Qc)) : list (idict Qc) :=
  filter (fun d => match unknown_part known d with [] => false | _ => true end) l.
Definition enumerate {A} (k : nat) (l : list A) : list (nat * A) := combine (seq k (length l)) l.
(** lines 113-123 *)
Definition column_entries (known : idict Qc) (x first : nat) (l : list (idict Qc)) : list (nat * row * Qc) :=
  flat_map (fun '(i, d) => if imem x (unknown_part known d) then [(x, Row i, fixed4 (igetd x d))] else []) (enumerate first l).
(** lines 127-142 *)
Definition minus_known (order : list nat -> list nat) (known d : idict Qc) : Qc :=
  fold_left (fun r x => (r - igetd x d * igetd x known)%Qc) (order (known_part known d)) 0%Qc.
Definition rhs_entry (r : row) (v : Qc) : list (row * Qc) := if Qc_eq_dec v 0 then [] else [(r, fixed4 v)].
Definition mps_of (order : list nat -> list nat) (p : processed) : mps :=
  let known := p_known p in
  let eqs := with_unknowns known (p_equalities p) in
  let ineqs := with_unknowns known (p_inequalities p) in
  let n := length eqs in
  {| m_rows := map (fun i => (E_row, i)) (seq 0 n) ++ map (fun i => (G_row, n + i)) (seq 0 (length ineqs));
     m_columns := flat_map (fun x =>
        (if imem x (unknown_part known (p_objective p)) then [(x, Objective, fixed4 (igetd x (p_objective p)))] else [])
        ++ column_entries known x 0 eqs ++ column_entries known x n ineqs) (p_variables p);
     m_rhs := rhs_entry Objective (minus_known order known (p_objective p))
        ++ flat_map (fun '(i, d) => rhs_entry (Row i) (minus_known order known d)) (enumerate 0 (eqs ++ ineqs));
     m_lower := map (fun q => (fst q, fixed4 (snd q))) (p_lower p);
     m_upper := map (fun q => (fst q, fixed4 (snd q))) (p_upper p) |}.
Definition write_to_mps (order : list nat -> list nat) (a : lp_args) : option mps := option_map (mps_of order) (process_arguments a).
