(** What a file in LP format means (https://docs.mosek.com/latest/pythonapi/lp-format.html),
    what an MPS file means (https://docs.mosek.com/latest/pythonapi/mps-format.html), and what
    the programme in memory means. *)
From Coq Require Import List Arith Bool Ascii String DecimalString QArith Qcanon Permutation.
From Verif Require Import MargModel SearchModel ProgramModel SDPSolveModel SDPSolveSpec SdpaModel LPWriteModel.
Import ListNotations.
Open Scope nat_scope.
Open Scope string_scope.

(** ** Reading an LP file: words separated by blanks and newlines; a comment goes from a
    backslash to the end of the line *)
Definition blank (c : ascii) : bool := Ascii.eqb c " " || Ascii.eqb c "010".
Fixpoint without_comments (inside : bool) (s : string) : string :=
  match s with
  | "" => ""
  | String c s' =>
      if inside then if Ascii.eqb c "010" then String c (without_comments false s') else without_comments true s'
      else if Ascii.eqb c "\" then without_comments true s' else String c (without_comments false s')
  end.
Fixpoint words_from (acc : string) (s : string) : list string :=
  match s with
  | "" => if String.eqb acc "" then [] else [acc]
  | String c s' =>
      if blank c then (if String.eqb acc "" then words_from "" s' else acc :: words_from "" s')
      else words_from (acc ++ String c "") s'
  end.
Definition words (s : string) : list string := words_from "" s.

(** names start with a letter and are not words of the format *)
Definition letter (c : ascii) : bool := let k := nat_of_ascii c in (97 <=? k)%nat && (k <=? 122)%nat.
Definition is_name (s : string) : bool :=
  match s with
  | "" => false
  | String c _ => letter c && negb (String.eqb s "subject") && negb (String.eqb s "bounds") && negb (String.eqb s "end")
  end.
Fixpoint is_label (s : string) : bool :=
  match s with "" => false | String c "" => Ascii.eqb c ":" | String _ s' => is_label s' end.

Inductive relation := Eq_rel | Ge_rel.
Record lp_file := {
  o_terms : list (Qc * string); o_constant : Qc;
  o_constraints : list (list (Qc * string) * relation * Qc);
  o_lower : list (string * Qc); o_upper : list (string * Qc)
}.
Section Reader.
Variable read : string -> option Qc.     (** the reader of numbers *)
(** number name + number name + ... , where a number without a name is a constant *)
Fixpoint read_terms (ts : list string) : option (list (Qc * string) * Qc * list string) :=
  match ts with
  | [] => None
  | a :: ts1 =>
      match read a with
      | None => None
      | Some c =>
          match ts1 with
          | v :: ts2 =>
              if is_name v then
                match ts2 with
                | plus :: ts3 =>
                    if String.eqb plus "+" then
                      match read_terms ts3 with Some (l, k, r) => Some ((c, v) :: l, k, r) | None => None end
                    else Some ([(c, v)], 0%Qc, ts2)
                | [] => Some ([(c, v)], 0%Qc, [])
                end
              else Some ([], c, ts1)
          | [] => Some ([], c, [])
          end
      end
  end.
Definition read_objective (ts : list string) : option (list (Qc * string) * Qc * list string) :=
  match ts with w :: _ => if String.eqb w "subject" then Some ([], 0%Qc, ts) else read_terms ts | [] => None end.
(** label: terms = number or label: terms >= number, until "bounds" *)
Fixpoint read_constraints (fuel : nat) (ts : list string) : option (list (list (Qc * string) * relation * Qc) * list string) :=
  match fuel, ts with
  | S fuel, w :: ts1 =>
      if String.eqb w "bounds" then Some ([], ts1)
      else if is_label w then
        match read_terms ts1 with
        | Some (l, k, rel :: b :: ts2) =>
            match (if String.eqb rel "=" then Some Eq_rel else if String.eqb rel ">=" then Some Ge_rel else None), read b, read_constraints fuel ts2 with
            | Some r, Some v, Some (cs, rest) => Some ((l, r, (v - k)%Qc) :: cs, rest)
            | _, _, _ => None
            end
        | _ => None
        end
      else None
  | _, _ => None
  end.
(** number <= name or name <= number, until "end" *)
Fixpoint read_bounds (ts : list string) : option (list (string * Qc) * list (string * Qc)) :=
  match ts with
  | [w] => if String.eqb w "end" then Some ([], []) else None
  | a :: le :: b :: ts' =>
      if String.eqb le "<=" then
        match read_bounds ts' with
        | None => None
        | Some (lo, up) =>
            if is_name b then match read a with Some v => Some ((b, v) :: lo, up) | None => None end
            else if is_name a then match read b with Some v => Some (lo, (a, v) :: up) | None => None end
            else None
        end
      else None
  | _ => None
  end.
Definition take (w : string) (ts : option (list string)) : option (list string) :=
  match ts with Some (a :: ts') => if String.eqb a w then Some ts' else None | _ => None end.
Definition read_lp (s : string) : option lp_file :=
  match take "obj:" (take "maximize" (Some (words (without_comments false s)))) with
  | None => None
  | Some ts =>
      match read_objective ts with
      | None => None
      | Some (l, k, ts1) =>
          match take "to" (take "subject" (Some ts1)) with
          | None => None
          | Some ts2 =>
              match read_constraints (length ts2) ts2 with
              | None => None
              | Some (cs, ts3) =>
                  match read_bounds ts3 with
                  | Some (lo, up) => Some {| o_terms := l; o_constant := k; o_constraints := cs; o_lower := lo; o_upper := up |}
                  | None => None
                  end
              end
          end
      end
  end.
End Reader.
(** a way of printing and reading numbers: what is printed is read back, and is a word that
    does not start with a letter *)
Fixpoint in_string (c : ascii) (s : string) : Prop := match s with "" => False | String c' s' => c' = c \/ in_string c s' end.
Definition number_format (show : Qc -> string) (read : string -> option Qc) : Prop :=
  (forall q, read (show q) = Some q) /\
  (forall q, show q <> "" /\ forall c, in_string c (show q) -> c <> " "%char /\ c <> "010"%char /\ c <> "\"%char) /\
  (forall q c s, show q = String c s -> letter c = false).
Close Scope string_scope.
Open Scope Qc_scope.

Definition terms_at (x : string -> Qc) (l : list (Qc * string)) : Qc := sumQ (map (fun q => fst q * x (snd q)) l).
(** to be maximised *)
Definition lp_value (f : lp_file) (x : string -> Qc) : Qc := terms_at x (o_terms f) + o_constant f.
(** a variable is not negative unless it has a lower bound *)
Definition lp_feasible (f : lp_file) (x : string -> Qc) : Prop :=
  (forall s, ~ In s (keys (o_lower f)) -> 0 <= x s) /\
  (forall l r b, In (l, r, b) (o_constraints f) -> match r with Eq_rel => terms_at x l = b | Ge_rel => b <= terms_at x l end) /\
  (forall s b, In (s, b) (o_lower f) -> b <= x s) /\ (forall s b, In (s, b) (o_upper f) -> x s <= b).

(** ** An MPS file *)
Definition same_row (r r' : row) : bool := match r, r' with Objective, Objective => true | Row i, Row j => (i =? j)%nat | _, _ => false end.
Definition row_sum (f : mps) (x : nat -> Qc) (r : row) : Qc :=
  sumQ (map (fun '(k, r', c) => if same_row r r' then c * x k else 0) (m_columns f)).
Definition row_rhs (f : mps) (r : row) : Qc := sumQ (map (fun '(r', c) => if same_row r r' then c else 0) (m_rhs f)).
(** to be maximised; the right-hand side of the objective is minus its constant *)
Definition mps_value (f : mps) (x : nat -> Qc) : Qc := row_sum f x Objective - row_rhs f Objective.
(** a variable without lower bound is not negative, unless its upper bound is negative *)
Definition mps_feasible (f : mps) (x : nat -> Qc) : Prop :=
  (forall k, ~ In k (map fst (m_lower f)) -> 0 <= x k \/ exists b, In (k, b) (m_upper f) /\ b < 0) /\
  (forall k i, In (k, i) (m_rows f) -> match k with E_row => row_sum f x (Row i) = row_rhs f (Row i) | G_row => row_rhs f (Row i) <= row_sum f x (Row i) end) /\
  (forall k b, In (k, b) (m_lower f) -> b <= x k) /\ (forall k b, In (k, b) (m_upper f) -> x k <= b).
(** rows are declared once, entries are in declared rows and given at most once, bounds are
    on variables that have an entry *)
Definition mps_well_formed (f : mps) : Prop :=
  NoDup (map snd (m_rows f)) /\
  (forall k i c, In (k, Row i, c) (m_columns f) -> In i (map snd (m_rows f))) /\ NoDup (map fst (m_columns f)) /\
  (forall i c, In (Row i, c) (m_rhs f) -> In i (map snd (m_rows f))) /\ NoDup (map fst (m_rhs f)) /\
  (forall k, In k (map fst (m_lower f)) \/ In k (map fst (m_upper f)) -> exists r c, In (k, r, c) (m_columns f)).

(** ** The programme in memory; [w] gives a value to every variable *)
Definition respects_lp (a : lp_args) (w : name -> Qc) : Prop := forall k c, In (k, c) (a_known a) -> w k = c.
Definition lp_args_feasible (nonneg : bool) (a : lp_args) (w : name -> Qc) : Prop :=
  (nonneg = true -> forall k, In k (variables a) -> ~ In k (keys (a_known a)) -> 0 <= w k) /\
  (forall k c k2, In (k, (c, k2)) (a_semiknown a) -> w k = c * w k2) /\
  (forall d, In d (a_equalities a) -> expr w d = 0) /\ (forall d, In d (a_inequalities a) -> 0 <= expr w d) /\
  (forall k b, In (k, b) (a_lower a) -> b <= w k) /\ (forall k b, In (k, b) (a_upper a) -> w k <= b).
Definition lp_args_value (a : lp_args) (w : name -> Qc) : Qc := expr w (a_objective a).

(** everything is about the variables, and dictionaries have each key once *)
Record wf_lp (a : lp_args) : Prop := {
  wl_variables : NoDup (variables a);
  wl_known : NoDup (keys (a_known a)) /\ incl (keys (a_known a)) (variables a);
  wl_objective : NoDup (keys (a_objective a)) /\ incl (keys (a_objective a)) (variables a);
  wl_constraints : forall d, In d (a_equalities a) \/ In d (a_inequalities a) -> NoDup (keys d) /\ incl (keys d) (variables a);
  wl_semiknown : forall k c k2, In (k, (c, k2)) (a_semiknown a) -> In k (variables a) /\ In k2 (variables a) /\ k <> k2;
  wl_bounds : incl (keys (a_lower a)) (variables a) /\ incl (keys (a_upper a)) (variables a)
}.
(** constraints without unknowns, which are not written, hold *)
Definition only_known (a : lp_args) (d : ndict Qc) : Prop := forall k, In k (keys d) -> In k (keys (a_known a)).
Definition known_constraints_hold (a : lp_args) : Prop :=
  forall w, respects_lp a w ->
    (forall d, In d (a_equalities a ++ map semiknown_equality (a_semiknown a)) -> only_known a d -> expr w d = 0) /\
    (forall d, In d (a_inequalities a) -> only_known a d -> 0 <= expr w d).

(** the point of the file that corresponds to [w]: variable number i of the file is the i-th
    variable; what the file does not mention is not negative *)
Definition unknown_at (a : lp_args) (i : nat) (k : name) : Prop := nth_error (variables a) i = Some k /\ ~ In k (keys (a_known a)).
Definition agrees_lp (a : lp_args) (x : string -> Qc) (w : name -> Qc) : Prop :=
  (forall i k, unknown_at a i k -> x ("x" ++ NilEmpty.string_of_uint (Nat.to_uint i))%string = w k) /\
  (forall s, (forall i k, unknown_at a i k -> s <> ("x" ++ NilEmpty.string_of_uint (Nat.to_uint i))%string) -> 0 <= x s).
Definition agrees_mps (a : lp_args) (x : nat -> Qc) (w : name -> Qc) : Prop :=
  (forall i k, unknown_at a i k -> x i = w k) /\ (forall i, (forall k, ~ unknown_at a i k) -> 0 <= x i).

(** a number with at most four decimals *)
Definition four_decimals (c : Qc) : Prop := exists z : BinNums.Z, c * Q2Qc 10000 = z2q z.
(** what the known variables contribute to an expression *)
Definition known_contribution (a : lp_args) (d : ndict Qc) : Qc :=
  sumQ (map (fun '(k, c) => match nget k (a_known a) with Some v => c * v | None => 0 end) d).
Definition all_four_decimals (a : lp_args) : Prop :=
  (forall d, In d (a_objective a :: a_equalities a ++ map semiknown_equality (a_semiknown a) ++ a_inequalities a) ->
    four_decimals (known_contribution a d) /\ forall k c, In (k, c) d -> four_decimals c) /\
  (forall k b, In (k, b) (a_lower a) \/ In (k, b) (a_upper a) -> four_decimals b).
(** bounds are on unknown variables that some expression mentions, once, and not negative *)
Definition bounds_ok (a : lp_args) : Prop :=
  (forall k b, In (k, b) (a_lower a) \/ In (k, b) (a_upper a) -> 0 <= b /\ ~ In k (keys (a_known a)) /\
    exists d, In d (a_objective a :: a_equalities a ++ map semiknown_equality (a_semiknown a) ++ a_inequalities a) /\ In k (keys d)).
