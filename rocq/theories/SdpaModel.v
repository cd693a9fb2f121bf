(** Model of the export of a semidefinite programme in SDPA's sparse format
    (inflation/sdp/writer_utils.py: write_to_sdpa 248-424).

    A moment is called by its index [mon.idx]; 0 is the zero moment and 1 the unit (Zero and
    One).  Numbers are exact rationals and printing a number followed by reading it is
    exact.  What is printed after an explicit minus sign is kept apart ([Minus]), because
    Python then prints two signs for a negative number.  A file is its header and its lines
    of five fields; comments, tabs and newlines are not modelled.  An exception (KeyError of
    a dictionary, IndexError or ValueError of the array of the objective) is None. *)
From Coq Require Import List Arith Bool ZArith QArith Qcanon.
From Verif Require Import SearchModel ProgramModel.
Import ListNotations.
Open Scope nat_scope.

Definition idict (V : Type) := list (nat * V).
Definition iget {V} (k : nat) (d : idict V) : option V := get Nat.eq_dec k d.
Definition iset {V} (k : nat) (v : V) (d : idict V) : idict V := set Nat.eq_dec k v d.
Definition imem (k : nat) (l : list nat) : bool := if in_dec Nat.eq_dec k l then true else false.

(** the attributes of InflationSDP that are read *)
Record problem := {
  momentmatrix : list (list nat);
  known_moments : idict Qc;
  semiknown_moments : idict (Qc * nat);
  objective : idict Qc;
  moment_upperbounds : idict Qc;
  moment_lowerbounds : idict Qc;
  moment_equalities : list (idict Qc);
  moment_inequalities : list (idict Qc)
}.

(** f"{v}" and f"-{v}" *)
Inductive text := Plain (v : Qc) | Minus (v : Qc).
Record line := { l_var : nat; l_block : nat; l_row : nat; l_col : nat; l_text : text }.
Record file := {
  f_nvars : Z;                 (** "... = number of vars" *)
  f_nblocks : nat;             (** "... = number of blocks" *)
  f_blockstruct : list Z;
  f_objective : list Qc;
  f_lines : list line
}.

Definition entries (p : problem) : list nat := concat (momentmatrix p).
(** momentmatrix.max() *)
Definition mm_max (p : problem) : nat := fold_right Nat.max 0 (entries p).
(** momentmatrix_has_a_zero, momentmatrix_has_a_one: InflationSDP.py:344-345 *)
Definition has_a (k : nat) (p : problem) : Z := if imem k (entries p) then 1%Z else 0%Z.
(** lines 273-284 *)
Definition known_vars (p : problem) : Z :=
  if length (known_moments p) =? 1 then 0%Z
  else (Z.of_nat (length (known_moments p)) - has_a 0 p - has_a 1 p)%Z.
Definition new_vars (p : problem) : nat :=
  length (filter (fun q => mm_max p <? snd (snd q)) (semiknown_moments p)).
Definition nvars (p : problem) : Z :=
  (Z.of_nat (mm_max p) - 1 - known_vars p - Z.of_nat (length (semiknown_moments p)) + Z.of_nat (new_vars p))%Z.

(** var_corresp, new_var and lines of 290-293; new_var starts at 1 *)
Record scan := { s_corresp : idict nat; s_new : nat; s_lines : list line }.
Definition emit (l : line) (s : scan) : scan :=
  {| s_corresp := s_corresp s; s_new := s_new s; s_lines := s_lines s ++ [l] |}.
(** the try/except of 309-317 and 319-326: the number of variable [m], a new one if it has none *)
Definition emit_var (m ii jj : nat) (c : Qc) (s : scan) : scan :=
  match iget m (s_corresp s) with
  | Some v => emit {| l_var := v; l_block := 1; l_row := S ii; l_col := S jj; l_text := Plain c |} s
  | None =>
      {| s_corresp := iset m (s_new s) (s_corresp s); s_new := S (s_new s);
         s_lines := s_lines s ++ [{| l_var := s_new s; l_block := 1; l_row := S ii; l_col := S jj; l_text := Plain c |}] |}
  end.
(** lines 297-326: one entry of the matrix *)
Definition scan_entry (p : problem) (s : scan) (e : nat * nat * nat) : scan :=
  let '(ii, jj, var) := e in
  if jj <? ii then s
  else if var =? 0 then s
  else if var =? 1 then emit {| l_var := 0; l_block := 1; l_row := S ii; l_col := S jj; l_text := Plain (- (1))%Qc |} s
  else match iget var (known_moments p) with
       | Some c => emit {| l_var := 0; l_block := 1; l_row := S ii; l_col := S jj; l_text := Minus (qabs c) |} s
       | None =>
           match iget var (semiknown_moments p) with
           | Some (c, subs) => emit_var subs ii jj c s
           | None => emit_var var ii jj 1%Qc s
           end
       end.
(** the order in which the two loops of 295-296 visit the entries *)
Definition positions (p : problem) : list (nat * nat * nat) :=
  flat_map (fun '(ii, row) => map (fun '(jj, var) => (ii, jj, var)) (combine (seq 0 (length row)) row))
           (combine (seq 0 (length (momentmatrix p))) (momentmatrix p)).
Definition scan_matrix (p : problem) : scan :=
  fold_left (scan_entry p) (positions p) {| s_corresp := []; s_new := 1; s_lines := [] |}.

(** objective[k] = c, line 335 *)
Fixpoint set_nth (k : nat) (c : Qc) (l : list Qc) : option (list Qc) :=
  match l, k with
  | [], _ => None
  | _ :: l', 0 => Some (c :: l')
  | x :: l', S k' => option_map (cons x) (set_nth k' c l')
  end.
(** lines 328-335 *)
Definition objective_entry (corresp : idict nat) (o : option (list Qc)) (q : nat * Qc) : option (list Qc) :=
  match o with
  | None => None
  | Some o =>
      if fst q =? 1 then Some o
      else match iget (fst q) corresp with Some v => set_nth (v - 1) (snd q) o | None => None end
  end.
Definition objective_array (p : problem) (corresp : idict nat) : option (list Qc) :=
  if (nvars p <? 0)%Z then None
  else fold_left (objective_entry corresp) (objective p) (Some (repeat 0%Qc (Z.to_nat (nvars p)))).

(** 340-343: what is bounded, not known and not semi-known *)
Definition bounded_here (p : problem) (k : nat) : bool :=
  negb (k =? 1) && negb (imem k (keys (known_moments p))) && negb (imem k (keys (semiknown_moments p))).
(** abs(b) > 1e-8 *)
Definition not_tiny (b : Qc) : bool := qltb atol (qabs b).
(** lines 347-354 (sign -1, [wrap] = Minus) and 366-373 (sign 1, [wrap] = Plain) *)
Fixpoint bound_lines (p : problem) (corresp : idict nat) (block ii : nat) (coeff : Qc) (wrap : Qc -> text)
  (bounds : idict Qc) : option (list line) :=
  match bounds with
  | [] => Some []
  | (k, b) :: rest =>
      if bounded_here p k then
        match iget k corresp, bound_lines p corresp block (S ii) coeff wrap rest with
        | Some v, Some ls =>
            Some ({| l_var := v; l_block := block; l_row := ii; l_col := ii; l_text := Plain coeff |}
                  :: (if not_tiny b then [{| l_var := 0; l_block := block; l_row := ii; l_col := ii; l_text := wrap b |}] else [])
                  ++ ls)
        | _, _ => None
        end
      else bound_lines p corresp block ii coeff wrap rest
  end.
(** known_moments.get(var, None) not in [0] *)
Definition not_known_zero (p : problem) (k : nat) : bool :=
  match iget k (known_moments p) with Some v => if Qc_eq_dec v 0 then false else true | None => true end.
(** the two lines of an entry of an equality, 383-390 *)
Definition equality_entry (p : problem) (corresp : idict nat) (block ii : nat) (q : nat * Qc) : option (list line) :=
  if not_known_zero p (fst q) then
    if negb (fst q =? 1) then
      match iget (fst q) corresp with
      | Some v => Some [{| l_var := v; l_block := block; l_row := ii; l_col := ii; l_text := Plain (snd q) |};
                        {| l_var := v; l_block := block; l_row := S ii; l_col := S ii; l_text := Plain (- snd q)%Qc |}]
      | None => None
      end
    else Some [{| l_var := 0; l_block := block; l_row := ii; l_col := ii; l_text := Plain (- snd q)%Qc |};
               {| l_var := 0; l_block := block; l_row := S ii; l_col := S ii; l_text := Plain (snd q) |}]
  else Some [].
Fixpoint sequence {A} (l : list (option (list A))) : option (list A) :=
  match l with
  | [] => Some []
  | x :: l' => match x, sequence l' with Some a, Some b => Some (a ++ b) | _, _ => None end
  end.
(** lines 381-391 *)
Fixpoint equality_lines (p : problem) (corresp : idict nat) (block ii : nat) (eqs : list (idict Qc)) : option (list line) :=
  match eqs with
  | [] => Some []
  | eq :: rest =>
      match sequence (map (equality_entry p corresp block ii) eq), equality_lines p corresp block (ii + 2) rest with
      | Some a, Some b => Some (a ++ b)
      | _, _ => None
      end
  end.
(** the entries of an inequality, 401-406 *)
Definition inequality_entry (p : problem) (corresp : idict nat) (block ii : nat) (q : nat * Qc) : option (list line) :=
  if not_known_zero p (fst q) then
    if negb (fst q =? 1) then
      match iget (fst q) corresp with
      | Some v => Some [{| l_var := v; l_block := block; l_row := ii; l_col := ii; l_text := Plain (snd q) |}]
      | None => None
      end
    else Some []
  else Some [].
Definition sumcoeffs (p : problem) (ineq : idict Qc) : Qc :=
  fold_left (fun s q => if not_known_zero p (fst q) && (fst q =? 1) then (s + snd q)%Qc else s) ineq 0%Qc.
(** lines 399-410: the next row is ii + 2 *)
Fixpoint inequality_lines (p : problem) (corresp : idict nat) (block ii : nat) (ineqs : list (idict Qc)) : option (list line) :=
  match ineqs with
  | [] => Some []
  | ineq :: rest =>
      match sequence (map (inequality_entry p corresp block ii) ineq), inequality_lines p corresp block (ii + 2) rest with
      | Some a, Some b =>
          let s := sumcoeffs p ineq in
          Some (a ++ (if Qc_eq_dec s 0 then [] else [{| l_var := 0; l_block := block; l_row := ii; l_col := ii; l_text := Plain (- s)%Qc |}]) ++ b)
      | _, _ => None
      end
  end.

(** sorted(lines, key=(block, variable)) of 420-421, a stable sort *)
Definition line_leb (a b : line) : bool :=
  (l_block a <? l_block b) || ((l_block a =? l_block b) && (l_var a <=? l_var b)).
Fixpoint insert_line (a : line) (l : list line) : list line :=
  match l with [] => [a] | b :: l' => if line_leb a b then a :: b :: l' else b :: insert_line a l' end.
Definition sort_lines (l : list line) : list line := fold_right insert_line [] l.

(** block += 1 where there is something to write *)
Definition next_block {A} (block : nat) (l : list A) : nat := match l with [] => block | _ => S block end.
Definition block_entry {A} (l : list A) (size : nat) : list Z := match l with [] => [] | _ => [(- Z.of_nat size)%Z] end.
Definition number_bounded (p : problem) (bounds : idict Qc) : nat := length (filter (bounded_here p) (keys bounds)).

(** the whole function *)
Definition write_to_sdpa (p : problem) : option file :=
  let s := scan_matrix p in
  let corresp := s_corresp s in
  let b1 := 1 in
  let b2 := next_block b1 (moment_upperbounds p) in
  let b3 := next_block b2 (moment_lowerbounds p) in
  let b4 := next_block b3 (moment_equalities p) in
  let b5 := next_block b4 (moment_inequalities p) in
  match objective_array p corresp, iget 1 (objective p) with
  | Some o, Some constant =>
      match bound_lines p corresp b2 1 (- (1))%Qc Minus (moment_upperbounds p),
            bound_lines p corresp b3 1 1%Qc Plain (moment_lowerbounds p),
            equality_lines p corresp b4 1 (moment_equalities p),
            inequality_lines p corresp b5 1 (moment_inequalities p) with
      | Some up, Some lo, Some eqs, Some ineqs =>
          Some {| f_nvars := nvars p; f_nblocks := b5;
                  f_blockstruct :=
                    Z.of_nat (length (momentmatrix p))
                    :: block_entry (moment_upperbounds p) (number_bounded p (moment_upperbounds p))
                    ++ block_entry (moment_lowerbounds p) (number_bounded p (moment_lowerbounds p))
                    ++ block_entry (moment_equalities p) (2 * length (moment_equalities p))
                    ++ block_entry (moment_inequalities p) (length (moment_inequalities p));
                  f_objective := o;
                  f_lines := sort_lines (s_lines s ++ up ++ lo ++ eqs ++ ineqs) |}
      | _, _, _, _ => None
      end
  | _, _ => None
  end.
