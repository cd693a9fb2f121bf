(** Model of the normalisation equalities of the SDP (sdp/InflationSDP.py:391-404, 1808-1860 and
    sdp/quantum_tools.py:274-323).

    Simplifications: progress bars and printing are left out; numpy arrays of indices are lists
    of [nat]; a cell outside the moment matrix (IndexError) is not modelled (matrices are total
    functions), column indices come from enumerating the columns and are always inside. *)
From Coq Require Import QArith Qcanon.
Close Scope Qc_scope. Close Scope Q_scope.
From Verif Require Export ScenarioModel MomentModel.
From Verif Require Import ProgramModel.

(** op_to_lexrepr_dict (InflationSDP.py:151) and mon_to_lexrepr of a single operator
    (2293-2323): index in the operator list, the zero operator in front; None = KeyError. *)
Definition sdp_lookup (sc : scenario) (op : row) : option nat := lookup_last 0 (sdp_lexorder sc) op.

(** last_outcome_boolmask (1824-1829).  [hc] is has_children (lines 91-95); line 99:
    outcome_cardinalities = outcomes + has_children; "x == card - 2" is written "x + 2 == card". *)
Definition last_outcome_mask (sc : scenario) (hc : list bool) (op : nat) : bool :=
  match op with
  | 0 => false
  | _ => match nth_error (sdp_lexorder sc) op with
         | None => false
         | Some r =>
             let p := row_party r - 1 in
             nth p hc false && (row_outcome r + 2 =? nth p (outcomes sc) 0 + b2n (nth p hc false))
         end
  end.

(** lexmon_to_orthogroup (1831-1839): dict from the last operator of each group of
    orthogonal operators to the whole group.  None = an exception. *)
Definition orthogroup_item (sc : scenario) (group : list row) : option (nat * list nat) :=
  match rev group with
  | [] => None
  | last_op :: _ =>
      match sdp_lookup sc last_op, map_opt (sdp_lookup sc) group with
      | Some k, Some g => Some (k, g)
      | _, _ => None
      end
  end.
Definition lexmon_to_orthogroup (sc : scenario) : option (list (nat * list nat)) :=
  map_opt (orthogroup_item sc) (ortho_groups sc).
(** reading the dict; a key that is assigned twice keeps the last value; None = KeyError *)
Definition orthogroup_get (d : list (nat * list nat)) (op : nat) : option (list nat) := assoc (rev d) op.

(** the equations of one column before looking the words up (1843-1851): for every position with
    a last outcome, the word without it and the words with each operator of its group in its
    place.  [pre] is what precedes the position.  None = KeyError (outside the try). *)
Fixpoint column_eqs (mask : nat -> bool) (og : nat -> option (list nat)) (pre w : word)
  : option (list (word * list word)) :=
  match w with
  | [] => Some []
  | op :: w' =>
      match column_eqs mask og (pre ++ [op]) w' with
      | None => None
      | Some rest =>
          if mask op then
            match og op with
            | None => None
            | Some g => Some ((pre ++ w', map (fun a => pre ++ a :: w') g) :: rest)
            end
          else Some rest
      end
  end.

(** genmon_1d_to_index (1242-1250): dict from column to its (last) position *)
Definition genmon_index (cols : list word) (w : word) : option nat := lookup_last 0 cols w.

(** 1852-1859: look the words up; the first word that is not a column ends the loop (break) *)
Fixpoint lookup_eqs (cols : list word) (eqs : list (word * list word)) : list (nat * list nat) :=
  match eqs with
  | [] => []
  | (lhs, rhs) :: eqs' =>
      match genmon_index cols lhs, map_opt (genmon_index cols) rhs with
      | Some i, Some js => (i, js) :: lookup_eqs cols eqs'
      | _, _ => []
      end
  end.

(** _discover_normalization_eqns (1808-1860), given mask and groups *)
Definition discover_columns (mask : nat -> bool) (og : nat -> option (list nat)) (cols : list word)
  : option (list (nat * list nat)) :=
  match map_opt (fun w => match column_eqs mask og [] w with
                          | Some e => Some (lookup_eqs cols e)
                          | None => None end) cols with
  | Some l => Some (concat l)
  | None => None
  end.
Definition discover_normalization_eqns (sc : scenario) (hc : list bool) (cols : list word)
  : option (list (nat * list nat)) :=
  match lexmon_to_orthogroup sc with
  | None => None
  | Some d => discover_columns (last_outcome_mask sc hc) (orthogroup_get d) cols
  end.

(** construct_normalization_eqs, quantum_tools.py:274-323.  State: (seen_already, equalities).
    [nof_seen_already] is the size of the set, so "the set has grown" is "it was not in". *)
Definition norm_state := (list (list nat) * list (nat * list nat))%type.
Definition seenb (x : list nat) (l : list (list nat)) : bool := existsb (word_eqb x) l.
Definition norm_row (M : matrix) (eq : nat * list nat) (st : norm_state) (i : nat) : norm_state :=
  let norm_idx := M i (fst eq) in
  let summation_idxs := map (M i) (snd eq) in
  if forallb (fun x => negb (x =? 0)) summation_idxs then
    let s := np_sort summation_idxs in
    if seenb s (fst st) then st else (fst st ++ [s], snd st ++ [(norm_idx, s)])
  else st.
Definition norm_eq (n : nat) (M : matrix) (st : norm_state) (eq : nat * list nat) : norm_state :=
  fold_left (norm_row M eq) (seq 0 n) st.
Definition construct_normalization_eqs (n : nat) (M : matrix) (eqs : list (nat * list nat))
  : list (nat * list nat) :=
  snd (fold_left (norm_eq n M) eqs ([], [])).

(** the loop body at InflationSDP.py:399-404; [comp] is compmoment_from_idx (the moment object
    attached to an index, here identified by a number).  With fewer than two summands itemgetter
    does not return a tuple and an exception is raised: None. *)
Definition eq_dict (comp : nat -> nat) (eq : nat * list nat) : option (list (nat * Qc)) :=
  if length (snd eq) <? 2 then None
  else Some (update Nat.eq_dec (set Nat.eq_dec (comp (fst eq)) 1%Qc [])
               (map (fun s => (comp s, (-(1))%Qc)) (snd eq))).
