(** Model of InflationSDP._discover_columns_symmetries (sdp/InflationSDP.py:1862-1895). *)
From Verif Require Export OrbitModel.

(** inf_sym[lexmon], line 1881 (numpy fancy indexing) *)
Definition apply_lexsym (g : list nat) (w : word) : word := map (fun x => nth x g 0) w.

(** lines 1879-1886: the permutation of the columns, or None if some lookup in
    genmon_1d_to_index (lines 1242-1243, a dict comprehension: the last index of a repeated
    key wins) raises KeyError.  The memoised canonicaliser is replaced by the canonicaliser
    itself (the memo is the subject of C24). *)
Definition column_permutation (nc ortho : table) (commuting : bool) (cols : list word) (g : list nat)
  : option (list nat) :=
  map_opt (fun lexmon =>
    match to_canonical_1d_internal nc ortho commuting true (apply_lexsym g lexmon) with
    | Some c => lookup_last 0 cols c
    | None => None
    end) cols.

(** lines 1874-1895: identity, then the permutations found for lexorder_symmetries[1:];
    np.unique(.., axis=0)[1:] *)
Definition discover_columns_symmetries (nc ortho : table) (commuting : bool) (cols : list word)
  (lexsyms : list (list nat)) : list (list nat) :=
  tl (np_unique lex_compare
        (seq 0 (length cols) :: keep_some (map (column_permutation nc ortho commuting cols) (tl lexsyms)))).

(** generate_relaxation, sdp/InflationSDP.py:312-334: unsymmetrised moment matrix, column
    symmetries, symmetrised matrix, and the dictionary from symmetrised index to a word
    ({orbits[idx]: corresp[idx] for idx in representatives if idx >= 1}; None = KeyError).
    Dictionaries are association lists; [corresp] has the index as second component. *)
Definition idx_to_word (corresp : dict) (idx : nat) : option word :=
  assoc (map (fun kv => (snd kv, fst kv)) corresp) idx.
Definition symmetrized_moment_matrix (nc ortho : table) (commuting : bool) (cols : list word)
  (lexsyms : list (list nat)) : option (matrix * list (nat * nat) * list (nat * word)) :=
  match calculate_momentmatrix nc ortho commuting cols with
  | None => None
  | Some (M, corresp) =>
      match apply_inflation_symmetries (length cols) M
              (discover_columns_symmetries nc ortho commuting cols lexsyms) with
      | None => None
      | Some (M', orbits, repr) =>
          match map_opt (fun idx => match assoc orbits idx, idx_to_word corresp idx with
                                    | Some i, Some w => Some (i, w)
                                    | _, _ => None end)
                        (filter (fun idx => 1 <=? idx) repr) with
          | None => None
          | Some sc => Some (M', orbits, sc)
          end
      end
  end.
