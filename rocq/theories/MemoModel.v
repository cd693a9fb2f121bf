(** Model of the memoised canonicaliser and of the inflation representative
    (sdp/InflationSDP.py:1431-1455, 1471-1479, 1593-1637, 2252-2291).  The two dictionaries
    canon_lexmon_from_hash and canonsym_lexmon_from_hash (created empty at lines 207-208) are
    the state, as association lists with the newest binding first; numpy arrays used as keys
    are the tuples themselves.  None = the canonicaliser ran out of fuel (shown not to happen)
    or min() of an empty list. *)
From Verif Require Export ColumnModel.

Definition cache := list (word * word).
Definition word_eqb (a b : word) : bool := if list_eq_dec Nat.eq_dec a b then true else false.
Fixpoint cfind (c : cache) (k : word) : option word :=
  match c with [] => None | (k', v) :: c' => if word_eqb k' k then Some v else cfind c' k end.
Record memo := { m_canon : cache; m_sym : cache }.
Definition memo_empty : memo := {| m_canon := []; m_sym := [] |}.

(** len(lexmon) == 0 or np.array_equiv(lexmon, 0), lines 1614 and 2278 *)
Definition trivial (w : word) : bool := (length w =? 0) || forallb (Nat.eqb 0) w.

Section Memo.
Variables (nc ortho : table) (commuting : bool) (syms : list (list nat)).

(** _to_canonical_memoized_1d, lines 2274-2291 *)
Definition memo_canonical (only : bool) (w : word) (m : memo) : option (word * memo) :=
  match cfind (m_canon m) w with
  | Some r => Some (r, m)
  | None =>
    if trivial w then Some (w, {| m_canon := (w, w) :: m_canon m; m_sym := m_sym m |})
    else match to_canonical_1d_internal nc ortho commuting only w with
         | None => None
         | Some r => Some (r, {| m_canon := (r, r) :: (w, r) :: m_canon m; m_sym := m_sym m |})
         end
  end.
(** the list comprehension at lines 1474-1477 *)
Fixpoint memo_all (l : list word) (m : memo) : option (list word * memo) :=
  match l with
  | [] => Some ([], m)
  | w :: l' => match memo_canonical true w m with
               | None => None
               | Some (r, m1) => match memo_all l' m1 with
                                 | None => None
                                 | Some (rs, m2) => Some (r :: rs, m2)
                                 end
               end
  end.
(** min() of a list of tuples *)
Definition pymin (l : list word) : option word :=
  match l with
  | [] => None
  | x :: l' => Some (fold_left (fun m y => match lex_compare y m with Lt => y | _ => m end) l' x)
  end.
(** _inflation_orbit_and_rep_1d, lines 1471-1479 *)
Definition orbit_and_rep (w : word) (m : memo) : option (list word * word * memo) :=
  match memo_all (np_unique lex_compare (map (fun g => apply_lexsym g w) syms)) m with
  | None => None
  | Some (outs, m') => match pymin outs with None => None | Some r => Some (outs, r, m') end
  end.
(** _to_inflation_repr_1d, lines 1612-1637 *)
Definition memo_repr (only : bool) (w : word) (m : memo) : option (word * memo) :=
  if trivial w then Some (w, {| m_canon := m_canon m; m_sym := (w, w) :: m_sym m |})
  else match cfind (m_sym m) w with
  | Some r => Some (r, m)
  | None =>
    match memo_canonical only w m with
    | None => None
    | Some (c, m1) =>
      match cfind (m_sym m1) c with
      | Some r => Some (r, {| m_canon := m_canon m1; m_sym := (w, r) :: m_sym m1 |})
      | None =>
        match orbit_and_rep w m1 with
        | None => None
        | Some (outs, r, m2) =>
            Some (r, {| m_canon := m_canon m2;
                        m_sym := fold_left (fun c k => (k, r) :: c) (outs ++ [w]) (m_sym m2) |})
        end
      end
    end
  end.
(** _conjugate_lexmon, lines 1451-1455; all_commuting_q_1d (lines 199-203) is
    "no two operators of the monomial fail to commute" *)
Definition memo_conj (w : word) (m : memo) : option (word * memo) :=
  if negb (sub_any nc w) then Some (w, m) else memo_repr true (rev w) m.

(** a history of calls *)
Inductive call := Canon (only : bool) (w : word) | Repr (only : bool) (w : word) | Conj (w : word).
Definition do_call (c : call) (m : memo) : option (word * memo) :=
  match c with
  | Canon only w => memo_canonical only w m
  | Repr only w => memo_repr only w m
  | Conj w => memo_conj w m
  end.
Fixpoint run (h : list call) (m : memo) : option (list word * memo) :=
  match h with
  | [] => Some ([], m)
  | c :: h' => match do_call c m with
               | None => None
               | Some (r, m1) => match run h' m1 with
                                 | None => None
                                 | Some (rs, m2) => Some (r :: rs, m2)
                                 end
               end
  end.
End Memo.
