(** Model of the names of operators and moments (InflationProblem.py:509-581, 618-671;
    lp/monomial_classes.py:121-214 and 292-312; sdp/monomial_classes.py:74-103 and 124-130;
    sdp/monomial_utils.py:59-82) and of their interpretation (sdp/InflationSDP.py:160-163,
    521-527, 1481-1524, 1643-1729).

    Simplifications: texts are sequences of bytes (UTF-8); SymPy symbols are not modelled; the
    conjugate of an atom is a parameter [conj] (MemoModel.memo_conj is the function of the code;
    C24 and C35 say that its answers do not depend on the history); atoms are compared by their
    words, not by the hashes of their words.  None = an exception. *)
From Coq Require Import List Arith Bool Ascii String DecimalString.
From Verif Require Import CanonModel ScenarioModel FactorModel KnowModel MemoModel ColsModel ProgramModel.
Import ListNotations.
Open Scope string_scope. Open Scope nat_scope. Open Scope list_scope.

(** str(i) *)
Definition dec (i : nat) : string := NilEmpty.string_of_uint (Nat.to_uint i).

(** ** Operators *)
(** the dictionary made by _interpret_operator, InflationProblem.py:618-637 *)
Record interp := {
  i_party : string; i_outcome : nat; i_composite : nat; i_composite_trivial : bool;
  i_private : nat; i_private_trivial : bool; i_do : list (string * nat);
  i_copies : list nat; i_relevant : list nat }.
Definition interpret_operator (sc : scenario) (names : list string) (op : row) : option interp :=
  let p := row_party op - 1 in
  match assoc (effective_to_parent sc p) (row_setting op) with
  | None => None
  | Some t => Some {|
      i_party := nth p names ""; i_outcome := row_outcome op; i_composite := row_setting op;
      i_composite_trivial := nr_settings sc p =? 1;
      i_private := hd 0 t; i_private_trivial := nth p (private_settings sc) 0 =? 1;
      i_do := update string_dec [] (combine (map (fun q => nth q names "") (nth p (parents sc) [])) (tl t));
      i_copies := row_copies op;
      i_relevant := map fst (filter (fun cl => (0 <? snd cl) && (0 <? fst cl)) (combine (row_copies op) (levels sc))) |}
  end.
(** _any_inflation, lines 510-511 *)
Definition any_inflation (sc : scenario) : bool := existsb (fun n => 1 <? n) (levels sc).
(** _interpretation_to_name, lines 640-659 *)
Definition do_text (pv : string * nat) : string := (fst pv ++ "=" ++ dec (snd pv))%string.
Definition interpretation_to_name (op : interp) (include_copy_indices : bool) : string :=
  (i_party op
   ++ (if i_private_trivial op then "" else "_" ++ dec (i_private op))
   ++ (if include_copy_indices then
         (match i_relevant op with
          | [] => ""
          | _ => "^{" ++ String.concat "," (map dec (i_relevant op)) ++ "}"
          end) ++ "_" ++ String.concat "_" (map dec (i_copies op))
       else "")
   ++ "=" ++ dec (i_outcome op)
   ++ (match i_do op with
       | [] => ""
       | _ => "|do(" ++ String.concat "," (map do_text (i_do op)) ++ ")"
       end))%string.
(** _interpretation_to_name_old, lines 662-671 *)
Definition interpretation_to_name_old (op : interp) : string :=
  (i_party op ++ "_" ++ String.concat "_" (map dec (i_copies op))
   ++ (if i_composite_trivial op then "_∅" else "_" ++ dec (i_composite op))
   ++ "_" ++ dec (i_outcome op))%string.
(** str.replace: non-overlapping occurrences, from left to right *)
Fixpoint replace_from (skip : nat) (pat rep s : string) : string :=
  match s with
  | EmptyString => EmptyString
  | String c s' =>
      match skip with
      | S k => replace_from k pat rep s'
      | 0 => if prefix pat s then (rep ++ replace_from (String.length pat - 1) pat rep s')%string
             else String c (replace_from 0 pat rep s')
      end
  end.
Definition replace (pat rep s : string) : string := replace_from 0 pat rep s.
(** the row of _lexrepr_to_all_names (lines 559-579) of an operator: name, name without copy
    indices (lines 541-556), the two old names *)
Definition op_name (sc : scenario) (op : interp) : string := interpretation_to_name op (any_inflation sc).
Definition copy_free_name (op : interp) : string := interpretation_to_name op false.
Definition old_name (op : interp) : string := interpretation_to_name_old op.
Definition old_name2 (op : interp) : string := replace "∅" "0" (interpretation_to_name_old op).
Definition all_names (sc : scenario) (op : interp) : list string :=
  [op_name sc op; copy_free_name op; old_name op; old_name2 op].
(** op_from_name, sdp/InflationSDP.py:160-163: setdefault keeps the first binding.  Operators are
    counted from 1, 0 is the zero operator. *)
Fixpoint first_named (s : string) (l : list (string * nat)) : option nat :=
  match l with [] => None | (s', i) :: l' => if String.eqb s s' then Some i else first_named s l' end.
Definition op_from_name (sc : scenario) (names : list string) : option (list (string * nat)) :=
  match map_opt (interpret_operator sc names) (lexorder sc) with
  | None => None
  | Some ds => Some (("0", 0) :: flat_map (fun di => map (fun s => (s, snd di)) (all_names sc (fst di)))
                                          (combine ds (seq 1 (List.length ds))))
  end.

(** ** Atoms *)
(** nb_is_do_conditional, lp/numbafied.py:84-90 *)
Definition nb_is_do_conditional (nr_src : nat) (mon : list row) : bool :=
  if List.length mon <=? 1 then true
  else forallb (fun k =>
         negb (1 <? List.length (np_unique Nat.compare
                 (filter (fun c => negb (c =? 0)) (map (fun r => nth (1 + k) r 0) mon)))))
       (seq 0 nr_src).
(** lines 152-161: outcomes of the parties that have a single outcome in the monomial; the other
    do-values stay.  [unambiguous] is membership in parties_with_unambigous_outcomes. *)
Definition unambiguous (ops : list interp) (p : string) (o : nat) : bool :=
  existsb (fun d => String.eqb (i_party d) p) ops &&
  forallb (fun d => if String.eqb (i_party d) p then i_outcome d =? o else true) ops.
Definition clean (ops : list interp) (d : interp) : interp := {|
  i_party := i_party d; i_outcome := i_outcome d; i_composite := i_composite d; i_composite_trivial := i_composite_trivial d;
  i_private := i_private d; i_private_trivial := i_private_trivial d;
  i_do := filter (fun kv => negb (unambiguous ops (fst kv) (snd kv))) (i_do d);
  i_copies := i_copies d; i_relevant := i_relevant d |}.

Section Names.
Variables (sc : scenario) (names : list string) (conj : word -> word).
Definition rows_of (w : word) : list row := map (fun x => nth x (sdp_lexorder sc) []) w.
Definition dicts_of (w : word) : option (list interp) := map_opt (interpret_operator sc names) (rows_of w).
(** is_zero, line 73; is_all_commuting, lines 76-81 (SDP, sdp/InflationSDP.py:196-201) *)
Definition is_zero (w : word) : bool := negb (forallb (fun x => negb (x =? 0)) w).
Definition is_all_commuting (w : word) : bool := is_zero w || negb (sub_any (sdp_notcomm sc) w).
(** is_knowable, lines 76-86 *)
Definition is_knowable (w : word) : option bool :=
  match w with
  | [] => Some true
  | _ => if is_zero w then Some true
         else if nb_is_do_conditional (nr_sources sc) (rows_of w) && is_all_commuting w
              then atomic_knowable_q sc (rows_of w) else Some false
  end.
(** _name, lines 145-170 *)
Definition brackets (commuting : bool) (ops : list string) : string :=
  if commuting then ("P[" ++ String.concat " " ops ++ "]")%string else ("<" ++ String.concat " " ops ++ ">")%string.
Definition atom_name (w : word) : option string :=
  match w with
  | [] => Some "1"
  | _ =>
    if is_zero w then Some "0"
    else match dicts_of w with
    | None => None
    | Some ds =>
        let ops := if nb_is_do_conditional (nr_sources sc) (rows_of w)
                   then map (fun d => interpretation_to_name (clean ds d) false) ds
                   else map (op_name sc) ds in
        Some (brackets (is_all_commuting w) ops)
    end
  end.
(** _raw_name, lines 172-198: the legacy name *)
Definition divider (l : list string) : string :=
  if forallb (fun s => String.length s =? 1) l then "" else ",".
Definition legacy_name (w : word) : option string :=
  match w with
  | [] => Some "1"
  | _ =>
    if is_zero w then Some "0"
    else match is_knowable w with
    | None => None
    | Some true =>
        match rectify_fake_setting sc (map take3 (rows_of w)) with
        | None => None
        | Some rect =>
            let inputs := map (fun r => dec (nth 1 r 0)) rect in
            let outputs := map (fun r => dec (nth 2 r 0)) rect in
            Some ("p" ++ String.concat "" (map (fun r => nth (nth 0 r 0 - 1) names "") rect)
                  ++ "(" ++ String.concat (divider outputs) outputs
                  ++ "|" ++ String.concat (divider inputs) inputs ++ ")")%string
        end
    | Some false =>
        match dicts_of w with
        | None => None
        | Some ds => Some ("<" ++ String.concat " " (map old_name ds) ++ ">")%string
        end
    end
  end.
(** the atoms as objects; new_atom is InternalAtomicMonomialSDP(self, w) *)
Record atom := { a_word : word; a_name : string; a_legacy : string }.
Definition new_atom (w : word) : option atom :=
  match atom_name w, legacy_name w with
  | Some n, Some l => Some {| a_word := w; a_name := n; a_legacy := l |}
  | _, _ => None
  end.
(** dagger, sdp/monomial_classes.py:92-104: a copy with other word and name; the legacy name is
    the one of the original.  _lexrepr_to_names is indexed from 0 = the zero operator. *)
Definition names_of (w : word) : option (list string) :=
  map_opt (fun x => match x with
                    | 0 => Some "0"
                    | S i => match nth_error (lexorder sc) i with
                             | Some r => option_map (op_name sc) (interpret_operator sc names r)
                             | None => None
                             end
                    end) w.
Definition dagger (a : atom) : option atom :=
  if MemoModel.word_eqb (a_word a) (conj (a_word a)) then Some a
  else match names_of (conj (a_word a)) with
       | None => None
       | Some l => Some {| a_word := conj (a_word a); a_name := ("<" ++ String.concat " " l ++ ">")%string; a_legacy := a_legacy a |}
       end.
(** ** Moments *)
(** Counter and name_from_atom_names, sdp/monomial_utils.py:59-82 *)
Definition count_in (x : string) (d : list (string * nat)) : nat :=
  match get string_dec x d with Some n => n | None => 0 end.
Definition counter (l : list string) : list (string * nat) :=
  fold_left (fun d x => set string_dec x (S (count_in x d)) d) l [].
Definition power_text (np : string * nat) : string :=
  (fst np ++ (if Nat.ltb 1 (snd np) then "^" ++ dec (snd np) else ""))%string.
Definition name_from_atom_names (l : list string) : string :=
  match l with [] => "1" | _ => String.concat "*" (map power_text (counter l)) end.
(** sorted() of atoms, comparison of tuples of atoms (lexicographic) and min() of two *)
Definition atom_lt (a b : atom) : bool := word_lt (a_word a) (a_word b).
Fixpoint atoms_lt (a b : list atom) : bool :=
  match a, b with
  | [], _ :: _ => true
  | x :: a', y :: b' => if MemoModel.word_eqb (a_word x) (a_word y) then atoms_lt a' b' else atom_lt x y
  | _, _ => false
  end.
Definition min_atoms (a b : list atom) : list atom := if atoms_lt b a then b else a.
(** sorted(atoms) or the sorted conjugates, whichever is first: InflationSDP.py:1509-1511 and
    CompoundMomentSDP.__init__, sdp/monomial_classes.py:124-127 *)
Definition or_conjugate (atoms : list atom) : option (list atom) :=
  match map_opt dagger atoms with
  | None => None
  | Some ds => Some (min_atoms (py_sorted atom_lt atoms) (py_sorted atom_lt ds))
  end.
Record moment := { m_factors : list atom; m_name : string; m_legacy : string }.
Definition m_key (m : moment) : list word := map a_word (m_factors m).
(** CompoundMomentSDP(atoms); the factors are sorted once more in CompoundMoment.__init__
    (lp/monomial_classes.py:265) *)
Definition new_moment (atoms : list atom) : option moment :=
  match or_conjugate atoms with
  | None => None
  | Some fs =>
      let fs := py_sorted atom_lt fs in
      Some {| m_factors := fs; m_name := name_from_atom_names (map a_name fs);
              m_legacy := name_from_atom_names (map a_legacy fs) |}
  end.
(** the dictionaries monomial_from_atoms and monomial_from_name; newest binding first *)
Record book := { by_atoms : list (list word * moment); by_name : list (string * moment) }.
Definition empty_book : book := {| by_atoms := []; by_name := [] |}.
Definition words_eqb (a b : list word) : bool := if list_eq_dec (list_eq_dec Nat.eq_dec) a b then true else false.
Fixpoint find_key (k : list word) (l : list (list word * moment)) : option moment :=
  match l with [] => None | (k', m) :: l' => if words_eqb k k' then Some m else find_key k l' end.
Fixpoint find_name (s : string) (l : list (string * moment)) : option moment :=
  match l with [] => None | (s', m) :: l' => if String.eqb s s' then Some m else find_name s l' end.
(** lines 1499-1508: a zero factor replaces everything, unit factors are dropped *)
Fixpoint nontrivial_atoms (kept atoms : list atom) : list atom :=
  match atoms with
  | [] => kept
  | a :: l => if is_zero (a_word a) then [a]
              else match a_word a with [] => nontrivial_atoms kept l | _ => nontrivial_atoms (kept ++ [a]) l end
  end.
(** _monomial_from_atoms, lines 1499-1524 *)
Definition monomial_from_atoms (atoms : list atom) (b : book) : option (moment * book) :=
  match or_conjugate (nontrivial_atoms [] atoms) with
  | None => None
  | Some key =>
      match find_key (map a_word key) (by_atoms b) with
      | Some m => Some (m, b)
      | None => match new_moment key with
                | None => None
                | Some m => Some (m, {| by_atoms := (map a_word key, m) :: by_atoms b;
                                        by_name := (m_legacy m, m) :: (m_name m, m) :: by_name b |})
                end
      end
  end.
(** A history of constructions: from words (Moment_1d line 1426-1428: every factor is made by
    _AtomicMonomial, so is its own representative), from factors of an existing moment (line 736:
    the factors that are not known; 518: a single factor). *)
Inductive step := FromWords (ws : list word) | FromFactors (k : nat) (keep : list nat).
Definition do_step (s : step) (b : book) : option (moment * book) :=
  match s with
  | FromWords ws => match map_opt new_atom ws with None => None | Some l => monomial_from_atoms l b end
  | FromFactors k keep =>
      match nth_error (map snd (by_atoms b)) k with
      | None => None
      | Some m => match map_opt (nth_error (m_factors m)) keep with
                  | None => None
                  | Some l => monomial_from_atoms l b
                  end
      end
  end.
Fixpoint do_steps (h : list step) (b : book) : option book :=
  match h with
  | [] => Some b
  | s :: h' => match do_step s b with None => None | Some (_, b') => do_steps h' b' end
  end.

(** ** Interpretation of texts *)
(** str.split with a one-character separator *)
Fixpoint split_from (c : ascii) (acc s : string) : list string :=
  match s with
  | EmptyString => [acc]
  | String a s' => if Ascii.eqb a c then acc :: split_from c "" s' else split_from c (acc ++ String a "")%string s'
  end.
Definition split (c : ascii) (s : string) : list string := split_from c "" s.
(** s[0] and s[-1]; None = IndexError *)
Definition first_char (s : string) : option ascii := String.get 0 s.
Definition last_char (s : string) : option ascii := String.get (String.length s - 1) s.
Definition has_char (c : ascii) (s : string) : bool := contains (String c "") s.
(** s[:-1] *)
Definition chop (s : string) : string := substring 0 (String.length s - 1) s.
(** _interpret_operator_string, line 1729 *)
Definition interpret_operator_string (table : list (string * nat)) (s : string) : option nat := first_named s table.
(** line 1706 *)
Definition substrings_to_kill : list string := ["P["; "P("; "p["; "p("; "<"].
(** _interpret_atomic_string, lines 1694-1714; [known] is atom_from_name (521-527), [kill] the set
    substrings_to_kill in the order in which it is visited.  A slice of length one (line 1699) is
    never "P[".  The result is given by indices of operators, not by rows. *)
Definition is_char (c : ascii) (o : option ascii) : bool := match o with Some d => Ascii.eqb c d | None => false end.
Definition interpret_atomic_string (known : string -> option word) (kill : list string)
    (table : list (string * nat)) (s : string) : option word :=
  match known s with
  | Some w => Some w
  | None =>
      if (is_char "<" (first_char s) && is_char ">" (last_char s)) || negb (has_char "|" s || has_char " " s) then
        if is_char ">" (last_char s) || is_char ")" (last_char s) || is_char "]" (last_char s) || is_char "}" (last_char s) then
          let cleaned := fold_left (fun t k => replace k "" t) kill (chop s) in
          map_opt (interpret_operator_string table) (split " " (replace " & " " " cleaned))
        else option_map (fun i => [i]) (interpret_operator_string table s)
      else None
  end.
(** _interpret_name of a text, lines 1659-1681: a moment that exists, or the product of all the
    operators named *)
Inductive meaning := Known (m : moment) | Product (w : word).
Definition interpret_name (b : book) (known : string -> option word) (kill : list string)
    (table : list (string * nat)) (s : string) : option meaning :=
  if String.eqb s "1" then Some (Product [])
  else match find_name s (by_name b) with
       | Some m => Some (Known m)
       | None => match map_opt (interpret_atomic_string known kill table) (split "*" s) with
                 | None => None
                 | Some l => Some (Product (List.concat l))
                 end
       end.
End Names.
(** the conjugate of an atom in the code (sdp/monomial_classes.py:88-90, InflationSDP._conjugate);
    by C24 and C35 its result does not depend on the calls made before *)
Definition code_conj (sc : scenario) (commuting : bool) (w : word) : word :=
  match memo_conj (sdp_notcomm sc) (sdp_orthomat sc) commuting (sdp_lexorder_symmetries sc) w memo_empty with Some (r, _) => r | None => w end.
