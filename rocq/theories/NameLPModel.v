(** Model of the names of atoms and moments of linear programmes (lp/monomial_classes.py:121-214,
    lp/InflationLP.py:89-90, 192-194, 1001-1038, 1246-1251, 1747-1764, sdp/monomial_utils.py:59-82).
    The operators of a linear programme are counted from 0 (in a semidefinite one from 1), there is
    no zero operator, all operators are declared to commute, and nothing is conjugated.

    Simplifications: the same as in NameModel (texts are sequences of bytes; no symbols; atoms are
    compared by their words, not by the hashes of their words).  None = an exception. *)
From Coq Require Import List Arith Bool Ascii String.
From Verif Require Import CanonModel ScenarioModel KnowModel ColsModel ProgramModel NameModel.
Import ListNotations.
Open Scope string_scope. Open Scope nat_scope. Open Scope list_scope.

Section NamesLP.
Variables (sc : scenario) (names : list string).
(** as_2d_array, line 68 *)
Definition lp_rows (w : word) : list row := map (fun k => nth k (lexorder sc) []) w.
Definition lp_dicts (w : word) : option (list interp) := map_opt (interpret_operator sc names) (lp_rows w).
(** is_knowable, lines 79-91, with all_commuting_q_1d the constant True (InflationLP.py:90) *)
Definition lp_is_knowable (w : word) : option bool :=
  match w with
  | [] => Some true
  | _ => if nb_is_do_conditional (nr_sources sc) (lp_rows w) then atomic_knowable_q sc (lp_rows w) else Some false
  end.
(** _name, lines 143-167; is_all_commuting is True *)
Definition lp_atom_name (w : word) : option string :=
  match w with
  | [] => Some "1"
  | _ => match lp_dicts w with
         | None => None
         | Some ds =>
             let ops := if nb_is_do_conditional (nr_sources sc) (lp_rows w)
                        then map (fun d => interpretation_to_name (clean ds d) false) ds
                        else map (op_name sc) ds in
             Some (brackets true ops)
         end
  end.
(** _raw_name, lines 169-195 *)
Definition lp_legacy_name (w : word) : option string :=
  match w with
  | [] => Some "1"
  | _ => match lp_is_knowable w with
         | None => None
         | Some true =>
             match rectify_fake_setting sc (map take3 (lp_rows w)) with
             | None => None
             | Some rect =>
                 let inputs := map (fun r => dec (nth 1 r 0)) rect in
                 let outputs := map (fun r => dec (nth 2 r 0)) rect in
                 Some ("p" ++ String.concat "" (map (fun r => nth (nth 0 r 0 - 1) names "") rect)
                       ++ "(" ++ String.concat (divider outputs) outputs
                       ++ "|" ++ String.concat (divider inputs) inputs ++ ")")%string
             end
         | Some false =>
             match lp_dicts w with
             | None => None
             | Some ds => Some ("<" ++ String.concat " " (map old_name ds) ++ ">")%string
             end
         end
  end.
(** InternalAtomicMonomial(self, w), lines 64-103 *)
Definition lp_new_atom (w : word) : option atom :=
  match lp_atom_name w, lp_legacy_name w with
  | Some n, Some l => Some {| a_word := w; a_name := n; a_legacy := l |}
  | _, _ => None
  end.
(** CompoundMoment(atoms), lines 265 and 301-304 *)
Definition lp_new_moment (atoms : list atom) : moment :=
  let fs := py_sorted atom_lt atoms in
  {| m_factors := fs; m_name := name_from_atom_names (map a_name fs); m_legacy := name_from_atom_names (map a_legacy fs) |}.
(** _monomial_from_atoms, InflationLP.py:1023-1038 *)
Definition lp_monomial_from_atoms (atoms : list atom) (b : book) : moment * book :=
  let key := map a_word (py_sorted atom_lt atoms) in
  match find_key key (by_atoms b) with
  | Some m => (m, b)
  | None => let m := lp_new_moment atoms in
            (m, {| by_atoms := (key, m) :: by_atoms b;
                   by_name := (m_legacy m, m) :: (m_name m, m) :: by_name b |})
  end.
(** Monomial, InflationLP.py:1000-1005, on the words of the representatives of the factors (empty
    factors are dropped) *)
Definition lp_monomial (ws : list word) (b : book) : option (moment * book) :=
  match map_opt lp_new_atom (filter (fun w => match w with [] => false | _ => true end) ws) with
  | None => None
  | Some atoms => Some (lp_monomial_from_atoms atoms b)
  end.
(** The dictionaries at the start of generate_lp: One was made by the constructor (line 194), the
    dictionary by atoms is emptied (line 1248), and the constant term, a copy of One with another
    name, is listed (lines 1249-1251). *)
Definition one_moment : moment := lp_new_moment [].
Definition constant_term : moment := {| m_factors := []; m_name := "constant_term"; m_legacy := m_legacy one_moment |}.
Definition start_book : book :=
  {| by_atoms := []; by_name := [("constant_term", constant_term); (m_legacy one_moment, one_moment); (m_name one_moment, one_moment)] |}.
(** the moments made one after the other, and the dictionaries after that *)
Fixpoint lp_history (h : list (list word)) (b : book) : option (list moment * book) :=
  match h with
  | [] => Some ([], b)
  | ws :: h' => match lp_monomial ws b with
                | None => None
                | Some (m, b1) => match lp_history h' b1 with None => None | Some (ms, b2) => Some (m :: ms, b2) end
                end
  end.
End NamesLP.

(** factorization_conditions_by_name and quadratic_..., lines 1749-1753 and 1761-1764: a dictionary
    comprehension, the last one of two equal names wins. *)
Definition conditions_by_name (conditions : list (moment * list moment)) : list (string * list string) :=
  update string_dec [] (map (fun c => (m_name (fst c), map m_name (snd c))) conditions).
