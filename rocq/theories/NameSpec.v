(** What the names of operators and moments should satisfy. *)
From Coq Require Import List Arith Bool Ascii String Permutation.
From Verif Require Import CanonModel CanonSpec ScenarioModel ScenarioSpec SymModel ColumnModel MemoModel MemoSpec.
Import ListNotations.
Open Scope nat_scope.

(** every character of a text satisfies [f] *)
Fixpoint every (f : ascii -> bool) (s : string) : bool :=
  match s with EmptyString => true | String c s' => f c && every f s' end.
(** a character that names of parties may contain: none of  _ ^ = * , | ( ) [ ] < >  or a blank,
    and not the first byte (226) of the UTF-8 form of the empty-set sign *)
Definition name_char (c : ascii) : bool :=
  negb (existsb (Ascii.eqb c) ["_"; "^"; "="; "*"; ","; "|"; "("; ")"; "["; "]"; "<"; ">"; " "; "226"]%char).
(** the names of the parties are different and made of such characters *)
Record good_names (sc : scenario) (names : list string) : Prop := {
  gn_length : List.length names = nr_parties sc;
  gn_different : NoDup names;
  gn_chars : forall s, In s names -> every name_char s = true;
  gn_parents : forall ps, In ps (parents sc) -> NoDup ps        (* np.flatnonzero, InflationProblem.py:223 *)
}.
(** no name of a party is the beginning of another one (for instance, all have one letter) *)
Definition prefix_free (names : list string) : Prop :=
  (forall s, In s names -> s <> ""%string) /\
  forall s t, In s names -> In (s ++ t)%string names -> t = ""%string.

(** The words of the atoms that the package makes: products of operators (none of them the zero
    operator) that are their own representative under relabelling of source copies, and in which no
    two equal or orthogonal operators meet. *)
Definition atom_word (sc : scenario) (w : word) : Prop :=
  w <> [] /\ (forall x, In x w -> 1 <= x <= List.length (lexorder sc)) /\
  is_representative (sdp_notcomm sc) (sdp_lexorder_symmetries sc) w w /\
  reduced (sdp_notcomm sc) (sdp_orthomat sc) w.
(** [conj] conjugates: products of commuting operators stay, others are reversed and brought to
    their representative. *)
Definition conjugates (sc : scenario) (conj : word -> word) : Prop :=
  forall w, ((forall a b, In a w -> In b w -> sdp_notcomm sc a b = false) -> conj w = w) /\
            (atom_word sc w -> (exists a b, In a w /\ In b w /\ sdp_notcomm sc a b = true) ->
               is_representative (sdp_notcomm sc) (sdp_lexorder_symmetries sc) (rev w) (conj w)).

(** A factor that may be given to the construction of a moment: an atom, zero or one. *)
Definition usable (sc : scenario) (w : word) : Prop := atom_word sc w \/ w = [0] \/ w = [].
(** Two lists of factors with the same product (factors commute, unit factors do not count, a zero
    factor makes zero) up to conjugation of the whole product. *)
Definition proper (ws : list word) : list word := filter (fun w => match w with [] => false | _ => true end) ws.
Definition same_moment (conj : word -> word) (ws ws' : list word) : Prop :=
  (In [0] ws /\ In [0] ws') \/
  (~ In [0] ws /\ ~ In [0] ws' /\
   (Permutation (proper ws) (proper ws') \/ Permutation (proper ws) (map conj (proper ws')))).
