(** Model of the generation of the columns of the moment matrix
    (sdp/InflationSDP.py:1081-1259 build_columns, 1735-1793 _build_cols_from_specs).

    Simplifications: specifications given as symbols are not modelled; 2d monomials are assumed
    to have been converted (1118-1119, C09); the memoised canonicaliser is replaced by the
    canonicaliser itself (C24 says when this is the same); int() of a text accepts only decimal
    digits; progress bars, printing and the symbolic output are left out.
    None = an exception (or the canonicaliser running out of fuel, which does not happen). *)
From Coq Require Import String Ascii Decimal DecimalString.
From Verif Require Export ScenarioModel MomentModel LPModel.
From Verif Require Import CliqueModel MemoModel.
Open Scope list_scope. Open Scope nat_scope.

(** meas_ops, lines 1778-1783.  [hc] is has_children (lines 91-95); the number of outcomes is
    outcome_cardinalities = outcomes + has_children (line 99). *)
Definition meas_ops (sc : scenario) (hc : list bool) (p : nat) : list nat :=
  filter (fun i => match nth_error (sdp_lexorder sc) i with
                   | Some r => (row_party r =? p + 1) &&
                               negb (row_outcome r + 1 =? nth p (outcomes sc) 0 + b2n (nth p hc false))
                   | None => false
                   end)
         (seq 0 (length (sdp_lexorder sc))).

(** itertools.product *)
Fixpoint cart {A} (l : list (list A)) : list (list A) :=
  match l with
  | [] => [[]]
  | x :: l' => flat_map (fun a => map (cons a) (cart l')) x
  end.

Section Build.
Variables (sc : scenario) (hc : list bool) (commuting : bool).
Definition canon (w : word) : option word :=
  to_canonical_1d_internal (sdp_notcomm sc) (sdp_orthomat sc) commuting false w.

(** the loop body at lines 1784-1791; the state is (seen_columns, columns) *)
Definition seen (w : word) (l : list word) : bool := existsb (word_eqb w) l.
Definition col_state := (list word * list word)%type.
Definition add_word (block : list nat) (st : col_state) (m : word) : option col_state :=
  match canon m with
  | None => None
  | Some c =>
      if negb (word_eqb c [0]) && (length c =? length block) then
        if seen c (fst st) then Some st else Some (c :: fst st, snd st ++ [c])
      else Some st
  end.
Fixpoint add_words (block : list nat) (ms : list word) (st : col_state) : option col_state :=
  match ms with
  | [] => Some st
  | m :: ms' => match add_word block st m with None => None | Some st' => add_words block ms' st' end
  end.
(** lines 1771-1791 *)
Definition add_block (st : col_state) (block : list nat) : option col_state :=
  match block with
  | [] => Some ([] :: fst st, snd st ++ [[]])
  | _ => add_words block (cart (map (meas_ops sc hc) block)) st
  end.
Fixpoint add_blocks (specs : list (list nat)) (st : col_state) : option col_state :=
  match specs with
  | [] => Some st
  | b :: specs' => match add_block st b with None => None | Some st' => add_blocks specs' st' end
  end.
(** _build_cols_from_specs, lines 1735-1793 *)
Definition build_cols_from_specs (specs : list (list nat)) : option (list word) :=
  option_map snd (add_blocks specs ([], [])).

(** lines 1154-1167 *)
Fixpoint increasing (l : list nat) : bool :=
  match l with
  | x :: ((y :: _) as l') => (x <=? y) && increasing l'
  | _ => true
  end.
Definition npa_length (level max_monomial_length : nat) : nat :=
  if (0 <? max_monomial_length) && (max_monomial_length <? level) then max_monomial_length else level.
Definition npa_specs (level max_monomial_length : nat) : list (list nat) :=
  [] :: flat_map (fun len => filter increasing (cart (repeat (seq 0 (nr_parties sc)) len)))
                 (seq 1 (npa_length level max_monomial_length)).

(** lines 1187-1204; the sort key is (sum, negated list), compared lexicographically *)
Fixpoint lex_gt (a b : list nat) : bool :=
  match a, b with
  | x :: a', y :: b' => if x =? y then lex_gt a' b' else y <? x
  | _, _ => false
  end.
(** key(a) < key(b) *)
Definition freq_lt (a b : list nat) : bool :=
  if list_sum a =? list_sum b then lex_gt a b else list_sum a <? list_sum b.
(** sorted: a stable sort *)
Section Sort.
Context {A : Type} (lt : A -> A -> bool).
Fixpoint sort_insert (x : A) (l : list A) : list A :=
  match l with
  | [] => [x]
  | y :: l' => if lt y x then y :: sort_insert x l' else x :: l
  end.
Fixpoint py_sorted (l : list A) : list A :=
  match l with [] => [] | x :: l' => sort_insert x (py_sorted l') end.
End Sort.
Definition local_length (lengths : list nat) (max_monomial_length : nat) : nat :=
  if (0 <? max_monomial_length) && (max_monomial_length <? list_sum lengths)
  then max_monomial_length else list_sum lengths.
Definition block_of_freq (pfreq : list nat) : list nat :=
  flat_map (fun p => repeat p (nth p pfreq 0)) (seq 0 (nr_parties sc)).
Definition local_specs (lengths : list nat) (max_monomial_length : nat) : list (list nat) :=
  map block_of_freq
    (py_sorted freq_lt
       (filter (fun f => list_sum f <=? local_length lengths max_monomial_length)
               (cart (map (fun level => seq 0 (level + 1)) lengths)))).

(** lines 1207-1233.  The arrays have one entry more than there are operators in the
    InflationProblem (line 134-135) and the operator indices are those of the InflationProblem,
    so one is added at the end. *)
Definition sdp_groups : list (bool * list nat) :=
  combine (map (fun p => nth p hc false) (group_parties sc)) (ortho_idxs sc).
Definition short_enough (caps : list (option nat)) (template : list nat) : bool :=
  forallb (fun pc => match snd pc with
                     | None => true
                     | Some cap => length (filter (fun t => nth t (group_parties sc) 0 =? fst pc) template) <=? cap
                     end)
          (combine (seq 0 (length caps)) caps).
(** tuples compared as in Python: a prefix is smaller *)
Fixpoint tuple_lt (a b : list nat) : bool :=
  match a, b with
  | [], _ :: _ => true
  | x :: a', y :: b' => if x =? y then tuple_lt a' b' else x <? y
  | _, _ => false
  end.
(** key (len(x), tuple(x)) *)
Definition word_lt (a b : word) : bool :=
  if length a =? length b then tuple_lt a b else length a <? length b.
Definition physical_columns (caps : list (option nat)) (max_monomial_length : nat) : option (list word) :=
  match all_and_maximal_cliques (length (ortho_idxs sc)) (compatible sc) max_monomial_length false with
  | None => None
  | Some (templates, _) =>
      let n := S (length (lexorder sc)) in
      Some (py_sorted word_lt
        (map (fun v => map S (flatnonzero v))
          (flat_map (fun t => template_to_event n t (CG_limited n sdp_groups))
                    (filter (short_enough caps) templates))))
  end.

(** lines 1241-1252: with duplicates the columns are sorted (and a warning is given) *)
Fixpoint no_duplicates (l : list word) : bool :=
  match l with [] => true | x :: l' => negb (seen x l') && no_duplicates l' end.
Definition finish (cols : list word) : list word :=
  if no_duplicates cols then cols else py_sorted word_lt cols.

Inductive colspec :=
| Blocks (specs : list (list nat))       (* a list of lists of parties, 1112-1114 *)
| Words (l : list word)                  (* a list of 1d monomials, 1120-1124 *)
| Npa (level : nat)
| Local (lengths : list nat)
| Physical (caps : list (option nat)).
Definition build_columns (spec : colspec) (max_monomial_length : nat) : option (list word) :=
  match spec with
  | Blocks specs => match specs with
                    | [] => None                       (* column_specification[0]: IndexError *)
                    | _ => option_map finish (build_cols_from_specs specs)
                    end
  | Words l => match l with
               | _ :: _ :: _ => Some (finish l)
               | _ => None                             (* column_specification[1]: IndexError *)
               end
  | Npa level => option_map finish (build_cols_from_specs (npa_specs level max_monomial_length))
  | Local lengths => option_map finish (build_cols_from_specs (local_specs lengths max_monomial_length))
  | Physical caps => option_map finish (physical_columns caps max_monomial_length)
  end.
End Build.

(** ** The text of a specification, lines 1151-1184 *)
Open Scope string_scope.
Definition lower_char (c : ascii) : ascii :=
  let k := nat_of_ascii c in
  if (65 <=? k)%nat && (k <=? 90)%nat then ascii_of_nat (k + 32) else c.
Fixpoint lower (s : string) : string :=
  match s with EmptyString => EmptyString | String c s' => String (lower_char c) (lower s') end.
(** pat in s *)
Fixpoint contains (pat s : string) : bool :=
  prefix pat s || match s with EmptyString => false | String _ s' => contains pat s' end.
(** s[k:] *)
Fixpoint drop (k : nat) (s : string) : string :=
  match k, s with
  | O, _ => s
  | S k', String _ s' => drop k' s'
  | S _, EmptyString => EmptyString
  end.
(** int(s), for decimal digits; None = ValueError *)
Definition py_int (s : string) : option nat :=
  match s with
  | EmptyString => None
  | _ => match NilEmpty.uint_of_string s with Some d => Some (Nat.of_uint d) | None => None end
  end.
(** [int(level) for level in lengths] over the characters *)
Fixpoint int_chars (s : string) : option (list nat) :=
  match s with
  | EmptyString => Some nil
  | String c s' => match py_int (String c EmptyString), int_chars s' with
                   | Some k, Some l => Some (k :: l)%list
                   | _, _ => None
                   end
  end.
Definition parse_spec (nr_parties : nat) (s : string) : option colspec :=
  if contains "npa" (lower s) then
    match py_int (drop 3 s) with Some k => Some (Npa k) | None => None end
  else if contains "local" (lower s) || contains "physical" (lower s) then
    let k := if contains "local" (lower s) then 5%nat else 8%nat in
    let spec := substring 0 k s in
    let is_local := if string_dec spec "local" then true else false in
    let lengths := drop k s in
    match lengths with
    | EmptyString => if is_local then None else Some (Physical (repeat None nr_parties))
    | _ =>
        match (if (String.length lengths =? nr_parties)%nat then int_chars lengths
               else match py_int lengths with Some l => Some (repeat l nr_parties) | None => None end) with
        | None => None
        | Some ls => Some (if is_local then Local ls else Physical (map (@Some nat) ls))
        end
    end
  else None.
