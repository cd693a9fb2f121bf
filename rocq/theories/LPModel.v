(** Model of the construction of the linear programme
    (inflation/lp/InflationLP.py:126-169, 943-980, 1231-1292, 1359-1444, 1467-1513, 1618-1660,
    lp/numbafied.py:55-67, InflationProblem.py:365-388, 411-419).  Boolean vectors are lists of
    booleans; a coefficient is a rational.  None = KeyError (or the clique loop running out of
    fuel). *)
From Coq Require Export QArith Qcanon.
From Verif Require Export OrbitModel CliqueModel.
Open Scope nat_scope.

Definition bvec := list bool.
Definition bvec_eqb (a b : bvec) : bool := if list_eq_dec Bool.bool_dec a b then true else false.
(** np.eye(n)[i] and the zero vector, lines 126 and 131-132 *)
Definition eye (n i : nat) : bvec := map (Nat.eqb i) (seq 0 n).
Definition blank (n : nat) : bvec := repeat false n.
Definition vor (a b : bvec) : bvec := map (fun p => fst p || snd p) (combine a b).
Definition vand (a b : bvec) : bvec := map (fun p => fst p && snd p) (combine a b).
(** a copy of v with False at the positions of m, lines 1417-1418 *)
Definition vclear (v m : bvec) : bvec := map (fun p => fst p && negb (snd p)) (combine v m).
(** np.flatnonzero *)
Definition flatnonzero (v : bvec) : list nat := filter (fun i => nth i v false) (seq 0 (length v)).
Definition vany (v : bvec) : bool := existsb (fun b => b) v.
(** nb_outer_bitwise_or / xor, numbafied.py:55-67 *)
Definition outer_or (a b : list bvec) : list bvec := flat_map (fun x => map (vor x) b) a.
Definition outer_xor (a b : list bool) : list bool := flat_map (fun x => map (xorb x) b) a.
(** functools.reduce without initial value *)
Definition reduce {A} (f : A -> A -> A) (d : A) (l : list A) : A :=
  match l with [] => d | x :: r => fold_left f r x end.
(** v[perm] *)
Definition vtake (v : bvec) (g : list nat) : bvec := map (fun k => nth k v false) g.

(** InflationProblem.py:375-387: consecutive blocks of operator indices, one per measurement,
    with the party. *)
Fixpoint blocks (offset : nat) (sizes : list nat) : list (list nat) :=
  match sizes with [] => [] | s :: r => seq offset s :: blocks (offset + s) r end.
Definition group_parties (sc : scenario) : list nat :=
  flat_map (fun p => map (fun _ => p) (ortho_groups_of_party sc p)) (seq 0 (nr_parties sc)).
Definition ortho_idxs (sc : scenario) : list (list nat) := blocks 0 (map (@length row) (ortho_groups sc)).
(** _template_idxs, line 388 *)
Definition template_idxs (sc : scenario) : list nat := map (hd 0) (ortho_idxs sc).
(** _compatible_template_measurements, lines 411-412 *)
Definition compatible (sc : scenario) (t u : nat) : bool :=
  negb (default_notcomm sc (nth t (template_idxs sc) 0) (nth u (template_idxs sc) 0)).
(** has_children, InflationProblem.py:206-215 and InflationLP.py:131-133 *)
Definition has_children (sc : scenario) (all_outcomes : bool) (p : nat) : bool :=
  all_outcomes || existsb (memb p) (parents sc).

Section LP.
(** [n] operators; the groups, each with the flag "its party has children"; compatibility of
    groups; the symmetries of the operators *)
Variables (n : nat) (groups : list (bool * list nat)%type) (compat : nat -> nat -> bool)
          (syms : list (list nat)) (symmetrize : bool).

(** lines 136-154 *)
Definition as_boolarray (g : list nat) : list bvec := map (eye n) g.
Definition all_groups : list (list bvec) := map (fun t : bool * list nat => as_boolarray (snd t)) groups.
Definition CG_adjusting : list (list bvec) :=
  map (fun t : bool * list nat => as_boolarray (snd t)) (filter (fun t : bool * list nat => negb (fst t)) groups).
Definition CG_nonadjusting : list (list bvec) :=
  map (fun t : bool * list nat => as_boolarray (snd t)) (filter (fun t : bool * list nat => fst t) groups).
Definition CG_limited : list (list bvec) :=
  map (fun t : bool * list nat => if fst t then as_boolarray (snd t) else removelast (as_boolarray (snd t))) groups.
(** lines 160-169 *)
Definition last_row (a : list bvec) : bvec := last a (blank n).
Definition not_in_CG : bvec := reduce vor (blank n) (map last_row CG_adjusting).
Definition trigger_equality : bvec := reduce vor (blank n) (map last_row CG_nonadjusting).

(** _template_to_event_boolarray, lines 1359-1364; sorted(template, key=neg) is the reverse of
    a clique, which is listed in increasing order *)
Definition template_to_event (template : list nat) (decompressor : list (list bvec)) : list bvec :=
  match template with
  | [] => [blank n]
  | _ => reduce outer_or [] (map (fun t => nth t decompressor []) (rev template))
  end.

(** lines 1366-1394 *)
Definition cliques : option (list (list nat) * list (list nat)) :=
  all_and_maximal_cliques (length groups) compat 0 true.
Definition raw_monomials : option (list bvec) :=
  option_map (fun cl => flat_map (fun c => template_to_event c CG_limited) (fst cl)) cliques.
Definition maximal_events : option (list bvec) :=
  option_map (fun cl => flat_map (fun c => template_to_event c all_groups) (snd cl)) cliques.

(** a dictionary {bitvec.tobytes(): i for i, bitvec in enumerate(l)}: last index wins *)
Fixpoint bfind (i : nat) (l : list bvec) (v : bvec) : option nat :=
  match l with
  | [] => None
  | x :: l' => match bfind (S i) l' v with
               | Some k => Some k
               | None => if bvec_eqb x v then Some i else None
               end
  end.

(** _discover_inflation_orbits, lines 1632-1660.  An unset entry (-1) is None. *)
Fixpoint set_at {A} (l : list A) (k : nat) (x : A) : list A :=
  match l, k with
  | [], _ => []
  | _ :: l', 0 => x :: l'
  | y :: l', S k' => y :: set_at l' k' x
  end.
Definition orbit_step (raw : list bvec) (orbits : list (option nat)) (i : nat) : list (option nat) :=
  match nth i orbits None with
  | Some _ => orbits
  | None =>
      let initial := nth i raw [] in
      let variants := filter (fun v => negb (bvec_eqb v initial)) (map (vtake initial) (tl syms)) in
      fold_left (fun o k => set_at o k (Some i)) (keep_some (map (bfind 0 raw) variants)) (set_at orbits i (Some i))
  end.
Definition discover_inflation_orbits (raw : list bvec) : list nat :=
  if 1 <? length syms
  then map (fun o => match o with Some x => x | None => 0 end)
           (fold_left (orbit_step raw) (seq 0 (length raw)) (repeat None (length raw)))
  else seq 0 (length raw).

(** lines 1253-1292: unique_indices and inverse *)
Definition rep_indices (raw : list bvec) : list nat :=
  if symmetrize then unique_pos (discover_inflation_orbits raw) else seq 0 (length raw).
Definition inverse_of (raw : list bvec) : list nat :=
  if symmetrize then unique_inv (discover_inflation_orbits raw) else seq 0 (length raw).
Definition representatives (raw : list bvec) : list bvec := map (fun k => nth k raw []) (rep_indices raw).

(** np.power(-1, signs), lines 1434 and 1502 *)
Definition sgn (b : bool) : Qc := if b then (- (1))%Qc else 1%Qc.

(** the dictionaries of lines 1403-1409 and 1473-1479: position of the last operator of a
    group -> zero row and the rows of the group except the last, and whether the row is
    non-zero *)
Definition alternatives (mask : bvec) (grps : list (list bvec)) : list (nat * list bvec) :=
  combine (flatnonzero mask) (map (fun r => blank n :: removelast r) grps).
Definition signs_of (rows : list bvec) : list bool := map vany rows.

(** lines 1414-1433 and 1483-1501: the terms of the expansion with their signs; None =
    KeyError in the dictionary of alternatives *)
Definition expand (mask : bvec) (alts : list (nat * list bvec)) (v : bvec) : option (list (bvec * bool)) :=
  let critical := vand v mask in
  match map_opt (assoc alts) (flatnonzero critical) with
  | None => None
  | Some rs =>
      Some (combine (map (vor (vclear v critical)) (reduce outer_or [] rs)) (reduce outer_xor [] (map signs_of rs)))
  end.
(** self.inverse[self._raw_lookup_dict[v.tobytes()]] *)
Definition column_of (raw : list bvec) (v : bvec) : option nat :=
  option_map (fun k => nth k (inverse_of raw) 0) (bfind 0 raw v).
Definition row_of (raw : list bvec) (terms : list (bvec * bool)) : option (list (nat * Qc)) :=
  map_opt (fun t => option_map (fun c => (c, sgn (snd t))) (column_of raw (fst t))) terms.

(** minimal_sparse_inequalities, lines 1466-1513: rows as lists of (column, coefficient) *)
Definition inequality_row (raw : list bvec) (v : bvec) : option (list (nat * Qc)) :=
  if vany (vand v not_in_CG) then
    match expand not_in_CG (alternatives not_in_CG CG_adjusting) v with
    | None => None
    | Some terms => row_of raw terms
    end
  else option_map (fun c => [(c, 1%Qc)]) (column_of raw v).
Definition minimal_inequalities (raw events : list bvec) : option (list (list (nat * Qc))) :=
  map_opt (inequality_row raw) (representatives events).
(** minimal_sparse_equalities, lines 1396-1444 *)
Definition equality_row (raw : list bvec) (v : bvec) : option (list (nat * Qc)) :=
  match expand trigger_equality (alternatives trigger_equality CG_nonadjusting) v with
  | None => None
  | Some terms => row_of raw (terms ++ [(v, true)])
  end.
Definition minimal_equalities (raw : list bvec) : option (list (list (nat * Qc))) :=
  if vany trigger_equality
  then map_opt (equality_row raw) (filter (fun v => vany (vand v trigger_equality)) (representatives raw))
  else Some [].

(** the generated programme: columns, equalities, inequalities *)
Record programme := { lp_columns : list bvec; lp_equalities : list (list (nat * Qc)); lp_inequalities : list (list (nat * Qc)) }.
Definition generate_lp : option programme :=
  match raw_monomials, maximal_events with
  | Some raw, Some events =>
      match minimal_equalities raw, minimal_inequalities raw events with
      | Some eqs, Some ineqs => Some {| lp_columns := representatives raw; lp_equalities := eqs; lp_inequalities := ineqs |}
      | _, _ => None
      end
  | _, _ => None
  end.

(** _AtomicMonomial, lines 962-980: the cache maps a boolean vector to the operators of the
    monomial.  [lex_last] is the last row after np.lexsort (False before True, first column
    most significant). *)
Fixpoint bcompare (a b : bvec) : comparison :=
  match a, b with
  | [], [] => Eq
  | [], _ :: _ => Lt
  | _ :: _, [] => Gt
  | x :: a', y :: b' => match x, y with
                        | false, true => Lt
                        | true, false => Gt
                        | _, _ => bcompare a' b'
                        end
  end.
Definition lex_last (l : list bvec) : bvec :=
  fold_left (fun m y => match bcompare y m with Lt => m | _ => y end) l (blank n).
Definition acache := list (bvec * list nat).
Fixpoint afind (c : acache) (k : bvec) : option (list nat) :=
  match c with [] => None | (k', v) :: c' => if bvec_eqb k' k then Some v else afind c' k end.
Definition key_of (array1d : list nat) : bvec := map (fun i => memb i array1d) (seq 0 n).
Definition atomic_monomial (array1d : list nat) (c : acache) : list nat * acache :=
  let key := key_of array1d in
  match afind c key with
  | Some m => (m, c)
  | None =>
      if length syms =? 1 then (array1d, (key, array1d) :: c)
      else let variants := map (vtake key) syms in
           let mon := flatnonzero (lex_last variants) in
           (mon, fold_left (fun c k => (k, mon) :: c) variants c)
  end.
End LP.

(** the programme of a scenario (InflationLP.__init__) *)
Definition tagged_groups (sc : scenario) (all_outcomes : bool) : list (bool * list nat) :=
  combine (map (has_children sc all_outcomes) (group_parties sc)) (ortho_idxs sc).
Definition scenario_lp (sc : scenario) (all_outcomes : bool) : option programme :=
  generate_lp (length (lexorder sc)) (tagged_groups sc all_outcomes) (compatible sc)
    (discover_lexorder_symmetries sc) (existsb (fun l => negb (l - 1 =? 0)) (levels sc)).
