(** Model of the factorisation of monomials into independent parts
    (inflation/InflationProblem.py:293-305, 330-339, 395-398, 817-855 and
    sdp/fast_npa.py:91-135, 251-278; numba path). *)
From Verif Require Export SymModel.

(** np.unique: insertion into a sorted list without repetition.  The comparison is the
    integer order for 1-d arrays and the lexicographic order for rows (axis=0). *)
Fixpoint uinsert {A} (cmp : A -> A -> comparison) (x : A) (l : list A) : list A :=
  match l with
  | [] => [x]
  | y :: l' => match cmp x y with
               | Lt => x :: l
               | Eq => l
               | Gt => y :: uinsert cmp x l'
               end
  end.
Definition np_unique {A} (cmp : A -> A -> comparison) (l : list A) : list A :=
  fold_right (uinsert cmp) [] l.
Fixpoint lex_compare (a b : list nat) : comparison :=
  match a, b with
  | [], [] => Eq
  | [], _ :: _ => Lt
  | _ :: _, [] => Gt
  | x :: a', y :: b' => match Nat.compare x y with Eq => lex_compare a' b' | c => c end
  end.
Fixpoint index_of {A} (eqb : A -> A -> bool) (x : A) (l : list A) : nat :=
  match l with [] => 0 | y :: l' => if eqb x y then 0 else S (index_of eqb x l') end.

(** InflationProblem.ever_factorizes, lines 294-305.  [shared p q] are the sources common
    to both columns of the hypergraph. *)
Definition shared (sc : scenario) (p q : nat) : list nat :=
  filter (fun s => hypergraph sc s p && hypergraph sc s q) (seq 0 (nr_sources sc)).
Definition pairs_with_replacement (n : nat) : list (nat * nat) :=
  flat_map (fun p => map (fun q => (p, q)) (seq p (n - p))) (seq 0 n).
Definition ever_factorizes (sc : scenario) : bool :=
  existsb (fun pq => let sh := shared sc (fst pq) (snd pq) in
             negb (negb (length sh =? 0)) ||
             negb (forallb (fun s => nth s (levels sc) 0 =? 1) sh))
          (pairs_with_replacement (nr_parties sc)).

(** all_unique_inflation_indices, lines 330-332 *)
Definition all_unique_inflation_indices (sc : scenario) : list (list nat) :=
  np_unique lex_compare (flat_map (inflation_indices sc) (seq 0 (nr_parties sc))).
(** nb_overlap_matrix, fast_npa.py:269-278: identity plus lower triangle, symmetrised *)
Definition nb_overlap_matrix (idxs : list (list nat)) : nat -> nat -> bool := fun i j =>
  if i =? j then true
  else let hi := Nat.max i j in let lo := Nat.min i j in
       nb_exists_shared_source (nth hi idxs []) (nth lo idxs []).
(** _lexorder_for_factorization, lines 395-398 *)
Definition lexorder_for_factorization (sc : scenario) (k : nat) : nat :=
  index_of row_eqb (row_copies (nth k (lexorder sc) [])) (all_unique_inflation_indices sc).

(** nb_classify_disconnected_components, fast_npa.py:116-135.  Sets are boolean vectors
    of length n.  [bfs] is the while loop (lines 127-132); the fuel n+1 is proved to
    suffice. *)
Definition bget (s : list bool) (k : nat) : bool := nth k s false.
Definition any (s : list bool) : bool := existsb (fun b => b) s.
Fixpoint bfs (n : nat) (adj : nat -> nat -> bool) (fuel : nat) (new search : list bool) : option (list bool) :=
  if negb (any search) then Some new
  else match fuel with
  | 0 => None
  | S fuel' =>
      let new' := map (fun k => bget new k || existsb (fun q : bool * nat => if fst q then adj (snd q) k else false) (combine search (seq 0 n))) (seq 0 n) in
      bfs n adj fuel' new' (map (fun k => xorb (bget new' k) (bget new k)) (seq 0 n))
  end.
Definition singleton (n i : nat) : list bool := map (fun k => k =? i) (seq 0 n).
(** one iteration of the loop over i (lines 121-134); component_labels is a uint8 array,
    so stored counters wrap at 256 *)
Definition label_step (n : nat) (adj : nat -> nat -> bool) (st : option (list nat * nat)) (i : nat)
  : option (list nat * nat) :=
  match st with
  | None => None
  | Some (labels, counter) =>
      if nth i labels 0 =? 0 then
        match bfs n adj (n + 1) (singleton n i) (singleton n i) with
        | None => None
        | Some comp => Some (map (fun k => if bget comp k then counter mod 256 else nth k labels 0) (seq 0 n),
                             counter + 1)
        end
      else st
  end.
Definition nb_classify_disconnected_components (n : nat) (adj : nat -> nat -> bool) : option (list nat) :=
  if (n <=? 1) || forallb (fun i => forallb (adj i) (seq 0 n)) (seq 0 n) then Some (repeat 0 n)
  else match fold_left (label_step n adj) (seq 0 n) (Some (repeat 0 n, 1)) with
       | None => None
       | Some (labels, _) => Some (map (fun l => (l + 255) mod 256) labels)
       end.

Definition select {A} (labels : list nat) (k : nat) (l : list A) : list A :=
  map snd (filter (fun q => fst q =? k) (combine labels l)).

(** factorize_monomial_1d, lines 840-855, without the shortcut; canonical_order=False
    (True only re-orders the pieces by their byte strings).  None = loop does not end. *)
Definition factorize_long (sc : scenario) (mon : list nat) : option (list (list nat)) :=
  let positions := map (lexorder_for_factorization sc) mon in
  let unique := np_unique Nat.compare positions in
  let reversion_key := map (fun x => index_of Nat.eqb x unique) positions in
  let overlap := nb_overlap_matrix (all_unique_inflation_indices sc) in
  let adj_mat := fun i j => overlap (nth i unique 0) (nth j unique 0) in
  match nb_classify_disconnected_components (length unique) adj_mat with
  | None => None
  | Some component_labels =>
      let nof_components := fold_right Nat.max 0 component_labels + 1 in
      Some (map (fun i => select (map (fun k => nth k component_labels 0) reversion_key) i mon)
                (seq 0 nof_components))
  end.
Definition factorize_monomial_1d (sc : scenario) (mon : list nat) : option (list (list nat)) :=
  if negb (ever_factorizes sc) || (length mon <=? 1) then Some [mon] else factorize_long sc mon.
