(** Model of the discovery of inflation symmetries
    (inflation/InflationProblem.py:860-907, utils.py:31-54 and 171-174,
    sdp/fast_npa.py:432-458) and of source overlap (fast_npa.py:251-278, 537-562). *)
From Verif Require Export ScenarioModel.

(** itertools.permutations(l): permutations in the order of choosing the first element
    from left to right, then permuting the rest.  [fuel] is the number of elements. *)
Fixpoint picks {A} (l : list A) : list (A * list A) :=
  match l with
  | [] => []
  | x :: l' => (x, l') :: map (fun q => (fst q, x :: snd q)) (picks l')
  end.
Fixpoint permutations_fuel {A} (fuel : nat) (l : list A) : list (list A) :=
  match fuel with
  | 0 => [[]]
  | S n => flat_map (fun q => map (cons (fst q)) (permutations_fuel n (snd q))) (picks l)
  end.
Definition permutations {A} (l : list A) : list (list A) := permutations_fuel (length l) l.

(** format_permutations, utils.py:53-54, one row at a time *)
Definition format_permutation (perm : list nat) : list nat := 0 :: map S perm.

Fixpoint upd {A} (n : nat) (f : A -> A) (l : list A) : list A :=
  match l, n with
  | [], _ => []
  | x :: l', 0 => f x :: l'
  | x :: l', S n' => x :: upd n' f l'
  end.
(** apply_source_perm, fast_npa.py:456-458 (one row of the monomial); an index
    outside the permutation cannot occur for operators of the list. *)
Definition apply_source_perm_row (source : nat) (perm : list nat) (op : row) : row :=
  upd (1 + source) (fun c => nth c perm 0) op.
Definition apply_source_perm (mon : list row) (source : nat) (perm : list nat) : list row :=
  map (apply_source_perm_row source perm) mon.

(** perm_combiner, utils.py:171-174: np.take(old, new, axis=1) reshaped to rows *)
Definition perm_combiner (old new : list (list nat)) : list (list nat) :=
  flat_map (fun o => map (fun n => map (fun j => nth j o 0) n) new) old.

Fixpoint keep_some {A} (l : list (option A)) : list A :=
  match l with [] => [] | Some x :: l' => x :: keep_some l' | None :: l' => keep_some l' end.

(** InflationProblem.py:883-900: symmetries from one source; a permutation whose lookup
    raises KeyError is skipped. *)
Definition one_source_symmetries (sc : scenario) (source : nat) : list (list nat) :=
  seq 0 (length (lexorder sc)) ::
  keep_some (map (fun perm => mon_to_lexrepr sc (apply_source_perm (lexorder sc) source (format_permutation perm)))
                 (tl (permutations (seq 0 (nth source (levels sc) 0))))).

(** lines 871-873 *)
Definition sources_with_copies (sc : scenario) : list nat :=
  filter (fun s => 1 <? nth s (levels sc) 0) (seq 0 (length (levels sc))).

(** lines 874-907; functools.reduce *)
Definition discover_lexorder_symmetries (sc : scenario) : list (list nat) :=
  match map (one_source_symmetries sc) (sources_with_copies sc) with
  | [] => [seq 0 (length (lexorder sc))]
  | l :: ls => fold_left perm_combiner ls l
  end.

(** InflationSDP.__init__ (sdp/InflationSDP.py:155-156): np.pad(sym + 1, ((0,0),(1,0))) *)
Definition sdp_lexorder_symmetries (sc : scenario) : list (list nat) :=
  map (fun g => 0 :: map S g) (discover_lexorder_symmetries sc).

(** nb_exists_shared_source, fast_npa.py:558-562: common = both non-zero; shared iff some
    common entry is equal. *)
Definition nb_exists_shared_source (i1 i2 : list nat) : bool :=
  let common := map (fun ab => negb (fst ab =? 0) && negb (snd ab =? 0)) (combine i1 i2) in
  if negb (existsb (fun b => b) common) then false
  else negb (forallb (fun ab => negb (fst ab =? snd ab))
              (combine (mask_select common i1) (mask_select common i2))).
