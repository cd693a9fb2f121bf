(** Model of InflationProblem.__init__ (inflation/InflationProblem.py:37-408): from the
    DAG to the list of operators, the commutation table and related data.

    Simplifications: party, source and latent names are replaced by their
    positions (parties 0..n-1 in the order of [names]; sources in the order of
    [_actual_sources]); argument validation (asserts, warnings) and the choice of
    integer dtype are not modelled; Python sets of children become lists (only
    membership is used). *)
From Verif Require Export CanonModel.

(** A child of a source that is an intermediate latent: is it non-classical, and
    its observable descendants (InflationProblem.py:259-265). *)
Record latent := { l_nonclassical : bool; l_desc : list nat }.
(** A source: classical or not (lines 177-189), its observable children, its
    latent children (lines 249-253). *)
Record source := { s_classical : bool; s_children : list nat; s_latents : list latent }.

Record scenario := {
  outcomes : list nat;            (* outcomes_per_party, line 91 *)
  private_settings : list nat;    (* private_settings_per_party, line 97-101 *)
  parents : list (list nat);      (* parents_per_party (observed parents), line 223 *)
  sources : list source;
  levels : list nat               (* inflation_level_per_source, lines 276-286 *)
}.

Definition nr_parties (sc : scenario) : nat := length (outcomes sc).
Definition nr_sources (sc : scenario) : nat := length (sources sc).

Definition memb (x : nat) (l : list nat) : bool := existsb (Nat.eqb x) l.
Definition b2n (b : bool) : nat := if b then 1 else 0.

(** np.ndindex(shape): all index tuples in row-major order. *)
Fixpoint ndindex (shape : list nat) : list (list nat) :=
  match shape with
  | [] => [[]]
  | n :: sh => flat_map (fun i => map (cons i) (ndindex sh)) (seq 0 n)
  end.

Definition prodl (l : list nat) : nat := fold_right Nat.mul 1 l.

(** settings_per_party_lst[p], lines 224-227 *)
Definition setting_shape (sc : scenario) (p : nat) : list nat :=
  nth p (private_settings sc) 0 :: map (fun q => nth q (outcomes sc) 0) (nth p (parents sc) []).
(** settings_per_party[p], lines 228-230 *)
Definition nr_settings (sc : scenario) (p : nat) : nat := prodl (setting_shape sc p).
(** effective_to_parent_settings[p], lines 234-239: dict(zip(range(n), ndindex)) *)
Definition effective_to_parent (sc : scenario) (p : nat) : list (nat * list nat) :=
  combine (seq 0 (nr_settings sc p)) (ndindex (setting_shape sc p)).
(** reading effective_to_parent_settings[p][x]; None = KeyError *)
Fixpoint assoc {A} (d : list (nat * A)) (k : nat) : option A :=
  match d with [] => None | (k', v) :: d' => if k' =? k then Some v else assoc d' k end.

(** hypergraph[s, p], lines 242-265 *)
Definition hypergraph (sc : scenario) (s p : nat) : bool :=
  match nth_error (sources sc) s with
  | None => false
  | Some src => memb p (s_children src) || existsb (fun l => memb p (l_desc l)) (s_latents src)
  end.

(** sources_to_check_for_party_pair_commutation[p, p2, s], lines 247-270 *)
Definition check_value (src : source) (p p2 : nat) : nat :=
  let bonus := b2n (negb (s_classical src)) in
  let start := if (p =? p2) && memb p (s_children src) then 1 + bonus else 0 in
  fold_left
    (fun cur l => if memb p (l_desc l) && memb p2 (l_desc l)
                  then Nat.max cur (1 + b2n (l_nonclassical l && negb (s_classical src)))
                  else cur)
    (s_latents src) start.
Definition sources_to_check (sc : scenario) (p p2 : nat) : list nat :=
  map (fun src => check_value src p p2) (sources sc).

(** inflation_indices_per_party[p], lines 315-328 *)
Definition active_sources (sc : scenario) (p : nat) : list nat :=
  map (fun s => b2n (hypergraph sc s p)) (seq 0 (nr_sources sc)).
Definition num_copies (sc : scenario) (p : nat) : list nat :=
  map (fun al => Nat.max (fst al * snd al) 1) (combine (active_sources sc p) (levels sc)).
Definition inflation_indices (sc : scenario) (p : nat) : list (list nat) :=
  map (fun incr => map (fun ai => fst ai + snd ai) (combine (active_sources sc p) incr))
      (ndindex (num_copies sc p)).

(** An operator is a numpy row [party(1-based), copies..., setting, outcome]. *)
Definition row := list nat.
Definition mkrow (p : nat) (copies : list nat) (s o : nat) : row := p :: copies ++ [s; o].
Definition row_party (r : row) : nat := hd 0 r.                          (* op[0]   *)
Definition row_copies (r : row) : list nat := removelast (removelast (tl r)). (* op[1:-2] *)
Definition row_setting (r : row) : nat := last (removelast r) 0.         (* op[-2]  *)
Definition row_outcome (r : row) : nat := last r 0.                      (* op[-1]  *)

(** measurements / ortho_groups / lexorder, lines 344-390: party, then copies,
    then setting, then outcome. *)
Definition ortho_groups_of_party (sc : scenario) (p : nat) : list (list row) :=
  flat_map (fun inf =>
    map (fun s => map (fun o => mkrow (p + 1) inf s o) (seq 0 (nth p (outcomes sc) 0)))
        (seq 0 (nr_settings sc p)))
    (inflation_indices sc p).
Definition ortho_groups (sc : scenario) : list (list row) :=
  flat_map (ortho_groups_of_party sc) (seq 0 (nr_parties sc)).
Definition lexorder (sc : scenario) : list row := concat (ortho_groups sc).

(** selection with a boolean mask: a[mask] *)
Fixpoint mask_select {A} (mask : list bool) (l : list A) : list A :=
  match mask, l with
  | b :: mask', x :: l' => if b then x :: mask_select mask' l' else mask_select mask' l'
  | _, _ => []
  end.

(** nb_operators_commute, fast_npa.py:629-689.  [check p1 p2] is
    sources_to_check_for_pairwise[p1, p2].  Subtraction of unsigned integers is
    zero exactly when they are equal, so [np.subtract(..).all()] is
    "all different". *)
Definition nb_operators_commute (check : nat -> nat -> list nat) (op1 op2 : row) : bool :=
  let party1 := row_party op1 - 1 in
  let party2 := row_party op2 - 1 in
  let relevant := check party1 party2 in
  let common_all := map (fun v => 1 <=? v) relevant in
  let common_quantum := map (fun v => 2 <=? v) relevant in
  if negb (existsb (fun b => b) common_quantum) then true
  else
    let sources1 := row_copies op1 in
    let sources2 := row_copies op2 in
    if forallb (fun ab => negb (fst ab =? snd ab))
         (combine (mask_select common_quantum sources1) (mask_select common_quantum sources2))
    then true
    else if negb (if list_eq_dec Nat.eq_dec (mask_select common_all sources1)
                                            (mask_select common_all sources2)
                  then true else false)
    then false
    else if negb (party1 =? party2) then true
    else row_setting op1 =? row_setting op2.

(** commutation_matrix, fast_npa.py:462-503 (commuting=False): upper triangle
    filled, then symmetrised.  Outside the shape: false. *)
Definition commutation_matrix (lex : list row) (check : nat -> nat -> list nat) : table :=
  fun i j =>
    match nth_error lex i, nth_error lex j with
    | Some a, Some b =>
        if i <? j then negb (nb_operators_commute check a b)
        else if j <? i then negb (nb_operators_commute check b a)
        else false
    | _, _ => false
    end.

(** _default_notcomm, InflationProblem.py:401-408 *)
Definition default_notcomm (sc : scenario) : table :=
  if existsb (fun s => negb (s_classical s)) (sources sc)
  then commutation_matrix (lexorder sc) (sources_to_check sc)
  else fun _ _ => false.

(** InflationSDP.__init__ (sdp/InflationSDP.py:128-131): the operator list with the
    zero operator in front. *)
Definition zero_row (sc : scenario) : row := repeat 0 (1 + nr_sources sc + 2).
Definition sdp_lexorder (sc : scenario) : list row := zero_row sc :: lexorder sc.
(** _notcomm, InflationSDP.py:187-191: np.pad with one zero row and column. *)
Definition sdp_notcomm (sc : scenario) : table :=
  fun i j => match i, j with S i', S j' => default_notcomm sc i' j' | _, _ => false end.
Definition row_eqb (a b : row) : bool := if list_eq_dec Nat.eq_dec a b then true else false.
(** _orthomat, InflationSDP.py:168-177.  Outside the shape: false except in row/column 0. *)
Definition sdp_orthomat (sc : scenario) : table :=
  fun i j =>
    if (i =? 0) || (j =? 0) then true
    else match nth_error (sdp_lexorder sc) i, nth_error (sdp_lexorder sc) j with
         | Some a, Some b =>
             negb (i =? j) && negb (row_outcome a =? row_outcome b)
             && row_eqb (removelast a) (removelast b)
         | _, _ => false
         end.

(** _lexorder_lookup and mon_to_lexrepr, InflationProblem.py:480-496.  A dict built
    by a comprehension keeps the last index of a repeated key. None = Exception. *)
Fixpoint lookup_last (i : nat) (lex : list row) (op : row) : option nat :=
  match lex with
  | [] => None
  | r :: lex' =>
      match lookup_last (S i) lex' op with
      | Some k => Some k
      | None => if row_eqb r op then Some i else None
      end
  end.
Definition lexorder_lookup (sc : scenario) (op : row) : option nat := lookup_last 0 (lexorder sc) op.
Fixpoint map_opt {A B} (f : A -> option B) (l : list A) : option (list B) :=
  match l with
  | [] => Some []
  | x :: l' => match f x, map_opt f l' with Some y, Some r => Some (y :: r) | _, _ => None end
  end.
Definition mon_to_lexrepr (sc : scenario) (mon : list row) : option (list nat) :=
  map_opt (lexorder_lookup sc) mon.
