(** Model of the physicality test of sdp/fast_npa.py:217-351.  A monomial is its two-dimensional
    array, a list of rows [party, copies..., setting, outcome].  None = the component search
    runs out of fuel (shown not to happen). *)
From Verif Require Export FactorModel.

(** nb_monomial_to_components, lines 244-248 *)
Definition nb_monomial_to_components (m : list row) : option (list nat) :=
  if length m <=? 1 then Some (repeat 0 (length m))
  else nb_classify_disconnected_components (length m) (nb_overlap_matrix (map row_copies m)).

(** x[1:-1] *)
Definition inner {A} (l : list A) : list A := removelast (tl l).
(** the while loop of lines 315-317; each turn shortens the factor, so its length suffices as fuel *)
Fixpoint strip (fuel : nat) (idx : list nat) (factor : list row) : list nat * list row :=
  match fuel with
  | 0 => (idx, factor)
  | S fuel' =>
      match factor with
      | [] => (idx, factor)
      | x :: _ => if row_eqb x (last factor []) then strip fuel' (inner idx) (inner factor) else (idx, factor)
      end
  end.
(** one iteration of the loop over the components of a party, lines 310-319: the positions of the
    monomial that are marked *)
Definition picked_of_factor (sandwich : bool) (indices : list nat) (party_monomial : list row) (labels : list nat) (i : nat) : list nat :=
  let idx := filter (fun k => nth k labels 0 =? i) (seq 0 (length labels)) in
  let factor := map (fun k => nth k party_monomial []) idx in
  let q := if sandwich then strip (length factor) idx factor else (idx, factor) in
  if 1 <? length (snd q) then map (fun k => nth k indices 0) (fst q) else [].
(** one iteration of the loop over the parties, lines 306-319 *)
Definition picked_of_party (sandwich : bool) (m : list row) (party : nat) : option (list nat) :=
  let indices := filter (fun k => row_party (nth k m []) =? party) (seq 0 (length m)) in
  let party_monomial := map (fun k => nth k m []) indices in
  match nb_monomial_to_components party_monomial with
  | None => None
  | Some labels =>
      Some (flat_map (picked_of_factor sandwich indices party_monomial labels)
                     (seq 0 (fold_right Nat.max 0 labels + 1)))
  end.
(** nb_indices_of_more_than_one_op_per_party_per_factor, lines 303-320 *)
Definition picklist (sandwich : bool) (m : list row) : option (list bool) :=
  match map_opt (picked_of_party sandwich m) (np_unique Nat.compare (map row_party m)) with
  | None => None
  | Some picked => Some (map (fun k => memb k (concat picked)) (seq 0 (length m)))
  end.
(** nb_is_physical, lines 351-352 *)
Definition nb_is_physical (sandwich : bool) (m : list row) : option bool :=
  match picklist sandwich m with None => None | Some l => Some (negb (existsb (fun b => b) l)) end.
