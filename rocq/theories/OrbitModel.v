(** Model of apply_inflation_symmetries (inflation/sdp/quantum_tools.py:160-238) and of the
    column permutations (sdp/InflationSDP.py:1862-1895).  numpy's unique, unravel_index,
    minimum and fancy indexing are modelled on lists; a failed assert is None. *)
From Verif Require Export FactorModel MomentModel.

(** momentmatrix.ravel() for an n x n array *)
Definition ravel (n : nat) (M : matrix) : list nat :=
  flat_map (fun i => map (M i) (seq 0 n)) (seq 0 n).
(** np.unravel_index(k, (n, n)) *)
Definition unravel (n k : nat) : nat * nat := (k / n, k mod n).

(** np.unique(l, return_index=True, return_inverse=True) on integers *)
Definition unique_values (l : list nat) : list nat := np_unique Nat.compare l.
Definition unique_pos (l : list nat) : list nat := map (fun v => index_of Nat.eqb v l) (unique_values l).
Definition unique_inv (l : list nat) : list nat := map (fun x => index_of Nat.eqb x (unique_values l)) l.

Record orb_state := {
  o_inverse : nat -> nat -> nat;   (* inverse *)
  o_flat_pos : list nat;           (* flat_pos *)
  o_new_indices : list nat;        (* new_indices *)
  o_tracker : list nat;            (* inversion_tracker *)
  o_repr : list nat;               (* repr_values *)
  o_rc : list (nat * nat);         (* rows, cols *)
  o_changed : bool;                (* prev_unique_count > new_unique_count *)
  o_count : nat                    (* new_unique_count *)
}.

(** body of the loop, lines 205-231 *)
Definition orb_step (n : nat) (st : option orb_state) (perm : list nat) : option orb_state :=
  match st with
  | None => None
  | Some s =>
      let rc := if o_changed s then map (unravel n) (o_flat_pos s) else o_rc s in
      if list_eq_dec Nat.eq_dec (o_new_indices s) (map (fun p => o_inverse s (fst p) (snd p)) rc) then
        let new := map (fun q => Nat.min (fst q) (snd q))
                     (combine (o_new_indices s)
                        (map (fun p => o_inverse s (nth (fst p) perm 0) (nth (snd p) perm 0)) rc)) in
        let count := length (unique_values new) in
        if count <? o_count s then
          Some {| o_inverse := fun i j => nth (o_inverse s i j) (unique_inv new) 0;
                  o_flat_pos := map (fun k => nth k (o_flat_pos s) 0) (unique_pos new);
                  o_new_indices := seq 0 count;
                  o_tracker := map (fun t => nth t (unique_inv new) 0) (o_tracker s);
                  o_repr := map (fun k => nth k (o_repr s) 0) (unique_pos new);
                  o_rc := rc; o_changed := true; o_count := count |}
        else
          Some {| o_inverse := o_inverse s; o_flat_pos := o_flat_pos s; o_new_indices := new;
                  o_tracker := o_tracker s; o_repr := o_repr s;
                  o_rc := rc; o_changed := false; o_count := count |}
      else None
  end.

Definition orb_init (n : nat) (M : matrix) : orb_state :=
  let flat := ravel n M in
  let k := length (unique_values flat) in
  {| o_inverse := fun i j => nth (i * n + j) (unique_inv flat) 0;
     o_flat_pos := unique_pos flat;
     o_new_indices := seq 0 k;
     o_tracker := seq 0 k;
     o_repr := unique_values flat;
     o_rc := []; o_changed := true; o_count := k |}.

(** apply_inflation_symmetries: (sym_mm, orbits, repr_values) *)
Definition apply_inflation_symmetries (n : nat) (M : matrix) (syms : list (list nat))
  : option (matrix * list (nat * nat) * list nat) :=
  match syms with
  | [] =>
      let vals := seq 0 (S (fold_right Nat.max 0 (ravel n M))) in
      Some (M, combine vals vals, vals)
  | _ =>
      match fold_left (orb_step n) syms (Some (orb_init n M)) with
      | None => None
      | Some s =>
          let old := unique_values (ravel n M) in
          let m := hd 0 old in
          let new := if m =? 0 then o_new_indices s else map (fun x => x + m) (o_new_indices s) in
          Some (fun i j => nth (o_inverse s i j) new 0,
                combine old (map (fun t => nth t new 0) (o_tracker s)),
                o_repr s)
      end
  end.
