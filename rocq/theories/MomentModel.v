(** Model of calculate_momentmatrix_1d_internal (inflation/sdp/quantum_tools.py:76-153). *)
From Verif Require Export CanonModel.

(** Python comparison of tuples of ints: strict lexicographic order. *)
Fixpoint tuple_ltb (a b : word) : bool :=
  match a, b with
  | _, [] => false
  | [], _ :: _ => true
  | x :: a', y :: b' => if x =? y then tuple_ltb a' b' else x <? y
  end.
(** Python [min(t1, t2)] on tuples (quantum_tools.py:141): the first one unless
    the second is strictly smaller. *)
Definition tuple_min (a b : word) : word := if tuple_ltb b a then b else a.

(** Python dict keyed by tuples, in insertion order. *)
Definition dict := list (word * nat).
Definition word_eqb (a b : word) : bool := if list_eq_dec Nat.eq_dec a b then true else false.
Fixpoint dict_get (d : dict) (k : word) : option nat :=
  match d with
  | [] => None
  | (k', v) :: d' => if word_eqb k' k then Some v else dict_get d' k
  end.

(** square numpy array, written one cell at a time *)
Definition matrix := nat -> nat -> nat.
Definition mat_set (m : matrix) (i j v : nat) : matrix :=
  fun i' j' => if (i' =? i) && (j' =? j) then v else m i' j'.

(** np.zeros((nrcols, nrcols)), quantum_tools.py:121 *)
Definition mat_zeros : matrix := fun _ _ => 0.

(** itertools.combinations_with_replacement(enumerate(cols), 2) *)
Fixpoint enumerate_from {A} (i : nat) (l : list A) : list (nat * A) :=
  match l with [] => [] | x :: l' => (i, x) :: enumerate_from (S i) l' end.
Fixpoint combinations_wr {A} (l : list A) : list (A * A) :=
  match l with
  | [] => []
  | x :: l' => map (pair x) (x :: l') ++ combinations_wr l'
  end.

(** dot_mon and reverse_mon on lexmons, fast_npa.py:39-66, 378-394 *)
Definition dot_mon (mon1 mon2 : word) : word := rev mon1 ++ mon2.

(** lines 129-143: [None] = canonicaliser out of fuel (does not happen);
    [Some None] = the product is zero; [Some (Some h)] = its hash. *)
Definition mon_hash (nc ortho : table) (commuting : bool) (mon1 mon2 : word)
  : option (option word) :=
  match to_canonical_1d_internal nc ortho commuting false (dot_mon mon1 mon2) with
  | None => None
  | Some mon_v1 =>
      if forallb (fun x => negb (x =? 0)) mon_v1 then
        if (1 <? length mon_v1) && negb commuting then
          match to_canonical_1d_internal nc ortho commuting true (rev mon_v1) with
          | None => None
          | Some mon_v2 => Some (Some (tuple_min mon_v1 mon_v2))
          end
        else Some (Some mon_v1)
      else Some None
  end.

Record mm_state := { mm_mat : matrix; mm_dict : dict; mm_varidx : nat }.

(** body of the loop, quantum_tools.py:129-152 *)
Definition mm_step (nc ortho : table) (commuting : bool)
  (st : option mm_state) (p : (nat * word) * (nat * word)) : option mm_state :=
  match st with
  | None => None
  | Some st =>
      let '((i, mon1), (j, mon2)) := p in
      match mon_hash nc ortho commuting mon1 mon2 with
      | None => None
      | Some None => Some st
      | Some (Some h) =>
          match dict_get (mm_dict st) h with
          | Some known_varidx =>
              Some {| mm_mat := mat_set (mat_set (mm_mat st) i j known_varidx) j i known_varidx;
                      mm_dict := mm_dict st;
                      mm_varidx := mm_varidx st |}
          | None =>
              Some {| mm_mat := mat_set (mat_set (mm_mat st) i j (mm_varidx st)) j i (mm_varidx st);
                      mm_dict := mm_dict st ++ [(h, mm_varidx st)];
                      mm_varidx := S (mm_varidx st) |}
          end
      end
  end.

(** calculate_momentmatrix_1d_internal, quantum_tools.py:76-153 *)
Definition calculate_momentmatrix (nc ortho : table) (commuting : bool) (cols : list word)
  : option (matrix * dict) :=
  match fold_left (mm_step nc ortho commuting)
          (combinations_wr (enumerate_from 0 cols))
          (Some {| mm_mat := mat_zeros; mm_dict := []; mm_varidx := 1 |}) with
  | None => None
  | Some st => Some (mm_mat st, mm_dict st)
  end.
