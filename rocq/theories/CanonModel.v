(** Model of the monomial canonicaliser (inflation/sdp/fast_npa.py).

    A monomial is a list of operator indices ("lexmon"); a square boolean
    numpy table (notcomm, orthomat) is a function [nat -> nat -> bool].
    Simplification: machine integers are [nat]; reading a table outside its
    shape (an IndexError in numpy) is not modelled: the tables are total. *)
From Coq Require Export List Arith Bool Lia.
Export ListNotations.

Definition word := list nat.
Definition table := nat -> nat -> bool.

(** np.sort on a 1d integer array (used at fast_npa.py:602 and :733). *)
Fixpoint insert (x : nat) (l : word) : word :=
  match l with
  | [] => [x]
  | y :: l' => if x <=? y then x :: y :: l' else y :: insert x l'
  end.
Fixpoint np_sort (l : word) : word :=
  match l with [] => [] | x :: l' => insert x (np_sort l') end.

(** [sub_notcomm.all()], fast_npa.py:598-599: notcomm restricted to the rows
    and columns listed in the monomial (diagonal included). *)
Definition sub_all (nc : table) (w : word) : bool :=
  forallb (fun a => forallb (fun b => nc a b) w) w.
(** [sub_notcomm.any()], fast_npa.py:598, 601. *)
Definition sub_any (nc : table) (w : word) : bool :=
  existsb (fun a => existsb (fun b => nc a b) w) w.

(** The [for op in range(1, lexmon.shape[0])] loop, fast_npa.py:606-612.
    [pre] is lexmon[:op], [rest] is lexmon[op:].  Returns
    (minimum, minimum_idx). *)
Fixpoint scan (nc : table) (pre rest : word) (op minimum minimum_idx : nat)
  : nat * nat :=
  match rest with
  | [] => (minimum, minimum_idx)
  | x :: rest' =>
      let nc_ops_position := filter (fun y => nc x y) pre in
      if (length nc_ops_position <? 1) && (x <? minimum)
      then scan nc (pre ++ [x]) rest' (S op) x op
      else scan nc (pre ++ [x]) rest' (S op) minimum minimum_idx
  end.

(** One pass of the body of the while loop, fast_npa.py:586-619: splits lexmon
    in (m1, m2). *)
Definition split_step (nc : table) (lexmon : word) : word * word :=
  if length lexmon <=? 1 then (lexmon, [])
  else if sub_all nc lexmon then (lexmon, [])
  else if negb (sub_any nc lexmon) then (np_sort lexmon, [])
  else match lexmon with
       | [] => ([], [])
       | x0 :: rest =>
           let '(minimum, minimum_idx) := scan nc [x0] rest 1 x0 0 in
           if minimum <=? x0
           then ([nth minimum_idx lexmon 0],
                 firstn minimum_idx lexmon ++ skipn (S minimum_idx) lexmon)
           else ([x0], rest)
       end.

(** The while loop, fast_npa.py:583-626.  [None] = out of fuel. *)
Fixpoint canon_loop (nc : table) (fuel : nat) (result leftover : word)
  : option word :=
  if 1 <? length leftover then
    match fuel with
    | 0 => None
    | S fuel' =>
        let '(m1, m2) := split_step nc leftover in
        canon_loop nc fuel' (result ++ m1) m2
    end
  else Some (if negb (length leftover =? 0) then result ++ leftover else result).

(** nb_lexmon_to_canonical, fast_npa.py:564-626.  The fuel [length lexmon] is
    proved sufficient ([canon_total]). *)
Definition nb_lexmon_to_canonical (nc : table) (lexmon : word) : option word :=
  canon_loop nc (length lexmon) [] lexmon.

(** remove_projector_squares, fast_npa.py:355-374: drop each operator equal to
    its left neighbour (in the original array). *)
Fixpoint squeeze_from (prev : nat) (l : word) : word :=
  match l with
  | [] => []
  | x :: l' => if x =? prev then squeeze_from x l' else x :: squeeze_from x l'
  end.
Definition remove_projector_squares (mon : word) : word :=
  match mon with [] => [] | x :: l => x :: squeeze_from x l end.

(** the loop of lexmon_is_zero, fast_npa.py:748-751. *)
Fixpoint adjacent_ortho (ortho : table) (l : word) : bool :=
  match l with
  | x :: ((y :: _) as l') => ortho y x || adjacent_ortho ortho l'
  | _ => false
  end.
(** lexmon_is_zero, fast_npa.py:745-751. *)
Definition lexmon_is_zero (ortho : table) (lexmon : word) : bool :=
  match lexmon with
  | [0] => true
  | _ => adjacent_ortho ortho lexmon
  end.

(** to_canonical_1d_internal, fast_npa.py:694-741. *)
Definition to_canonical_1d_internal (nc ortho : table)
  (commuting apply_only_commutations : bool) (lexmon : word) : option word :=
  if length lexmon <=? 1 then Some lexmon
  else
    match (if commuting then Some (np_sort lexmon)
           else nb_lexmon_to_canonical nc lexmon) with
    | None => None
    | Some newlexmon =>
        if apply_only_commutations then Some newlexmon
        else
          let newlexmon :=
            if lexmon_is_zero ortho newlexmon then [0] else newlexmon in
          Some (remove_projector_squares newlexmon)
    end.
