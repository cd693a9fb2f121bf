(** Model of the evaluation of moments (inflation/sdp/monomial_utils.py:15-56,
    lp/monomial_classes.py:199-221, 248-412).
    Simplification: floats are exact rationals ([Qc], rationals in lowest terms, so that
    equality is Leibniz equality); symbolic (SymPy) values are not modelled. *)
From Coq Require Export QArith Qcanon.
Close Scope Qc_scope. Close Scope Q_scope.
From Verif Require Export KnowModel MomentModel.

Definition sumQ (l : list Qc) : Qc := fold_right Qcplus 0%Qc l.
Definition prodQ (l : list Qc) : Qc := fold_right Qcmult 1%Qc l.

(** numpy array of rationals: shape and entries *)
Record ndarray := { nd_shape : list nat; nd_at : list nat -> Qc }.
(** a[i0, i1, ...] with as many indices as axes; None = IndexError.  (Fewer indices than
    axes would give a sub-array; this cannot happen in compute_marginal.) *)
Fixpoint in_range (shape idx : list nat) : bool :=
  match shape, idx with
  | [], [] => true
  | n :: sh, i :: ix => (i <? n) && in_range sh ix
  | _, _ => false
  end.
Definition nd_get (a : ndarray) (idx : list nat) : option Qc :=
  if in_range (nd_shape a) idx then Some (nd_at a idx) else None.
(** np.sum over the axes marked true; axes beyond the mask are kept *)
Fixpoint sum_at (mask : list bool) (shape : list nat) (f : list nat -> Qc) (idx : list nat) : Qc :=
  match mask, shape with
  | true :: mask', n :: sh => sumQ (map (fun i => sum_at mask' sh (fun r => f (i :: r)) idx) (seq 0 n))
  | false :: mask', n :: sh =>
      match idx with
      | i :: ix => sum_at mask' sh (fun r => f (i :: r)) ix
      | [] => 0%Qc
      end
  | _, _ => f idx
  end.
Fixpoint drop_axes (mask : list bool) (shape : list nat) : list nat :=
  match mask, shape with
  | true :: mask', _ :: sh => drop_axes mask' sh
  | false :: mask', n :: sh => n :: drop_axes mask' sh
  | _, _ => shape
  end.
Definition np_sum (a : ndarray) (mask : list bool) : ndarray :=
  {| nd_shape := drop_axes mask (nd_shape a); nd_at := sum_at mask (nd_shape a) (nd_at a) |}.

(** compute_marginal, monomial_utils.py:42-56; [atom] is a list of rows [party, setting,
    outcome].  None = IndexError (an atom with a party beyond n_parties would also raise). *)
Definition compute_marginal (a : ndarray) (atom : list (list nat)) : option Qc :=
  match atom with
  | [] => Some 1%Qc
  | _ =>
      let n_parties := length (nd_shape a) / 2 in
      let participating := map (fun r => nth 0 r 0 - 1) atom in
      let inputs := map (fun r => nth 1 r 0) atom in
      let outputs := map (fun r => nth 2 r 0) atom in
      let to_sum := map (fun p => negb (memb p participating)) (seq 0 n_parties) in
      let marginal_dist := np_sum a to_sum in
      if forallb (fun p => p <? n_parties) participating then
        let input_list := fold_left (fun acc px => upd (fst px) (fun _ => snd px) acc)
                            (combine participating inputs) (repeat 0 n_parties) in
        nd_get marginal_dist (outputs ++ input_list)
      else None
  end.

(** Factors of a compound moment are identified by their signature, the canonical lexmon
    (monomial_classes.py:113-118, 197-199: equality compares hashes; hash collisions are not
    modelled).  collections.Counter: first-occurrence order. *)
Definition atom := word.
Fixpoint counter_add (x : atom) (c : list (atom * nat)) : list (atom * nat) :=
  match c with
  | [] => [(x, 1)]
  | (y, k) :: c' => if word_eqb y x then (y, S k) :: c' else (y, k) :: counter_add x c'
  end.
Definition as_counter (factors : list atom) : list (atom * nat) :=
  fold_left (fun c x => counter_add x c) factors [].
(** Counter.elements() *)
Definition elements (c : list (atom * nat)) : list atom := flat_map (fun q => repeat (fst q) (snd q)) c.

(** sorted(monomials): Python's order on signatures (length, lexmon), line 120-124, 266 *)
Definition sig_leb (a b : atom) : bool :=
  if length a =? length b then negb (tuple_ltb b a) else length a <=? length b.
Fixpoint sig_insert (x : atom) (l : list atom) : list atom :=
  match l with [] => [x] | y :: l' => if sig_leb x y then x :: l else y :: sig_insert x l' end.
Definition sig_sort (l : list atom) : list atom := fold_right sig_insert [] l.

(** CompoundMoment.__init__, lines 266-294: factors, knowable/unknowable factors, status *)
Inductive status := Known | Semi | Unknown.
Definition cm_factors (monomials : list atom) : list atom := sig_sort monomials.
Definition split_factors (knowable : atom -> bool) (factors : list atom) : list atom * list atom :=
  (elements (filter (fun q => knowable (fst q)) (as_counter factors)),
   elements (filter (fun q => negb (knowable (fst q))) (as_counter factors))).
Definition knowability_status (knowable : atom -> bool) (factors : list atom) : status :=
  let u := snd (split_factors knowable factors) in
  if length u =? 0 then Known else if length u =? length factors then Unknown else Semi.

(** CompoundMoment.compute_marginal, lines 362-365 ([marg]: marginal of one factor) *)
Definition cm_compute_marginal (marg : atom -> Qc) (factors : list atom) : Qc :=
  fold_left (fun v q => Qcmult v (Qcpower (marg (fst q)) (snd q))) (as_counter factors) 1%Qc.

(** np.isclose(v, 0): |v| <= atol = 1e-8 *)
Definition isclose0 (v : Qc) : bool :=
  Qle_bool (this v) (1 # 100000000) && Qle_bool (- (1 # 100000000)) (this v).
(** CompoundMoment.evaluate, lines 394-412 ([known] is the dict of known monomials) *)
Definition evaluate (known : atom -> option Qc) (use_lpi : bool) (factors : list atom)
  : Qc * list atom * status :=
  let '(known_value, unknown_counter) :=
    fold_left (fun st q => match known (fst q) with
                           | Some v => (Qcmult (fst st) (Qcpower v (snd q)), snd st)
                           | None => (fst st, snd st ++ [q])
                           end) (as_counter factors) (1%Qc, []) in
  let unknown_factors := elements unknown_counter in
  let st :=
    if length unknown_factors =? 0 then Known
    else if (length unknown_factors =? length factors) || negb use_lpi then Unknown
    else if isclose0 known_value then Known else Semi in
  (known_value, unknown_factors, st).

(** InternalAtomicMonomial.compute_marginal, monomial_classes.py:88-98, 201-221 (LP
    numbering): rectified array, then compute_marginal. *)
Definition atom_compute_marginal (sc : scenario) (a : ndarray) (lexmon : list nat) : option Qc :=
  match rectify_fake_setting sc (map take3 (map (fun k => nth k (lexorder sc) []) lexmon)) with
  | Some rect => compute_marginal a rect
  | None => None
  end.
