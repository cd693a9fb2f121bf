(** Model of knowability of monomials and fake-setting removal
    (sdp/fast_npa.py:138-163, InflationProblem.py:675-753, sdp/InflationSDP.py:2077-2099
    = lp/InflationLP.py:1962-1984, lp/monomial_classes.py:78-98). *)
From Verif Require Export FactorModel.

(** nb_is_knowable, fast_npa.py:153-163; [nr_src] columns 1..nr_src hold the copies *)
Definition nb_is_knowable (nr_src : nat) (mon : list row) : bool :=
  if length mon <=? 1 then true
  else if negb (length (np_unique Nat.compare (map row_party mon)) =? length mon) then false
  else forallb (fun k =>
         negb (1 <? length (np_unique Nat.compare
                 (filter (fun c => negb (c =? 0)) (map (fun r => nth (1 + k) r 0) mon)))))
       (seq 0 nr_src).

(** np.take(mon, [0,-2,-1], axis=1) *)
Definition take3 (r : row) : list nat := [row_party r; row_setting r; row_outcome r].

(** dict comprehension {party: outcome}: the last operator of a party wins *)
Definition outcomes_by_party (mon3 : list (list nat)) (p : nat) : option nat :=
  fold_left (fun acc r => if nth 0 r 0 - 1 =? p then Some (nth 2 r 0) else acc) mon3 None.

(** _is_knowable_q_non_networks, InflationProblem.py:696-715.  None = KeyError. *)
Definition is_knowable_q_non_networks (sc : scenario) (mon3 : list (list nat)) : option bool :=
  let in_play := map (fun r => nth 0 r 0 - 1) mon3 in
  if existsb (fun p => existsb (fun q => negb (memb q in_play)) (nth p (parents sc) [])) in_play
  then Some false
  else
    (fix loop (ops : list (list nat)) : option bool :=
       match ops with
       | [] => Some true
       | r :: ops' =>
           let p := nth 0 r 0 - 1 in
           match assoc (effective_to_parent sc p) (nth 1 r 0),
                 map_opt (outcomes_by_party mon3) (nth p (parents sc) []) with
           | Some t, Some os => if list_eq_dec Nat.eq_dec os (tl t) then loop ops' else Some false
           | _, _ => None
           end
       end) mon3.

(** InflationProblem.is_network, line 208 (a party listed in the DAG with an empty set of
    children would make it False; the other test then returns True, see the theorem). *)
Definition is_network (sc : scenario) : bool :=
  forallb (fun ps => length ps =? 0) (parents sc).

(** _atomic_knowable_q *)
Definition atomic_knowable_q (sc : scenario) (mon : list row) : option bool :=
  if negb (nb_is_knowable (nr_sources sc) mon) then Some false
  else if is_network sc then Some true
  else is_knowable_q_non_networks sc (map take3 mon).

(** InternalAtomicMonomial.is_knowable, monomial_classes.py:70-88 (LP numbering of the
    operators; is_one when empty). *)
Definition all_commuting_q_1d (nc : table) (lexmon : list nat) : bool :=
  forallb (fun i => forallb (fun j => negb (nc i j)) lexmon) lexmon.
Definition atom_is_knowable (sc : scenario) (lexmon : list nat) : option bool :=
  let mon := map (fun k => nth k (lexorder sc) []) lexmon in
  match lexmon with
  | [] => Some true
  | _ => if nb_is_knowable (nr_sources sc) mon && all_commuting_q_1d (default_notcomm sc) lexmon
         then atomic_knowable_q sc mon else Some false
  end.

(** rectify_fake_setting, InflationProblem.py:745-753, on rows [party, setting, outcome] *)
Definition rectify_row (sc : scenario) (r : list nat) : option (list nat) :=
  match assoc (effective_to_parent sc (nth 0 r 0 - 1)) (nth 1 r 0) with
  | Some t => Some [nth 0 r 0; hd 0 t; nth 2 r 0]
  | None => None
  end.
Definition rectify_fake_setting (sc : scenario) (mon3 : list (list nat)) : option (list (list nat)) :=
  map_opt (rectify_row sc) mon3.
