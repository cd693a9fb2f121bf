(** Model of Hermitian moments and of their default lower bounds: sdp/monomial_classes.py:79-90
    and 143-147, sdp/InflationSDP.py:372-378 and 408 (also 1991). *)
From Verif Require Export MemoModel.

Section Herm.
Variables (nc ortho : table) (commuting : bool) (syms : list (list nat)).
(** InternalAtomicMonomialSDP.is_hermitian (monomial_classes.py:79-90).  is_all_commuting is
    all_commuting_q_1d, so that the test of conjugate_lexmon is the one that _conjugate_lexmon
    ([memo_conj]) makes. *)
Definition is_hermitian (w : word) (m : memo) : option (bool * memo) :=
  match memo_conj nc ortho commuting syms w m with
  | None => None
  | Some (r, m') => Some (word_eqb w r, m')
  end.
(** CompoundMomentSDP.is_hermitian (lines 143-147): all() over the factors, stopping at the first
    that is not Hermitian *)
Fixpoint all_hermitian (factors : list word) (m : memo) : option (bool * memo) :=
  match factors with
  | [] => Some (true, m)
  | w :: fs => match is_hermitian w m with
               | None => None
               | Some (true, m') => all_hermitian fs m'
               | Some (false, m') => Some (false, m')
               end
  end.
(** hermitian_moments and the keys of moment_lowerbounds, all with value 0 (InflationSDP.py:372-378
    and 408); a moment is the list of its factors.  [all_commute]: all_operators_commute. *)
Fixpoint lower_bounded (all_commute : bool) (moments : list (list word)) (m : memo) : option (list (list word) * memo) :=
  if all_commute then Some (moments, m)
  else match moments with
  | [] => Some ([], m)
  | f :: ms => match all_hermitian f m with
               | None => None
               | Some (b, m1) => match lower_bounded all_commute ms m1 with
                                 | None => None
                                 | Some (l, m2) => Some (if b then f :: l else l, m2)
                                 end
               end
  end.
End Herm.
