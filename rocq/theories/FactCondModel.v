(** The factorisation conditions of a linear programme (inflation/lp/InflationLP.py:
    factorization_conditions 270-278, quadratic_factorization_conditions 280-288,
    sparse_factorization_conditions 1754-1758, sparse_quadratic_factorization_conditions
    1766-1771; utils.py: partsextractor 101-110).  A moment is the sorted list of its factors
    (LPMomentModel.moment_of; monomial_classes.py:266). *)
From Coq Require Import List Arith Bool.
From Verif Require Import ScenarioModel ColumnModel LPModel ProgramModel ProgramSpec ProgramLP.
Import ListNotations.

(** self.monomial_from_atoms[key]: the keys are the factors of the moments made so far
    (1024-1034); None is the KeyError *)
Definition look_up (made : list moment) (key : moment) : option moment := if mmem key made then Some key else None.
(** 272-278 *)
Definition condition_of (made : list moment) (m : moment) : option (moment * list moment) :=
  match map_opt (fun f => look_up made [f]) m with Some parts => Some (m, parts) | None => None end.
Definition factorization_conditions (made columns : list moment) : option (list (moment * list moment)) :=
  map_opt (condition_of made) (filter (fun m => 1 <? length m) columns).
(** 282-288 *)
Definition quadratic_condition_of (made : list moment) (m : moment) : option (moment * list moment) :=
  match look_up made (firstn 1 m) with
  | None => None
  | Some first => match look_up made (skipn 1 m) with Some rest => Some (m, [first; rest]) | None => None end
  end.
Definition quadratic_factorization_conditions (made columns : list moment) : option (list (moment * list moment)) :=
  map_opt (quadratic_condition_of made) (filter (fun m => 1 <? length m) columns).
(** self.compmonomial_to_idx[mon] (1318-1319); None is the KeyError *)
Definition column_index (columns : list moment) (m : moment) : option nat :=
  if mmem m columns then Some (index_of m_eqb m columns) else None.
(** utils.py:101-110, for a sequence of indices *)
Definition parts_extractor (columns : list moment) (parts : list moment) : option (list nat) := map_opt (column_index columns) parts.
(** 1756-1757, 1769-1770 *)
Definition sparse_conditions (columns : list moment) (conds : list (moment * list moment)) : option (list (nat * list nat)) :=
  map_opt (fun c => match column_index columns (fst c) with
                    | None => None
                    | Some i => match parts_extractor columns (snd c) with Some js => Some (i, js) | None => None end
                    end) conds.
Definition sparse_factorization_conditions (made columns : list moment) : option (list (nat * list nat)) :=
  match factorization_conditions made columns with Some c => sparse_conditions columns c | None => None end.
Definition sparse_quadratic_factorization_conditions (made columns : list moment) : option (list (nat * list nat)) :=
  match quadratic_factorization_conditions made columns with Some c => sparse_conditions columns c | None => None end.
