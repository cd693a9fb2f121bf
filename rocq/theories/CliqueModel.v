(** Model of the enumeration of cliques, inflation/utils.py:177-221
    (all_and_maximal_cliques), used by InflationProblem.py:413-419 on the matrix of compatible
    measurements.  A vertex is an index below [n]; the matrix is a boolean function; the vertex
    sets of python are lists. *)
From Coq Require Export List Arith Lia Bool.
Export ListNotations.

Section Clique.
Variables (n : nat) (adj : nat -> nat -> bool) (max_n : nat) (isolate : bool).

(** nbrs_mat = np.triu(adjmat, k=1), utils.py:202 *)
Definition nbrs (u v : nat) : bool := (u <? v) && adj u v.
(** np.flatnonzero(nbrs_mat[u]), utils.py:203 *)
Definition init_cnbrs (u : nat) : list nat := filter (nbrs u) (seq 0 n).
(** the queue of (clique, common larger neighbours), utils.py:200-205 *)
Definition init_queue : list (list nat * list nat) := map (fun u => ([u], init_cnbrs u)) (seq 0 n).

(** for i, u in enumerate(cnbrs): ... , utils.py:215-219 *)
Fixpoint children (base cnbrs : list nat) : list (list nat * list nat) :=
  match cnbrs with
  | [] => []
  | u :: r => (base ++ [u], filter (nbrs u) r) :: children base r
  end.

(** set(base).issubset(superbase), utils.py:211-212 *)
Definition issubset (a b : list nat) : bool := forallb (fun x => existsb (Nat.eqb x) b) a.

(** the while loop, utils.py:207-219; [there_is_a_cutoff] of the source is max_n <= 0, i.e. no
    cutoff.  The number of iterations is not known in advance, hence the fuel; None if it runs
    out (PropClique shows that it does not). *)
Fixpoint clique_loop (fuel : nat) (queue : list (list nat * list nat)) (all maximal : list (list nat))
  : option (list (list nat) * list (list nat)) :=
  match queue with
  | [] => Some (all, maximal)
  | (base, cnbrs) :: queue' =>
    match fuel with
    | 0 => None
    | S fuel' =>
      let all' := all ++ [base] in
      if isolate && (length cnbrs =? 0)
      then clique_loop fuel' queue' all'
             (if existsb (fun q => issubset base (fst q)) queue' then maximal else maximal ++ [base])
      else if (max_n <=? 0) || (length base <? max_n)
           then clique_loop fuel' (queue' ++ children base cnbrs) all' maximal
           else clique_loop fuel' queue' all' maximal
    end
  end.

(** utils.py:198-221 *)
Definition all_and_maximal_cliques : option (list (list nat) * list (list nat)) :=
  clique_loop (n * 2 ^ n) init_queue [[]] [].
End Clique.
