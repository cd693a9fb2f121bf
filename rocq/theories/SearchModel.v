(** Model of the cleaning of certificates (inflation/utils.py: clean_coefficients 57-94) and
    of the search for a critical parameter (inflation/optimization_utils.py:
    _maximize_via_bisect 97-180, _maximize_via_dual 183-281).  Numbers are exact rationals
    instead of floats.  The solver, the symbolic evaluation of the values and scipy's SLSQP
    minimiser are parameters; scipy's bisect is modelled after its documentation and C
    source (scipy/optimize/Zeros/bisect.c). *)
From Coq Require Import List Arith Bool ZArith QArith Qcanon Qround.
Import ListNotations.
Open Scope Qc_scope.

Definition qltb (x y : Qc) : bool := if Qclt_le_dec x y then true else false.
Definition qleb (x y : Qc) : bool := negb (qltb y x).
Definition qabs (x : Qc) : Qc := if qltb x 0 then - x else x.
Definition qmin (x y : Qc) : Qc := if qltb y x then y else x.
Definition qmax (x y : Qc) : Qc := if qltb x y then y else x.
Definition z2q (z : Z) : Qc := Q2Qc (inject_Z z).
Definition half : Qc := Q2Qc (1 # 2).

(** np.rint: to the nearest integer, ties to even *)
Definition rint (x : Qc) : Z :=
  let f := Qfloor (this x) in
  let r := x - z2q f in
  if qltb r half then f else if qltb half r then (f + 1)%Z else if Z.even f then f else (f + 1)%Z.
(** 10 ** d *)
Definition ten_to (d : nat) : Qc := z2q (10 ^ Z.of_nat d).
(** np.round(x, decimals=d), utils.py:93 *)
Definition np_round (x : Qc) (d : nat) : Qc := z2q (rint (x * ten_to d)) / ten_to d.

(** np.min / np.max of a nonempty array; None for the error on an empty one *)
Definition min_of (l : list Qc) : option Qc := match l with [] => None | a :: l' => Some (fold_left qmin l' a) end.
Definition max_of (l : list Qc) : option Qc := match l with [] => None | a :: l' => Some (fold_left qmax l' a) end.

(** clean_coefficients, utils.py:79-94 (values are floats: for a dictionary of Python ints
    only, the in-place division of line 89 raises TypeError instead) *)
Definition clean_coefficients {key : Type} (cert : list (key * Qc)) (tol : Qc) (decimals : nat) : option (list (key * Qc)) :=
  match cert with
  | [] => Some cert
  | _ =>
    let chop_tol := qabs tol in
    let coeffs := map snd cert in
    let large := map qabs (filter (fun c => qltb chop_tol (qabs c)) coeffs) in
    match (if qltb 0 chop_tol then min_of large else max_of large) with
    | None => None
    | Some factor =>
      let scaled := map (fun c => c / factor) coeffs in
      let chopped := map (fun c => if qleb (qabs c) chop_tol then 0 else c) scaled in
      Some (combine (map fst cert) (map (fun c => np_round c decimals) chopped))
    end
  end.

(** ** Bisection *)
(** functools.lru_cache(maxsize=2) around f (line 158): the most recent arguments, and the
    arguments with which the solver was called, latest first *)
Record lru := { cached : list Qc; evaluated : list Qc }.
Definition memq (x : Qc) (l : list Qc) : bool := existsb (fun y => if Qc_eq_dec x y then true else false) l.
Definition lru_call (x : Qc) (m : lru) : lru :=
  if memq x (cached m)
  then {| cached := x :: filter (fun y => if Qc_eq_dec x y then false else true) (cached m); evaluated := evaluated m |}
  else {| cached := firstn 2 (x :: cached m); evaluated := x :: evaluated m |}.

Definition signbit (x : Qc) : bool := qltb x 0.
Inductive outcome := Returned (x : Qc) | Failed.
(** the loop of scipy's bisect: [xa] is the end with the sign of f at the first bound, [dm]
    the width; Failed when maxiter is exhausted (RuntimeError) *)
Fixpoint bisect_loop (f : Qc -> Qc) (sa : bool) (xtol rtol : Qc) (iter : nat) (xa dm : Qc) (m : lru) : outcome * lru :=
  match iter with
  | O => (Failed, m)
  | S iter' =>
    let dm' := dm * half in
    let xm := xa + dm' in
    let fm := f xm in
    let m' := lru_call xm m in
    let xa' := if Bool.eqb (signbit fm) sa then xm else xa in
    if (if Qc_eq_dec fm 0 then true else false) || qltb (qabs dm') (xtol + rtol * qabs xm)
    then (Returned xm, m')
    else bisect_loop f sa xtol rtol iter' xa' dm' m'
  end.
(** scipy.optimize.bisect(f, a, b): Failed for ValueError (same signs) *)
Definition bisect (f : Qc -> Qc) (a b xtol rtol : Qc) (maxiter : nat) (m : lru) : outcome * lru :=
  let m := lru_call b (lru_call a m) in
  if (if Qc_eq_dec (f a) 0 then true else false) then (Returned a, m)
  else if (if Qc_eq_dec (f b) 0 then true else false) then (Returned b, m)
  else if Bool.eqb (signbit (f a)) (signbit (f b)) then (Failed, m)
  else bisect_loop f (signbit (f a)) xtol rtol maxiter a (b - a) m.

(** _maximize_via_bisect, lines 136-180; [objective v] is the value reported by the solver
    for the parameter v.  Failed for a failing assertion too. *)
Definition shift (precision : Qc) : Qc := precision / z2q 2048.
Definition maximize_via_bisect (objective : Qc -> Qc) (lower upper precision xtol rtol : Qc) (maxiter : nat) : outcome * lru :=
  let f := fun v => objective v + shift precision in
  let m := {| cached := []; evaluated := [] |} in
  let m := lru_call upper m in
  if qltb (f upper + shift precision) 0 then
    let m := lru_call lower m in
    if qltb 0 (f lower + shift precision) then bisect f lower upper xtol rtol maxiter m else (Failed, m)
  else (Failed, m).
(** line 178: the certificate returned is the latest nonempty one; [nonempty v] says whether
    the cleaned certificate obtained at v has any coefficient.  The result is the parameter
    it was obtained for. *)
Definition last_certificate (nonempty : Qc -> bool) (m : lru) : option Qc := find nonempty (evaluated m).

(** ** Search with dual certificates *)
(** lines 238-271; [critical s] is the value at which SLSQP finds the certificate obtained
    for the parameter s to vanish.  [old = None] stands for np.inf.  The log has a pair
    (critical value, seed) per certificate, latest first; None when the fuel runs out. *)
Fixpoint dual_loop (critical : Qc -> Qc) (precision : Qc) (fuel : nat) (new : Qc) (old : option Qc) (log : list (Qc * Qc))
  : option (Qc * option Qc * list (Qc * Qc)) :=
  let continue := match old with None => true | Some o => qltb (new + precision) o end in
  if continue then
    match fuel with
    | O => None
    | S fuel' => let v := critical (new + precision) in dual_loop critical precision fuel' v (Some new) ((v, new + precision) :: log)
    end
  else Some (new, old, log).
(** lines 272-281: the reported value, and the pair of the last certificate *)
Inductive search := Critical (v : Qc) (last : Qc * Qc) | AssertionFailed | NotFinished.
Definition maximize_via_dual (critical : Qc -> Qc) (upper precision : Qc) (fuel : nat) : search :=
  match dual_loop critical precision fuel (upper - precision) None [] with
  | None => NotFinished
  | Some (new, old, log) =>
    match log, old with
    | last :: _ :: _, Some o => Critical (qmax new o) last
    | _, _ => AssertionFailed
    end
  end.
