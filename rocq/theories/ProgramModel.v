(** Model of the values, bounds, objective and extra constraints of a programme and of the
    methods that change them (inflation/sdp/InflationSDP.py: set_extra_equalities 416-431,
    set_extra_inequalities 433-448, set_bounds 460-506, set_objective 587-634, update_values
    636-748, set_values 750-760, _monomial_from_atoms 1481-1524, _sanitise_dict 1578-1591,
    _cleanup_after_set_values 1957-1986, _reset_* 1988-2016, _update_objective 2018-2041,
    _update_bounds 2043-2071, _prepare_solver_arguments 2112-2180;
    inflation/lp/InflationLP.py: set_objective 331-374, update_values 376-481, set_values
    483-508, set_extra_* 510-542, _sanitise_dict 1112-1136, _cleanup_after_set_values
    1665-1686, _reset_* 1688-1718, _set_upperbounds 1986-2010, _set_lowerbounds 2012-2035;
    inflation/lp/monomial_classes.py: CompoundMoment.evaluate 367-412).

    Atoms are numbered in the order in which they are sorted; a moment is the sorted list of
    its atoms.  Values are exact rationals (no symbols); NaN is None.  verbose = 0.  A failed
    assertion or an exception is None: what it leaves behind is not modelled. *)
From Coq Require Import List Arith Bool ZArith QArith Qcanon.
From Verif Require Import SearchModel.
Import ListNotations.
Open Scope nat_scope.

(** ** Python dictionaries: items in order of insertion *)
Section Dict.
Context {K V : Type} (eqd : forall x y : K, {x = y} + {x <> y}).
Definition keys (d : list (K * V)) : list K := map fst d.
Fixpoint get (k : K) (d : list (K * V)) : option V :=
  match d with [] => None | (k', v) :: d' => if eqd k k' then Some v else get k d' end.
Fixpoint set (k : K) (v : V) (d : list (K * V)) : list (K * V) :=
  match d with [] => [(k, v)] | (k', v') :: d' => if eqd k k' then (k', v) :: d' else (k', v') :: set k v d' end.
Definition del (k : K) (d : list (K * V)) : list (K * V) := filter (fun p => if eqd k (fst p) then false else true) d.
Definition update (d e : list (K * V)) : list (K * V) := fold_left (fun d p => set (fst p) (snd p) d) e d.
End Dict.

Definition moment := list nat.
Definition meq : forall x y : moment, {x = y} + {x <> y} := list_eq_dec Nat.eq_dec.
Definition mdict (V : Type) := list (moment * V).
Definition mmem (m : moment) (l : list moment) : bool := if in_dec meq m l then true else false.
(** the moment without factors *)
Definition One : moment := [].

(** np.isclose with its default tolerances *)
Definition atol : Qc := Q2Qc (1 # 100000000).
Definition rtol : Qc := Q2Qc (1 # 100000).
Definition isclose (a b : Qc) : bool := qleb (qabs (a - b)) (atol + rtol * qabs b).
Definition isclose0 (v : Qc) : bool := isclose v 0.

(** What a generated programme consists of.  For a linear programme [dagger] is the identity
    and there are no atoms for one and zero. *)
Record context := {
  moments : list moment;                 (** self.moments / self.monomials *)
  is_knowable : nat -> bool;             (** of atoms *)
  dagger : nat -> nat;
  is_zero : nat -> bool;
  is_one : nat -> bool;
  hermitian_moments : list moment;       (** InflationSDP.py:372-376 *)
  zero_moment : option moment;           (** self.Zero if the moment matrix contains it *)
  supports_problem : bool;
  minimal_equalities : list (mdict Qc);
  minimal_inequalities : list (mdict Qc)
}.

Record state := {
  known : mdict Qc;
  semiknown : mdict (Qc * moment);
  lower : mdict Qc;
  upper : mdict Qc;
  objective : mdict Qc;
  processed : mdict Qc;                  (** self._processed_objective *)
  extra_equalities : list (mdict Qc);
  extra_inequalities : list (mdict Qc)
}.
Definition with_bounds (lo up : mdict Qc) (s : state) : state :=
  {| known := known s; semiknown := semiknown s; lower := lo; upper := up; objective := objective s;
     processed := processed s; extra_equalities := extra_equalities s; extra_inequalities := extra_inequalities s |}.
Definition with_values (k : mdict Qc) (sk : mdict (Qc * moment)) (s : state) : state :=
  {| known := k; semiknown := sk; lower := lower s; upper := upper s; objective := objective s;
     processed := processed s; extra_equalities := extra_equalities s; extra_inequalities := extra_inequalities s |}.
Definition with_objective (o p : mdict Qc) (s : state) : state :=
  {| known := known s; semiknown := semiknown s; lower := lower s; upper := upper s; objective := o;
     processed := p; extra_equalities := extra_equalities s; extra_inequalities := extra_inequalities s |}.
Definition with_extra (e i : list (mdict Qc)) (s : state) : state :=
  {| known := known s; semiknown := semiknown s; lower := lower s; upper := upper s; objective := objective s;
     processed := processed s; extra_equalities := e; extra_inequalities := i |}.

(** ** Moments from atoms *)
Fixpoint insert_atom (a : nat) (l : list nat) : list nat :=
  match l with [] => [a] | b :: l' => if a <=? b then a :: l else b :: insert_atom a l' end.
Definition sort_atoms (l : list nat) : list nat := fold_right insert_atom [] l.
Fixpoint lex_lt (a b : list nat) : bool :=
  match a, b with
  | _, [] => false
  | [], _ => true
  | x :: a', y :: b' => if x <? y then true else if y <? x then false else lex_lt a' b'
  end.
(** _monomial_from_atoms, InflationSDP.py:1497-1508 *)
Definition monomial_from_atoms (c : context) (atoms : list nat) : moment :=
  let l := match find (is_zero c) atoms with Some z => [z] | None => filter (fun a => negb (is_one c a)) atoms end in
  let a := sort_atoms l in
  let conj := sort_atoms (map (dagger c) a) in
  if lex_lt conj a then conj else a.

(** CompoundMoment.evaluate, lp/monomial_classes.py:394-412 (powers are written as repeated
    factors) *)
Inductive status := Known | Semi | Unknown.
Definition product (l : list Qc) : Qc := fold_right Qcmult 1%Qc l.
Definition is_some {A} (o : option A) : bool := match o with Some _ => true | None => false end.
Definition evaluate (values : list (nat * Qc)) (m : moment) (lpi : bool) : Qc * list nat * status :=
  let v := product (flat_map (fun a => match get Nat.eq_dec a values with Some v => [v] | None => [] end) m) in
  let u := filter (fun a => negb (is_some (get Nat.eq_dec a values))) m in
  (v, u,
   match u with
   | [] => Known
   | _ => if (length u =? length m) || negb lpi then Unknown else if isclose0 v then Known else Semi
   end).

(** ** Values *)
(** update_values, InflationSDP.py:685-693; LP: 420-428 *)
Definition assign (d : mdict Qc) (values : list (moment * option Qc)) : mdict Qc :=
  fold_left (fun d p => match snd p with Some v => set meq (fst p) v d | None => d end) values d.
(** 702-706; LP: 430-432 *)
Definition atomic_knowns (c : context) (d : mdict Qc) : list (nat * Qc) :=
  let a := fold_left (fun e p => match fst p with [x] => set Nat.eq_dec x (snd p) e | _ => e end) d [] in
  update Nat.eq_dec a (map (fun p => (dagger c (fst p), snd p)) a).
(** 713-725; LP: 441-453 *)
Definition remaining (c : context) (lpi : bool) (a : list (nat * Qc)) : list moment :=
  let compound m := 1 <? length m in
  if forallb (is_knowable c) (keys a) then
    if lpi then filter (fun m => compound m && existsb (is_knowable c) m) (moments c)
    else filter (fun m => compound m && forallb (is_knowable c) m) (moments c)
  else filter compound (moments c).
(** 727-742; LP: 455-475 *)
Definition evaluate_all (c : context) (lpi : bool) (a : list (nat * Qc)) (ms : list moment)
    (d : mdict Qc) (sk : mdict (Qc * moment)) : mdict Qc * mdict (Qc * moment) :=
  fold_left (fun q m =>
    let '(v, u, st) := evaluate a m lpi in
    match st with
    | Known => (set meq m v (fst q), snd q)
    | Semi => if lpi then (fst q, set meq m (v, monomial_from_atoms c u) (snd q)) else q
    | Unknown => q
    end) ms (d, sk).
(** 701-747 *)
Definition assign_values (c : context) (values : list (moment * option Qc)) (lpi only : bool)
    (d : mdict Qc) (sk : mdict (Qc * moment)) : mdict Qc * mdict (Qc * moment) :=
  let d1 := assign d values in
  if only then (d1, sk)
  else
    let a := atomic_knowns c d1 in
    let d2 := filter (fun p => mmem (fst p) (moments c)) d1 in
    evaluate_all c lpi a (remaining c lpi a) d2 sk.

(** ** Bounds *)
(** _update_bounds, 2061-2071 *)
Definition update_bounds (ok : Qc -> Qc -> bool) (d bounds : mdict Qc) : option (mdict Qc) :=
  fold_left (fun o p =>
    match o with
    | None => None
    | Some b => match get meq (fst p) b with
                | None => Some b
                | Some x => if ok x (snd p) then Some (del meq (fst p) b) else None
                end
    end) d (Some bounds).
Definition up_ok (b v : Qc) : bool := qleb v b.
Definition lo_ok (b v : Qc) : bool := qleb b v.
Inductive bound_type := bt_up | bt_lo.
(** 1991 *)
Definition default_lower (c : context) : mdict Qc :=
  fold_left (fun d m => set meq m 0%Qc d) (hermitian_moments c) [].
(** 490-499; LP: 1999-2009 *)
Definition sanitised_bounds (bounds : list (moment * Qc)) : option (mdict Qc) :=
  fold_left (fun o p =>
    match o with
    | None => None
    | Some d => match get meq (fst p) d with
                | None => Some (set meq (fst p) (snd p) d)
                | Some old => if isclose old (snd p) then Some d else None
                end
    end) bounds (Some []).

(** ** Objective *)
Definition oadd (m : moment) (v : Qc) (d : mdict Qc) : mdict Qc :=
  set meq m ((match get meq m d with Some w => w | None => 0 end) + v)%Qc d.
(** _update_objective, 2022-2040.  The loop of line 2037 iterates over the pair
    (coefficient, moment) and fails on its first component whenever it is entered. *)
Definition update_objective (o k : mdict Qc) (sk : mdict (Qc * moment)) : option (mdict Qc) :=
  let todo := filter (fun m => negb (if meq m One then true else false) && is_some (get meq m o)) (keys k) in
  let p := fold_left (fun p m =>
      match get meq m p, get meq m k with
      | Some coeff, Some v => del meq m (oadd One (coeff * v)%Qc p)
      | _, _ => p
      end) todo o in
  if existsb (fun m => is_some (get meq m p)) (keys sk) then None else Some p.

(** ** Cleaning up *)
Definition pop_all {V} (ks : list moment) (d : mdict V) : mdict V := fold_left (fun d k => del meq k d) ks d.
(** 1960-1968; LP: 1668-1676 *)
Definition supports_step (c : context) (s : state) : state :=
  if supports_problem c then
    let nz := filter (fun p => negb (isclose0 (snd p))) (known s) in
    with_bounds (fold_left (fun d p => set meq (fst p) 1%Qc d) nz (lower s)) (upper s)
      (with_values (pop_all (keys nz) (known s)) [] s)
  else s.
(** InflationSDP: 1957-1986 *)
Definition cleanup_sdp (c : context) (s0 : state) : option state :=
  let s := supports_step c s0 in
  match update_bounds lo_ok (known s) (lower s), update_bounds up_ok (known s) (upper s),
        update_objective (objective s) (known s) (semiknown s) with
  | Some lo, Some up, Some p =>
    Some (with_values (known s) (pop_all (keys (known s)) (semiknown s)) (with_objective (objective s) p (with_bounds lo up s)))
  | _, _, _ => None
  end.
(** InflationLP: 1665-1686 *)
Definition cleanup_lp (c : context) (s0 : state) : option state :=
  let s := supports_step c s0 in
  Some (with_values (known s) (pop_all (keys (known s)) (semiknown s)) s).

Inductive kind := sdp | lp.
Definition cleanup (t : kind) : context -> state -> option state := match t with sdp => cleanup_sdp | lp => cleanup_lp end.
(** _reset_values: 2009-2015; LP: 1713-1717 *)
Definition initial_values (t : kind) (c : context) : mdict Qc :=
  match t, zero_moment c with
  | sdp, Some z => set meq One 1%Qc [(z, 0%Qc)]
  | _, _ => [(One, 1%Qc)]
  end.
Definition reset_values (t : kind) (c : context) (s : state) : state :=
  with_extra [] [] (with_values (initial_values t c) [] s).

(** ** The methods *)
Definition update_values (t : kind) (c : context) (values : list (moment * option Qc)) (lpi only : bool) (s : state) : option state :=
  match values with
  | [] => Some s
  | _ => let '(d, sk) := assign_values c values lpi only (known s) (semiknown s) in cleanup t c (with_values d sk s)
  end.
Definition set_values (t : kind) (c : context) (values : list (moment * option Qc)) (lpi only : bool) (s : state) : option state :=
  let s' := reset_values t c s in
  match values with [] => cleanup t c s' | _ => update_values t c values lpi only s' end.

(** set_bounds, 487-506 (None does nothing); LP: _set_upperbounds, _set_lowerbounds (None
    resets: the same as an empty dictionary) *)
Definition set_bounds (t : kind) (c : context) (bounds : list (moment * Qc)) (bt : bound_type) (s : state) : option state :=
  match sanitised_bounds bounds with
  | None => None
  | Some d =>
    match t, bt with
    | sdp, bt_up => match update_bounds up_ok (known s) d with Some up => Some (with_bounds (lower s) up s) | None => None end
    | sdp, bt_lo =>
      match update_bounds lo_ok (known s) (default_lower c) with
      | None => None
      | Some lo0 => match update_bounds lo_ok (known s) (update meq lo0 d) with Some lo => Some (with_bounds lo (upper s) s) | None => None end
      end
    | lp, bt_up => Some (with_bounds (lower s) d s)
    | lp, bt_lo => Some (with_bounds d (upper s) s)
    end
  end.

(** _sanitise_dict, 1587-1591 = LP 1132-1136; [san] is _sanitise_moment *)
Definition sanitise_dict {K} (san : K -> moment) (items : list (K * Qc)) : mdict Qc :=
  fold_left (fun d p => if isclose0 (snd p) then d else oadd (san (fst p)) (snd p) d) items [].

(** self.objective.setdefault(self.One, 0), line 627 *)
Definition with_constant (t : kind) (o : mdict Qc) : mdict Qc :=
  match t with sdp => match get meq One o with None => o ++ [(One, 0%Qc)] | Some _ => o end | lp => o end.
(** set_objective: 606-634; LP: 348-374.  [items = None] is objective=None. *)
Definition set_objective (t : kind) (c : context) (items : option (list (moment * Qc))) (maximise : bool) (s : state) : option state :=
  let zero := match t with sdp => [(One, 0%Qc)] | lp => [] end in
  let s0 := with_objective zero zero s in
  match items with
  | None => Some s0
  | Some items =>
    if supports_problem c then None
    else
      let o := map (fun p => (fst p, if maximise then snd p else (- snd p)%Qc)) (sanitise_dict (fun m => m) items) in
      let o' := with_constant t o in
      if forallb (fun m => mmem m (moments c)) (keys o') then
        match t with
        | sdp => match update_objective o' (known s) (semiknown s) with Some p => Some (with_objective o' p s) | None => None end
        | lp => Some (with_objective o' o' s)
        end
      else None
  end.
(** 427-431, 444-448 *)
Definition set_extra_equalities (l : list (list (moment * Qc))) (s : state) : state :=
  with_extra (map (sanitise_dict (fun m => m)) l) (extra_inequalities s) s.
Definition set_extra_inequalities (l : list (list (moment * Qc))) (s : state) : state :=
  with_extra (extra_equalities s) (map (sanitise_dict (fun m => m)) l) s.

(** ** Histories *)
Inductive op :=
| SetValues (values : list (moment * option Qc)) (lpi only : bool)
| UpdateValues (values : list (moment * option Qc)) (lpi only : bool)
| SetBounds (bounds : list (moment * Qc)) (bt : bound_type)
| SetObjective (items : option (list (moment * Qc))) (maximise : bool)
| SetExtraEqualities (l : list (list (moment * Qc)))
| SetExtraInequalities (l : list (list (moment * Qc))).
Definition step (t : kind) (c : context) (o : op) (s : state) : option state :=
  match o with
  | SetValues v lpi only => set_values t c v lpi only s
  | UpdateValues v lpi only => update_values t c v lpi only s
  | SetBounds b bt => set_bounds t c b bt s
  | SetObjective i mx => set_objective t c i mx s
  | SetExtraEqualities l => Some (set_extra_equalities l s)
  | SetExtraInequalities l => Some (set_extra_inequalities l s)
  end.
Definition run (t : kind) (c : context) (ops : list op) (s : option state) : option state :=
  fold_left (fun s o => match s with Some s => step t c o s | None => None end) ops s.
(** generate_relaxation 407-411; _generate_lp 1350-1353 *)
Definition generated (t : kind) (c : context) : option state :=
  let s0 := {| known := []; semiknown := []; lower := match t with sdp => default_lower c | lp => [] end; upper := [];
               objective := []; processed := []; extra_equalities := []; extra_inequalities := [] |} in
  run t c [SetObjective None true; SetValues [] false false] (Some s0).

(** ** What is passed to the solver *)
(** _prepare_solver_arguments of InflationSDP, 2143-2177; the key None stands for the
    constant term *)
Record sdp_args := {
  a_objective : mdict Qc; a_known : mdict Qc; a_semiknown : mdict (Qc * moment);
  a_equalities : list (list (option moment * Qc)); a_inequalities : list (list (option moment * Qc))
}.
Definition named (d : mdict Qc) : list (option moment * Qc) := map (fun p => (Some (fst p), snd p)) d.
Definition prepare_sdp (c : context) (s : state) : option sdp_args :=
  if forallb (fun m => mmem m (moments c)) (keys (known s)) then
    Some {| a_objective := processed s; a_known := known s; a_semiknown := semiknown s;
            a_equalities := map named (minimal_equalities c);
            a_inequalities := map named (minimal_inequalities c)
              ++ map (fun p => (Some (fst p), 1%Qc) :: (if isclose0 (snd p) then [] else [(None, (- snd p)%Qc)])) (lower s)
              ++ map (fun p => (Some (fst p), (- (1))%Qc) :: (if isclose0 (snd p) then [] else [(None, snd p)])) (upper s) |}
  else None.
