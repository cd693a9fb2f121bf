(** What the values, bounds, objective and constraints of a programme should be. *)
From Coq Require Import List Arith Bool QArith Qcanon.
From Verif Require Import MargModel SearchModel ProgramModel.
Import ListNotations.
Open Scope nat_scope.

(** ** Values *)
(** the last value (not NaN) the user gives to a moment *)
Definition given (values : list (moment * option Qc)) (m : moment) : option Qc :=
  match find (fun p => (if meq (fst p) m then true else false) && is_some (snd p)) (rev values) with
  | Some (_, o) => o | None => None
  end.
(** without it, only the normalisation (and for a semidefinite programme the zero moment)
    has a value *)
Definition base (t : kind) (c : context) (values : list (moment * option Qc)) (m : moment) : option Qc :=
  match given values m with
  | Some v => Some v
  | None => if meq m One then Some 1%Qc
            else match t, zero_moment c with
                 | sdp, Some z => if meq m z then Some 0%Qc else None
                 | _, _ => None
                 end
  end.
(** the value of a factor is that of the moment made of it, or of its conjugate *)
Definition atom_value (t : kind) (c : context) (values : list (moment * option Qc)) (a : nat) : option Qc :=
  match base t c values [dagger c a] with Some v => Some v | None => base t c values [a] end.
Definition valued (t : kind) (c : context) (values : list (moment * option Qc)) (a : nat) : bool := is_some (atom_value t c values a).
(** product of the values of the valued factors *)
Definition coefficient (t : kind) (c : context) (values : list (moment * option Qc)) (m : moment) : Qc :=
  product (map (fun a => match atom_value t c values a with Some v => v | None => 1%Qc end) m).
Definition unvalued (t : kind) (c : context) (values : list (moment * option Qc)) (m : moment) : list nat :=
  filter (fun a => negb (valued t c values a)) m.

(** The value of a moment of the programme: products are multiplied out; with linearised
    polynomial constraints a negligible product of some factors makes the moment negligible;
    otherwise it has the value given. *)
Definition known_value (t : kind) (c : context) (values : list (moment * option Qc)) (lpi : bool) (m : moment) : option Qc :=
  if (2 <=? length m) && (forallb (valued t c values) m
                          || (lpi && existsb (valued t c values) m && isclose0 (coefficient t c values m)))
  then Some (coefficient t c values m)
  else base t c values m.
(** A moment is proportional to another when some, not all, of its factors are valued. *)
Definition semiknown_value (t : kind) (c : context) (values : list (moment * option Qc)) (lpi : bool) (m : moment) (k : Qc) (u : moment) : Prop :=
  lpi = true /\ existsb (valued t c values) m = true /\ forallb (valued t c values) m = false /\
  isclose0 (coefficient t c values m) = false /\ base t c values m = None /\
  k = coefficient t c values m /\ u = monomial_from_atoms c (unvalued t c values m).

(** A point of the relaxation that factorises: every moment is the product of the numbers
    [x a] attached to its factors. *)
Definition moment_at (x : nat -> Qc) (m : moment) : Qc := product (map x m).
Definition factorising (c : context) (x : nat -> Qc) : Prop :=
  (forall a, x (dagger c a) = x a) /\ (forall a, is_one c a = true -> x a = 1%Qc) /\ (forall a, is_zero c a = true -> x a = 0%Qc).

(** ** Linear expressions *)
Definition expr_at {K} (x : K -> Qc) (d : list (K * Qc)) : Qc := sumQ (map (fun p => snd p * x (fst p))%Qc d).
Definition coeff_of {K} (eqd : forall x y : K, {x = y} + {x <> y}) (k : K) (d : list (K * Qc)) : Qc :=
  sumQ (map (fun p => if eqd (fst p) k then snd p else 0)%Qc d).

(** ** Bounds *)
(** the first bound requested for a moment *)
Definition requested (bounds : list (moment * Qc)) (m : moment) : option Qc :=
  match find (fun p => if meq (fst p) m then true else false) bounds with Some (_, b) => Some b | None => None end.
Definition consistent_request (bounds : list (moment * Qc)) : Prop :=
  forall m b b', requested bounds m = Some b -> In (m, b') bounds -> isclose b b' = true.
Definition lower_request (c : context) (bounds : list (moment * Qc)) (m : moment) : option Qc :=
  match requested bounds m with Some b => Some b | None => if mmem m (hermitian_moments c) then Some 0%Qc else None end.

(** ** Histories *)
Definition reachable (t : kind) (c : context) (s : state) : Prop := exists ops, run t c ops (generated t c) = Some s.
