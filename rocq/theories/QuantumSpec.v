(** A quantum realisation of an inflated network: one party measures two independent systems, one
    from each of two sources, and the inflation has two copies of each source.  Everything is
    finite: complex numbers with rational parts, two-level systems, pure product state. *)
From Coq Require Import QArith Qcanon List Arith.
From Verif Require Import CanonModel ScenarioModel.
Import ListNotations.
Open Scope nat_scope.

Definition C : Type := (Qc * Qc)%type.                     (* (real part, imaginary part) *)
Definition Cplus (a b : C) : C := (fst a + fst b, snd a + snd b)%Qc.
Definition Cmult (a b : C) : C := (fst a * fst b - snd a * snd b, fst a * snd b + snd a * fst b)%Qc.
Definition Copp (a : C) : C := (- fst a, - snd a)%Qc.
Definition Cminus (a b : C) : C := Cplus a (Copp b).
Definition Cconj (a : C) : C := (fst a, - snd a)%Qc.
Definition C0 : C := (0, 0)%Qc.
Definition C1 : C := (1, 0)%Qc.
Definition ctwo (f : nat -> C) : C := Cplus (f 0) (f 1).   (* sum over a two-level system *)

(** The scenario: party A with two quantum sources, one setting, two outcomes, two copies of
    each source.  Operator indices (InflationSDP): 1, 2 = outcomes 0, 1 of the copy of A that
    measures copy 1 of both sources, 3, 4 = copies 1 and 2, 5, 6 = copies 2 and 1, 7, 8 = copies 2
    and 2. *)
Definition q_sc : scenario := {|
  outcomes := [2]; private_settings := [1]; parents := [[]];
  sources := [ {| s_classical := false; s_children := [0]; s_latents := [] |};
               {| s_classical := false; s_children := [0]; s_latents := [] |} ];
  levels := [2; 2] |}.

(** amplitudes of the four systems: copies 1, 2 of the first source, copies 1, 2 of the second *)
Definition vec := nat -> nat -> nat -> nat -> C.
(** matrix elements of an operator on a pair of systems: (row of the first, row of the second,
    column of the first, column of the second) *)
Definition mat := nat -> nat -> nat -> nat -> C.
(** outcome 0 is the projector P, the other outcome is 1 - P *)
Definition measurement (P : mat) (o : nat) : mat := fun x y a b =>
  if o =? 0 then P x y a b
  else Cminus (if (x =? a) && (y =? b) then C1 else C0) (P x y a b).
(** the operator acting on copy [i] of the first and copy [j] of the second source *)
Definition act (i j : nat) (M : mat) (v : vec) : vec := fun x1 x2 y1 y2 =>
  ctwo (fun a => ctwo (fun b =>
    Cmult (M (if i =? 1 then x1 else x2) (if j =? 1 then y1 else y2) a b)
          (v (if i =? 1 then a else x1) (if i =? 1 then x2 else a)
             (if j =? 1 then b else y1) (if j =? 1 then y2 else b)))).
(** the operator with a given index; index 0 is the zero operator *)
Definition operator (P : mat) (k : nat) (v : vec) : vec :=
  match k with
  | 0 => fun _ _ _ _ => C0
  | S k' => match nth_error (lexorder q_sc) k' with
            | Some r => act (nth 0 (row_copies r) 0) (nth 1 (row_copies r) 0) (measurement P (row_outcome r)) v
            | None => fun _ _ _ _ => C0
            end
  end.
Definition product (P : mat) (w : word) (v : vec) : vec := fold_right (operator P) v w.
(** all four systems in their level 0 *)
Definition ground : vec := fun x1 x2 y1 y2 => if (x1 + x2 + y1 + y2 =? 0) then C1 else C0.
(** the (real part of the) value of a product of operators *)
Definition value (P : mat) (w : word) : Qc := fst (product P w ground 0 0 0 0).

(** P is an orthogonal projector on a pair of two-level systems *)
Definition is_projector (P : mat) : Prop :=
  (forall x y a b, x < 2 -> y < 2 -> a < 2 -> b < 2 -> P a b x y = Cconj (P x y a b)) /\
  (forall x y a b, x < 2 -> y < 2 -> a < 2 -> b < 2 ->
     ctwo (fun c => ctwo (fun d => Cmult (P x y c d) (P c d a b))) = P x y a b).
