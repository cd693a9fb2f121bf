(** Specification of normalisation: what it means for moments to be normalised. *)
From Coq Require Import QArith Qcanon.
Close Scope Qc_scope. Close Scope Q_scope.
From Verif Require Import CanonModel CanonSpec ScenarioModel MargModel ColumnModel.

(** [g] lists the operators (indices, the zero operator being 0) of one measurement: party [p],
    copies [c], setting [s], one operator for each outcome in increasing order. *)
Definition is_measurement (sc : scenario) (p : nat) (c : list nat) (s : nat) (g : list nat) : Prop :=
  map (nth_error (sdp_lexorder sc)) g
  = map (fun o => Some (mkrow (p + 1) c s o)) (seq 0 (nth p (outcomes sc) 0)) /\ g <> [].

(** [val] gives a number to every product of operators; the operators of every measurement sum
    to the identity, inside any product. *)
Definition normalised (sc : scenario) (val : word -> Qc) : Prop :=
  forall p c s g u v, is_measurement sc p c s g ->
    sumQ (map (fun a => val (u ++ a :: v)) g) = val (u ++ v).

(** [val] is a (real) moment functional: equal products have equal moments, zero products have
    moment zero, and a product and its Hermitian conjugate have the same moment. *)
Definition moment_functional (nc ortho : table) (val : word -> Qc) : Prop :=
  (forall w w', proj_eq nc ortho w w' -> val w = val w') /\
  val [0] = 0%Qc /\
  (forall w, val (rev w) = val w).

(** ... and does not change when the copies of the sources are relabelled ([g] is a permutation
    of the operator indices). *)
Definition symmetric_functional (sc : scenario) (syms : list (list nat)) (val : word -> Qc) : Prop :=
  forall g w, In g syms -> (forall x, In x w -> x < length (sdp_lexorder sc)) -> val (apply_lexsym g w) = val w.

(** The deterministic assignment in which every measurement gives outcome 0: a product has moment
    1 if all its operators have outcome 0, and 0 otherwise. *)
Definition outcome_zero (sc : scenario) (x : nat) : bool :=
  match nth_error (sdp_lexorder sc) x with
  | Some r => negb (x =? 0) && (row_outcome r =? 0)
  | None => false
  end.
Definition det_zero (sc : scenario) (w : word) : Qc :=
  if forallb (outcome_zero sc) w then 1%Qc else 0%Qc.

(** what a linear expression over moment indices evaluates to *)
Definition expr_value (mval : nat -> Qc) (d : list (nat * Qc)) : Qc :=
  sumQ (map (fun kc => (snd kc * mval (fst kc))%Qc) d).
