(** Quantum models of a scenario and the distributions they give.  Nothing here refers to the code
    except the description of the scenario (parties, sources, latents, observed parents).

    A latent variable hands on the values and the systems that it gets; it does not act on them (when
    there are latents these are some, not all, of the models one may think of).

    Everything is finite: complex numbers with rational parts, systems with finitely many levels. *)
From Coq Require Import List Arith Bool QArith Qcanon.
From Verif Require Import ScenarioModel MargModel CausalSpec QuantumSpec QInflationSpec.
Import ListNotations.
Close Scope Q_scope. Close Scope Qc_scope. Open Scope nat_scope.

(** ** Who gets what *)
(** party [p] gets a quantum system from source [k]: the source is not classical and reaches the party
    directly or through a latent that is not classical *)
Definition gives_system (sc : scenario) (k p : nat) : bool :=
  match nth_error (sources sc) k with
  | None => false
  | Some src => negb (s_classical src) && (memb p (s_children src) || existsb (fun l => l_nonclassical l && memb p (l_desc l)) (s_latents src))
  end.
Definition holders (sc : scenario) (k : nat) : list nat := filter (gives_system sc k) (seq 0 (nr_parties sc)).
Definition held (sc : scenario) (p : nat) : list nat := filter (fun k => gives_system sc k p) (seq 0 (nr_sources sc)).
(** ... and a classical value from every source that reaches it *)
Definition heard (sc : scenario) (p : nat) : list nat := filter (fun k => hypergraph sc k p) (seq 0 (nr_sources sc)).

(** ** Models *)
Record quantum_model := {
  (* a source emits a value, with a weight, *)
  q_value : nat -> finite_distribution;
  (* and systems, one for each holder, with that many levels, *)
  q_levels : nat -> nat -> nat;
  (* in a pure state that depends on the value: source, value, levels of the holders' systems -> amplitude.
     (If the value is not used by the parties, the state is mixed.) *)
  q_state : nat -> nat -> list nat -> C;
  (* a party, from the values it hears, its setting and the outcomes of its observed parents, chooses a
     measurement of the systems it holds: matrix of the operator of each outcome *)
  q_effect : nat -> list nat -> nat -> list nat -> nat -> list nat -> list nat -> C }.
Section Model.
Variables (sc : scenario) (m : quantum_model).
(** levels of the systems of a party, and of the systems of a source *)
Definition party_basis (p : nat) : list (list nat) := ndindex (map (fun k => q_levels m k p) (held sc p)).
Definition source_basis (k : nat) : list (list nat) := ndindex (map (q_levels m k) (holders sc k)).
Definition Cabs2 (z : C) : Qc := (fst z * fst z + snd z * snd z)%Qc.
Record quantum_model_of : Prop := {
  qm_weights : forall k wv, k < nr_sources sc -> In wv (q_value m k) -> (0 <= fst wv)%Qc;
  qm_state : forall k, k < nr_sources sc ->
    sumQ (map (fun wv => fst wv * sumQ (map (fun t => Cabs2 (q_state m k (snd wv) t)) (source_basis k)))%Qc (q_value m k)) = 1%Qc;
  (* the operators of a measurement are Hermitian ... *)
  qm_hermitian : forall p vs x os o r c, p < nr_parties sc -> o < nth p (outcomes sc) 0 -> In r (party_basis p) -> In c (party_basis p) ->
    q_effect m p vs x os o c r = Cconj (q_effect m p vs x os o r c);
  (* ... mutually orthogonal projectors ... *)
  qm_projectors : forall p vs x os o o' r c, p < nr_parties sc -> o < nth p (outcomes sc) 0 -> o' < nth p (outcomes sc) 0 -> In r (party_basis p) -> In c (party_basis p) ->
    Csum (map (fun t => Cmult (q_effect m p vs x os o r t) (q_effect m p vs x os o' t c)) (party_basis p)) = if o =? o' then q_effect m p vs x os o r c else C0;
  (* ... that add up to the identity *)
  qm_complete : forall p vs x os r c, p < nr_parties sc -> In r (party_basis p) -> In c (party_basis p) ->
    Csum (map (fun o => q_effect m p vs x os o r c) (seq 0 (nth p (outcomes sc) 0))) = if list_eq_dec Nat.eq_dec r c then C1 else C0 }.

(** ** Means of products of operators *)
(** the variables: the value of a copy of a source, the level of the system that a party gets from it *)
Inductive qvariable := Value (k copy : nat) | Level (k copy p : nat).
Definition qvar_dec : forall x y : qvariable, {x = y} + {x <> y}.
Proof. decide equality; apply Nat.eq_dec. Defined.
(** the systems that party [p] holds when it is connected to the copies [c] of the sources *)
Definition systems (p : nat) (c : list nat) : list qvariable := map (fun k => Level k (nth k c 0) p) (held sc p).
Definition values (p : nat) (c : list nat) : list qvariable := map (fun k => Value k (nth k c 0)) (heard sc p).
Fixpoint set_levels (u : qvariable -> nat) (l : list qvariable) (t : list nat) : qvariable -> nat :=
  match l, t with x :: l', v :: t' => set_levels (assign qvar_dec u x v) l' t' | _, _ => u end.
(** vectors: amplitudes (given the values) *)
Definition vector := (qvariable -> nat) -> C.
(** the operator of outcome [o] of party [p] connected to copies [c], with setting [x] and outcomes [os]
    of the parents *)
Definition apply_effect (p : nat) (c : list nat) (x : nat) (os : list nat) (o : nat) (F : vector) : vector := fun u =>
  Csum (map (fun t => Cmult (q_effect m p (map u (values p c)) x os o (map u (systems p c)) t) (F (set_levels u (systems p c) t))) (party_basis p)).
(** the state of copies of sources *)
Definition joint_state (copies : list (nat * nat)) : vector := fun u =>
  fold_right Cmult C1 (map (fun ki => q_state m (fst ki) (u (Value (fst ki) (snd ki))) (map (fun p => u (Level (fst ki) (snd ki) p)) (holders sc (fst ki)))) copies).
Definition copy_variables (ki : nat * nat) : list qvariable :=
  Value (fst ki) (snd ki) :: map (Level (fst ki) (snd ki)) (holders sc (fst ki)).
(** values are drawn with their weights, levels are summed over *)
Definition weights (x : qvariable) : finite_distribution :=
  match x with Value k _ => q_value m k | Level k _ p => map (fun v => (1%Qc, v)) (seq 0 (q_levels m k p)) end.
Definition total (l : list qvariable) (g : vector) : C :=
  (mean qvar_dec weights l (fun u => fst (g u)) (fun _ => 0), mean qvar_dec weights l (fun u => snd (g u)) (fun _ => 0)).
(** the mean of the operator [A] in the state of the copies *)
Definition expectation (copies : list (nat * nat)) (A : vector -> vector) : C :=
  total (flat_map copy_variables copies) (fun u => Cmult (Cconj (joint_state copies u)) (A (joint_state copies) u)).

(** ** The distribution of the outcomes given the settings: one copy (number 0) of every source; the
    product of the operators of all parties *)
Definition all_outcomes (a x : list nat) (F : vector) : vector :=
  fold_right (fun p G => apply_effect p [] (nth p x 0) (map (fun q => nth q a 0) (nth p (parents sc) [])) (nth p a 0) G) F (seq 0 (nr_parties sc)).
Definition quantum_observed (a x : list nat) : Qc :=
  fst (expectation (map (fun k => (k, 0)) (seq 0 (nr_sources sc))) (all_outcomes a x)).
End Model.

(** [arr], indexed by outcomes and then settings, is a distribution that the scenario can give when its
    non-classical sources and latents are quantum *)
Definition quantum_distribution (sc : scenario) (arr : ndarray) : Prop :=
  nd_shape arr = outcomes sc ++ private_settings sc /\
  exists m, quantum_model_of sc m /\ forall a x, Forall2 lt a (outcomes sc) -> Forall2 lt x (private_settings sc) ->
    nd_at arr (a ++ x) = quantum_observed sc m a x.
