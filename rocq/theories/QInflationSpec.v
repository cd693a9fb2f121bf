(** What the moments of an inflation of a distribution are: values of the products of the operators
    of the inflated scenario that any (quantum or classical) realisation of the scenario provides
    when the scenario gives the distribution. *)
From Coq Require Import List Arith Bool QArith Qcanon.
From Verif Require Import CanonModel CanonSpec ScenarioModel ScenarioSpec SymSpec KnowSpec MargModel NormSpec QuantumSpec.
Import ListNotations.
Close Scope Q_scope. Close Scope Qc_scope. Open Scope nat_scope.

Definition Csum (l : list C) : C := fold_right Cplus C0 l.
(** the source copies that the operator with index [x] acts on (index 0 is the zero operator) *)
Definition copies_of (sc : scenario) (x : nat) : list nat := row_copies (nth x (sdp_lexorder sc) []).
(** products of (proper) operators of the scenario *)
Definition operator_word (sc : scenario) (w : word) : Prop := forall x, In x w -> 1 <= x <= length (lexorder sc).

(** [L w] is the mean value of the product of the operators [w].  The operators are projectors; which
    of them commute and which are orthogonal is [sdp_notcomm], [sdp_orthomat] (C07, C09 say what
    these are). *)
Record moments_of (sc : scenario) (arr : ndarray) (L : word -> C) : Prop := {
  (* equal products have equal means *)
  mq_equal : forall u v, proj_eq (sdp_notcomm sc) (sdp_orthomat sc) u v -> L u = L v;
  mq_zero : L [0] = C0;
  mq_one : L [] = C1;
  mq_conjugate : forall w, L (rev w) = Cconj (L w);
  (* the mean of X^dagger X is not negative, for every combination X of products *)
  mq_positive : forall l : list (C * word),
    (0 <= fst (Csum (map (fun p => Csum (map (fun q => Cmult (Cmult (Cconj (fst p)) (fst q)) (L (rev (snd p) ++ snd q))) l)) l)))%Qc;
  (* copies are exchangeable *)
  mq_symmetric : forall sigma h w, is_relabelling sc sigma -> induces sc sigma h ->
    (forall x, In x w -> x <= length (lexorder sc)) -> L (map (fun x => nth x (0 :: map S h) 0) w) = L w;
  (* products on different source copies are independent *)
  mq_independent : forall u v, operator_word sc u -> operator_word sc v ->
    (forall x y, In x u -> In y v -> ~ share_copy (copies_of sc x) (copies_of sc y)) -> L (u ++ v) = Cmult (L u) (L v);
  (* the operators of a measurement add up to the identity *)
  mq_normalised : forall p c s g u v, is_measurement sc p c s g -> Csum (map (fun a => L (u ++ a :: v)) g) = L (u ++ v);
  (* parts of the inflation that are copies of the original scenario have the original probabilities:
     the sum over the outcomes [a] that agree with the operators, at the private settings [x] of their
     parties and setting 0 of the others *)
  mq_observed : forall ops, (forall k, In k ops -> k < length (lexorder sc)) ->
    let mon := map (fun k => nth k (lexorder sc) []) ops in
    one_operator_per_party mon -> one_copy_per_source mon -> parents_agree sc mon ->
    forall l x, NoDup l ->
      (forall a, In a l <-> Forall2 lt a (outcomes sc) /\ forall p c s o, In (mkrow (p + 1) c s o) mon -> nth p a 0 = o) ->
      length x = nr_parties sc ->
      (forall p, p < nr_parties sc ->
         (forall c s o y os, In (mkrow (p + 1) c s o) mon -> assoc (effective_to_parent sc p) s = Some (y :: os) -> nth p x 0 = y) /\
         ((forall c s o, ~ In (mkrow (p + 1) c s o) mon) -> nth p x 0 = 0)) ->
      L (map S ops) = (sumQ (map (fun a => nd_at arr (a ++ x)) l), 0%Qc)
}.
(** Products of at most [k] operators that some relabelling of copies turns into their conjugate have
    non-negative means.  The code imposes this; it does not follow from [moments_of] for non-commuting
    operators (C41), but does when all operators commute and when there is one copy of every source. *)
Definition nonnegative_hermitian (sc : scenario) (k : nat) (L : word -> C) : Prop :=
  forall sigma h w, length w <= k -> is_relabelling sc sigma -> induces sc sigma h -> operator_word sc w ->
    comm_eq (sdp_notcomm sc) (map (fun x => nth x (0 :: map S h) 0) w) (rev w) -> (0 <= fst (L w))%Qc.
