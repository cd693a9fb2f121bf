(** Values of a programme at a point given by complex numbers attached to the atoms: a moment is the
    real part of the product of the numbers of its factors. *)
From Coq Require Import Permutation QArith Qcanon List Arith Bool Lia.
From Verif Require Import MargModel ProgramModel ProgramSpec ProgramProofs ProgramProofs2 ProgramProofs3 QuantumSpec QuantumProofs QMomentProofs.
From Verif Require PropProgram.
Import ListNotations.
Close Scope Q_scope. Close Scope Qc_scope. Open Scope nat_scope.
Add Ring Cring4 : C_ring.

Definition cfactorising (c : context) (z : nat -> C) : Prop :=
  (forall a, z (dagger c a) = Cconj (z a)) /\ (forall a, is_one c a = true -> z a = C1) /\ (forall a, is_zero c a = true -> z a = C0).
Definition cmoment (z : nat -> C) (m : moment) : Qc := fst (cprod (map z m)).
Definition creal (v : Qc) : C := (v, 0%Qc).
Lemma cprod_zero l : In C0 l -> cprod l = C0.
Proof. induction l as [|a l IH]; [intros []|]. rewrite cprod_cons. intros [->|H]; [|rewrite (IH H)]; ring. Qed.
Lemma cprod_map_perm (z : nat -> C) a b : Permutation a b -> cprod (map z a) = cprod (map z b).
Proof. intros P. apply cprod_perm, Permutation_map, P. Qed.
Lemma creal_mult v w : Cmult (creal v) w = ((v * fst w)%Qc, (v * snd w)%Qc).
Proof. unfold Cmult, creal. cbn [fst snd]. apply injective_projections; cbn [fst snd]; ring. Qed.
Lemma creal_mult2 v w : Cmult (creal v) (creal w) = creal (v * w)%Qc.
Proof. rewrite creal_mult. unfold creal. cbn [fst snd]. apply injective_projections; cbn [fst snd]; ring. Qed.

Section Point.
Variables (c : context) (z : nat -> C) (CF : cfactorising c z).
Lemma cmoment_from_atoms l : cmoment z (monomial_from_atoms c l) = cmoment z l.
Proof.
  destruct CF as (XD & XO & XZ). unfold cmoment, monomial_from_atoms.
  set (l0 := match find (is_zero c) l with Some z => [z] | None => filter (fun a => negb (is_one c a)) l end).
  assert (L0 : cprod (map z l0) = cprod (map z l)).
  { subst l0. destruct (find (is_zero c) l) as [a|] eqn:F.
    - apply find_some in F as (I & Z). rewrite (cprod_zero (map z l)) by (rewrite <- (XZ a Z); apply in_map; assumption). cbn [map]. rewrite cprod_cons, (XZ a Z). ring.
    - clear F. induction l as [|a l IH]; cbn [filter map]; [reflexivity|]. rewrite cprod_cons, <- IH.
      destruct (is_one c a) eqn:O; cbn [negb map]; rewrite ?cprod_cons; [rewrite (XO a O); ring|reflexivity]. }
  rewrite <- L0. assert (D : cprod (map z (map (dagger c) (sort_atoms l0))) = Cconj (cprod (map z (sort_atoms l0)))).
  { rewrite map_map, <- cprod_conj, map_map. f_equal. apply map_ext. intros a. apply XD. }
  destruct (lex_lt _ _).
  - rewrite (cprod_map_perm z _ _ (sort_atoms_perm _)), D, conj_fst. rewrite (cprod_map_perm z _ _ (sort_atoms_perm _)). reflexivity.
  - rewrite (cprod_map_perm z _ _ (sort_atoms_perm _)). reflexivity.
Qed.
Section Given.
Variables (t : kind) (values : list (moment * option Qc)).
Hypothesis AV : forall a v, atom_value t c values a = Some v -> z a = creal v.
Lemma cprod_splits m : cprod (map z m) = Cmult (creal (coefficient t c values m)) (cprod (map z (unvalued t c values m))).
Proof.
  unfold coefficient, unvalued, valued. induction m as [|a m IH]; cbn [map filter]; [rewrite cprod_nil; change (creal (ProgramModel.product [])) with C1; ring|].
  rewrite product_cons, cprod_cons, IH. rewrite <- creal_mult2.
  destruct (atom_value t c values a) as [v|] eqn:E; cbn [is_some negb map]; rewrite ?cprod_cons; [rewrite (AV a v E); ring|change (creal 1%Qc) with C1; ring].
Qed.
Lemma cmoment_splits m : cmoment z m = (coefficient t c values m * cmoment z (unvalued t c values m))%Qc.
Proof. unfold cmoment. rewrite cprod_splits, creal_mult. reflexivity. Qed.
Variables (lpi : bool) (s s' : state).
Hypothesis DI : dagger_involutive c.
Hypothesis SP : supports_problem c = false.
Hypothesis BV : forall m v, base t c values m = Some v -> cmoment z m = v.
Lemma cknown : values <> [] -> set_values t c values lpi false s = Some s' ->
  (lpi = true -> forall m v, get meq m (known s') = Some v -> isclose0 v = true -> v = 0%Qc) ->
  forall m v, get meq m (known s') = Some v -> cmoment z m = v.
Proof.
  intros NE E TV m v G. assert (G' := G). apply (PropProgram.C22_known_exactly t c values lpi s s' DI SP NE E) in G as (I & KV). unfold known_value in KV.
  destruct ((2 <=? length m) && _) eqn:D; [|apply BV, KV]. assert (v = coefficient t c values m) as -> by congruence. apply andb_prop in D as (_ & D). rewrite cmoment_splits.
  destruct (forallb (valued t c values) m) eqn:F.
  - assert (U : unvalued t c values m = []). { unfold unvalued. clear - F. induction m as [|a m IH]; [reflexivity|]. cbn [forallb filter] in *. apply andb_prop in F as (-> & F). cbn. auto. }
    rewrite U. unfold cmoment. cbn [map]. rewrite cprod_nil. unfold C1. cbn [fst]. ring.
  - cbn [orb] in D. apply andb_prop in D as (D & IC). apply andb_prop in D as (LP & _). subst lpi. rewrite (TV eq_refl m _ G' IC). ring.
Qed.
Lemma csemiknown : values <> [] -> set_values t c values lpi false s = Some s' ->
  forall m k u, get meq m (semiknown s') = Some (k, u) -> cmoment z m = (k * cmoment z u)%Qc.
Proof.
  intros NE E m k u G. apply (PropProgram.C22_semiknown_exactly t c values lpi s s' DI SP NE E) in G as (I & _ & _ & _ & _ & _ & -> & ->).
  rewrite cmoment_from_atoms. apply cmoment_splits.
Qed.
End Given.
End Point.
