(** The generated programme: its parts, and its moments at the means of an inflation. *)
From Coq Require Import Permutation QArith Qcanon List Arith Bool Lia Sorted.
From Verif Require Import CanonModel CanonSpec MomentModel MomentSpec OrbitModel ScenarioModel ScenarioSpec SymModel SymSpec KnowModel KnowSpec FactorModel FactorSpec
  MargModel ColumnModel ColumnSpec MemoModel MemoSpec NameModel NameSpec ProgramModel ProgramSpec ProgramProofs LPMomentModel QuantumSpec QuantumProofs QInflationSpec SDPMomentModel SoundProofs QMomentProofs QMomentProofs2 QMomentProofs3 QMomentProofs4.
From Verif Require ScenarioProofs CanonProofs2 ColumnProofs ColumnProofs2 ColumnProofs3 MemoProofs PropOrbit PropCanon.
Import ListNotations.
Close Scope Q_scope. Close Scope Qc_scope. Open Scope nat_scope.

Section Generated.
Variables (sc : scenario) (W : wf_scenario sc) (FC : few_copies sc).
Notation n := (length (lexorder sc)).
Notation nc := (sdp_notcomm sc).
Notation ortho := (sdp_orthomat sc).
Notation syms := (sdp_lexorder_symmetries sc).
Notation oc := (operators_commute sc).
Variables (cols : list word) (GC : good_columns nc ortho (S n) cols).
Let G := ScenarioProofs.scenario_good_tables sc W.
Let OS := ColumnProofs3.scenario_symmetries sc W.
Notation N := (length cols).

Lemma ranged_entry i j : in_range (S n) (entry cols i j).
Proof.
  assert (H : forall i, in_range (S n) (nth i cols [])).
  { intros k x Hx. destruct (Nat.lt_ge_cases k N) as [Hk|Hk]; [apply (gcol_range _ _ _ _ GC _ x (nth_In _ _ Hk) Hx)|rewrite nth_overflow in Hx by exact Hk; destruct Hx]. }
  intros x Hx. unfold entry in Hx. apply in_app_or in Hx as [Hx|Hx]; [apply in_rev in Hx|]; apply (H _ x Hx).
Qed.
(** the dictionary from index to word *)
Lemma corresp_words M orbits corresp : symmetrized_moment_matrix nc ortho oc cols syms = Some (M, orbits, corresp) ->
  forall k w, In (k, w) corresp -> k <> 0 /\ reduced nc ortho w /\ operator_word sc w.
Proof.
  intros E k w H. destruct (PropOrbit.C06_scenario_moment_matrix sc oc cols W (comm_flag sc W) GC) as (M' & ob & co & E' & Z & _ & ND & A & B & _). rewrite E in E'.
  assert (co = corresp) by congruence. assert (M' = M) by congruence. subst co M'. clear E' E.
  destruct (B k w H) as (K0 & CW & i & j & Hi & Hj & Ek). split; [exact K0|]. destruct (A i j Hi Hj) as (w' & g & Ew & Hg & _ & SM); [congruence|]. rewrite Ek, (ColumnProofs2.assoc_unique _ _ _ ND H) in Ew. assert (w' = w) by congruence. subst w'. clear Ew.
  assert (NZ : ~ is_zero_product nc ortho (entry cols i j)) by (intros Q; apply (Z i j Hi Hj) in Q; congruence).
  rewrite (ColumnProofs.apply_gf nc ortho (S n) syms [] OS g _ Hg (ranged_entry i j)) in SM. set (u := map (ColumnProofs.gf g) (entry cols i j)) in *.
  assert (NU : ~ is_zero_product nc ortho u) by (intros Q; apply NZ; apply (ColumnProofs.zero_moved nc ortho (S n) syms [] G OS g _ Hg); exact Q).
  assert (W0 : w <> [0]).
  { intros ->. apply NU. unfold is_zero_product. destruct SM as [SM|SM]; exact SM. }
  assert (RD : reduced nc ortho w) by (apply (MemoProofs.canonical_reduced nc ortho false G ltac:(discriminate) w w CW W0)). split; [exact RD|]. apply reduced_op; [exact RD|].
  assert (RU : in_range (S n) u) by (apply (MemoProofs.ranged_gf nc ortho (S n) syms OS g _ Hg), ranged_entry).
  assert (I : forall v, in_range (S n) v -> proj_eq nc ortho v w -> in_range (S n) w).
  { intros v Rv P. assert (Ev : to_canonical_1d_internal nc ortho false false v = Some w) by (rewrite <- CW; apply (PropCanon.C03_equal_iff_same_canonical_form nc ortho v w G), P).
    destruct (PropCanon.C04_shape nc ortho v w G Ev) as [Q|(_ & I & _)]; [contradiction|]. intros x Hx. apply Rv, I, Hx. }
  destruct SM as [SM|SM]; [apply (I u RU SM)|]. apply (I (rev u)); [intros x Hx; apply in_rev in Hx; apply RU, Hx|]. rewrite <- (rev_involutive w). apply CanonProofs2.pe_rev; try exact G. exact SM.
Qed.
(** the parts of a generated programme *)
Section Parts.
Variables (hc : list bool) (sup : bool) (r : SDPMomentModel.relaxation) (GE : SDPMomentModel.generate sc hc sup cols = Some r).
Notation atoms := (SDPMomentModel.r_atoms r).
Notation c := (SDPMomentModel.r_context r).
Notation M := (r_matrix r).
Definition made_of (lists : list (nat * list word)) : list (nat * moment) :=
  (if has_zero cols M then [(0, [number atoms [0]])] else []) ++ map (fun q => (fst q, ProgramModel.monomial_from_atoms (atom_context sc atoms) (map (number atoms) (snd q)))) lists.
Lemma generate_is : exists orbits corresp lists eqs,
  symmetrized_moment_matrix nc ortho oc cols syms = Some (M, orbits, corresp) /\
  Forall2 (fun q l => fst l = fst q /\ atoms_of sc (snd q) = Some (snd l)) corresp lists /\
  r_columns r = cols /\ atoms = all_atoms sc (map snd lists) /\ r_moments r = made_of lists /\ r_moments r <> [] /\ NoDup (map snd (r_moments r)) /\
  equalities_of sc hc sup cols M (r_moments r) = Some eqs /\
  moments c = map snd (r_moments r) /\ ProgramModel.is_knowable c = knowable_of sc atoms /\ ProgramModel.dagger c = dagger_of sc atoms /\
  ProgramModel.is_zero c = ProgramModel.is_zero (atom_context sc atoms) /\ is_one c = is_one (atom_context sc atoms) /\
  hermitian_moments c = (if oc then moments c else filter (forallb (fun a => dagger_of sc atoms a =? a)) (moments c)) /\
  zero_moment c = (if has_zero cols M then Some [number atoms [0]] else None) /\ supports_problem c = sup /\ minimal_equalities c = eqs /\ minimal_inequalities c = [].
Proof.
  assert (GE' := GE). unfold SDPMomentModel.generate in GE'. destruct (symmetrized_moment_matrix nc ortho oc cols syms) as [[[M' ob] co]|] eqn:EM; [|discriminate].
  destruct (map_opt _ co) as [lists|] eqn:EL; [|discriminate]. cbv zeta in GE'.
  match goal with GE' : (if ?b then _ else _) = _ |- _ => destruct b eqn:EB; [|discriminate] end.
  match goal with GE' : match ?e with Some _ => _ | None => _ end = _ |- _ => destruct e as [eqs|] eqn:EE; [|discriminate] end.
  apply andb_prop in EB as [EB1 EB2]. apply negb_true_iff, Nat.eqb_neq in EB1. apply Nat.eqb_eq, nodup_full in EB2.
  assert (Er := f_equal (fun o => match o with Some x => x | None => r end) GE'). cbn beta iota in Er. clear GE'.
  exists ob, co, lists, eqs.
  assert (E1 : M = M') by (rewrite <- Er; reflexivity). assert (E2 : atoms = all_atoms sc (map snd lists)) by (rewrite <- Er; reflexivity).
  assert (EM2 : r_moments r = made_of lists) by (unfold made_of; rewrite E1, E2; rewrite <- Er; reflexivity).
  rewrite E1. split; [reflexivity|]. split.
  { apply ScenarioProofs.map_opt_some in EL. clear - EL. induction EL as [|q l co lists H _ IH]; constructor; [|exact IH]. destruct (atoms_of sc (snd q)) as [x|]; [|discriminate].
    assert (l = (fst q, x)) by congruence. subst l. split; reflexivity. }
  split; [rewrite <- Er; reflexivity|]. split; [exact E2|]. split; [exact EM2|].
  split; [intros Q; apply EB1; rewrite <- Er in Q; cbn [r_moments] in Q; rewrite Q; reflexivity|].
  split; [rewrite <- Er; exact EB2|]. split; [rewrite <- Er; exact EE|]. rewrite <- Er. cbn. repeat (split; [reflexivity|]). reflexivity.
Qed.
Lemma parts : exists orbits corresp lists eqs,
  symmetrized_moment_matrix nc ortho oc cols syms = Some (M, orbits, corresp) /\ (forall l a, In l (map snd lists) -> In a l -> atom_word sc a) /\
  Forall2 (fun q l => fst l = fst q /\ atoms_of sc (snd q) = Some (snd l) /\ (forall arr L, moments_of sc arr L -> cprod (map L (snd l)) = L (snd q))) corresp lists /\
  atoms = all_atoms sc (map snd lists) /\ r_moments r = made_of lists /\ equalities_of sc hc sup cols M (r_moments r) = Some eqs /\ minimal_equalities c = eqs.
Proof.
  destruct generate_is as (ob & co & lists & eqs & EM & F & _ & EA & ER & _ & _ & EE & _ & _ & _ & _ & _ & _ & _ & _ & EQ & _). exists ob, co, lists, eqs. split; [exact EM|].
  assert (F' : Forall2 (fun q l => fst l = fst q /\ atoms_of sc (snd q) = Some (snd l) /\ (forall a, In a (snd l) -> atom_word sc a) /\ (forall arr L, moments_of sc arr L -> cprod (map L (snd l)) = L (snd q))) co lists).
  { assert (CW := corresp_words _ _ _ EM). clear - F CW W FC. induction F as [|[k w] [k' l] co lists [H1 H2] _ IH]; constructor.
    - cbn [fst snd] in *. destruct (CW k w (or_introl eq_refl)) as (_ & RD & OW). split; [exact H1|]. split; [exact H2|]. split.
      + destruct (atoms_of_is sc W FC w RD OW) as (l' & E' & A' & _). assert (l' = l) by congruence. subst l'. exact A'.
      + destruct (atoms_of_is sc W FC w RD OW) as (l' & E' & _ & A'). assert (l' = l) by congruence. subst l'. exact A'.
    - apply IH. intros k0 w0 H. apply (CW k0 w0). right. exact H. }
  split; [|split; [|auto 6]].
  - intros l a Hl. apply in_map_iff in Hl as ([k l'] & <- & Hl). clear - F' Hl. induction F' as [|q x co lists (_ & _ & H & _) _ IH]; [destruct Hl|]. destruct Hl as [->|Hl]; [apply H|apply IH, Hl].
  - clear - F'. induction F' as [|q x co lists (H1 & H2 & _ & H3) _ IH]; constructor; auto.
Qed.
End Parts.
End Generated.
