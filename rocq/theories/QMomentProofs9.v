(** The arguments of the solver interface and the point that an inflation gives. *)
From Coq Require Import Permutation QArith Qcanon List Arith Bool Lia Sorted String Ascii.
From Verif Require Import CanonModel CanonSpec MomentModel MomentSpec OrbitModel ScenarioModel ScenarioSpec SymModel SymSpec KnowModel KnowSpec FactorModel FactorSpec
  MargModel QcSum QcArith ColumnModel ColumnSpec MemoModel MemoSpec NormModel NormSpec NameModel NameSpec ProgramModel ProgramSpec ProgramProofs ProgramProofs2 ProgramProofs3 LPMomentModel QuantumSpec QuantumProofs QInflationSpec SDPMomentModel SDPRunSpec SoundProofs QMomentProofs QMomentProofs2 QMomentProofs3 QMomentProofs4 QMomentProofs5 QMomentProofs6 QMomentProofs7 QMomentProofs8.
From Verif Require CanonProofs ScenarioProofs ColumnProofs2 PropProgram ProgramLPProofs SDPSolveModel SDPSolveSpec PSD.
Import ListNotations.
Close Scope Q_scope. Close Scope Qc_scope. Open Scope string_scope. Open Scope nat_scope. Open Scope list_scope.

Lemma from_atoms_range (c : context) len : (forall a, a < len -> ProgramModel.dagger c a < len) ->
  forall l, (forall a, In a l -> a < len) -> forall a, In a (ProgramModel.monomial_from_atoms c l) -> a < len.
Proof.
  intros D l B a. unfold ProgramModel.monomial_from_atoms. set (l0 := match find _ _ with Some x => [x] | None => filter _ _ end). 
  assert (B0 : forall a, In a l0 -> a < len).
  { subst l0. destruct (find _ _) as [x|] eqn:Fd; [apply find_some in Fd as [Fd _]; intros b [<-|[]]; apply B, Fd|intros b Hb; apply filter_In in Hb as [Hb _]; apply B, Hb]. }
  destruct (ProgramModel.lex_lt _ _); intros Ha.
  - apply (Permutation_in _ (sort_atoms_perm _)) in Ha. apply in_map_iff in Ha as (b & <- & Hb). apply (Permutation_in _ (sort_atoms_perm _)) in Hb. apply D, B0, Hb.
  - apply (Permutation_in _ (sort_atoms_perm _)) in Ha. apply B0, Ha.
Qed.
Lemma from_atoms_short (c : context) a : List.length (ProgramModel.monomial_from_atoms c [a]) <= 1.
Proof.
  unfold ProgramModel.monomial_from_atoms. cbn [find filter]. destruct (ProgramModel.is_zero c a); [|destruct (is_one c a)]; cbn [negb sort_atoms fold_right insert_atom map]; destruct (ProgramModel.lex_lt _ _); cbn [List.length]; lia.
Qed.
Lemma from_atoms_nonempty (c : context) l : (forall a, In a l -> is_one c a = false) -> l <> [] -> ProgramModel.monomial_from_atoms c l <> [].
Proof.
  intros H NE. unfold ProgramModel.monomial_from_atoms. set (l0 := match find _ _ with Some x => [x] | None => filter _ _ end).
  assert (N0 : l0 <> []).
  { subst l0. destruct (find _ _); [discriminate|]. destruct l as [|a l]; [congruence|]. cbn [filter]. rewrite (H a (or_introl eq_refl)). discriminate. }
  assert (L1 : List.length (sort_atoms l0) <> 0) by (rewrite (Permutation_length (sort_atoms_perm l0)); destruct l0; [congruence|discriminate]).
  assert (L2 : List.length (sort_atoms (map (ProgramModel.dagger c) (sort_atoms l0))) <> 0) by (rewrite (Permutation_length (sort_atoms_perm _)), map_length; exact L1).
  destruct (ProgramModel.lex_lt _ _); intros Q; [rewrite Q in L2; apply L2|rewrite Q in L1; apply L1]; reflexivity.
Qed.

Section Generated.
Variables (sc : scenario) (W : wf_scenario sc) (FC : few_copies sc) (Hout : forall o, In o (outcomes sc) -> 1 <= o).
Notation n := (List.length (lexorder sc)).
Notation nc := (sdp_notcomm sc).
Notation ortho := (sdp_orthomat sc).
Notation oc := (operators_commute sc).
Variables (cols : list word) (GC : good_columns nc ortho (S n) cols).
Notation N := (List.length cols).
Context {sup : bool}.
Variables (hc : list bool) (r : SDPMomentModel.relaxation) (GE : SDPMomentModel.generate sc hc sup cols = Some r).
Notation atoms := (SDPMomentModel.r_atoms r).
Notation c := (SDPMomentModel.r_context r).
Notation M := (r_matrix r).
Notation comp := (r_moments r).

Lemma dagger_range a : a < List.length atoms -> ProgramModel.dagger c a < List.length atoms.
Proof.
  destruct (parts sc W FC cols GC hc sup r GE) as (ob & co & lists & eqs & EM & HL & F & EA & _). destruct (generate_is sc cols hc sup r GE) as (_ & _ & _ & _ & _ & _ & _ & _ & _ & _ & _ & _ & _ & _ & ED & _).
  rewrite ED. intros Ha. assert (Q := dagger_in sc W (map snd lists) HL a). rewrite <- EA in Q. apply (Q Ha).
Qed.
Lemma atoms_not_one a : a < List.length atoms -> is_one c a = false.
Proof.
  destruct (parts sc W FC cols GC hc sup r GE) as (ob & co & lists & eqs & EM & HL & F & EA & _). destruct (generate_is sc cols hc sup r GE) as (_ & _ & _ & _ & _ & _ & _ & _ & _ & _ & _ & _ & _ & _ & _ & _ & E1 & _).
  rewrite E1. cbn [atom_context is_one]. intros Ha. destruct (nth_error atoms a) as [[|x w]|] eqn:Q; [|reflexivity|reflexivity]. apply nth_error_In in Q. rewrite EA in Q. destruct (atoms_are sc W (map snd lists) HL [] Q) as [Q'|(Q' & _)]; [discriminate|contradiction].
Qed.
Lemma proper_range m : proper_moment r m -> forall a, In a m -> a < List.length atoms.
Proof. intros (l & B & ->). apply from_atoms_range; [apply dagger_range|exact B]. Qed.
Lemma same_context l : ProgramModel.monomial_from_atoms (atom_context sc atoms) l = ProgramModel.monomial_from_atoms c l.
Proof.
  destruct (generate_is sc cols hc sup r GE) as (_ & _ & _ & _ & _ & _ & _ & _ & _ & _ & _ & _ & _ & _ & ED & EZ & E1 & _).
  unfold ProgramModel.monomial_from_atoms. rewrite ED, EZ, E1. reflexivity.
Qed.
Lemma zero_dagger : ProgramModel.dagger c (number atoms [0]) = number atoms [0] /\ ProgramModel.is_zero c (number atoms [0]) = true.
Proof.
  assert (Z0 := zero_atom sc W FC cols GC hc sup r GE). destruct (parts sc W FC cols GC hc sup r GE) as (ob & co & lists & eqs & EM & HL & F & EA & _).
  destruct (generate_is sc cols hc sup r GE) as (_ & _ & _ & _ & _ & _ & _ & _ & _ & _ & _ & _ & _ & _ & ED & EZ & _). rewrite ED, EZ. cbn [atom_context ProgramModel.is_zero].
  assert (Q := number_ok sc (map snd lists) [0]). rewrite <- EA in Q. destruct (Q Z0) as [Q1 Q2].
  split; [|rewrite Q2; reflexivity]. unfold dagger_of. rewrite (nth_error_nth' atoms [] Q1). f_equal. rewrite Q2. reflexivity.
Qed.
Lemma moments_proper m : In m (moments c) -> proper_moment r m.
Proof.
  rewrite (moments_are sc cols hc sup r GE). intros Hm. apply in_map_iff in Hm as ([k m'] & E & Hm). cbn [snd] in E. subst m'.
  assert (Z0 := zero_atom sc W FC cols GC hc sup r GE). assert (ZD := zero_dagger). destruct (parts sc W FC cols GC hc sup r GE) as (ob & co & lists & eqs & EM & HL & F & EA & ER & _). rewrite ER in Hm. unfold made_of in Hm. apply in_app_or in Hm as [Hm|Hm].
  - destruct (has_zero cols M); [|destruct Hm]. destruct Hm as [Hm|[]]. assert (m = [number atoms [0]]) as -> by congruence. exists [number atoms [0]]. split.
    + intros a [<-|[]]. rewrite EA in *. apply (number_ok sc (map snd lists) [0] Z0).
    + destruct ZD as [ZD ZZ]. unfold ProgramModel.monomial_from_atoms. cbn [find]. rewrite ZZ. cbn [sort_atoms fold_right insert_atom map]. rewrite ZD. destruct (ProgramModel.lex_lt _ _); reflexivity.
  - apply in_map_iff in Hm as ([k' l] & E & Hm). cbn [fst snd] in E. assert (m = ProgramModel.monomial_from_atoms (atom_context sc atoms) (map (number atoms) l)) as -> by congruence.
    exists (map (number atoms) l). split; [|apply same_context].
    intros b Hb. apply in_map_iff in Hb as (w & <- & Hw). rewrite EA. apply number_ok. apply atoms_in. right. left. exists l. split; [|exact Hw]. apply in_map_iff. exists (k', l). auto.
Qed.
Lemma moments_index m : In m (moments c) <-> exists k, In (k, m) comp.
Proof. rewrite (moments_are sc cols hc sup r GE), in_map_iff. split; [intros ([k m'] & <- & H); exists k; exact H|intros (k & H); exists (k, m); auto]. Qed.
End Generated.
Section Plain.
Variables (sc : scenario) (W : wf_scenario sc) (FC : few_copies sc) (Hout : forall o, In o (outcomes sc) -> 1 <= o).
Notation n := (List.length (lexorder sc)).
Notation nc := (sdp_notcomm sc).
Notation ortho := (sdp_orthomat sc).
Notation oc := (operators_commute sc).
Variables (cols : list word) (GC : good_columns nc ortho (S n) cols).
Notation N := (List.length cols).
Variables (hc : list bool) (r : SDPMomentModel.relaxation) (GE : SDPMomentModel.generate sc hc false cols = Some r).
Notation atoms := (SDPMomentModel.r_atoms r).
Notation c := (SDPMomentModel.r_context r).
Notation M := (r_matrix r).
Notation comp := (r_moments r).

Lemma no_supports : supports_problem c = false.
Proof. destruct (generate_is sc cols hc false r GE) as (_ & _ & _ & _ & _ & _ & _ & _ & _ & _ & _ & _ & _ & _ & _ & _ & _ & _ & _ & E & _). exact E. Qed.

(** ** Values after set_distribution *)
Section Values.
Variables (arr : option ndarray) (lpi shared : bool) (s1 s2 : state) (ES : SDPMomentModel.set_distribution sc r arr lpi shared s1 = Some s2).
Notation given_values := (match arr with Some a => distribution_values sc r a | None => Some [] end).
Lemma given_short values m v : given_values = Some values -> given values m = Some v -> List.length m <= 1.
Proof.
  intros EV. unfold given. destruct (find _ _) as [[m' o]|] eqn:Fd; [|discriminate]. intros ->. apply find_some in Fd as [Fd Q]. cbn [fst snd] in Q. apply andb_prop in Q as [Q _]. destruct (meq m' m) as [->|]; [|discriminate]. clear Q.
  apply in_rev in Fd. assert (XA : exists x, distribution_values sc r x = Some values) by (destruct arr as [x|]; [exists x; exact EV|assert (values = []) as -> by congruence; destruct Fd]). clear EV. destruct XA as (x & EV). unfold distribution_values in EV. apply ScenarioProofs.map_opt_some in EV. revert Fd. induction EV as [|a q l l' H _ IH]; [intros []|]. intros [->|Fd]; [|apply IH, Fd].
  destruct (SDPMomentModel.atom_value sc x (nth a atoms [])) as [w|]; [|discriminate]. assert (m = ProgramModel.monomial_from_atoms c [a]) as -> by congruence. apply from_atoms_short.
Qed.
Lemma semiknown_targets m k u : In (m, (k, u)) (semiknown s2) -> proper_moment r u /\ ~ In u (keys (known s2)) /\ ~ In u (keys (semiknown s2)).
Proof.
  intros Hm. assert (ES' := ES). unfold SDPMomentModel.set_distribution in ES'. destruct given_values as [values|] eqn:EV; [|discriminate].
  assert (SP := no_supports). assert (DI := dagger_ok sc W FC cols GC hc false r GE). destruct (wf_set sdp c values lpi shared s1 s2 ES') as [N1 N2 _]. apply (in_get meq _ _ _ N2) in Hm.
  assert (NE : values <> []) by (intros E0; rewrite E0 in ES'; destruct (PropProgram.C22_without_values sdp c lpi shared s1 s2 SP ES') as [S0 _]; rewrite S0 in Hm; discriminate).
  assert (Sh : shared = false) by (apply not_true_is_false; intros E0; rewrite E0 in ES'; destruct (PropProgram.C22_only_specified sdp c values lpi s1 s2 SP ES') as [S0 _]; rewrite S0 in Hm; discriminate).
  rewrite Sh in ES'.
  destruct (PropProgram.C22_target_is_not_semiknown sdp c values lpi s1 s2 DI SP NE ES' m k u Hm) as [T1 T2].
  destruct (proj1 (PropProgram.C22_semiknown_exactly sdp c values lpi s1 s2 DI SP NE ES' m k u) Hm) as (I & _ & _ & FA & _ & _ & _ & EU).
  assert (PU : forall a, In a (unvalued sdp c values m) -> a < List.length atoms) by (intros a Ha; unfold unvalued in Ha; apply filter_In in Ha as [Ha _]; apply (proper_range sc W FC cols GC hc r GE m (moments_proper sc W FC cols GC hc r GE m I) a Ha)).
  split; [exists (unvalued sdp c values m); split; [exact PU|exact EU]|].
  split; [|apply (get_none meq), T1]. intros Q. apply (in_keys_get meq) in Q as (v & Q).
  destruct (proj1 (PropProgram.C22_known_exactly sdp c values lpi s1 s2 DI SP NE ES' u v) Q) as (_ & Q'). clear Q. rename Q' into Q.
  assert (UN : u <> []).
  { rewrite EU. apply from_atoms_nonempty; [intros a Ha; apply (atoms_not_one sc W FC cols GC hc r GE), PU, Ha|]. intros E. assert (forallb (valued sdp c values) m = true); [|congruence]. apply forallb_forall. intros a Ha. destruct (valued sdp c values a) eqn:V; [reflexivity|].
    exfalso. assert (In a (unvalued sdp c values m)) by (unfold unvalued; apply filter_In; rewrite V; auto). rewrite E in H. destruct H. }
  unfold known_value in Q. destruct (forallb (valued sdp c values) u) eqn:F1; [destruct u as [|a u]; [contradiction|]; cbn [forallb] in F1; rewrite (T2 a (or_introl eq_refl)) in F1; discriminate|].
  destruct (existsb (valued sdp c values) u) eqn:F2; [apply existsb_exists in F2 as (a & Ha & F2); rewrite (T2 a Ha) in F2; discriminate|]. rewrite andb_false_r in Q. cbn [orb andb] in Q. rewrite andb_false_r in Q.
  assert (QB := Q). destruct u as [|a [|b u]]; [contradiction| |].
  - assert (T := T2 a (or_introl eq_refl)). unfold valued, ProgramSpec.atom_value in T. destruct (base sdp c values [ProgramModel.dagger c a]); [discriminate T|]. rewrite Q in T. discriminate T.
  - unfold base in Q. destruct (given values (a :: b :: u)) as [w|] eqn:Gv; [apply (given_short values _ _ EV) in Gv; cbn [List.length] in Gv; lia|]. destruct (meq _ One) as [E|]; [discriminate E|].
    destruct (zero_moment c) as [x|] eqn:EZ; [|discriminate]. destruct (meq _ x) as [E|]; [|discriminate]. rewrite (zero_is sc cols hc false r GE x EZ) in E. discriminate E.
Qed.
End Values.
End Plain.
