(** From the scenario to the task. *)
From Coq Require Import List Arith Bool QArith Qcanon Lia Permutation Sorted.
From Verif Require Import CanonModel ScenarioModel ScenarioSpec SymModel SymSpec KnowModel KnowSpec FactorModel FactorSpec MargModel QcSum LPModel LPSpec LPSpec2 InflatedSpec ProgramModel ProgramSpec ProgramProofs ProgramProofs2 ProgramProofs3 LPSolveModel LPSolveSpec LPSolveProofs ProgramLP ProgramLPProofs LPMomentModel LPMomentProofs LPMomentProofs2 ColumnsFacts SoundProofs SoundProofs2 GlueProofs GenerateProofs GenerateProofs2 SoundProofs3.
From Verif Require UniqueProofs ScenarioProofs SymProofs FactorProofs LPProofs10 PropProgram PropSolve.
Import ListNotations.
Close Scope Q_scope. Close Scope Qc_scope. Open Scope nat_scope.

Section End.
Variables (sc : scenario) (W : wf_scenario sc) (Hout : forall o, In o (outcomes sc) -> 1 <= o) (Hset : forall k, In k (private_settings sc) -> 1 <= k) (Np : 0 < nr_parties sc).
Hypothesis FC : few_copies sc.
Variables (ao sup : bool) (r : relaxation) (G : generate sc ao sup = Some r).
Notation c := (r_context r).
Notation P := (r_programme r).
Lemma programme_is_ok : programme_ok P.
Proof.
  destruct (generate_is sc W Hout FC ao sup r G) as (prog & E & H0 & ND & EA & EC & EE & EI & _). pose proof (LPProofs10.programme_rows_range sc W Hout ao prog E) as RR.
  pose proof (rows_some sc W Hout ao prog E) as RS. assert (LC : length (columns P) = length (lp_columns prog)) by (rewrite EC; unfold lists_of; rewrite !map_length; reflexivity).
  constructor.
  - rewrite EC. exact ND.
  - intros Z. rewrite EC in Z. rewrite Z in H0. discriminate.
  - rewrite EE, <- EC. apply rows_matrix_ok. intros row Hr. split; [apply RS; auto|]. intros q Hq. rewrite LC. eapply RR; eauto.
  - rewrite EI, <- EC. apply rows_matrix_ok. intros row Hr. split; [apply RS; auto|]. intros q Hq. rewrite LC. eapply RR; eauto.
  - rewrite EI. cbn [rows_matrix c_rows]. pose proof (inequality_some sc W Hout ao prog E (operators_exist sc W Hout Hset Np)). destruct (lp_inequalities prog); [congruence|cbn; lia].
Qed.
Lemma one_column : In One (columns P).
Proof.
  destruct (generate_is sc W Hout FC ao sup r G) as (prog & E & H0 & ND & EA & EC & _). rewrite EC. destruct (map _ _) as [|m l]; [discriminate|]. cbn [hd] in H0. left. exact H0.
Qed.
Lemma single_column i : i < length (r_atoms r) -> In [i] (columns P).
Proof.
  destruct (generate_is sc W Hout FC ao sup r G) as (prog & E & H0 & ND & EA & EC & _). rewrite EC, EA. apply (atom_column sc W Hout FC prog ao E).
Qed.
Lemma part_of_column m q : In m (columns P) -> In (monomial_from_atoms c (filter q m)) (columns P).
Proof.
  destruct (generate_is sc W Hout FC ao sup r G) as (prog & E & H0 & ND & EA & EC & _ & _ & _ & ED & EZ & E1 & _). rewrite EC. intros H.
  assert (K : monomial_from_atoms c (filter q m) = sort_atoms (filter q m)).
  { unfold monomial_from_atoms. rewrite EZ, E1, ED. assert (F0 : forall l : list nat, find (fun _ => false) l = None) by (induction l; auto). rewrite F0.
    assert (F1 : forall l : list nat, filter (fun _ : nat => true) l = l) by (induction l as [|a l IH]; cbn [filter]; [reflexivity|rewrite IH; reflexivity]). cbn beta iota zeta delta [negb]. rewrite F1, map_id, sort_sort.
    destruct (lex_lt _ _); reflexivity. }
  rewrite K. apply (sub_column sc W Hout FC prog ao E m q H).
Qed.
Lemma moments_are_columns : moments c = columns P.
Proof. destruct (generate_is sc W Hout FC ao sup r G) as (prog & E & H0 & ND & EA & EC & _ & _ & EM & _). congruence. Qed.

Definition keyed (s : state) : Prop := all_columns P (keys (ProgramModel.objective s)) = true /\ all_columns P (keys (lower s)) = true /\ all_columns P (keys (upper s)) = true.
Definition allowed (arr : option ndarray) : Prop := match arr with Some a => nd_shape a = outcomes sc ++ private_settings sc | None => True end.
Lemma set_distribution_some arr lpi only s : allowed arr -> exists s', set_distribution sc r arr lpi only s = Some s'.
Proof.
  intros A. unfold set_distribution. assert (X : exists values, match arr with Some a => distribution_values sc r a | None => Some [] end = Some values).
  { destruct arr as [arr|]; [|eauto]. destruct (values_exist sc W Hout Hset FC ao sup r G arr A) as (values & E & _). eauto. }
  destruct X as (values & ->). rewrite set_values_is. cbn [cleanup]. unfold cleanup_lp. eauto.
Qed.
Lemma set_distribution_reachable arr lpi only s s' : reachable lp c s -> set_distribution sc r arr lpi only s = Some s' -> reachable lp c s'.
Proof.
  intros (ops & R) E. unfold set_distribution in E. destruct (match arr with Some a => distribution_values sc r a | None => Some [] end) as [values|]; [|discriminate].
  exists (ops ++ [SetValues values lpi only]). unfold run in *. rewrite fold_left_app, R. exact E.
Qed.
Lemma known_columns arr lpi only s s' : sup = false -> set_distribution sc r arr lpi only s = Some s' ->
  (forall m, In m (keys (known s')) -> In m (columns P)) /\
  (forall m k u, In (m, (k, u)) (semiknown s') -> In m (columns P) /\ In u (columns P)).
Proof.
  intros SP E. unfold set_distribution in E. destruct (match arr with Some a => distribution_values sc r a | None => Some [] end) as [values|] eqn:EV; [|discriminate].
  pose proof (supports_is sc W Hout FC ao sup r G) as SI. rewrite SP in SI. pose proof (wf_set lp c values lpi only s s' E) as Wf.
  assert (BC : forall m v, base lp c values m = Some v -> In m (columns P)).
  { intros m v H. destruct arr as [arr|].
    - destruct (base_is sc W Hout Hset FC ao sup r G arr values m v EV H) as [(i & Hi & _ & -> & _)|[-> _]]; [apply single_column, Hi|apply one_column].
    - assert (values = []) by congruence. subst values. unfold base in H. cbn in H. destruct (meq m One) as [->|]; [apply one_column|discriminate]. }
  destruct only.
  - destruct (PropProgram.C22_only_specified lp c values lpi s s' SI E) as [S0 K]. rewrite S0. split; [|intros m k u []]. intros m Hm. apply in_map_iff in Hm as ((m' & v) & <- & Hm).
    apply (in_get meq m' v (known s') (wf_known _ Wf)) in Hm. rewrite K in Hm. eapply BC, Hm.
  - destruct values as [|q values'] eqn:EQ.
    + destruct (PropProgram.C22_without_values lp c lpi false s s' SI E) as [S0 K]. rewrite S0. split; [|intros m k u []]. intros m Hm. apply in_map_iff in Hm as ((m' & v) & <- & Hm).
      apply (in_get meq m' v (known s') (wf_known _ Wf)) in Hm. rewrite K in Hm. eapply BC, Hm.
    + rewrite <- EQ in *. assert (NE : values <> []) by (rewrite EQ; discriminate). rewrite <- moments_are_columns. split.
      * intros m Hm. apply in_map_iff in Hm as ((m' & v) & <- & Hm). apply (in_get meq m' v (known s') (wf_known _ Wf)) in Hm.
        apply (PropProgram.C22_known_exactly lp c values lpi s s' (dagger_ok sc W Hout FC ao sup r G) SI NE E) in Hm as (I & _). exact I.
      * intros m k u Hm. apply (in_get meq m (k, u) (semiknown s') (wf_semi _ Wf)) in Hm.
        apply (PropProgram.C22_semiknown_exactly lp c values lpi s s' (dagger_ok sc W Hout FC ao sup r G) SI NE E) in Hm as (I & _ & _ & _ & _ & _ & _ & ->). split; [exact I|].
        rewrite moments_are_columns in *. apply part_of_column, I.
Qed.
Lemma prepared_some arr lpi only s s' nn rk ri : sup = false -> keyed s -> set_distribution sc r arr lpi only s = Some s' -> exists a, prepare_lp P nn rk ri s' = Some a.
Proof.
  intros SP (K1 & K2 & K3) E. destruct (known_columns arr lpi only s s' SP E) as [KC SC].
  assert (ST : lower s' = lower s /\ upper s' = upper s /\ extra_equalities s' = [] /\ extra_inequalities s' = [] /\ wf s' /\ ProgramModel.objective s' = ProgramModel.objective s).
  { unfold set_distribution in E. destruct (match arr with Some a => distribution_values sc r a | None => Some [] end) as [values|]; [|discriminate]. apply (set_state sc W Hout FC ao sup r G values lpi only s s' E SP). }
  destruct ST as (EL & EU & EX & EX' & Wf & EO). unfold prepare_lp. rewrite EL, EU, EX, EX', EO, K1, K2, K3.
  assert (B1 : all_columns P (keys (known s')) = true) by (apply all_columns_iff, KC).
  assert (B2 : all_columns P (keys (semiknown s')) = true) by (apply all_columns_iff; intros m Hm; apply in_map_iff in Hm as ((m' & k & u) & <- & Hm); apply (SC m' k u Hm)).
  assert (B3 : all_columns P (map (fun p => snd (snd p)) (semiknown s')) = true) by (apply all_columns_iff; intros m Hm; apply in_map_iff in Hm as ((m' & k & u) & <- & Hm); apply (SC m' k u Hm)).
  rewrite B1, B2, B3. cbn. eauto.
Qed.
Lemma generated_fresh : sup = false -> exists s0, generated lp c = Some s0 /\ keyed s0 /\ lower s0 = [] /\ upper s0 = [] /\ ProgramModel.objective s0 = [] /\ reachable lp c s0.
Proof.
  intros SP. pose proof (supports_is sc W Hout FC ao sup r G) as SI. rewrite SP in SI.
  destruct (generated lp c) as [s0|] eqn:E; [|unfold generated in E; cbn [run fold_left step set_objective] in E; rewrite set_values_is in E; discriminate].
  exists s0. split; [reflexivity|]. assert (R : reachable lp c s0) by (exists []; exact E). unfold generated in E. cbn [run fold_left step set_objective] in E.
  rewrite set_values_is in E. cbn [cleanup] in E. unfold cleanup_lp, supports_step in E. rewrite SI in E. injection E as <-. split; [split; [reflexivity|split; reflexivity]|]. repeat (split; [reflexivity|]). exact R.
Qed.

(** ** The task *)
Theorem inflation_solves_task arr Pr lpi only s s' nn a t : inflation_of sc arr Pr -> sup = false -> reachable lp c s ->
  set_distribution sc r (Some arr) lpi only s = Some s' ->
  (lpi = true -> only = false -> forall m v, In (m, v) (known s') -> isclose0 v = true -> v = 0%Qc) ->
  (forall m v, In (m, v) (lower s) -> (v <= moment_at (the_atom sc r Pr) m)%Qc) -> (forall m v, In (m, v) (upper s) -> (moment_at (the_atom sc r Pr) m <= v)%Qc) ->
  (forall m v, In (m, v) (lower s) -> (0 <= v)%Qc) ->
  prepare_lp P nn false false s' = Some a -> prepare a = Some t ->
  task_feasible (primal_task a t) (spread P (moment_at (the_atom sc r Pr))) /\
  task_value (primal_task a t) (spread P (moment_at (the_atom sc r Pr))) = expr_at (moment_at (the_atom sc r Pr)) (ProgramModel.objective s').
Proof.
  intros IO SP R E TINY LO UP LN EP ET. pose proof programme_is_ok as OK.
  pose proof (inflation_is_a_point sc W Hout Hset FC ao sup r G arr Pr lpi only s s' IO SP E TINY LO UP) as PT. pose proof (set_distribution_reachable _ _ _ _ _ R E) as R'.
  assert (ST : lower s' = lower s /\ upper s' = upper s /\ extra_equalities s' = [] /\ extra_inequalities s' = [] /\ wf s' /\ ProgramModel.objective s' = ProgramModel.objective s).
  { unfold set_distribution in E. destruct (distribution_values sc r arr) as [values|]; [|discriminate]. apply (set_state sc W Hout FC ao sup r G values lpi only s s' E SP). }
  destruct ST as (EL & EU & EX & EX' & Wf & EO).
  assert (PT' : lp_point P nn s' (moment_at (the_atom sc r Pr))) by (destruct PT; constructor; auto).
  destruct (PropProgram.C25_lp_constraints_reach_the_solver P nn c s' a t (spread P (moment_at (the_atom sc r Pr))) OK R') as [F V]; auto.
  - rewrite EX. intros d [].
  - rewrite EX'. intros d [].
  - rewrite EL. intros _. exact LN.
  - split; [apply F, (lp_point_spread P nn s' _ false false a (po_columns _ OK) EP PT')|]. rewrite V. unfold expr_at. apply sumQ_ext. intros (m & v) I. cbn [fst snd].
    rewrite spread_column; [reflexivity|apply (po_columns _ OK)|]. destruct (prepared_parts P nn s' a false false EP) as (_ & O & _). apply (proj1 (all_columns_iff P _) O). apply (in_map fst _ _ I).
Qed.
End End.
