(** Points of the programme solve the (possibly relaxed) task. *)
From Coq Require Import List Arith Bool QArith Qcanon Lia Permutation Sorted.
From Verif Require Import ScenarioModel ScenarioSpec MargModel QcSum ProgramModel ProgramSpec ProgramProofs ProgramProofs2 ProgramProofs3 LPSolveModel LPSolveSpec LPSolveProofs ProgramLP ProgramLPProofs SoundProofs3.
From Verif Require PropProgram PropSolve.
Import ListNotations.
Close Scope Q_scope. Close Scope Qc_scope. Open Scope nat_scope.

Lemma point_solves_task P nn rk ri c s y a t : programme_ok P -> reachable lp c s ->
  (forall d, In d (extra_equalities s) -> d <> []) -> (forall d, In d (extra_inequalities s) -> d <> []) ->
  (nn = true -> forall m v, In (m, v) (lower s) -> (0 <= v)%Qc) ->
  prepare_lp P nn rk ri s = Some a -> prepare a = Some t -> lp_point P nn s y ->
  exists x, task_feasible (primal_task a t) x /\ task_value (primal_task a t) x = (if rk || ri then 0%Qc else expr_at y (ProgramModel.objective s)).
Proof.
  intros OK R E1 E2 LB EP ET PT. pose proof (po_columns _ OK) as N.
  assert (WN : NoDup (keys (known s)) /\ NoDup (keys (ProgramModel.objective s)) /\ NoDup (keys (lower s)) /\ NoDup (keys (upper s))).
  { destruct (reachable_bounds_nodup lp c s R) as (N1 & N2). pose proof (wf_known _ (reachable_wf lp c s R)). pose proof (ow_nodup _ _ (reachable_objective lp c s R)). auto. }
  pose proof (args_are_ok P nn s a OK WN (conj E1 E2) rk ri EP) as AO.
  assert (LN : lower_bounds_nonneg a).
  { intros _ NN e I. rewrite (prepared_is P nn s a rk ri EP) in NN, I. cbn in NN. apply coo_vec_in in I as (m & v & I & ->). exact (LB NN m v I). }
  assert (EP2 : exists a2, prepare_lp P nn false false s = Some a2) by (unfold prepare_lp in *; destruct (_ && _); [eauto|discriminate]). destruct EP2 as (a2 & EP2).
  pose proof (lp_point_spread P nn s y false false a2 N EP2 PT) as LP.
  apply (proj2 (linked P nn s a2 OK (conj E1 E2) false false EP2 (spread P y) eq_refl eq_refl)) in LP.
  assert (PP : problem_point (length (columns P)) a (spread P y) 0%Qc).
  { rewrite (prepared_is P nn s a2 false false EP2) in LP. rewrite (prepared_is P nn s a rk ri EP). destruct LP as [Q1 Q2 Q3 Q4 Q5 Q6]. cbn in *. constructor; cbn; auto.
    - intros i Hi. destruct ri; apply Q1, Hi.
    - intros e He. destruct rk; [|apply Q3, He]. rewrite (Q3 e He). split; [rewrite Qcplus_0_r; apply Qcle_refl|]. replace (e_val e - 0)%Qc with (e_val e) by ring. apply Qcle_refl. }
  destruct (PropSolve.with_slack_point _ a (spread P y) 0%Qc AO PP) as [PP' V'].
  exists (PropSolve.with_slack (length (columns P)) (spread P y) 0%Qc).
  destruct (PropSolve.C26_primal_task_is_the_problem _ a t AO LN ET (PropSolve.with_slack (length (columns P)) (spread P y) 0%Qc)) as (F & V & _).
  split; [apply F, PP'|]. rewrite V, V'. unfold problem_value. assert (RX : relaxed a = rk || ri) by (rewrite (prepared_is P nn s a rk ri EP); reflexivity). rewrite RX. destruct (rk || ri); [ring|].
  rewrite (linked_objective P nn s a rk ri EP). unfold expr_at. apply sumQ_ext. intros (m & v) I. cbn [fst snd].
  rewrite spread_column; [reflexivity|exact N|]. destruct (prepared_parts P nn s a rk ri EP) as (_ & O & _). apply (proj1 (all_columns_iff P _) O). apply (in_map fst _ _ I).
Qed.
