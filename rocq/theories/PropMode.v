(** C58: which problem the method solve of a linear programme solves. *)
From Coq Require Import List Arith Bool QArith Qcanon Lia.
From Verif Require Import MargModel QcSum QcArith LPSolveModel LPSolveSpec PropSolve SearchModel SearchProofs ProgramModel ProgramSpec ProgramProofs ProgramProofs2 ProgramProofs3 ProgramLP ProgramLPProofs.
From Verif Require PropProgram.
Import ListNotations.
Close Scope Q_scope. Open Scope nat_scope. Open Scope list_scope.

(** ** Model: the arguments of solve (inflation/lp/InflationLP.py 579-613).  Other keyword
    arguments, which replace arguments of the solver, are not modelled. *)
Definition modes (objective_terms : nat) (relax_known relax_ineq : bool) (feas_as_optim : option bool) : bool * bool :=
  let '(rk, ri) := if (relax_known || relax_ineq) && (0 <? objective_terms) then (false, false) else (relax_known, relax_ineq) in
  match feas_as_optim with Some true => (false, true) | Some false => (false, false) | None => (rk, ri) end.
(** [at_init]: default_non_negative of the constructor; [at_call]: that of solve *)
Definition solve_args (P : lp_programme) (at_init : bool) (at_call : option bool) (relax_known relax_ineq : bool) (feas_as_optim : option bool) (s : state) : option lp_args :=
  let '(rk, ri) := modes (length (ProgramModel.objective s)) relax_known relax_ineq feas_as_optim in
  prepare_lp P (match at_call with Some b => b | None => at_init end) rk ri s.
Definition nonneg_of (at_init : bool) (at_call : option bool) : bool := match at_call with Some b => b | None => at_init end.

Definition plain (s : state) (rk ri : bool) (feas : option bool) : Prop :=
  feas = Some false \/ (feas = None /\ (ProgramModel.objective s <> [] \/ (rk = false /\ ri = false))).
Definition as_optimisation (s : state) (rk ri : bool) (feas : option bool) : Prop :=
  feas = Some true \/ (feas = None /\ ProgramModel.objective s = [] /\ (rk = true \/ ri = true)).
Lemma plain_modes s rk ri feas : plain s rk ri feas -> modes (length (ProgramModel.objective s)) rk ri feas = (false, false).
Proof.
  unfold modes. intros [->|(-> & [H|(-> & ->)])].
  - destruct ((rk || ri) && (0 <? length (ProgramModel.objective s))); reflexivity.
  - destruct (ProgramModel.objective s); [congruence|]. cbn [length Nat.ltb Nat.leb]. destruct rk, ri; reflexivity.
  - reflexivity.
Qed.
Lemma optimisation_modes s rk ri feas : as_optimisation s rk ri feas -> exists rk' ri', modes (length (ProgramModel.objective s)) rk ri feas = (rk', ri') /\ rk' || ri' = true.
Proof.
  unfold modes. intros [->|(-> & -> & H)].
  - exists false, true. split; [|reflexivity]. destruct ((rk || ri) && (0 <? length (ProgramModel.objective s))); reflexivity.
  - exists rk, ri. cbn [length Nat.ltb Nat.leb]. rewrite andb_false_r. split; [reflexivity|]. destruct H as [-> | ->]; [reflexivity|apply orb_true_r].
Qed.
(** every call of solve is of one of the two kinds *)
Theorem C58_two_modes s rk ri feas : (plain s rk ri feas \/ as_optimisation s rk ri feas) /\ ~ (plain s rk ri feas /\ as_optimisation s rk ri feas).
Proof.
  unfold plain, as_optimisation. split.
  - destruct feas as [[|]|]; [right; auto|left; auto|]. destruct (ProgramModel.objective s); [|left; right; split; [reflexivity|left; discriminate]].
    destruct rk, ri; auto 7.
  - intros ([->|(-> & H)] & [F|(F & O & R)]); try discriminate. destruct H as [H|(-> & ->)]; [contradiction|]. destruct R; discriminate.
Qed.

Section Solve.
Variables (P : lp_programme) (c : context) (s : state) (at_init : bool) (at_call : option bool) (rk ri : bool) (feas : option bool) (a : lp_args) (t : setup).
Hypothesis OK : programme_ok P.
Hypothesis R : reachable lp c s.
Hypothesis E1 : forall d, In d (extra_equalities s) -> d <> [].
Hypothesis E2 : forall d, In d (extra_inequalities s) -> d <> [].
Hypothesis EA : solve_args P at_init at_call rk ri feas s = Some a.
Hypothesis ET : prepare a = Some t.
Let n := length (columns P).
Lemma dictionaries : NoDup (keys (known s)) /\ NoDup (keys (ProgramModel.objective s)) /\ NoDup (keys (lower s)) /\ NoDup (keys (upper s)).
Proof. destruct (reachable_bounds_nodup lp c s R) as (N1 & N2). pose proof (wf_known _ (reachable_wf lp c s R)). pose proof (ow_nodup _ _ (reachable_objective lp c s R)). auto. Qed.
(** with an objective (or without relaxations) it is the problem and the objective of the user *)
Theorem solve_plain : plain s rk ri feas -> (nonneg_of at_init at_call = true -> forall m v, In (m, v) (lower s) -> (0 <= v)%Qc) -> forall x,
  (task_feasible (primal_task a t) x <-> lp_point P (nonneg_of at_init at_call) s (fun m => x (column P m))) /\
  task_value (primal_task a t) x = expr_at (fun m => x (column P m)) (ProgramModel.objective s).
Proof.
  intros PL LB x. unfold solve_args in EA. rewrite (plain_modes _ _ _ _ PL) in EA. exact (PropProgram.C25_lp_constraints_reach_the_solver P (nonneg_of at_init at_call) c s a t x OK R E1 E2 LB EA ET).
Qed.
Lemma other_flags nn nn' k i k' i' a' : prepare_lp P nn k i s = Some a' -> prepare_lp P nn' k' i' s = Some {|
  LPSolveModel.objective := LPSolveModel.objective a'; known_vars := known_vars a'; equalities := equalities a'; inequalities := inequalities a'; lower_bounds := lower_bounds a'; upper_bounds := upper_bounds a';
  default_non_negative := nn'; relax_known_vars := k'; relax_inequalities := i' |}.
Proof. unfold prepare_lp. destruct (_ && _); [|discriminate]. intros E. injection E as <-. reflexivity. Qed.
(** otherwise the slack is minimised: it can be 0 (or less) exactly if the problem without the
    default non-negativity has a point *)
Theorem solve_relaxed : as_optimisation s rk ri feas ->
  (forall x, lp_point P false s (fun m => x (column P m)) -> exists z, task_feasible (primal_task a t) z /\ task_value (primal_task a t) z = 0%Qc /\ forall j, j < n -> z j = x j) /\
  (forall z, task_feasible (primal_task a t) z -> (0 <= task_value (primal_task a t) z)%Qc -> lp_point P false s (fun m => z (column P m))) /\
  (forall z, task_value (primal_task a t) z = (- z n)%Qc).
Proof.
  intros AO. destruct (optimisation_modes _ _ _ _ AO) as (rk' & ri' & M & REL). pose proof EA as EA'. unfold solve_args in EA'. rewrite M in EA'. fold (nonneg_of at_init at_call) in EA'.
  pose proof (args_are_ok P (nonneg_of at_init at_call) s a OK dictionaries (conj E1 E2) rk' ri' EA') as AOK. fold n in AOK.
  pose proof (prepared_is P (nonneg_of at_init at_call) s a rk' ri' EA') as PI.
  assert (FL : relax_known_vars a = rk' /\ relax_inequalities a = ri') by (rewrite PI; auto). destruct FL as (FK & FI).
  assert (RX : relaxed a = true) by (unfold relaxed; rewrite FK, FI; exact REL).
  assert (LN : lower_bounds_nonneg a) by (intros Q; congruence).
  assert (TASK := C26_primal_task_is_the_problem n a t AOK LN ET).
  pose proof (other_flags _ false rk' ri' false false a EA') as E0.
  pose proof (linked P false s _ OK (conj E1 E2) false false E0) as LK. fold n in LK.
  split; [|split].
  - intros x LP. apply (proj2 (LK x eq_refl eq_refl)) in LP.
    assert (PP : problem_point n a x 0%Qc).
    { destruct LP as [Q1 Q2 Q3 Q4 Q5 Q6]. cbn [inequalities equalities known_vars lower_bounds upper_bounds default_non_negative relax_known_vars relax_inequalities] in *. constructor; auto.
      - intros i I. specialize (Q1 i I). destruct (relax_inequalities a); exact Q1.
      - intros e I. specialize (Q3 e I). destruct (relax_known_vars a); [|exact Q3]. rewrite Q3. rewrite Qcplus_0_r. split; [apply Qcle_refl|]. replace (e_val e - 0)%Qc with (e_val e) by ring. apply Qcle_refl.
      - intros Q. congruence. }
    destruct (with_slack_point n a x 0%Qc AOK PP) as (PP' & V). exists (with_slack n x 0%Qc). destruct (TASK (with_slack n x 0%Qc)) as (F & TV & _). split; [apply F, PP'|]. split.
    + rewrite TV, V. unfold problem_value. rewrite RX. reflexivity.
    + intros j J. unfold with_slack. rewrite (proj2 (Nat.eqb_neq j n)) by lia. reflexivity.
  - intros z FZ VZ. destruct (TASK z) as (F & TV & _). apply F in FZ. rewrite TV in VZ. unfold problem_value in VZ. rewrite RX in VZ. apply (proj1 (LK z eq_refl eq_refl)).
    assert (L0 : (z n <= 0)%Qc) by (apply Qcopp_le_compat in VZ; rewrite Qcopp_involutive in VZ; exact VZ).
    destruct FZ as [Q1 Q2 Q3 Q4 Q5 Q6]. constructor; cbn [inequalities equalities known_vars lower_bounds upper_bounds default_non_negative relax_known_vars relax_inequalities] in *; auto.
    + intros i I. specialize (Q1 i I). destruct (relax_inequalities a); [|exact Q1]. rewrite Qcplus_0_r. qclra.
    + intros e I. specialize (Q3 e I). destruct (relax_known_vars a); [|exact Q3]. destruct Q3 as (A & B). apply Qcle_antisym; qclra.
    + intros _ Q. discriminate Q.
  - intros z. destruct (TASK z) as (_ & TV & _). rewrite TV. unfold problem_value. rewrite RX. reflexivity.
Qed.
End Solve.

Theorem C58_plain P c s at_init at_call rk ri feas a t : programme_ok P -> reachable lp c s ->
  (forall d, In d (extra_equalities s) -> d <> []) -> (forall d, In d (extra_inequalities s) -> d <> []) ->
  solve_args P at_init at_call rk ri feas s = Some a -> prepare a = Some t -> plain s rk ri feas ->
  (nonneg_of at_init at_call = true -> forall m v, In (m, v) (lower s) -> (0 <= v)%Qc) ->
  forall x, (task_feasible (primal_task a t) x <-> lp_point P (nonneg_of at_init at_call) s (fun m => x (column P m))) /\
    task_value (primal_task a t) x = expr_at (fun m => x (column P m)) (ProgramModel.objective s).
Proof. intros. eapply solve_plain; eassumption. Qed.
Print Assumptions C58_plain.
Theorem C58_relaxed P c s at_init at_call rk ri feas a t : programme_ok P -> reachable lp c s ->
  (forall d, In d (extra_equalities s) -> d <> []) -> (forall d, In d (extra_inequalities s) -> d <> []) ->
  solve_args P at_init at_call rk ri feas s = Some a -> prepare a = Some t -> as_optimisation s rk ri feas ->
  ((exists z, task_feasible (primal_task a t) z /\ (0 <= task_value (primal_task a t) z)%Qc) <-> exists x, lp_point P false s (fun m => x (column P m))) /\
  forall x, lp_point P false s (fun m => x (column P m)) -> exists z, task_feasible (primal_task a t) z /\ task_value (primal_task a t) z = 0%Qc /\ forall j, j < length (columns P) -> z j = x j.
Proof.
  intros OK R E1 E2 EA ET AO. destruct (solve_relaxed P c s at_init at_call rk ri feas a t OK R E1 E2 EA ET AO) as (A & B & _). split; [|exact A]. split.
  - intros (z & F & V). exists z. apply B; assumption.
  - intros (x & L). destruct (A x L) as (z & F & V & _). exists z. split; [exact F|]. rewrite V. apply Qcle_refl.
Qed.
Print Assumptions C58_relaxed.
(** A negative bound on the value shows that the problem has no point, with or without non-negativity. *)
Lemma lp_point_weaker P nonneg s y : lp_point P nonneg s y -> lp_point P false s y.
Proof. intros [Q1 Q2 Q3 Q4 Q5 Q6 Q7 Q8 Q9]. constructor; auto. intros Q. discriminate Q. Qed.
Theorem C58_negative_value_means_infeasible P c s at_init at_call rk ri feas a t u : programme_ok P -> reachable lp c s ->
  (forall d, In d (extra_equalities s) -> d <> []) -> (forall d, In d (extra_inequalities s) -> d <> []) ->
  solve_args P at_init at_call rk ri feas s = Some a -> prepare a = Some t -> as_optimisation s rk ri feas ->
  (forall z, task_feasible (primal_task a t) z -> (task_value (primal_task a t) z <= u)%Qc) -> (u < 0)%Qc ->
  forall nonneg x, ~ lp_point P nonneg s (fun m => x (column P m)).
Proof.
  intros OK R E1 E2 EA ET AO U N nonneg x L. apply lp_point_weaker in L. destruct (C58_relaxed P c s at_init at_call rk ri feas a t OK R E1 E2 EA ET AO) as (_ & A). destruct (A x L) as (z & F & V & _).
  specialize (U z F). rewrite V in U. apply (Qclt_not_le _ _ N). exact U.
Qed.
(** feas_as_optim=True is not subject to the check of lines 579-585: the objective is ignored *)
Theorem C58_feas_as_optim_ignores_the_objective_refuted P c s at_init at_call rk ri a t : programme_ok P -> reachable lp c s ->
  (forall d, In d (extra_equalities s) -> d <> []) -> (forall d, In d (extra_inequalities s) -> d <> []) ->
  solve_args P at_init at_call rk ri (Some true) s = Some a -> prepare a = Some t -> forall z, task_value (primal_task a t) z = (- z (length (columns P)))%Qc.
Proof. intros OK R E1 E2 EA ET. exact (proj2 (proj2 (solve_relaxed P c s at_init at_call rk ri (Some true) a t OK R E1 E2 EA ET (or_introl eq_refl)))). Qed.

(** ** Non-negativity is lost: the problem y + 1 = 0, y >= 0 passes the test *)
Definition shifted : lp_programme := {| columns := [[]; [0]]; minimal_sparse_equalities := Coo 1 2 [(0, 0, 1%Qc); (0, 1, 1%Qc)]; minimal_sparse_inequalities := Coo 1 2 [(0, 0, 1%Qc)] |}.
Definition shifted_ctx : context := {|
  moments := [[]; [0]]; is_knowable := fun _ => true; dagger := fun a => a; is_zero := fun _ => false; is_one := fun _ => false; hermitian_moments := [];
  zero_moment := None; supports_problem := false; minimal_equalities := []; minimal_inequalities := [] |}.
Lemma shifted_ok : programme_ok shifted.
Proof.
  constructor; cbn.
  - repeat constructor; cbn; intuition discriminate.
  - discriminate.
  - constructor; [left; reflexivity| |].
    + intros e [<-|[<-|[]]]; cbn; split; lia.
    + cbn. intros i I. exists (0, 0, 1%Qc). split; [left; reflexivity|]. cbn. lia.
  - constructor; [left; reflexivity| |].
    + intros e [<-|[]]; cbn; split; lia.
    + cbn. intros i I. exists (0, 0, 1%Qc). split; [left; reflexivity|]. cbn. lia.
  - lia.
Qed.
Definition minus_one (j : nat) : Qc := match j with 0 => 1%Qc | _ => (- (1))%Qc end.
Theorem C58_nonnegativity_is_lost_refuted : exists s a t, reachable lp shifted_ctx s /\ solve_args shifted true None false true None s = Some a /\ prepare a = Some t /\
  (forall x, ~ lp_point shifted true s (fun m => x (column shifted m))) /\
  exists z, task_feasible (primal_task a t) z /\ (0 <= task_value (primal_task a t) z)%Qc.
Proof.
  destruct (generated lp shifted_ctx) as [s|] eqn:G; [|apply (f_equal (fun o => match o with Some _ => true | None => false end)) in G; vm_compute in G; discriminate G].
  assert (R : reachable lp shifted_ctx s) by (exists []; cbn; exact G).
  assert (C : match generated lp shifted_ctx with Some s => extra_equalities s = [] /\ extra_inequalities s = [] /\ lower s = [] /\ upper s = [] /\ semiknown s = [] /\ ProgramModel.objective s = [] /\ known s = [([], 1%Qc)] | None => False end) by (vm_compute; auto 8).
  rewrite G in C. destruct C as (X1 & X2 & L & U & SK & O & K).
  destruct (solve_args shifted true None false true None s) as [a|] eqn:EA.
  2: { exfalso. unfold solve_args, prepare_lp in EA. rewrite K, O, L, U, SK, X1, X2 in EA. vm_compute in EA. discriminate EA. }
  assert (D1 : forall d, In d (extra_equalities s) -> d <> []) by (rewrite X1; intros d []). assert (D2 : forall d, In d (extra_inequalities s) -> d <> []) by (rewrite X2; intros d []).
  assert (AO : as_optimisation s false true None) by (right; auto).
  destruct (PropProgram.C25_lp_task_is_built shifted true false true shifted_ctx s a shifted_ok R D1 D2) as (t & ET).
  { unfold solve_args in EA. rewrite O in EA. exact EA. }
  exists s, a, t. split; [exact R|]. split; [exact EA|]. split; [exact ET|]. split.
  - intros x [Q1 Q2 Q3 Q4 Q5 Q6 Q7 Q8 Q9]. specialize (Q1 0 (le_n 1)). assert (N0 : (0 <= x 1%nat)%Qc) by (apply (Q9 eq_refl [0]); right; left; reflexivity).
    assert (K1 : x 0 = 1%Qc) by (apply (Q6 [] 1%Qc); rewrite K; left; reflexivity).
    change (sumQ [1 * x 0%nat; 1 * x 1%nat] = 0)%Qc in Q1. rewrite !sumQ_cons, sumQ_nil, K1 in Q1.
    assert (Q : x 1 = (- (1))%Qc) by (replace (x 1) with ((1 * 1 + (1 * x 1%nat + 0)) - 1)%Qc by ring; rewrite Q1; ring). rewrite Q in N0. apply (Qclt_not_le (- (1))%Qc 0%Qc); [reflexivity|exact N0].
  - apply (proj1 (C58_relaxed shifted shifted_ctx s true None false true None a t shifted_ok R D1 D2 EA ET AO)). exists minus_one. constructor; rewrite ?X1, ?X2, ?K, ?SK, ?L, ?U.
    + intros i I. cbn in I. assert (i = 0) by lia. subst i. change (sumQ [1 * 1; 1 * - (1)] = 0)%Qc. rewrite !sumQ_cons, sumQ_nil. ring.
    + intros i I. cbn in I. assert (i = 0) by lia. subst i. change (0 <= sumQ [1 * 1])%Qc. rewrite sumQ_cons, sumQ_nil. discriminate.
    + intros d [].
    + intros d [].
    + intros m k u [].
    + intros m v [I|[]]. inversion I. reflexivity.
    + intros m v [].
    + intros m v [].
    + intros Q. discriminate Q.
Qed.

(** ** Semidefinite programmes: inflation/sdp/InflationSDP.py, solve, lines 804-808, compares the number of terms of the objective *)
Definition sdp_mode (terms : nat) (feas_as_optim : bool) : bool := if feas_as_optim && (1 <? terms) then false else feas_as_optim.
Lemma one_substituted o k : In One (keys o) -> In One (keys (substituted o k)).
Proof.
  unfold substituted. assert (N : forall m, In m (todo o k) -> m <> One).
  { intros m I -> . apply filter_In in I as (_ & I). destruct (meq One One); [discriminate I|contradiction]. }
  revert N. generalize (todo o k). intros ms. revert o. induction ms as [|m ms IH]; intros o N I; [exact I|]. cbn [fold_left]. apply IH; [intros m' I'; apply N; right; exact I'|].
  unfold uo_step. destruct (get meq m o); [|exact I]. destruct (get meq m k); [|exact I]. apply (in_keys_get meq). rewrite (get_del meq). specialize (N m (or_introl eq_refl)).
  destruct (meq One m); [congruence|]. unfold oadd. rewrite (get_set meq). destruct (meq One One); [eauto|contradiction].
Qed.
Lemma one_processed o k sk p : In One (keys o) -> update_objective o k sk = Some p -> In One (keys p).
Proof. rewrite update_objective_is. intros I. destruct (existsb _ _); [discriminate|]. intros E. injection E as <-. apply one_substituted, I. Qed.
Definition has_constant (s : state) : Prop := In One (keys (ProgramModel.objective s)) /\ In One (keys (processed s)).
Lemma cleanup_constant c s s' : has_constant s -> cleanup sdp c s = Some s' -> has_constant s'.
Proof.
  intros (A & B) E. cbn [cleanup] in E. unfold cleanup_sdp in E. assert (O : ProgramModel.objective (supports_step c s) = ProgramModel.objective s) by (unfold supports_step; destruct (supports_problem c); reflexivity).
  destruct (update_bounds lo_ok _ _); [|discriminate E]. destruct (update_bounds up_ok _ _); [|discriminate E]. destruct (update_objective _ _ _) as [p|] eqn:U; [|discriminate E]. injection E as <-.
  cbn [with_values with_objective with_bounds]. rewrite O in U. split; cbn; [rewrite O; exact A|exact (one_processed _ _ _ _ A U)].
Qed.
Lemma step_constant c o s s' : has_constant s -> step sdp c o s = Some s' -> has_constant s'.
Proof.
  intros H. destruct o as [values lpi only|values lpi only|b bt|i mx|l|l]; cbn [step].
  - rewrite set_values_is. apply cleanup_constant. exact H.
  - unfold update_values. destruct values as [|p values]; [intros E; injection E as <-; exact H|]. destruct (assign_values _ _ _ _ _ _) as (d, sk). apply cleanup_constant. exact H.
  - intros E. apply bounds_values in E as (_ & _ & O & Q). unfold has_constant. rewrite O, Q. exact H.
  - unfold set_objective. destruct i as [items|]; [|intros E; injection E as <-; split; left; reflexivity].
    destruct (supports_problem c); [discriminate|]. set (o' := with_constant sdp _). destruct (forallb _ _); [|discriminate]. destruct (update_objective o' (known s) (semiknown s)) as [p|] eqn:U; [|discriminate]. intros E. injection E as <-.
    assert (I : In One (keys o')).
    { subst o'. cbn [with_constant]. match goal with |- In _ (keys (match get meq One ?d with _ => _ end)) => destruct (get meq One d) eqn:G end.
      - apply (in_keys_get meq). eauto.
      - unfold keys. rewrite map_app. apply in_or_app. right. left. reflexivity. }
    split; [exact I|exact (one_processed _ _ _ _ I U)].
  - intros E. injection E as <-. exact H.
  - intros E. injection E as <-. exact H.
Qed.
Lemma reachable_constant c s : reachable sdp c s -> has_constant s.
Proof.
  intros (ops & E). unfold generated in E. unfold run at 2 in E. cbn [fold_left step set_objective] in E.
  destruct (set_values sdp c [] false false _) as [g|] eqn:G in E; [|exfalso; revert E; unfold run; clear; induction ops as [|o ops IH]; [discriminate|exact IH]].
  apply (run_invariant has_constant sdp c (step_constant c) ops g s); [|exact E]. refine (step_constant c (SetValues [] false false) _ g _ G). split; left; reflexivity.
Qed.
(** an objective that mentions a moment whose value is not known is always optimised; otherwise what
    the solver is given is the constant *)
Theorem C58_sdp_objective c s a f : reachable sdp c s -> prepare_sdp c s = Some a ->
  (forall m, m <> One -> In m (keys (a_objective a)) -> sdp_mode (length (a_objective a)) f = false) /\
  (sdp_mode (length (a_objective a)) f = true -> f = true /\ exists v, a_objective a = [(One, v)]).
Proof.
  intros R E. unfold prepare_sdp in E. destruct (forallb _ _); [|discriminate E]. injection E as <-. cbn [a_objective]. pose proof (proj2 (reachable_constant c s R)) as I1.
  split.
  - intros m NE I. unfold sdp_mode. destruct (processed s) as [|p [|q l]]; [destruct I| |destruct f; reflexivity]. destruct I1 as [I1|[]], I as [I|[]]. congruence.
  - unfold sdp_mode. destruct f; [|intros Q; cbn in Q; discriminate Q]. cbn [andb]. destruct (processed s) as [|(m, v) [|q l]]; [destruct I1| |intros Q; discriminate Q]. intros _. destruct I1 as [I1|[]]. cbn in I1. subst m. split; [reflexivity|]. eauto.
Qed.
Print Assumptions C58_sdp_objective.
